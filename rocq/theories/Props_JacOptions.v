(** C147: the Newton matrix of a set of thermal or two-dimensional magnetostatic options. *)
From Coq Require Import Reals List String Bool ZArith Lra Lia FunctionalExtensionality.
From Coquelicot Require Import Coquelicot.
From Verif Require Import Vec Deriv Inputs Options EmInteg EmIntegSpec EmIntegProofs Thermal ThermalSpec ThermalProofs DgFace DgFaceSpec DgFaceProofs FlowOptions.
From Verif Require Import ThermalOptionsSpec ThermalOptions ThermalOptionsProofs FormSpec JacOptions JacOptionsSpec JacOptionsProofs.
From Verif Require Form Props_EmInteg Props_Thermal Props_DgFace Props_ThermalOptions.
Import ListNotations.
Local Open Scope R_scope.

(** options one of the two constructors accepts *)
Definition accepted (nattr : nat) (o : opts) (c : config) : Prop :=
  (one_of_each o /\ thermalConfig nattr o = Ok c) \/ magnetConfig nattr o = Ok c.
Lemma accepted_src N nattr M o c : fits N nattr M -> accepted nattr o c -> all_src o M c.
Proof. intros F [[O E]|E]; [exact (thermal_src N nattr M o F c O E)|exact (magnet_src N nattr M o F c E)]. Qed.
Lemma held_same p q o f : held p o f = held q o f. Proof. reflexivity. Qed.
Lemma src_ok o M u pt : resolved_state o M u -> straight_channels o M -> term_src o M pt -> term_ok M u pt.
Proof.
  intros (R1 & R2 & R3) St Sr. destruct pt as [[| |m|m] [|mu a|mu|g]]; cbn in Sr |- *; try contradiction.
  - intros e He q Hq. right. exact (R1 e q He Hq).
  - intros f Hf. destruct (R3 f Hf (or_introl Sr)) as [A B]. split; right; assumption.
  - intros f Hf V. right. exact (R2 f 2%nat Hf (Sr f Hf V)).
  - intros f Hf V. destruct g; try contradiction; exact I.
  - intros f Hf V. destruct (R3 f Hf (or_intror (Sr f Hf V))) as [A B]. split; right; assumption.
  - intros f Hf V. destruct g; try contradiction; try exact I. exact (St f Hf (Sr f Hf V)).
Qed.
Lemma lin_ok o M u pt : linear_materials M -> straight_channels o M -> term_src o M pt -> term_ok M u pt.
Proof.
  intros (L1 & L2) St Sr. destruct pt as [[| |m|m] [|mu a|mu|g]]; cbn in Sr |- *; try contradiction.
  - intros e He q Hq. left. intros; now apply L1.
  - intros f Hf. destruct (L2 f ltac:(apply in_or_app; now left)). split; left; assumption.
  - intros f Hf V. destruct (L2 f ltac:(apply in_or_app; now right)). left; assumption.
  - intros f Hf V. destruct g; try contradiction; exact I.
  - intros f Hf V. destruct (L2 f ltac:(apply in_or_app; now left)). split; left; assumption.
  - intros f Hf V. destruct g; try contradiction; try exact I. exact (St f Hf (Sr f Hf V)).
Qed.

(** the residual's derivative along a direction that keeps the held values *)
Lemma memb_in i l : Form.memb i l = true <-> In i l.
Proof.
  unfold Form.memb. rewrite existsb_exists. split.
  - intros (x & Hx & E). apply Nat.eqb_eq in E. now subst.
  - intros H. exists i. split; [exact H|apply Nat.eqb_refl].
Qed.
Lemma elim_mv N ess A v i : (i < N)%nat -> zero_on ess v -> mv N (Form.elim_left ess A) v i = Form.zero_at ess (mv N A v) i.
Proof.
  intros Hi Z. unfold Form.zero_at. destruct (Form.memb i ess) eqn:E.
  - unfold mv, Form.elim_left. rewrite (rsum_ext N _ (fun j => if Nat.eqb j i then v j else 0)).
    2:{ intros j _. rewrite E. cbn [orb]. rewrite (Nat.eqb_sym i). destruct (Nat.eqb j i); ring. }
    rewrite (rsum_delta N v) by exact Hi. apply Z. now apply memb_in.
  - unfold mv, Form.elim_left. apply rsum_ext. intros j _. rewrite E. cbn [orb]. destruct (Form.memb j ess) eqn:E2; [|reflexivity].
    rewrite (Z j) by (now apply memb_in). ring.
Qed.
Lemma residual_derive N nattr M c ess load u v : fits N nattr M -> smooth_materials M -> (forall pt, In pt c -> term_ok M u pt) -> zero_on ess v ->
  derivative_at N (residualVector M c ess load) u v (mv N (jacobian M c ess u) v).
Proof.
  intros F S Ok Z i Hi. unfold jacobian. rewrite elim_mv by assumption. unfold residualVector, Form.zero_at. destruct (Form.memb i ess).
  - apply (DV_eq _ _ 0); [apply DV_const|reflexivity].
  - eapply DV_eq; [apply (DV_minus (fun t => formVector M c (along u v t) i) (fun _ => load i)); [apply (form_jacobian N nattr); assumption|apply DV_const]|ring].
Qed.

(** C147: for the materials, state and mesh described in JacOptionsSpec.v, the matrix Newton's method solves with is the
    derivative of the residual along every direction that keeps the held values; without held values, along all. *)
Theorem C147_jacobian_partial : forall N nattr M o c ess load u v, fits N nattr M -> accepted nattr o c -> smooth_materials M ->
  resolved_state o M u -> straight_channels o M -> zero_on ess v ->
  derivative_at N (residualVector M c ess load) u v (mv N (jacobian M c ess u) v).
Proof.
  intros N nattr M o c ess load u v F A S Rs St Z. apply (residual_derive N nattr); try assumption. intros pt Hpt. apply (src_ok o); try assumption.
  now apply (accepted_src N nattr M o c F A).
Qed.
Print Assumptions C147_jacobian_partial.

(** laws that do not depend on the field: the matrix is the derivative everywhere, is the same everywhere and is symmetric *)
Lemma dnu_zero (k dk : R -> R) : (forall x, 0 < x -> is_derive k x (dk x)) -> (forall x y, k x = k y) -> forall x, 0 < x -> dk x = 0.
Proof. intros D L x Hx. apply (DV_unique k x); [now apply D|]. apply (DV_ext (fun _ => k 0)); [intros; apply L|apply DV_const]. Qed.
Lemma nd_zero F o q S X u i : differentiable S -> linear_material S -> nd_ F o q S X u i = 0.
Proof.
  intros D L. unfold nd_. destruct (Rlt_dec tiny (Rabs (fn F o q S X u))) as [T|T]; [|ring].
  assert (P : 0 <= fn F o q S X u) by apply norm_pos. assert (T0 := tiny_gt0). rewrite Rabs_pos_eq in T by exact P.
  rewrite (dnu_zero _ _ (D (fip F o q)) (L (fip F o q))) by lra. ring.
Qed.
Lemma elem_lin M e u i j : smooth_materials M -> linear_materials M -> In e (elems M) -> (forall q, (q < el_nq e)%nat -> 0 < el_W e q) ->
  elemMatrix Diffusion e u i j = rsum (el_nq e) (fun q => rsum (el_dim e) (fun k => el_C e q i k * (el_C e q j k * el_nu e q 0 * wq (el_pw e) (el_W e) 1 q))).
Proof.
  intros [S _] [L _] He HW. cbn [elemMatrix]. unfold nld_grad. apply rsum_ext. intros q Hq. apply rsum_ext. intros k _. f_equal. assert (P := HW q Hq). assert (T0 := tiny_gt0).
  assert (Z : forall b, 0 < b -> el_dnu e q b = 0) by (apply (dnu_zero (el_nu e q)); [intros; now apply (S e q He Hq)|intros; now apply L]).
  unfold nld_2_dot. rewrite (L e q _ 0 He Hq). destruct (Rlt_dec tiny (Rabs _)) as [T|T]; [|ring].
  rewrite Rabs_pos_eq in T by apply norm_pos. unfold nld_norm_dot, fmag. rewrite Z by (apply Rdiv_lt_0_compat; lra). ring.
Qed.
Lemma face_lin M f t u w i j : smooth_materials M -> linear_materials M -> In f (inner M ++ outer M) -> faceMatrix t f u i j = faceMatrix t f w i j.
Proof.
  intros [_ S] [_ L] Hf. destruct (S f Hf) as (_ & D1 & _ & D2 & _). destruct (L f Hf) as (L1 & L2).
  destruct t as [|mu a|mu|g]; cbn [faceMatrix]; [reflexivity| | |destruct g; reflexivity].
  - unfold int_grad. apply rsum_ext. intros q _. unfold b11, b12, b21, b22, iwq, m1_, m2_, mv_. rewrite !nd_zero by assumption.
    rewrite !(L1 (eip (tf_s1 f) _ q) (fn _ _ _ _ _ (gather (tf_glob f) u)) (fn (tf_dg f) (int_order (tf_s1 f) (tf_s2 f)) q (tf_s1 f) (tf_X1 f) (gather (tf_glob f) w))).
    rewrite !(L2 (eip (tf_s2 f) _ q) (fn _ _ _ _ _ (second (tf_s1 f) (gather (tf_glob f) u))) (fn (tf_dg f) (int_order (tf_s1 f) (tf_s2 f)) q (tf_s2 f) (tf_X2 f) (second (tf_s1 f) (gather (tf_glob f) w)))).
    destruct (i <? nd (tf_s1 f))%nat; destruct (j <? nd (tf_s1 f))%nat; ring.
  - unfold bdr_grad. apply rsum_ext. intros q _. cbv zeta. unfold mv_. rewrite !nd_zero by assumption.
    rewrite !(L1 (eip (tf_s1 f) _ q) (fn _ _ _ _ _ (gather (tf_glob f) u)) (fn (tf_dg f) (bdr_order (tf_dg f) (tf_s1 f)) q (tf_s1 f) (tf_X1 f) (gather (tf_glob f) w))). ring.
Qed.
Lemma face_sym M f t u i j : smooth_materials M -> linear_materials M -> In f (inner M ++ outer M) -> faceMatrix t f u i j = faceMatrix t f u j i.
Proof.
  intros [_ S] [_ L] Hf. destruct (S f Hf) as (_ & D1 & _ & D2 & _). destruct (L f Hf) as (L1 & L2).
  destruct t as [|mu a|mu|g]; cbn [faceMatrix]; [reflexivity| | |apply grad_sym].
  - unfold int_grad. apply rsum_ext. intros q _. unfold b11, b12, b21, b22. rewrite !nd_zero by assumption.
    destruct (i <? nd (tf_s1 f))%nat; destruct (j <? nd (tf_s1 f))%nat; ring.
  - unfold bdr_grad. apply rsum_ext. intros q _. cbv zeta. rewrite !nd_zero by assumption. ring.
Qed.
Lemma scatterM_sym n glob A r c : (forall i j, A i j = A j i) -> scatterM n glob A r c = scatterM n glob A c r.
Proof.
  intros H. unfold scatterM.
  rewrite (rsum_ext n _ (fun i => rsum n (fun j => if Nat.eqb (glob i) r then (if Nat.eqb (glob j) c then A i j else 0) else 0))).
  2:{ intros i _. destruct (Nat.eqb (glob i) r); [reflexivity|]. now rewrite rsum_0. }
  rewrite rsum_swap. apply rsum_ext. intros i _. destruct (Nat.eqb (glob i) c).
  - apply rsum_ext. intros j _. destruct (Nat.eqb (glob j) r); [apply H|reflexivity].
  - rewrite (rsum_ext n _ (fun _ => 0)); [apply rsum_0|]. intros j _. now destruct (Nat.eqb (glob j) r).
Qed.
Lemma scatterM_ext n glob A B r c : (forall i j, A i j = B i j) -> scatterM n glob A r c = scatterM n glob B r c.
Proof. intros H. unfold scatterM. apply rsum_ext. intros i _. destruct (Nat.eqb (glob i) r); [|reflexivity]. apply rsum_ext. intros j _. now rewrite H. Qed.
(** the faces a term acts on *)
Definition face_of (M : tmesh) (pt : place * term) (f : tface) : Prop :=
  match fst pt with OnDomain => False | OnInterior => In f (inner M) | OnBoundary m => In f (outer M) /\ visited m f = true | OnInternal m => In f (inner M) /\ visited m f = true end.
Lemma form_rel M c u w r s r' s' : (forall e, In e (elems M) -> scatterM (el_n e) (el_glob e) (elemMatrix Diffusion e u) r s = scatterM (el_n e) (el_glob e) (elemMatrix Diffusion e w) r' s') ->
  (forall pt f, In pt c -> face_of M pt f -> scatterM (faceSize (snd pt) f) (tf_glob f) (faceMatrix (snd pt) f u) r s = scatterM (faceSize (snd pt) f) (tf_glob f) (faceMatrix (snd pt) f w) r' s') ->
  (forall pt, In pt c -> fst pt = OnDomain -> snd pt = Diffusion) ->
  formMatrix M c u r s = formMatrix M c w r' s'.
Proof.
  intros He Hf Hd. unfold formMatrix. apply sums_ext. intros [p t] Hpt. specialize (Hf (p, t)). specialize (Hd (p, t) Hpt). unfold termMatrix, face_of in *. cbn [fst snd] in *. destruct p as [| |m|m].
  - rewrite (Hd eq_refl). apply sums_ext. exact He.
  - unfold onFacesM. apply sums_ext. intros f Hi. exact (Hf f Hpt Hi).
  - unfold onFacesM. apply sums_ext. intros f Hi. destruct (visited m f) eqn:V; [|reflexivity]. exact (Hf f Hpt (conj Hi V)).
  - unfold onFacesM. apply sums_ext. intros f Hi. destruct (visited m f) eqn:V; [|reflexivity]. exact (Hf f Hpt (conj Hi V)).
Qed.
Lemma face_of_in M pt f : face_of M pt f -> In f (inner M ++ outer M).
Proof. unfold face_of. intros H. apply in_or_app. destruct (fst pt); tauto. Qed.
Lemma src_domain o M c : all_src o M c -> forall pt, In pt c -> fst pt = OnDomain -> snd pt = Diffusion.
Proof. intros A [p t] Hpt E. specialize (A _ Hpt). cbn in E |- *. subst p. destruct t; cbn in A; try contradiction. reflexivity. Qed.
Lemma along_shift u v t s : along u v (t + s) = along (along u v t) v s.
Proof. apply functional_extensionality. intros i. unfold along. ring. Qed.
Theorem C147_linear : forall N nattr M o c, fits N nattr M -> accepted nattr o c -> smooth_materials M -> linear_materials M -> straight_channels o M ->
  gradient_of N (formVector M c) (formMatrix M c) /\
  (forall u w a b, formMatrix M c u a b = formMatrix M c w a b) /\ (forall u a b, formMatrix M c u a b = formMatrix M c u b a) /\
  (forall u v i, formVector M c (fun j => u j + v j) i = formVector M c u i + mv N (formMatrix M c u) v i).
Proof.
  intros N nattr M o c F A S L St. assert (Sr := accepted_src N nattr M o c F A). assert (F' := F). destruct F' as (_ & HW & _).
  assert (D : forall u v i, is_derive (fun t => formVector M c (along u v t) i) 0 (mv N (formMatrix M c u) v i)).
  { intros u v i. apply (form_jacobian N nattr); [exact F|exact S|]. intros pt Hpt. apply (lin_ok o); auto. }
  assert (K : forall u w a b, formMatrix M c u a b = formMatrix M c w a b).
  { intros u w a b. apply form_rel; [| |exact (src_domain o M c Sr)].
    - intros e He. apply scatterM_ext. intros i j. rewrite !(elem_lin M e) by (try assumption; intros; now apply HW). reflexivity.
    - intros pt f Hpt Hf. apply scatterM_ext. intros i j. apply (face_lin M); auto. now apply (face_of_in M pt). }
  split; [intros u v i _; exact (D u v i)|]. split; [exact K|]. split.
  - intros u a b. apply form_rel; [| |exact (src_domain o M c Sr)].
    + intros e He. apply scatterM_sym. intros i j. apply (Props_EmInteg.C72_symmetric (el_n e) (el_dim e) (el_nq e)).
    + intros pt f Hpt Hf. apply scatterM_sym. intros i j. apply (face_sym M); auto. now apply (face_of_in M pt).
  - intros u v i. set (d := mv N (formMatrix M c u) v i). set (g := fun t => formVector M c (along u v t) i - t * d).
    assert (G : forall t, is_derive g t 0).
    { intros t. eapply DV_eq; [apply (DV_minus (fun t => formVector M c (along u v t) i) (fun t => t * d) t d d)|ring].
      - assert (D1 := D (along u v t) v i). replace (mv N (formMatrix M c (along u v t)) v i) with d in D1 by (apply rsum_ext; intros j _; now rewrite (K u (along u v t))).
        apply (is_derive_ext (fun s => formVector M c (along (along u v t) v (s - t)) i)); [intros s; rewrite <- along_shift; do 2 f_equal; ring|].
        rewrite <- (Rmult_1_l d). apply (is_derive_comp (fun s => formVector M c (along (along u v t) v s) i) (fun s => s - t)).
        + replace (t - t) with 0 by ring. exact D1.
        + auto_derive; [exact I|ring].
      - auto_derive; [exact I|ring]. }
    assert (E : g 0 = g 1) by (apply eq_is_derive; [intros; apply G|lra]). unfold g in E.
    assert (E0 : along u v 0 = u) by (apply functional_extensionality; intros; unfold along; ring). assert (E1 : along u v 1 = fun j => u j + v j) by (apply functional_extensionality; intros; unfold along; ring).
    rewrite E0, E1 in E. lra.
Qed.
Print Assumptions C147_linear.

(** C147: such a problem takes one Newton step: a solution d of J d = - R(u) gives R(u + d) = 0, from any state u. *)
Theorem C147_one_step : forall N nattr M o c ess load u d, fits N nattr M -> accepted nattr o c -> smooth_materials M -> linear_materials M -> straight_channels o M ->
  veq N (mv N (jacobian M c ess u) d) (vscal (-1) (residualVector M c ess load u)) ->
  forall i, (i < N)%nat -> residualVector M c ess load (fun j => u j + d j) i = 0 /\ (In i ess -> u i + d i = u i).
Proof.
  intros N nattr M o c ess load u d F A S L St E. destruct (C147_linear N nattr M o c F A S L St) as (_ & _ & _ & Af).
  (* the rows of the held values *)
  assert (Z : forall i, (i < N)%nat -> Form.memb i ess = true -> d i = 0).
  { intros i Hi Hm. specialize (E i Hi). unfold vscal, residualVector, Form.zero_at in E. rewrite Hm in E. replace (d i) with (mv N (jacobian M c ess u) d i); [rewrite E; ring|].
    unfold mv, jacobian, Form.elim_left. rewrite (rsum_ext N _ (fun j => if Nat.eqb j i then d j else 0)).
    2:{ intros j _. rewrite Hm. cbn [orb]. rewrite (Nat.eqb_sym i). destruct (Nat.eqb j i); ring. }
    now rewrite (rsum_delta N d). }
  intros i Hi. split; [|intros H; rewrite (Z i Hi); [ring|now apply memb_in]]. unfold residualVector, Form.zero_at. destruct (Form.memb i ess) eqn:Hm; [ring|].
  rewrite Af. specialize (E i Hi). unfold vscal, residualVector, Form.zero_at in E. rewrite Hm in E.
  assert (M1 : mv N (jacobian M c ess u) d i = mv N (formMatrix M c u) d i).
  { unfold mv, jacobian, Form.elim_left. apply rsum_ext. intros j Hj. rewrite Hm. cbn [orb]. destruct (Form.memb j ess) eqn:E2; [|reflexivity]. rewrite (Z j Hj E2). ring. }
  lra.
Qed.
Print Assumptions C147_one_step.

(** C147: continuous bases, no weakly held values, no interfaces: symmetric for every law; and positive definite when the
    laws k and their differential k + k' b are at least k0, the transfer coefficients are not negative and fields without
    gradient that vanish where values are held are 0: a Newton step exists at most once. *)
Lemma plain_face o M c pt f : all_src o M c -> plain_problem o M -> In pt c -> face_of M pt f ->
  In f (outer M) /\ exists g, snd pt = Exchange g /\ (match g with OutfluxBC _ _ => True
    | ConvectionBC h _ a => a = 1 /\ let w := get (get o "bcs") "convection" in lists (attributes w) f = true /\ h = num w "h" 1 | _ => False end).
Proof.
  intros Sr (P0 & P1 & P2) Hpt Hf. specialize (Sr _ Hpt).
  assert (P3 : forall f, In f (inner M) -> contacts o f = [] /\ channels o f = []).
  { intros f0 H0. specialize (P2 f0 H0). unfold separations in P2. destruct (contacts o f0), (channels o f0); cbn in P2; try lia. now split. }
  destruct pt as [[| |m|m] [|mu a|mu|g]]; cbn in Sr, Hf |- *; try contradiction.
  - rewrite P0 in Sr. discriminate.
  - destruct Hf as [Hf V]. destruct (Sr f Hf V). now apply P1.
  - destruct Hf as [Hf V]. split; [exact Hf|]. destruct g; try contradiction; eexists; (split; [reflexivity|]); [|exact I]. destruct Sr as [-> Sr]. split; [reflexivity|exact (Sr f Hf V)].
  - destruct Hf as [Hf V]. destruct (Sr f Hf V). now apply P2.
  - destruct Hf as [Hf V]. destruct (P3 f Hf) as [E1 E2]. destruct g; try contradiction; destruct (Sr f Hf V); assumption.
Qed.
Theorem C147_symmetric : forall N nattr M o c ess u i j, fits N nattr M -> accepted nattr o c -> plain_problem o M ->
  jacobian M c ess u i j = jacobian M c ess u j i.
Proof.
  intros N nattr M o c ess u i j F A P. assert (Sr := accepted_src N nattr M o c F A).
  assert (E : formMatrix M c u i j = formMatrix M c u j i).
  { apply form_rel; [| |exact (src_domain o M c Sr)].
    - intros e He. apply scatterM_sym. intros a b. apply (Props_EmInteg.C72_symmetric (el_n e) (el_dim e) (el_nq e)).
    - intros pt f Hpt Hf. apply scatterM_sym. intros a b. destruct (plain_face o M c pt f Sr P Hpt Hf) as (_ & g & -> & _). apply grad_sym. }
  unfold jacobian, Form.elim_left. rewrite E, orb_comm, (Nat.eqb_sym i). reflexivity.
Qed.
Print Assumptions C147_symmetric.

Lemma elem_dissipates k0 e u v : (forall q, (q < el_nq e)%nat -> 0 < el_W e q) ->
  (forall q, (q < el_nq e)%nat -> 0 <= el_pw e q /\ forall b, 0 <= b -> k0 <= el_nu e q b /\ k0 <= el_nu e q b + el_dnu e q b * b) ->
  k0 * rsum (el_nq e) (fun q => el_pw e q * el_W e q * rsum (el_dim e) (fun k => field_gradient e q v k * field_gradient e q v k)) <=
  dot (el_n e) (gather (el_glob e) v) (mv (el_n e) (elemMatrix Diffusion e u) (gather (el_glob e) v)).
Proof.
  intros HW H. cbn [elemMatrix]. set (x := gather (el_glob e) v). set (y := gather (el_glob e) u).
  set (n := el_n e). set (d := el_dim e). set (nq := el_nq e). set (pw := el_pw e). set (W := el_W e). set (C := el_C e).
  destruct (Props_EmInteg.C72_definite n d nq pw W C (fun q b => el_nu e q b - k0) (el_dnu e) 1 Rle_0_1) with (u := y) (x := x) as [P _].
  { intros q Hq. split; [now apply HW|now apply H]. }
  { intros q b Hq Hb. destruct (H q Hq) as [_ K]. destruct (K b Hb). lra. }
  rewrite dot_comm.
  assert (E : dot n (mv n (nld_grad n d nq pw W C (el_nu e) (el_dnu e) 1 y) x) x =
    dot n (mv n (nld_grad n d nq pw W C (fun q b => el_nu e q b - k0) (el_dnu e) 1 y) x) x +
    k0 * rsum nq (fun q => pw q * W q * rsum d (fun k => field_gradient e q v k * field_gradient e q v k))); [|lra].
  assert (Q : rsum nq (fun q => pw q * W q * rsum d (fun k => field_gradient e q v k * field_gradient e q v k)) =
    dot n (fun i => rsum nq (fun q => rsum d (fun k => C q i k * (wq pw W 1 q * flux n C q x k)))) x).
  { unfold dot. rewrite (rsum_ext n _ (fun i => rsum nq (fun q => rsum d (fun k => C q i k * (wq pw W 1 q * flux n C q x k) * x i)))).
    2:{ intros i _. rewrite <- rsum_scal_r. apply rsum_ext. intros q _. now rewrite <- rsum_scal_r. }
    rewrite rsum_swap. apply rsum_ext. intros q Hq. rewrite rsum_swap, <- rsum_scal. apply rsum_ext. intros k _.
    rewrite (rsum_ext n _ (fun i => wq pw W 1 q * flux n C q x k * (C q i k * x i))) by (intros; ring). rewrite rsum_scal.
    change (rsum n (fun i => C q i k * x i)) with (flux n C q x k). assert (Ef := egrad_flux e q v k (HW q Hq)). fold x n C W in Ef. rewrite Ef.
    unfold field_gradient, wq. field. assert (P0 := HW q Hq). unfold W. lra. }
  rewrite Q. unfold dot. rewrite <- rsum_scal, <- rsum_plus. apply rsum_ext. intros i _. rewrite !nld_grad_v by (exact HW || assumption).
  rewrite <- Rmult_assoc, <- Rmult_plus_distr_r. f_equal. rewrite <- rsum_scal, <- rsum_plus. apply rsum_ext. intros q _. rewrite <- rsum_scal, <- rsum_plus. apply rsum_ext. intros k _.
  destruct (Rlt_dec tiny _); ring.
Qed.
Lemma scatterM_form N n glob A v : (forall i, (i < n)%nat -> (glob i < N)%nat) ->
  dot N v (mv N (scatterM n glob A) v) = dot n (gather glob v) (mv n A (gather glob v)).
Proof.
  intros G. rewrite (dot_ext N v v (mv N (scatterM n glob A) v) (scatter n glob (mv n A (gather glob v)))); [|apply veq_refl|intros r _; now apply scatter_mv].
  rewrite (scatter_pair N) by exact G. reflexivity.
Qed.
Lemma dot_matsums {A} N (f : A -> nat -> nat -> R) l v : dot N v (mv N (fun a b => total (fun x => f x a b) l) v) = total (fun x => dot N v (mv N (f x) v)) l.
Proof.
  unfold dot. rewrite (rsum_ext N _ (fun r => v r * total (fun x => mv N (f x) v r) l)) by (intros r _; now rewrite mv_sums).
  induction l as [|a l IH]; cbn [ThermalOptions.lsum]; [rewrite (rsum_ext N _ (fun _ => 0)) by (intros; ring); apply rsum_0|].
  rewrite <- IH, <- rsum_plus. apply rsum_ext. intros; ring.
Qed.
Lemma total_nonneg {A} (f : A -> R) l : (forall a, In a l -> 0 <= f a) -> 0 <= total f l.
Proof. intros H. rewrite <- (sums_0 l). now apply Props_ThermalOptions.sums_le. Qed.
Lemma total_in {A} (f : A -> R) a l : (forall b, In b l -> 0 <= f b) -> In a l -> f a <= total f l.
Proof.
  induction l as [|b l IH]; intros H E; [destruct E|]. cbn [ThermalOptions.lsum]. destruct E as [E|E].
  - subst b. assert (0 <= total f l) by (apply total_nonneg; intros; apply H; now right). lra.
  - assert (B := IH ltac:(intros; apply H; now right) E). assert (B1 := H b (or_introl eq_refl)). lra.
Qed.
Lemma has_diffusion nattr o c : accepted nattr o c -> In (OnDomain, Diffusion) c.
Proof.
  intros [[_ H]|H].
  - unfold thermalConfig in H. step H sd S. step H b B. step H basis A. step H t1 T1. step H t2 T2. step H t3 T3. injection H as <-. now left.
  - unfold magnetConfig in H. step H sd S. step H b B. step H basis A. step H t1 T1. step H t2 T2. injection H as <-. now left.
Qed.
Lemma dot_zeroM N v : dot N v (mv N (fun _ _ => 0) v) = 0.
Proof. unfold dot. rewrite (rsum_ext N _ (fun _ => 0)); [apply rsum_0|]. intros; rewrite mv_zero; ring. Qed.
Theorem C147_definite : forall N nattr M o c u v k0, fits N nattr M -> accepted nattr o c -> plain_problem o M -> 0 <= k0 -> dissipative k0 o M ->
  k0 * gradient_energy M v <= dot N v (mv N (formMatrix M c u) v).
Proof.
  intros N nattr M o c u v k0 F A P K0 (D1 & D2 & D3). assert (Sr := accepted_src N nattr M o c F A). assert (F' := F). destruct F' as (G1 & HW & _).
  assert (El : forall e, In e (elems M) -> k0 * rsum (el_nq e) (fun q => el_pw e q * el_W e q * rsum (el_dim e) (fun k => field_gradient e q v k * field_gradient e q v k)) <=
     dot N v (mv N (scatterM (el_n e) (el_glob e) (elemMatrix Diffusion e u)) v)).
  { intros e He. rewrite scatterM_form by (intros; now apply G1). apply elem_dissipates; [intros; now apply HW|intros; now apply D1]. }
  assert (Dom : k0 * gradient_energy M v <= dot N v (mv N (termMatrix M (OnDomain, Diffusion) u) v)).
  { unfold termMatrix. cbn [fst snd]. rewrite (dot_matsums N (fun e => scatterM (el_n e) (el_glob e) (elemMatrix Diffusion e u))). unfold gradient_energy. rewrite <- sums_scal.
    apply Props_ThermalOptions.sums_le. exact El. }
  assert (En : 0 <= gradient_energy M v).
  { apply total_nonneg. intros e He. apply rsum_nonneg. intros q Hq. apply Rmult_le_pos; [apply Rmult_le_pos; [now apply D1|left; now apply HW]|]. apply rsum_nonneg. intros; apply Rle_0_sqr. }
  assert (Fc : forall pt f, In pt c -> face_of M pt f -> 0 <= dot N v (mv N (scatterM (faceSize (snd pt) f) (tf_glob f) (faceMatrix (snd pt) f u)) v)).
  { intros pt f Hpt Hf. rewrite scatterM_form by (apply (size_bound N nattr M); [exact F|now apply (face_of_in M pt)]). destruct (plain_face o M c pt f Sr P Hpt Hf) as (Ho & g & E & Hg). rewrite E. cbn [faceMatrix].
    destruct g as [n h al|n h t al|h t al|q al]; try contradiction; [|cbn [face_grad]; rewrite dot_zeroM; lra].
    destruct (Props_Thermal.C75_jacobian_partial (tf_th f) (tf_XT f) (ConvectionBC h t al) (gather (tf_glob f) u)) as (_ & _ & Pos).
    destruct Hg as [-> [L ->]]. apply Pos; [cbn; lra|exact (D3 f Ho L)|intros q Hq; now apply D2]. }
  assert (Pos : forall pt, In pt c -> 0 <= dot N v (mv N (termMatrix M pt u) v)).
  { intros [p t] Hpt. assert (Fc' := fun f => Fc (p, t) f Hpt). assert (Dm := src_domain o M c Sr (p, t) Hpt). cbn [fst snd] in *. unfold face_of in Fc'. cbn [fst] in Fc'. unfold termMatrix. cbn [fst snd]. destruct p as [| |m|m].
    - rewrite (Dm eq_refl). eapply Rle_trans; [|exact Dom]. now apply Rmult_le_pos.
    - unfold onFacesM. rewrite (dot_matsums N (fun f a b => if true then scatterM (faceSize t f) (tf_glob f) (faceMatrix t f u) a b else 0)). apply total_nonneg. intros f Hf. now apply Fc'.
    - unfold onFacesM. rewrite (dot_matsums N (fun f a b => if visited m f then scatterM (faceSize t f) (tf_glob f) (faceMatrix t f u) a b else 0)). apply total_nonneg. intros f Hf.
      destruct (visited m f) eqn:V; [now apply Fc'|rewrite dot_zeroM; lra].
    - unfold onFacesM. rewrite (dot_matsums N (fun f a b => if visited m f then scatterM (faceSize t f) (tf_glob f) (faceMatrix t f u) a b else 0)). apply total_nonneg. intros f Hf.
      destruct (visited m f) eqn:V; [now apply Fc'|rewrite dot_zeroM; lra]. }
  unfold formMatrix. rewrite (dot_matsums N (fun pt => termMatrix M pt u)). eapply Rle_trans; [exact Dom|].
  exact (total_in (fun pt => dot N v (mv N (termMatrix M pt u) v)) _ c Pos (has_diffusion nattr o c A)).
Qed.
Print Assumptions C147_definite.
Theorem C147_step_unique : forall N nattr M o c ess u d d' k0, fits N nattr M -> accepted nattr o c -> plain_problem o M -> 0 < k0 -> dissipative k0 o M ->
  (forall v, (forall i, (i < N)%nat -> In i ess -> v i = 0) -> gradient_energy M v = 0 -> veq N v (fun _ => 0)) ->
  veq N (mv N (jacobian M c ess u) d) (mv N (jacobian M c ess u) d') -> veq N d d'.
Proof.
  intros N nattr M o c ess u d d' k0 F A P K0 D Po E. set (x := fun i => d i - d' i).
  assert (Ex : forall i, (i < N)%nat -> mv N (jacobian M c ess u) x i = 0).
  { intros i Hi. specialize (E i Hi). unfold mv in *. rewrite (rsum_ext N _ (fun j => jacobian M c ess u i j * d j + (-1) * (jacobian M c ess u i j * d' j))) by (intros; unfold x; ring).
    rewrite rsum_plus, rsum_scal, E. ring. }
  assert (Z : forall i, (i < N)%nat -> In i ess -> x i = 0).
  { intros i Hi Hm. apply memb_in in Hm. rewrite <- (Ex i Hi).
    unfold mv, jacobian, Form.elim_left. rewrite (rsum_ext N _ (fun j => if Nat.eqb j i then x j else 0)).
    2:{ intros j _. rewrite Hm. cbn [orb]. rewrite (Nat.eqb_sym i). destruct (Nat.eqb j i); ring. }
    now rewrite (rsum_delta N x). }
  assert (X0 : dot N x (mv N (formMatrix M c u) x) = 0).
  { unfold dot. rewrite (rsum_ext N _ (fun _ => 0)); [apply rsum_0|]. intros i Hi. destruct (Form.memb i ess) eqn:Hm; [rewrite (Z i Hi) by (now apply memb_in); ring|].
    replace (mv N (formMatrix M c u) x i) with (mv N (jacobian M c ess u) x i); [rewrite Ex by exact Hi; ring|].
    unfold mv, jacobian, Form.elim_left. apply rsum_ext. intros j Hj. rewrite Hm. cbn [orb]. destruct (Form.memb j ess) eqn:E2; [|reflexivity]. rewrite (Z j Hj) by (now apply memb_in). ring. }
  assert (B := C147_definite N nattr M o c u x k0 F A P (Rlt_le _ _ K0) D). rewrite X0 in B.
  assert (En : 0 <= gradient_energy M x).
  { destruct F as (_ & HW & _), D as (D1 & _). apply total_nonneg. intros e He. apply rsum_nonneg. intros q Hq. apply Rmult_le_pos; [apply Rmult_le_pos; [now apply D1|left; now apply HW]|]. apply rsum_nonneg. intros; apply Rle_0_sqr. }
  assert (E0 : gradient_energy M x = 0) by nra. intros i Hi. specialize (Po x Z E0 i Hi). unfold x in Po. lra.
Qed.
Print Assumptions C147_step_unique.

(** the rod of C145: constant conductivities, a contact, a convection condition and a weakly held end *)
Import Props_DgFace Props_ThermalOptions.
Lemma plain_law b : uniform (plain b) /\ differentiable (plain b) /\ linear_material (plain b).
Proof.
  split; [|split].
  - intros p p' x. split; reflexivity.
  - intros p x _. change (is_derive (fun _ : R => 1) x 0). apply DV_const.
  - intros p x y. reflexivity.
Qed.
Lemma rod_materials : smooth_materials rod /\ linear_materials rod /\ straight_channels rod_options rod.
Proof.
  split; [split|split; [split|]].
  - intros e q He _. assert (E : el_nu e = fun _ _ => 1) by (destruct He as [<-|[<-|[]]]; reflexivity). assert (E2 : el_dnu e = fun _ _ => 0) by (destruct He as [<-|[<-|[]]]; reflexivity).
    rewrite E, E2. split; [intros b _; apply (DV_const 1)|apply continuous_const].
  - intros f Hf.
    assert (X : exists r1 r2, tf_s1 f = plain r1 /\ tf_s2 f = plain r2 /\ 0 < width (tf_X1 f) /\ 0 < width (tf_X2 f)).
    { destruct Hf as [<-|[<-|[<-|[]]]]; cbn [tf_s1 tf_s2 tf_X1 tf_X2 mface]; do 2 eexists; (split; [reflexivity|split; [reflexivity|]]); unfold width, at_nodes; split; lra. }
    destruct X as (r1 & r2 & -> & -> & W1 & W2). destruct (plain_law r1) as (A1 & A2 & _), (plain_law r2) as (B1 & B2 & _).
    split; [exact A1|split; [exact A2|split; [exact B1|split; [exact B2|]]]]. intros o q. split; [exact W1|exact W2].
  - intros e q x y [<-|[<-|[]]] _; reflexivity.
  - intros f Hf. assert (X : exists r1 r2, tf_s1 f = plain r1 /\ tf_s2 f = plain r2) by (destruct Hf as [<-|[<-|[<-|[]]]]; do 2 eexists; split; reflexivity).
    destruct X as (r1 & r2 & -> & ->). split; apply plain_law.
  - intros f [<-|[]] _. reflexivity.
Qed.
(** from the state 0 the one step of the rod: the temperatures solve J d = - R(0), and then R(d) = 0 *)
Example C147_one_step_met : exists c, accepted 3 rod_options c /\ c = match thermalConfig 3 rod_options with Ok c => c | _ => [] end /\
  (forall ess load u d, veq 4 (mv 4 (jacobian rod c ess u) d) (vscal (-1) (residualVector rod c ess load u)) ->
     forall i, (i < 4)%nat -> residualVector rod c ess load (fun j => u j + d j) i = 0).
Proof.
  destruct C145_equations_met as (O & _ & _ & _ & E). eexists. split; [left; split; [exact O|exact E]|]. split; [now rewrite E|].
  intros ess load u d H i Hi.
  exact (proj1 (C147_one_step 4 3 rod rod_options _ ess load u d (proj1 rod_fits) (or_introl (conj O E)) (proj1 rod_materials) (proj1 (proj2 rod_materials)) (proj2 (proj2 rod_materials)) H i Hi)).
Qed.
(** a rod of two elements on a continuous basis that conducts better the steeper its temperature, held at its left end *)
Definition steep (w : R) (first : nat) : telem := {| el_n := 2; el_dim := 2; el_nq := 1; el_pw := fun _ => 1; el_W := fun _ => w;
  el_C := fun _ i k => match k, i with O, O => -1 | O, _ => 1 | _, _ => 0 end; el_nu := fun _ b => 1 + b; el_dnu := fun _ _ => 1; el_glob := fun i => (first + i)%nat |}.
Definition saturable : tmesh := {| elems := [steep 1 0; steep 2 1]; inner := [];
  outer := [mface 1 (outside false) false false (at_nodes 0 1) (at_nodes 0 1) (fun i => (i mod 2)%nat);
            mface 2 (outside true) true true (at_nodes 1 3) (at_nodes 1 3) (fun i => (1 + i mod 2)%nat)] |}.
Definition saturable_options : opts := JObj [("space-dis", JObj [("basis-type", JLeaf (LStr "H1")); ("degree", JLeaf (LInt 1))]);
  ("bcs", JObj [("convection", JObj [("attrs", JLeaf (LInts [2]%Z)); ("h", JLeaf (LReal 2))]); ("essential", JLeaf (LInts [1]%Z))])]%string.
Lemma saturable_ok : fits 3 2 saturable /\ smooth_materials saturable /\ accepted 2 saturable_options [(OnDomain, Diffusion); (OnBoundary [0; 1]%Z, Exchange (ConvectionBC 2 1 1))] /\
  plain_problem saturable_options saturable /\ dissipative 1 saturable_options saturable /\ straight_channels saturable_options saturable /\
  resolved_state saturable_options saturable (fun i => INR i).
Proof.
  split; [|split; [|split; [|split; [|split; [|split]]]]].
  - unfold fits. split; [|split; [|split; [|split; [|split]]]].
    + intros e i [<-|[<-|[]]]; cbn; lia.
    + intros e q [<-|[<-|[]]]; cbn; lra.
    + intros f i [<-|[<-|[]]]; cbn [tf_s1 tf_s2 tf_glob mface nd plain]; intros Hi; try lia; assert (Hm := Nat.mod_upper_bound i 2 ltac:(lia)); lia.
    + intros f [<-|[<-|[]]]; cbn; split; reflexivity.
    + intros f [].
    + intros f [<-|[<-|[]]]; cbn; lia.
  - split.
    + intros e q He _. assert (E : el_nu e = fun _ b => 1 + b) by (destruct He as [<-|[<-|[]]]; reflexivity). assert (E2 : el_dnu e = fun _ _ => 1) by (destruct He as [<-|[<-|[]]]; reflexivity).
      rewrite E, E2. split; [intros b _; auto_derive; [exact I|ring]|]. apply (continuous_plus (fun _ : R => 1) (fun b : R => b)); [apply continuous_const|apply continuous_id].
    + intros f Hf.
      assert (X : exists r1 r2, tf_s1 f = plain r1 /\ tf_s2 f = plain r2 /\ 0 < width (tf_X1 f) /\ 0 < width (tf_X2 f)).
      { destruct Hf as [<-|[<-|[]]]; cbn [tf_s1 tf_s2 tf_X1 tf_X2 mface]; do 2 eexists; (split; [reflexivity|split; [reflexivity|]]); unfold width, at_nodes; split; lra. }
      destruct X as (r1 & r2 & -> & -> & W1 & W2). destruct (plain_law r1) as (A1 & A2 & _), (plain_law r2) as (B1 & B2 & _).
      split; [exact A1|split; [exact A2|split; [exact B1|split; [exact B2|]]]]. intros o q. split; [exact W1|exact W2].
  - left. split; [constructor|reflexivity].
  - split; [reflexivity|]. split; [intros f [<-|[<-|[]]]; reflexivity|intros f []].
  - split; [|split].
    + intros e q He _. assert (E : el_nu e = fun _ b => 1 + b) by (destruct He as [<-|[<-|[]]]; reflexivity). assert (E2 : el_dnu e = fun _ _ => 1) by (destruct He as [<-|[<-|[]]]; reflexivity).
      assert (E3 : el_pw e = fun _ => 1) by (destruct He as [<-|[<-|[]]]; reflexivity). rewrite E, E2, E3. split; [lra|]. intros b Hb. split; lra.
    + intros f p q Hf _. assert (E : exists r, tf_th f = tside r r) by (destruct Hf as [<-|[<-|[]]]; eexists; reflexivity). destruct E as (r & ->). cbn. lra.
    + intros f _. cbv zeta. intros _. cbn. lra.
  - intros f [].
  - split; [|split].
    + intros e q He _. cbv zeta. right. assert (G : forall k, field_gradient e q (fun i => INR i) k = match k with O => 1 / el_W e q | _ => 0 end) .
      { intros k. destruct He as [<-|[<-|[]]]; unfold field_gradient, egrad; destruct k; cbn; field. }
      assert (W : el_W e q = 1 \/ el_W e q = 2) by (destruct He as [<-|[<-|[]]]; cbn; lra). assert (Dm : el_dim e = 2%nat) by (destruct He as [<-|[<-|[]]]; reflexivity). rewrite Dm. cbn [rsum].
      rewrite !G. replace (0 + 1 / el_W e q * (1 / el_W e q) + 0 * 0) with (1 / el_W e q * (1 / el_W e q)) by ring. rewrite sqrt_square by (destruct W as [-> | ->]; lra).
      replace (1 / el_W e q * el_W e q) with 1 by (destruct W as [-> | ->]; field). apply Rmult_lt_reg_l with (10 ^ 14); [apply pow_lt; lra|]. rewrite Rinv_r by (apply pow_nonzero; lra). cbn. lra.
    + intros f p [<-|[<-|[]]] H; now elim H.
    + intros f [].
Qed.
Example C147_step_unique_met : let c := [(OnDomain, Diffusion); (OnBoundary [0; 1]%Z, Exchange (ConvectionBC 2 1 1))] in
  (forall v, (forall i, (i < 3)%nat -> In i [0%nat] -> v i = 0) -> gradient_energy saturable v = 0 -> veq 3 v (fun _ => 0)) /\
  (forall load v, zero_on [0%nat] v -> derivative_at 3 (residualVector saturable c [0%nat] load) (fun i => INR i) v (mv 3 (jacobian saturable c [0%nat] (fun i => INR i)) v)) /\
  (forall u d d', veq 3 (mv 3 (jacobian saturable c [0%nat] u) d) (mv 3 (jacobian saturable c [0%nat] u) d') -> veq 3 d d').
Proof.
  intros c. destruct saturable_ok as (F & S & A & P & D & St & Rs).
  assert (Po : forall v, (forall i, (i < 3)%nat -> In i [0%nat] -> v i = 0) -> gradient_energy saturable v = 0 -> veq 3 v (fun _ => 0)).
  { intros v Z E. assert (V0 : v 0%nat = 0) by (apply Z; [lia|now left]).
    assert (E1 : (v 1%nat - v 0%nat) * (v 1%nat - v 0%nat) + / 2 * ((v 2%nat - v 1%nat) * (v 2%nat - v 1%nat)) = 0).
    { rewrite <- E. unfold gradient_energy, field_gradient, egrad. cbn. field. }
    assert (H1 : 0 <= (v 1%nat - v 0%nat) * (v 1%nat - v 0%nat)) by apply Rle_0_sqr. assert (H2 : 0 <= (v 2%nat - v 1%nat) * (v 2%nat - v 1%nat)) by apply Rle_0_sqr.
    assert (Q1 : v 1%nat - v 0%nat = 0) by (apply Rsqr_0_uniq; unfold Rsqr; lra). assert (Q2 : v 2%nat - v 1%nat = 0) by (apply Rsqr_0_uniq; unfold Rsqr; lra).
    intros i Hi. destruct i as [|[|[|i]]]; [lra|lra|lra|lia]. }
  split; [exact Po|]. split.
  - intros load v Z. exact (C147_jacobian_partial 3 2 saturable saturable_options c [0%nat] load _ v F A S Rs St Z).
  - intros u d d' H. exact (C147_step_unique 3 2 saturable saturable_options c [0%nat] u d d' 1 F A P Rlt_0_1 D Po H).
Qed.
