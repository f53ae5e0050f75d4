(** From options to equations. *)
From Coq Require Import Reals List String Bool ZArith Lra Lia.
From Coquelicot Require Import Coquelicot.
From Verif Require Import Vec Inputs Options BdrArray BdrArrayProofs EmInteg Thermal ThermalSpec ThermalProofs DgFace DgFaceSpec DgFaceProofs FlowOptions.
From Verif Require Import ThermalOptionsSpec ThermalOptions.
Import ListNotations.
Local Open Scope R_scope.

Notation sums := ThermalOptions.lsum.
Lemma sums_app {A} (f : A -> R) l1 l2 : sums f (l1 ++ l2) = sums f l1 + sums f l2.
Proof. induction l1 as [|a r IH]; cbn; [ring|]. rewrite IH. ring. Qed.
Lemma sums_ext {A} (f g : A -> R) l : (forall a, In a l -> f a = g a) -> sums f l = sums g l.
Proof. induction l as [|a r IH]; intros H; cbn; [reflexivity|]. rewrite H by (now left). rewrite IH; [reflexivity|]. intros; apply H; now right. Qed.
Lemma sums_plus {A} (f g : A -> R) l : sums (fun a => f a + g a) l = sums f l + sums g l.
Proof. induction l as [|a r IH]; cbn; [ring|]. rewrite IH. ring. Qed.
Lemma sums_scal {A} (f : A -> R) c l : sums (fun a => c * f a) l = c * sums f l.
Proof. induction l as [|a r IH]; cbn; [ring|]. rewrite IH. ring. Qed.
Lemma sums_0 {A} (l : list A) : sums (fun _ => 0) l = 0.
Proof. induction l as [|a r IH]; cbn; [reflexivity|]. rewrite IH. ring. Qed.
Lemma dot_sums {A} N v (f : A -> vec) l : dot N v (fun d => sums (fun a => f a d) l) = sums (fun a => dot N v (f a)) l.
Proof.
  induction l as [|a r IH]; cbn [sums].
  - unfold dot. rewrite (rsum_ext _ _ (fun _ => 0)); [apply rsum_0|]. intros; ring.
  - rewrite <- IH. unfold dot. rewrite <- rsum_plus. apply rsum_ext. intros; ring.
Qed.
Lemma scatter_pair N n glob x v : (forall i, (i < n)%nat -> (glob i < N)%nat) ->
  dot N v (scatter n glob x) = rsum n (fun i => v (glob i) * x i).
Proof.
  intros H. unfold dot, scatter. rewrite (rsum_ext _ _ (fun d => rsum n (fun i => v d * (if Nat.eqb (glob i) d then x i else 0)))) by (intros; now rewrite rsum_scal).
  rewrite rsum_swap. apply rsum_ext. intros i Hi.
  rewrite (rsum_ext _ _ (fun d => if Nat.eqb d (glob i) then v d * x i else 0)).
  - now rewrite rsum_delta by auto.
  - intros d _. rewrite Nat.eqb_sym. destruct (Nat.eqb d (glob i)); ring.
Qed.

(** what a term contributes *)
Definition face_mean (t : term) (f : tface) (u v : vec) : R :=
  match t with
  | Diffusion => 0
  | Sipg mu a => a * coupling mu f u v
  | Weak mu => prescribed mu f u v
  | Exchange g => scale g * exchange g f u v
  end.
Lemma over_alpha F a o f : over_face F a o f = a * over_face F 1 o f.
Proof. unfold over_face. ring. Qed.
Lemma face_pair t f u v : rsum (faceSize t f) (fun i => v (tf_glob f i) * faceVector t f u i) = face_mean t f u v.
Proof.
  destruct t as [|mu a|mu|g]; cbn [faceSize faceVector face_mean].
  - reflexivity.
  - change (dot (nd (tf_s1 f) + nd (tf_s2 f)) (local f v) (int_vector (tf_dg f) (tf_s1 f) (tf_s2 f) mu a (tf_XF f) (tf_X1 f) (tf_X2 f) (local f u)) = a * coupling mu f u v).
    rewrite int_weak. apply over_alpha.
  - change (dot (nd (tf_s1 f)) (local f v) (bdr_vector (tf_dg f) (tf_s1 f) (tf_g f) mu 1 (tf_XF f) (tf_X1 f) (local f u)) = prescribed mu f u v).
    rewrite bdr_weak. reflexivity.
  - change (dot (size (tf_th f) g) (local f v) (face_vector (tf_th f) (tf_XT f) g (local f u)) = scale g * exchange g f u v) || idtac.
    assert (E : (match g with Contact _ _ _ | InternalConvection _ _ _ _ => n1 (tf_th f) + n2 (tf_th f) | _ => n1 (tf_th f) end)%nat = size (tf_th f) g) by (destruct g; reflexivity).
    rewrite E. apply (site_formula (tf_th f) (tf_XT f) g (local f u) (local f v)).
Qed.
Lemma elem_pair e u v : (forall q, (q < el_nq e)%nat -> 0 < el_W e q) ->
  rsum (el_n e) (fun i => v (el_glob e i) * elemVector Diffusion e u i) = conduction e u v.
Proof.
  intros HW. cbn [elemVector]. unfold elem_vector, conduction.
  set (x := gather (el_glob e) u).
  assert (G : forall q k, flux (el_n e) (el_C e) q x k = rsum (el_n e) (fun i => u (el_glob e i) * el_C e q i k)) by (intros; apply rsum_ext; intros; unfold x, gather; ring).
  rewrite (rsum_ext _ _ (fun i => rsum (el_nq e) (fun q => v (el_glob e i) * rsum (el_dim e) (fun k =>
     el_C e q i k * (wq (el_pw e) (el_W e) 1 q * el_nu e q (fmag (el_n e) (el_dim e) (el_W e) (el_C e) q x) * flux (el_n e) (el_C e) q x k))))) by (intros; now rewrite rsum_scal).
  rewrite rsum_swap. apply rsum_ext. intros q Hq. specialize (HW q Hq).
  assert (M : fmag (el_n e) (el_dim e) (el_W e) (el_C e) q x = sqrt (rsum (el_dim e) (fun k => egrad e q u k * egrad e q u k))).
  { unfold fmag, norm, dot. transitivity (sqrt (rsum (el_dim e) (fun k => flux (el_n e) (el_C e) q x k * flux (el_n e) (el_C e) q x k) / (el_W e q * el_W e q))).
    - rewrite sqrt_div_alt by (apply Rmult_lt_0_compat; assumption). rewrite sqrt_square by lra. reflexivity.
    - f_equal. unfold Rdiv. rewrite <- rsum_scal_r. apply rsum_ext. intros k _. unfold egrad. rewrite G. field. lra. }
  rewrite M. set (m := el_nu e q _).
  rewrite (rsum_ext (el_n e) _ (fun i => rsum (el_dim e) (fun k => wq (el_pw e) (el_W e) 1 q * m * rsum (el_n e) (fun j => u (el_glob e j) * el_C e q j k) * (v (el_glob e i) * el_C e q i k)))).
  2:{ intros i _. rewrite <- rsum_scal. apply rsum_ext. intros k _. rewrite G. ring. }
  rewrite rsum_swap. rewrite <- !rsum_scal. apply rsum_ext. intros k _. rewrite rsum_scal. unfold egrad, wq. field. lra.
Qed.

(** a term over the mesh *)
Definition mean (M : tmesh) (pt : place * term) (u v : vec) : R :=
  match fst pt with
  | OnDomain => sums (fun e => match snd pt with Diffusion => conduction e u v | _ => 0 end) (elems M)
  | OnInterior => sums (fun f => face_mean (snd pt) f u v) (inner M)
  | OnBoundary m => sums (fun f => when (visited m f) (face_mean (snd pt) f u v)) (outer M)
  | OnInternal m => sums (fun f => when (visited m f) (face_mean (snd pt) f u v)) (inner M)
  end.
Lemma size_bound N nattr M f t : fits N nattr M -> In f (inner M ++ outer M) -> forall i, (i < faceSize t f)%nat -> (tf_glob f i < N)%nat.
Proof.
  intros (_ & _ & H & E & _) Hf i Hi. apply H; [exact Hf|]. destruct (E f Hf) as [E1 E2]. destruct t as [| | |g]; cbn in Hi; try lia. destruct g; lia.
Qed.
Lemma faces_pair N nattr M keep l t u v : fits N nattr M -> (forall f, In f l -> In f (inner M ++ outer M)) ->
  dot N v (onFaces keep l t u) = sums (fun f => when (keep f) (face_mean t f u v)) l.
Proof.
  intros F Hl. unfold onFaces. rewrite (dot_sums N v (fun f d => if keep f then scatter (faceSize t f) (tf_glob f) (faceVector t f u) d else 0)).
  apply sums_ext. intros f Hf. destruct (keep f); cbn [when].
  - rewrite (scatter_pair N) by (apply (size_bound N nattr M); auto). apply face_pair.
  - unfold dot. rewrite (rsum_ext _ _ (fun _ => 0)); [apply rsum_0|]. intros; ring.
Qed.
Lemma term_pair N nattr M pt u v : fits N nattr M -> dot N v (termVector M pt u) = mean M pt u v.
Proof.
  intros F. destruct pt as [p t]. unfold termVector, mean. cbn [fst snd]. destruct p as [| |m|m].
  - rewrite (dot_sums N v (fun e d => scatter (el_n e) (el_glob e) (elemVector t e u) d)). apply sums_ext. intros e He. destruct F as (H1 & H2 & _).
    rewrite (scatter_pair N) by (intros; eapply H1; eassumption). destruct t; try (rewrite (rsum_ext _ _ (fun _ => 0)); [apply rsum_0|intros; cbn; ring]).
    apply elem_pair. intros q Hq. now apply H2.
  - rewrite (faces_pair N nattr M) by (try assumption; intros; apply in_or_app; now left). reflexivity.
  - apply (faces_pair N nattr M); [assumption|]. intros; apply in_or_app; now right.
  - apply (faces_pair N nattr M); [assumption|]. intros; apply in_or_app; now left.
Qed.
Definition means (M : tmesh) (c : config) (u v : vec) : R := sums (fun pt => mean M pt u v) c.
Lemma form_pair N nattr M c u v : fits N nattr M -> dot N v (formVector M c u) = means M c u v.
Proof. intros F. unfold formVector, means. rewrite (dot_sums N v (fun pt => termVector M pt u)). apply sums_ext. intros pt _. eapply term_pair, F. Qed.

(** markers *)
Lemma visited_lists nattr l m f : marker nattr l = Ok m -> (0 <= tf_attr f <= Z.of_nat nattr)%Z -> visited m f = lists l f.
Proof.
  unfold marker. intros E A. destruct (attrVecToArray l (repeat 0%Z nattr)) as [m'|] eqn:V; [|discriminate]. injection E as <-.
  assert (In' : forall a, In a l -> (1 <= a <= Z.of_nat nattr)%Z).
  { intros a Ha. destruct (Z_le_dec 1 a); destruct (Z_le_dec a (Z.of_nat nattr)); try lia;
    rewrite (attr_ub l (repeat 0%Z nattr) a Ha) in V by (rewrite repeat_length; lia); discriminate. }
  destruct (attr_spec l (repeat 0%Z nattr)) as (arr & E & L & Mk); [rewrite repeat_length; exact In'|]. rewrite V in E. injection E as <-.
  rewrite repeat_length in L. unfold visited, lists. destruct (Z.leb_spec 1 (tf_attr f)).
  - cbn [andb]. assert (Mk' := Mk (tf_attr f) ltac:(lia)).
    rewrite (nth_indep m' 0%Z (-1)%Z) by lia. rewrite Mk'. destruct (in_dec Z.eq_dec (tf_attr f) l) as [I|I].
    + cbn. symmetry. apply existsb_exists. exists (tf_attr f). split; [exact I|apply Z.eqb_refl].
    + cbn. symmetry. apply not_true_is_false. intros X. apply existsb_exists in X. destruct X as (a & Ha & Ea). apply Z.eqb_eq in Ea. subst a. contradiction.
  - cbn [andb]. symmetry. apply not_true_is_false. intros X. apply existsb_exists in X. destruct X as (a & Ha & Ea). apply Z.eqb_eq in Ea. specialize (In' a Ha). lia.
Qed.
Tactic Notation "step" hyp(H) ident(x) ident(E) := match type of H with bind ?a _ = Ok _ => destruct a as [x| | |] eqn:E; cbn [bind] in H; [|discriminate H..] end.
Section Parse.
Variables (N nattr : nat) (M : tmesh) (o : opts) (u v : vec).
Hypothesis F : fits N nattr M.
Lemma means_app a b : means M (a ++ b)%list u v = means M a u v + means M b u v.
Proof. apply sums_app. Qed.
Lemma boundary_means l t c : onBoundary nattr l t = Ok c -> means M c u v = sums (fun f => when (lists l f) (face_mean t f u v)) (outer M).
Proof.
  unfold onBoundary. destruct (marker nattr l) as [m| | |] eqn:E; cbn; try discriminate. injection 1 as <-. unfold means. cbn. rewrite Rplus_0_r. unfold mean; cbn [fst snd].
  apply sums_ext. intros f Hf. rewrite (visited_lists nattr l m f E); [reflexivity|]. destruct F as (_ & _ & _ & _ & _ & B). specialize (B f Hf). lia.
Qed.
Lemma internal_means l t c : onInternal nattr l t = Ok c -> means M c u v = sums (fun f => when (lists l f) (face_mean t f u v)) (inner M).
Proof.
  unfold onInternal. destruct (marker nattr l) as [m| | |] eqn:E; cbn; try discriminate. injection 1 as <-. unfold means. cbn. rewrite Rplus_0_r. unfold mean; cbn [fst snd].
  apply sums_ext. intros f Hf. rewrite (visited_lists nattr l m f E); [reflexivity|]. destruct F as (_ & _ & _ & _ & B & _). exact (B f Hf).
Qed.
(** reading *)
Lemma sub_get j k w : sub j k = Ok w -> get j k = w.
Proof. destruct j as [|l|m]; cbn; try discriminate. destruct (find k m); [|discriminate]. now injection 1. Qed.
Lemma contains_get j k : contains j k = false -> get j k = JNull.
Proof. destruct j as [|l|m]; cbn; try reflexivity. destruct (find k m); [discriminate|reflexivity]. Qed.
Lemma ints_ok j l : asInts j = Ok l -> ints j = l.
Proof. destruct j as [|x|m]; cbn; try discriminate. destruct x; try discriminate. now injection 1. Qed.
Lemma value_num j k d x : valueReal j k d = Ok x -> num j k d = x.
Proof.
  unfold num, get. destruct j as [|l|m]; cbn; try discriminate. destruct (find k m) as [w|]; [|now injection 1].
  destruct w as [|l|m']; cbn; try discriminate. destruct l; try discriminate; now injection 1.
Qed.
Lemma real_num j k w d x : sub j k = Ok w -> asReal w = Ok x -> num j k d = x.
Proof. intros S A. unfold num. rewrite (sub_get _ _ _ S). destruct w as [|l|m']; cbn in A; try discriminate. destruct l; try discriminate; now injection A. Qed.
Lemma penalty_ok p mu : penalty p o = Ok mu -> penalty_of p o = mu.
Proof.
  unfold penalty, penalty_of. destruct (sub o "space-dis") as [sd| | |] eqn:S; try discriminate. cbn [bind].
  destruct (valueReal sd "sipg-penalty" (-1)) as [m| | |] eqn:V; try discriminate. cbn [bind]. rewrite (sub_get _ _ _ S), (value_num _ _ _ _ V).
  destruct (Rlt_dec m 0); [|now injection 1]. destruct (sub sd "degree") as [w| | |] eqn:D; try discriminate. cbn [bind].
  destruct (asReal w) as [d| | |] eqn:A; try discriminate. cbn [bind]. injection 1 as <-. now rewrite (real_num _ _ _ 0 _ D A).
Qed.
Lemma none l (g : tface -> R) (P : tface -> bool) : (forall f, P f = false) -> sums (fun f => when (P f) (g f)) l = 0.
Proof. intros H. rewrite (sums_ext _ (fun _ => 0)); [apply sums_0|]. intros f _. now rewrite H. Qed.
Lemma convection_means bcs c : convectionTerm nattr bcs = Ok c -> let w := get bcs "convection" in
  means M c u v = sums (fun f => when (lists (attributes w) f) (exchange (ConvectionBC (num w "h" 1) (num w "fluid_temp" 1) 1) f u v)) (outer M).
Proof.
  intros H w. unfold convectionTerm in H. destruct (contains bcs "convection") eqn:C.
  - step H bc S. apply sub_get in S. unfold w. rewrite S. clear w. destruct (isArray bc) eqn:A; [|destruct (isObject bc) eqn:B].
    + step H l L. rewrite (boundary_means _ _ _ H). destruct bc as [|x|m]; try discriminate. destruct x; try discriminate. cbn in L. injection L as <-.
      apply sums_ext. intros f _. cbn. now rewrite Rmult_1_l.
    + step H a A1. step H l L. step H h Hh. step H t Ht. rewrite (boundary_means _ _ _ H). rewrite (value_num _ _ _ _ Hh), (value_num _ _ _ _ Ht).
      destruct bc as [|x|m]; try discriminate. unfold attributes. rewrite (sub_get _ _ _ A1), (ints_ok _ _ L). apply sums_ext. intros f _. cbn. now rewrite Rmult_1_l.
    + rewrite (boundary_means _ _ _ H). rewrite !none; [reflexivity| |reflexivity]. intros f. destruct bc as [|x|m]; try discriminate; [reflexivity|]. destruct x; try discriminate; reflexivity.
  - injection H as <-. unfold w. rewrite (contains_get _ _ C). rewrite none; reflexivity.
Qed.
Lemma outflux_means bcs c : outfluxTerm nattr bcs = Ok c -> let w := get bcs "outflux" in
  means M c u v = sums (fun f => when (lists (attributes w) f) (exchange (OutfluxBC (num w "flux" 1) 1) f u v)) (outer M).
Proof.
  intros H w. unfold outfluxTerm in H. destruct (contains bcs "outflux") eqn:C.
  - step H bc S. apply sub_get in S. unfold w. rewrite S. clear w. destruct (isArray bc) eqn:A; [|destruct (isObject bc) eqn:B].
    + step H l L. rewrite (boundary_means _ _ _ H). destruct bc as [|x|m]; try discriminate. destruct x; try discriminate. cbn in L. injection L as <-.
      apply sums_ext. intros f _. cbn. now rewrite Rmult_1_l.
    + step H a A1. step H l L. step H h Hh. rewrite (boundary_means _ _ _ H). rewrite (value_num _ _ _ _ Hh).
      destruct bc as [|x|m]; try discriminate. unfold attributes. rewrite (sub_get _ _ _ A1), (ints_ok _ _ L). apply sums_ext. intros f _. cbn. now rewrite Rmult_1_l.
    + rewrite (boundary_means _ _ _ H). rewrite !none; [reflexivity| |reflexivity]. intros f. destruct bc as [|x|m]; try discriminate; [reflexivity|]. destruct x; try discriminate; reflexivity.
  - injection H as <-. unfold w. rewrite (contains_get _ _ C). rewrite none; reflexivity.
Qed.
Lemma weak_means p bcs key c : weakTerm p nattr o bcs key = Ok c ->
  means M c u v = sums (fun f => when (lists (ints (get bcs key)) f) (prescribed (penalty_of p o) f u v)) (outer M).
Proof.
  unfold weakTerm. intros H. destruct (contains bcs key) eqn:C.
  - step H e S. apply sub_get in S. rewrite S. destruct (isArray e) eqn:A; [|discriminate]. step H l L. step H mu P. rewrite (boundary_means _ _ _ H), (penalty_ok _ _ P), (ints_ok _ _ L). reflexivity.
  - injection H as <-. rewrite (contains_get _ _ C). rewrite none; reflexivity.
Qed.
Lemma basis_dg sd b basis : sub o "space-dis" = Ok sd -> sub sd "basis-type" = Ok b -> asString b = Ok basis -> isDG basis = discontinuous o.
Proof.
  intros S B A. unfold discontinuous. rewrite (sub_get _ _ _ S), (sub_get _ _ _ B). destruct b as [|x|m]; try discriminate. destruct x; try discriminate. cbn in A. injection A as ->.
  unfold isDG. cbn. rewrite !orb_assoc, orb_false_r. reflexivity.
Qed.
Lemma interior_means p basis c : isDG basis = discontinuous o -> interiorTerm p o basis = Ok c ->
  means M c u v = sums (fun f => when (discontinuous o) (coupling (penalty_of p o) f u v)) (inner M).
Proof.
  intros D. unfold interiorTerm. rewrite D. destruct (discontinuous o); intros H.
  - step H mu P. injection H as <-. unfold means. cbn. rewrite (penalty_ok _ _ P). unfold mean. cbn [fst snd]. rewrite Rplus_0_r. apply sums_ext. intros f _. cbn. now rewrite Rmult_1_l.
  - injection H as <-. cbn. symmetry. apply sums_0.
Qed.
(** interfaces *)
Lemma forItems_means (f : string -> opts -> outcome config) (g : string * opts -> tface -> R) l : forall c, forItems f l = Ok c ->
  (forall k w c', In (k, w) l -> f k w = Ok c' -> means M c' u v = sums (g (k, w)) (inner M)) ->
  means M c u v = sums (fun x => sums (g x) (inner M)) l.
Proof.
  induction l as [|[k w] r IH]; intros c H G; cbn in H.
  - injection H as <-. reflexivity.
  - step H a A. step H b B. injection H as <-. rewrite means_app. cbn. rewrite (G k w a (or_introl eq_refl) A). rewrite (IH b eq_refl); [reflexivity|]. intros; eapply G; [right; eassumption|eassumption].
Qed.
Lemma items_members j (f : string -> opts -> outcome config) c : (forall k w, isObject w = false -> forall c', f k w <> Ok c') -> forItems f (items j) = Ok c -> items j = members j.
Proof.
  intros T H. destruct j as [|x|m]; try reflexivity. destruct x as [b|z|r|s|l|]; cbn in H |- *.
  1,2,3,4: exfalso; step H a A; exact (T _ _ (eq_refl : isObject (JLeaf _) = false) _ A).
  - destruct l as [|z l]; [reflexivity|]. exfalso. cbn in H. step H a A. exact (T _ _ (eq_refl : isObject (JLeaf _) = false) _ A).
  - exfalso. step H a A. exact (T _ _ (eq_refl : isObject JNull = false) _ A).
Qed.
Lemma contact_needs k w : isObject w = false -> forall c', contactTerms nattr o k w <> Ok c'.
Proof. destruct w; try discriminate; intros _ c'; unfold contactTerms; cbn; discriminate. Qed.
Lemma channel_needs k w : isObject w = false -> forall c', internalConvectionTerms nattr o k w <> Ok c'.
Proof. destruct w; try discriminate; intros _ c'; unfold internalConvectionTerms; cbn; discriminate. Qed.
Definition one_contact (x : string * opts) (f : tface) : R :=
  when (lists (ints (get (snd x) "attrs")) f) (- coupling (penalty_of 2 o) f u v + exchange (Contact (fst x) (num (snd x) "h" 0) 1) f u v).
Definition one_channel (x : string * opts) (f : tface) : R :=
  when (lists (ints (get (snd x) "attrs")) f) (- coupling (penalty_of 2 o) f u v + exchange (InternalConvection (fst x) (num (snd x) "h" 0) (num (snd x) "fluid_temp" 0) 1) f u v).
Lemma contact_means k w c : contactTerms nattr o k w = Ok c -> means M c u v = sums (one_contact (k, w)) (inner M).
Proof.
  unfold contactTerms. intros H. step H a A. step H l L. step H mu P. step H t1 T1. step H h' S. step H h Hh. step H t2 T2. injection H as <-.
  rewrite means_app, (internal_means _ _ _ T1), (internal_means _ _ _ T2). rewrite <- sums_plus. apply sums_ext. intros f _. unfold one_contact. cbn [fst snd].
  rewrite (sub_get _ _ _ A), (ints_ok _ _ L), (penalty_ok _ _ P), (real_num _ _ _ 0 _ S Hh). cbn [face_mean scale]. destruct (lists l f); cbn [when]; ring.
Qed.
Lemma channel_means k w c : internalConvectionTerms nattr o k w = Ok c -> means M c u v = sums (one_channel (k, w)) (inner M).
Proof.
  unfold internalConvectionTerms. intros H. step H a A. step H l L. step H mu P. step H t1 T1. step H h' S. step H h Hh. step H t' St. step H t Ht. step H t2 T2. injection H as <-.
  rewrite means_app, (internal_means _ _ _ T1), (internal_means _ _ _ T2). rewrite <- sums_plus. apply sums_ext. intros f _. unfold one_channel. cbn [fst snd].
  rewrite (sub_get _ _ _ A), (ints_ok _ _ L), (penalty_ok _ _ P), (real_num _ _ _ 0 _ S Hh), (real_num _ _ _ 0 _ St Ht). cbn [face_mean scale]. destruct (lists l f); cbn [when]; ring.
Qed.
Lemma find_pick {A} (m : list (string * json A)) k (G : json A -> R) : NoDup (map fst m) -> G JNull = 0 ->
  sums (fun x => if String.eqb (fst x) k then G (snd x) else 0) m = G (match find k m with Some w => w | None => JNull end).
Proof.
  intros ND G0. induction m as [|[k' w] r IH]; cbn; [auto|]. inversion ND as [|? ? Hn ND']; subst. rewrite (String.eqb_sym k k'). destruct (String.eqb_spec k' k) as [->|Hne].
  - rewrite (sums_ext _ (fun _ => 0)); [rewrite sums_0; ring|]. intros [k2 w2] Hx. cbn. destruct (String.eqb_spec k2 k) as [->|]; [|reflexivity]. exfalso. apply Hn. apply in_map_iff. now exists (k, w2).
  - rewrite IH by exact ND'. ring.
Qed.
Lemma filter_sums {A} (P : A -> bool) (g : A -> R) l : sums (fun x => when (P x) (g x)) l = ThermalSpec.lsum g (filter P l).
Proof. induction l as [|a r IH]; cbn; [reflexivity|]. rewrite IH. destruct (P a); cbn; ring. Qed.
Lemma filter_const {A} (P : A -> bool) (c : R) l : sums (fun x => when (P x) c) l = INR (List.length (filter P l)) * c.
Proof. induction l as [|a r IH]; [cbn; ring|]. cbn [sums filter]. rewrite IH. destruct (P a); cbn [when List.length]; [rewrite S_INR|]; ring. Qed.
Lemma sums_swap {A B} (g : A -> B -> R) l1 l2 : sums (fun a => sums (g a) l2) l1 = sums (fun b => sums (fun a => g a b) l1) l2.
Proof. induction l1 as [|a r IH]; cbn; [symmetry; apply sums_0|]. rewrite IH. rewrite <- sums_plus. reflexivity. Qed.
Lemma kind_sum kind (ex : string * opts -> tface -> R) (f : tface) :
  sums (fun x => when (lists (ints (get (snd x) "attrs")) f) (- coupling (penalty_of 2 o) f u v + ex x f)) (members (get (get o "interfaces") kind)) =
  - (INR (List.length (of_kind o kind f)) * coupling (penalty_of 2 o) f u v) + ThermalSpec.lsum (fun x => ex x f) (of_kind o kind f).
Proof.
  unfold of_kind. rewrite <- filter_sums, <- filter_const. rewrite <- (Rmult_1_l (sums (fun x => when _ (ex x f)) _)). rewrite Rmult_1_l.
  set (l := members _). induction l as [|a r IH]; cbn [sums]; [ring|]. rewrite IH. destruct (lists _ f); cbn [when]; ring.
Qed.
Lemma interface_means c : one_of_each o -> interfaceTerms nattr o = Ok c ->
  means M c u v = sums (fun f => across o f u v - INR (separations o f) * coupling (penalty_of 2 o) f u v) (inner M).
Proof.
  intros ND H.
  assert (Fin : sums (fun f => across o f u v - INR (separations o f) * coupling (penalty_of 2 o) f u v) (inner M) =
     sums (fun x => sums (one_contact x) (inner M)) (members (get (get o "interfaces") "thermal_contact_resistance")) +
     sums (fun x => sums (one_channel x) (inner M)) (members (get (get o "interfaces") "convection"))).
  { rewrite (sums_swap one_contact), (sums_swap one_channel), <- sums_plus. apply sums_ext. intros f _. unfold one_contact, one_channel.
    rewrite (kind_sum "thermal_contact_resistance" (fun x f => exchange (Contact (fst x) (num (snd x) "h" 0) 1) f u v)).
    rewrite (kind_sum "convection" (fun x f => exchange (InternalConvection (fst x) (num (snd x) "h" 0) (num (snd x) "fluid_temp" 0) 1) f u v)).
    unfold across, separations, contacts, channels. rewrite plus_INR. ring. }
  rewrite Fin. clear Fin. unfold interfaceTerms in H. destruct (contains o "interfaces") eqn:C.
  - step H i S. assert (Gi := sub_get _ _ _ S). unfold one_of_each in ND. rewrite Gi in ND |- *.
    rewrite (forItems_means _ (fun x f => if String.eqb (fst x) "thermal_contact_resistance" then sums (fun y => one_contact y f) (members (snd x)) else if String.eqb (fst x) "convection" then sums (fun y => one_channel y f) (members (snd x)) else 0) _ _ H).
    + destruct i as [|x|m].
      * cbn. ring.
      * transitivity 0; [|cbn; ring]. cbn [members get]. clear. destruct x as [b|z|r|s|l|]; cbn; rewrite ?sums_0; try ring. induction l as [|z r IH]; cbn; [reflexivity|]. rewrite IH, sums_0. ring.
      * cbn [items members get] in *. 
        rewrite (sums_ext _ (fun x => (if String.eqb (fst x) "thermal_contact_resistance" then sums (fun y => sums (one_contact y) (inner M)) (members (snd x)) else 0) + (if String.eqb (fst x) "convection" then sums (fun y => sums (one_channel y) (inner M)) (members (snd x)) else 0))).
        -- rewrite sums_plus. rewrite (find_pick m "thermal_contact_resistance" (fun w => sums (fun y => sums (one_contact y) (inner M)) (members w)) ND eq_refl).
           rewrite (find_pick m "convection" (fun w => sums (fun y => sums (one_channel y) (inner M)) (members w)) ND eq_refl). reflexivity.
        -- intros [k w] _. cbn [fst snd]. destruct (String.eqb_spec k "thermal_contact_resistance") as [->|].
           ++ change (String.eqb "thermal_contact_resistance" "convection") with false. cbv iota. rewrite (sums_swap one_contact). ring.
           ++ destruct (String.eqb k "convection"); [rewrite (sums_swap one_channel); ring|rewrite sums_0; ring].
    + intros k w c' Hin E. cbn [fst snd]. destruct (String.eqb k "thermal_contact_resistance").
      * rewrite <- sums_swap. rewrite (items_members w _ c' contact_needs E) in E. apply (forItems_means _ _ _ _ E). intros. now apply contact_means.
      * destruct (String.eqb k "convection").
        -- rewrite <- sums_swap. rewrite (items_members w _ c' channel_needs E) in E. apply (forItems_means _ _ _ _ E). intros. now apply channel_means.
        -- injection E as <-. symmetry. apply sums_0.
  - injection H as <-. rewrite (contains_get _ _ C). cbn. ring.
Qed.
Lemma thermal_means c : one_of_each o -> thermalConfig nattr o = Ok c -> means M c u v =
  sums (fun e => conduction e u v) (elems M) + sums (fun f => on_boundary o f u v) (outer M) +
  sums (fun f => (when (discontinuous o) 1 - INR (separations o f)) * coupling (penalty_of 2 o) f u v + across o f u v) (inner M).
Proof.
  intros ND H. unfold thermalConfig in H. step H sd S. step H b B. step H basis A. assert (D := basis_dg _ _ _ S B A). rewrite D in H.
  step H t1 T1. step H t2 T2. step H t3 T3. injection H as <-.
  change (mean M (OnDomain, Diffusion) u v + means M (t1 ++ t2 ++ t3)%list u v = sums (fun e => conduction e u v) (elems M) + sums (fun f => on_boundary o f u v) (outer M) +
    sums (fun f => (when (discontinuous o) 1 - INR (separations o f)) * coupling (penalty_of 2 o) f u v + across o f u v) (inner M)).
  rewrite !means_app. rewrite (interior_means _ _ _ D T1), (interface_means _ ND T3).
  assert (E2 : means M t2 u v = sums (fun f => on_boundary o f u v) (outer M)).
  { destruct (contains o "bcs") eqn:C.
    - step T2 bcs Sb. step T2 c Cc. step T2 q Cq. step T2 e Ce. step T2 w Cw. injection T2 as <-. assert (Gb := sub_get _ _ _ Sb).
      rewrite !means_app, (convection_means _ _ Cc), (outflux_means _ _ Cq), (weak_means _ _ _ _ Cw).
      assert (Ee : means M e u v = sums (fun f => when (discontinuous o && lists (ints (get bcs "essential")) f) (prescribed (penalty_of 2 o) f u v)) (outer M)).
      { destruct (discontinuous o); [apply weak_means, Ce|]. injection Ce as <-. now rewrite none. }
      rewrite Ee. rewrite <- !sums_plus. apply sums_ext. intros f _. unfold on_boundary, strong_or_weak. rewrite Gb. ring.
    - injection T2 as <-. symmetry. rewrite (sums_ext _ (fun _ => 0)); [apply sums_0|]. intros f _. unfold on_boundary, strong_or_weak. rewrite (contains_get _ _ C). cbn. rewrite andb_false_r. cbn. ring. }
  rewrite E2. unfold mean. cbn [fst snd].
  assert (E3 : sums (fun f => when (discontinuous o) (coupling (penalty_of 2 o) f u v)) (inner M) + sums (fun f => across o f u v - INR (separations o f) * coupling (penalty_of 2 o) f u v) (inner M) =
    sums (fun f => (when (discontinuous o) 1 - INR (separations o f)) * coupling (penalty_of 2 o) f u v + across o f u v) (inner M)).
  { rewrite <- sums_plus. apply sums_ext. intros f _. destruct (discontinuous o); cbn [when]; ring. }
  rewrite <- E3. ring.
Qed.
Lemma magnet_means c : magnetConfig nattr o = Ok c -> means M c u v =
  sums (fun e => conduction e u v) (elems M) + sums (fun f => strong_or_weak 3 o f u v) (outer M) +
  sums (fun f => when (discontinuous o) (coupling (penalty_of 3 o) f u v)) (inner M).
Proof.
  intros H. unfold magnetConfig in H. step H sd S. step H b B. step H basis A. assert (D := basis_dg _ _ _ S B A). rewrite D in H.
  step H t1 T1. step H t2 T2. injection H as <-.
  change (mean M (OnDomain, Diffusion) u v + means M (t1 ++ t2)%list u v = sums (fun e => conduction e u v) (elems M) + sums (fun f => strong_or_weak 3 o f u v) (outer M) +
    sums (fun f => when (discontinuous o) (coupling (penalty_of 3 o) f u v)) (inner M)).
  rewrite !means_app. rewrite (interior_means _ _ _ D T1).
  assert (E2 : means M t2 u v = sums (fun f => strong_or_weak 3 o f u v) (outer M)).
  { destruct (contains o "bcs") eqn:C.
    - step T2 bcs Sb. step T2 e Ce. step T2 w Cw. injection T2 as <-. assert (Gb := sub_get _ _ _ Sb).
      rewrite !means_app, (weak_means _ _ _ _ Cw).
      assert (Ee : means M e u v = sums (fun f => when (discontinuous o && lists (ints (get bcs "essential")) f) (prescribed (penalty_of 3 o) f u v)) (outer M)).
      { destruct (discontinuous o); [apply weak_means, Ce|]. injection Ce as <-. now rewrite none. }
      rewrite Ee. rewrite <- !sums_plus. apply sums_ext. intros f _. unfold strong_or_weak. rewrite Gb. ring.
    - injection T2 as <-. symmetry. rewrite (sums_ext _ (fun _ => 0)); [apply sums_0|]. intros f _. unfold strong_or_weak. rewrite (contains_get _ _ C). cbn. rewrite andb_false_r. cbn. ring. }
  rewrite E2. unfold mean. cbn [fst snd]. ring.
Qed.
End Parse.
