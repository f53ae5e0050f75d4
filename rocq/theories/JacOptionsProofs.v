(** Proof support for the Newton matrix of a set of options. *)
From Coq Require Import Reals Lra Lia List Bool Arith ZArith String.
From Coquelicot Require Import Coquelicot.
From Verif Require Import Vec Deriv Inputs Options EmInteg EmIntegSpec EmIntegProofs Thermal ThermalSpec ThermalProofs DgFace DgFaceSpec DgFaceProofs
  FlowOptions ThermalOptions ThermalOptionsSpec ThermalOptionsProofs JacOptions JacOptionsSpec.
Import ListNotations.
Local Open Scope R_scope.
Notation sums := ThermalOptions.lsum.

(** ** scattering *)
Lemma scatter_mv N n glob A v r : (forall i, (i < n)%nat -> (glob i < N)%nat) ->
  mv N (scatterM n glob A) v r = scatter n glob (mv n A (gather glob v)) r.
Proof.
  intros G. unfold mv, scatterM, scatter.
  rewrite (rsum_ext N _ (fun c => rsum n (fun i => (if Nat.eqb (glob i) r then rsum n (fun j => if Nat.eqb (glob j) c then A i j else 0) else 0) * v c))) by (intros; now rewrite rsum_scal_r).
  rewrite rsum_swap. apply rsum_ext. intros i Hi. destruct (Nat.eqb (glob i) r).
  - rewrite (rsum_ext N _ (fun c => rsum n (fun j => (if Nat.eqb c (glob j) then A i j * v c else 0)))).
    2:{ intros c _. rewrite <- rsum_scal_r. apply rsum_ext. intros j _. rewrite (Nat.eqb_sym c). destruct (Nat.eqb (glob j) c); ring. }
    rewrite rsum_swap. apply rsum_ext. intros j Hj. rewrite (rsum_delta N (fun c => A i j * v c)) by auto. reflexivity.
  - rewrite (rsum_ext N _ (fun _ => 0)) by (intros; ring). apply rsum_0.
Qed.
Lemma mv_sums {A} N (f : A -> nat -> nat -> R) l v r : mv N (fun a b => sums (fun x => f x a b) l) v r = sums (fun x => mv N (f x) v r) l.
Proof.
  unfold mv. induction l as [|a l IH]; cbn [sums]; [rewrite (rsum_ext N _ (fun _ => 0)) by (intros; ring); apply rsum_0|].
  rewrite <- IH, <- rsum_plus. apply rsum_ext. intros; ring.
Qed.
Lemma DV_sums {A} (f : A -> R -> R) (d : A -> R) x (l : list A) : (forall a, In a l -> is_derive (f a) x (d a)) ->
  is_derive (fun t => sums (fun a => f a t) l) x (sums d l).
Proof.
  induction l as [|a l IH]; intros H; cbn [sums]; [apply (DV_const 0)|].
  apply (DV_plus (f a) (fun t => sums (fun a => f a t) l)); [apply H; now left|apply IH; intros; apply H; now right].
Qed.
Lemma DV_scatter n glob (x : R -> vec) d r : (forall i, (i < n)%nat -> is_derive (fun t => x t i) 0 (d i)) ->
  is_derive (fun t => scatter n glob (x t) r) 0 (scatter n glob d r).
Proof.
  intros H. unfold scatter. apply (DV_sum n (fun i t => if Nat.eqb (glob i) r then x t i else 0)). intros i Hi.
  destruct (Nat.eqb (glob i) r); [now apply H|apply DV_const].
Qed.
Lemma mv_zero n v i : mv n (fun _ _ => 0) v i = 0.
Proof. unfold mv. rewrite (rsum_ext n _ (fun _ => 0)) by (intros; ring). apply rsum_0. Qed.

(** ** the element matrix *)
Lemma egrad_flux e q u k : 0 < el_W e q -> flux (el_n e) (el_C e) q (gather (el_glob e) u) k = el_W e q * egrad e q u k.
Proof.
  intros P. unfold egrad, flux, gather. rewrite (rsum_ext _ _ (fun i => u (el_glob e i) * el_C e q i k)) by (intros; ring). field. lra.
Qed.
Lemma egrad_norm e q u : 0 < el_W e q -> norm (el_dim e) (flux (el_n e) (el_C e) q (gather (el_glob e) u)) =
  el_W e q * sqrt (rsum (el_dim e) (fun k => egrad e q u k * egrad e q u k)).
Proof.
  intros P. unfold norm, dot. rewrite (rsum_ext _ _ (fun k => (el_W e q * el_W e q) * (egrad e q u k * egrad e q u k))).
  2:{ intros k _. rewrite !egrad_flux by exact P. ring. }
  rewrite rsum_scal, sqrt_mult_alt by (apply Rle_0_sqr). rewrite sqrt_square by lra. reflexivity.
Qed.
Definition elem_ok (e : telem) (u : vec) : Prop := forall q, (q < el_nq e)%nat ->
  (forall x y, el_nu e q x = el_nu e q y) \/
  (let s := sqrt (rsum (el_dim e) (fun k => egrad e q u k * egrad e q u k)) in s = 0 \/ / 10 ^ 14 < s * el_W e q).
Lemma elem_jacobian M e u v i : smooth_materials M -> In e (elems M) -> (forall q, (q < el_nq e)%nat -> 0 < el_W e q) -> elem_ok e u ->
  is_derive (fun t => elemVector Diffusion e (along u v t) i) 0 (mv (el_n e) (elemMatrix Diffusion e u) (gather (el_glob e) v) i).
Proof.
  intros [S _] He HW Ok. cbn [elemVector elemMatrix].
  set (x := gather (el_glob e) u). set (y := gather (el_glob e) v).
  change (gather (el_glob e) (along u v ?t)) with (along x y t).
  eapply DV_eq.
  - apply (true_jv_derive (el_n e) (el_dim e) (el_nq e) (el_pw e) (el_W e) (el_C e) (el_nu e) (el_dnu e) 1 HW
      (fun q b Hq => proj1 (S e q He Hq) b) (fun q Hq => proj2 (S e q He Hq)) x y i).
  - rewrite nld_grad_v by assumption. unfold true_jv. apply rsum_ext. intros q Hq. apply rsum_ext. intros k _. f_equal. f_equal. f_equal.
    assert (T : 0 < tiny) by apply tiny_gt0. assert (P := HW q Hq). assert (E := egrad_norm e q u P). fold x in E.
    set (nn := norm (el_dim e) (flux (el_n e) (el_C e) q x)) in *. assert (N0 : 0 <= nn) by apply norm_pos.
    destruct (Ok q Hq) as [L|[Z|L]].
    + assert (D0 : forall b, 0 < b -> el_dnu e q b = 0).
      { intros b Hb. apply (DV_unique (el_nu e q) b); [now apply (S e q He Hq)|]. apply (DV_ext (fun _ => el_nu e q 0)); [intros; apply L|apply DV_const]. }
      unfold fmag. fold nn. rewrite Rabs_pos_eq by exact N0.
      assert (D1 : nn <> 0 -> el_dnu e q (nn / el_W e q) = 0) by (intros; apply D0, Rdiv_lt_0_compat; lra).
      destruct (Req_EM_T nn 0) as [Z|Z]; destruct (Rlt_dec tiny nn) as [A|A]; try reflexivity; try (exfalso; lra); rewrite D1 by exact Z; ring.
    + rewrite Z, Rmult_0_r in E. rewrite E, Rabs_R0. destruct (Rlt_dec tiny 0); [lra|]. destruct (Req_EM_T 0 0); [reflexivity|lra].
    + rewrite Rmult_comm, <- E in L. change (/ 10 ^ 14) with tiny in L. rewrite Rabs_pos_eq by lra.
      destruct (Rlt_dec tiny nn); [|lra]. destruct (Req_EM_T nn 0); [lra|]. field. split; lra.
Qed.

(** ** the face matrices *)
Definition side_ok (F : DgFace.face) (S : side) (o : nat) (X : mat) (u : vec) : Prop := linear_material S \/ resolved F S o X u.
Definition face_ok (t : term) (f : tface) (u : vec) : Prop :=
  match t with
  | Diffusion => True
  | Sipg _ _ => side_ok (tf_dg f) (tf_s1 f) (int_order (tf_s1 f) (tf_s2 f)) (tf_X1 f) (local f u) /\
                side_ok (tf_dg f) (tf_s2 f) (int_order (tf_s1 f) (tf_s2 f)) (tf_X2 f) (lower (tf_s1 f) (local f u))
  | Weak _ => side_ok (tf_dg f) (tf_s1 f) (bdr_order (tf_dg f) (tf_s1 f)) (tf_X1 f) (local f u)
  | Exchange g => match g with InternalConvection _ _ _ _ => ordW (tf_th f) = O | _ => True end
  end.
Lemma face_jacobian M f t u v i : smooth_materials M -> In f (inner M ++ outer M) -> face_ok t f u -> (i < faceSize t f)%nat ->
  is_derive (fun t' => faceVector t f (along u v t') i) 0 (mv (faceSize t f) (faceMatrix t f u) (gather (tf_glob f) v) i).
Proof.
  intros [_ S] Hf Ok Hi. destruct (S f Hf) as (U1 & D1 & U2 & D2 & W). clear S.
  set (x := gather (tf_glob f) u). set (y := gather (tf_glob f) v).
  assert (Ex : local f u = x) by reflexivity. destruct t as [|mu a|mu|g]; cbn [faceVector faceMatrix faceSize face_ok] in *.
  - lia.
  - apply (int_jacobian (tf_dg f) (tf_s1 f) (tf_s2 f) mu a (tf_XF f) (tf_X1 f) (tf_X2 f) x y U1 D1 U2 D2 (proj1 Ok) (proj2 Ok)); [|exact Hi].
    intros q _. destruct (W (int_order (tf_s1 f) (tf_s2 f)) q). split; lra.
  - apply (bdr_jacobian (tf_dg f) (tf_s1 f) (tf_g f) mu 1 (tf_XF f) (tf_X1 f) x y U1 D1 Ok); [|exact Hi].
    intros q _. destruct (W (bdr_order (tf_dg f) (tf_s1 f)) q). lra.
  - assert (Sz : (match g with Contact _ _ _ | InternalConvection _ _ _ _ => n1 (tf_th f) + n2 (tf_th f) | _ => n1 (tf_th f) end)%nat = size (tf_th f) g) by (destruct g; reflexivity).
    rewrite Sz in *. apply (ThermalProofs.jacobian (tf_th f) (tf_XT f) g x y); [|exact Hi].
    destruct g; cbn; try reflexivity. cbn in Ok. rewrite Ok. lia.
Qed.

(** ** the form *)
Definition term_ok (M : tmesh) (u : vec) (pt : place * term) : Prop :=
  match fst pt with
  | OnDomain => forall e, In e (elems M) -> elem_ok e u
  | OnInterior => forall f, In f (inner M) -> face_ok (snd pt) f u
  | OnBoundary m => forall f, In f (outer M) -> visited m f = true -> face_ok (snd pt) f u
  | OnInternal m => forall f, In f (inner M) -> visited m f = true -> face_ok (snd pt) f u
  end.
Lemma faces_jacobian N nattr M keep l t u v r : fits N nattr M -> smooth_materials M -> (forall f, In f l -> In f (inner M ++ outer M)) ->
  (forall f, In f l -> keep f = true -> face_ok t f u) ->
  is_derive (fun t' => onFaces keep l t (along u v t') r) 0 (mv N (onFacesM keep l t u) v r).
Proof.
  intros F S Hl Ok. unfold onFaces, onFacesM.
  rewrite (mv_sums N (fun f a b => if keep f then scatterM (faceSize t f) (tf_glob f) (faceMatrix t f u) a b else 0)).
  apply (DV_sums (fun f t' => if keep f then scatter (faceSize t f) (tf_glob f) (faceVector t f (along u v t')) r else 0)). intros f Hf.
  destruct (keep f) eqn:K.
  - rewrite scatter_mv by (apply (size_bound N nattr M); auto).
    apply (DV_scatter _ _ (fun t' => faceVector t f (along u v t'))). intros i Hi. apply (face_jacobian M); auto.
  - rewrite mv_zero. apply DV_const.
Qed.
Lemma term_jacobian N nattr M pt u v r : fits N nattr M -> smooth_materials M -> term_ok M u pt ->
  is_derive (fun t => termVector M pt (along u v t) r) 0 (mv N (termMatrix M pt u) v r).
Proof.
  intros F S Ok. destruct pt as [p t]. unfold termVector, termMatrix, term_ok in *. cbn [fst snd] in *. destruct p as [| |m|m].
  - rewrite (mv_sums N (fun e a b => scatterM (el_n e) (el_glob e) (elemMatrix t e u) a b)).
    apply (DV_sums (fun e t' => scatter (el_n e) (el_glob e) (elemVector t e (along u v t')) r)). intros e He. destruct F as (H1 & H2 & _).
    rewrite scatter_mv by (intros; eapply H1; eassumption). apply (DV_scatter _ _ (fun t' => elemVector t e (along u v t'))). intros i Hi.
    destruct t; [apply (elem_jacobian M); [exact S|exact He|intros; now apply H2|now apply Ok]|..]; cbn [elemVector elemMatrix]; rewrite mv_zero; apply DV_const.
  - apply (faces_jacobian N nattr M); auto. intros; apply in_or_app; now left.
  - apply (faces_jacobian N nattr M); auto. intros; apply in_or_app; now right.
  - apply (faces_jacobian N nattr M); auto. intros; apply in_or_app; now left.
Qed.
Lemma form_jacobian N nattr M c u v r : fits N nattr M -> smooth_materials M -> (forall pt, In pt c -> term_ok M u pt) ->
  is_derive (fun t => formVector M c (along u v t) r) 0 (mv N (formMatrix M c u) v r).
Proof.
  intros F S Ok. unfold formVector, formMatrix. rewrite (mv_sums N (fun pt a b => termMatrix M pt u a b)).
  apply (DV_sums (fun pt t => termVector M pt (along u v t) r)). intros pt Hpt. apply (term_jacobian N nattr); auto.
Qed.

(** ** where the terms of accepted options come from *)
Definition term_src (o : opts) (M : tmesh) (pt : place * term) : Prop :=
  match pt with
  | (OnDomain, Diffusion) => True
  | (OnInterior, Sipg _ _) => discontinuous o = true
  | (OnBoundary m, Weak _) => forall f, In f (outer M) -> visited m f = true -> held 2 o f <> O
  | (OnBoundary m, Exchange (ConvectionBC h _ a)) => a = 1 /\ forall f, In f (outer M) -> visited m f = true ->
      let w := get (get o "bcs") "convection" in lists (attributes w) f = true /\ h = num w "h" 1
  | (OnBoundary m, Exchange (OutfluxBC _ _)) => True
  | (OnInternal m, Sipg _ _) => forall f, In f (inner M) -> visited m f = true -> separations o f <> O
  | (OnInternal m, Exchange (Contact _ _ _)) => forall f, In f (inner M) -> visited m f = true -> contacts o f <> []
  | (OnInternal m, Exchange (InternalConvection _ _ _ _)) => forall f, In f (inner M) -> visited m f = true -> channels o f <> []
  | _ => False
  end.
Definition all_src (o : opts) (M : tmesh) (c : config) : Prop := forall pt, In pt c -> term_src o M pt.
Lemma all_app o M a b : all_src o M a -> all_src o M b -> all_src o M (a ++ b)%list.
Proof. intros A B pt H. apply in_app_or in H. destruct H; auto. Qed.
Lemma all_nil o M : all_src o M []. Proof. intros pt []. Qed.
Section Sources.
Variables (N nattr : nat) (M : tmesh) (o : opts).
Hypothesis F : fits N nattr M.
Lemma onb_src l t c : onBoundary nattr l t = Ok c ->
  (match t with Weak _ => forall f, In f (outer M) -> lists l f = true -> held 2 o f <> O
   | Exchange (ConvectionBC h _ a) => a = 1 /\ forall f, In f (outer M) -> lists l f = true ->
       let w := get (get o "bcs") "convection" in lists (attributes w) f = true /\ h = num w "h" 1
   | Exchange (OutfluxBC _ _) => True | _ => False end) -> all_src o M c.
Proof.
  unfold onBoundary. intros H T. step H m E. injection H as <-. intros pt [<-|[]].
  assert (V : forall f, In f (outer M) -> visited m f = lists l f).
  { intros f Hf. apply (visited_lists nattr); [exact E|]. destruct F as (_ & _ & _ & _ & _ & B). specialize (B f Hf). lia. }
  destruct t as [| |mu|g]; cbn; try contradiction; [intros f Hf; rewrite V by exact Hf; auto|destruct g; cbn in *; try contradiction; [|exact I]].
  destruct T as [A T]. split; [exact A|]. intros f Hf. rewrite V by exact Hf. auto.
Qed.
Lemma oni_src l t c : onInternal nattr l t = Ok c ->
  (match t with Sipg _ _ => forall f, In f (inner M) -> lists l f = true -> separations o f <> O | Exchange (Contact _ _ _) => forall f, In f (inner M) -> lists l f = true -> contacts o f <> []
   | Exchange (InternalConvection _ _ _ _) => forall f, In f (inner M) -> lists l f = true -> channels o f <> [] | _ => False end) -> all_src o M c.
Proof.
  unfold onInternal. intros H T. step H m E. injection H as <-. intros pt [<-|[]].
  assert (V : forall f, In f (inner M) -> visited m f = lists l f).
  { intros f Hf. apply (visited_lists nattr); [exact E|]. destruct F as (_ & _ & _ & _ & B & _). exact (B f Hf). }
  destruct t as [|mu a| |g]; cbn; try contradiction; [intros f Hf; rewrite V by exact Hf; auto|destruct g; cbn in *; try contradiction].
  - intros f Hf; rewrite V by exact Hf; auto.
  - intros f Hf; rewrite V by exact Hf; auto.
Qed.
Lemma forItems_src (f : string -> opts -> outcome config) l : forall c, forItems f l = Ok c ->
  (forall k w c', In (k, w) l -> f k w = Ok c' -> all_src o M c') -> all_src o M c.
Proof.
  induction l as [|[k w] r IH]; intros c H G; cbn in H; [injection H as <-; apply all_nil|].
  step H a A. step H b B. injection H as <-. apply all_app; [apply (G k w); [now left|exact A]|apply (IH b eq_refl)].
  intros; eapply G; [right; eassumption|eassumption].
Qed.
Lemma find_in {A} (m : list (string * json A)) k w : NoDup (map fst m) -> In (k, w) m -> find k m = Some w.
Proof.
  induction m as [|[k' w'] r IH]; intros ND H; [destruct H|]. inversion ND as [|? ? Hn ND']; subst. cbn. destruct H as [E|H].
  - injection E as -> ->. now rewrite String.eqb_refl.
  - destruct (String.eqb_spec k k') as [->|]; [exfalso; apply Hn; apply in_map_iff; now exists (k', w)|auto].
Qed.
Lemma kind_in kind k w f : In (k, w) (members (get (get o "interfaces") kind)) -> lists (ints (get w "attrs")) f = true -> of_kind o kind f <> [].
Proof. intros H L E. assert (X : In (k, w) (of_kind o kind f)) by (apply filter_In; split; [exact H|exact L]). rewrite E in X. destruct X. Qed.
Lemma interface_src c : one_of_each o -> interfaceTerms nattr o = Ok c -> all_src o M c.
Proof.
  intros ND H. unfold interfaceTerms in H. destruct (contains o "interfaces") eqn:C; [|injection H as <-; apply all_nil].
  step H i Si. assert (Gi := sub_get _ _ _ Si).
  refine (forItems_src _ _ _ H _). intros kind w c' Hin Hc.
  assert (Km : kind = "thermal_contact_resistance"%string \/ kind = "convection"%string -> In (kind, w) (members i)).
  { destruct i as [|x|m]; cbn in Hin; [destruct Hin| |intros _; exact Hin].
    intros K. exfalso. destruct x; cbn in Hin; repeat (destruct Hin as [Hin|Hin]; try (injection Hin as <- _; destruct K as [K|K]; discriminate)); try contradiction.
    apply in_map_iff in Hin. destruct Hin as (z & E & _). injection E as <- _. destruct K; discriminate. }
  assert (Gw : kind = "thermal_contact_resistance"%string \/ kind = "convection"%string -> get (get o "interfaces") kind = w).
  { intros K. specialize (Km K). rewrite Gi. destruct i as [|x|m]; try (destruct Km; fail). cbn in *. unfold one_of_each in ND. rewrite Gi in ND. now rewrite (find_in m kind w ND Km). }
  destruct (String.eqb_spec kind "thermal_contact_resistance") as [->|N1]; [|destruct (String.eqb_spec kind "convection") as [->|N2]; [|injection Hc as <-; apply all_nil]].
  - specialize (Gw (or_introl eq_refl)). rewrite (items_members w (contactTerms nattr o) c' (contact_needs nattr o) Hc) in Hc.
    refine (forItems_src _ _ _ Hc _). intros k x c'' Hx Hc''. unfold contactTerms in Hc''.
    step Hc'' a A. step Hc'' l L. step Hc'' mu P. step Hc'' t1 T1. step Hc'' h' S. step Hc'' h Hh. step Hc'' t2 T2. injection Hc'' as <-.
    assert (K : forall f, lists l f = true -> of_kind o "thermal_contact_resistance" f <> []).
    { intros f Lf. rewrite <- (ints_ok _ _ L), <- (sub_get _ _ _ A) in Lf. rewrite <- Gw in Hx. exact (kind_in _ _ _ _ Hx Lf). }
    apply all_app; [apply (oni_src _ _ _ T1)|apply (oni_src _ _ _ T2)]; intros f Hf Lf; specialize (K f Lf).
    + unfold separations, contacts. destruct (of_kind o "thermal_contact_resistance" f); [now elim K|cbn; lia].
    + exact K.
  - specialize (Gw (or_intror eq_refl)). rewrite (items_members w (internalConvectionTerms nattr o) c' (channel_needs nattr o) Hc) in Hc.
    refine (forItems_src _ _ _ Hc _). intros k x c'' Hx Hc''. unfold internalConvectionTerms in Hc''.
    step Hc'' a A. step Hc'' l L. step Hc'' mu P. step Hc'' t1 T1. step Hc'' h' S. step Hc'' h Hh. step Hc'' t' St. step Hc'' th Ht. step Hc'' t2 T2. injection Hc'' as <-.
    assert (K : forall f, lists l f = true -> of_kind o "convection" f <> []).
    { intros f Lf. rewrite <- (ints_ok _ _ L), <- (sub_get _ _ _ A) in Lf. rewrite <- Gw in Hx. exact (kind_in _ _ _ _ Hx Lf). }
    apply all_app; [apply (oni_src _ _ _ T1)|apply (oni_src _ _ _ T2)]; intros f Hf Lf; specialize (K f Lf).
    + unfold separations, channels. destruct (of_kind o "convection" f); [now elim K|cbn; lia].
    + exact K.
Qed.
Lemma weak_src p bcs key c : (key = "essential"%string /\ discontinuous o = true \/ key = "weak-essential"%string) -> sub o "bcs" = Ok bcs ->
  weakTerm p nattr o bcs key = Ok c -> all_src o M c.
Proof.
  intros K Sb H. unfold weakTerm in H. destruct (contains bcs key) eqn:C; [|injection H as <-; apply all_nil].
  step H e S. destruct (isArray e); [|discriminate]. step H l L. step H mu P. apply (onb_src _ _ _ H). intros f Hf Lf.
  rewrite <- (ints_ok _ _ L), <- (sub_get _ _ _ S), <- (sub_get _ _ _ Sb) in Lf. unfold held.
  destruct K as [[-> D]| ->]; [rewrite D|]; rewrite Lf; cbn; lia.
Qed.
Lemma interior_src p basis c : isDG basis = discontinuous o -> interiorTerm p o basis = Ok c -> all_src o M c.
Proof.
  intros D. unfold interiorTerm. rewrite D. destruct (discontinuous o) eqn:E; intros H; [|injection H as <-; apply all_nil].
  step H mu P. injection H as <-. intros pt [<-|[]]. exact E.
Qed.
Lemma thermal_src c : one_of_each o -> thermalConfig nattr o = Ok c -> all_src o M c.
Proof.
  intros ND H. unfold thermalConfig in H. step H sd S. step H b B. step H basis A. assert (D := basis_dg o _ _ _ S B A).
  step H t1 T1. step H t2 T2. step H t3 T3. injection H as <-.
  intros pt [<-|Hpt]; [exact I|]. revert pt Hpt. change (all_src o M (t1 ++ t2 ++ t3)). apply all_app; [exact (interior_src _ _ _ D T1)|]. apply all_app; [|exact (interface_src _ ND T3)].
  destruct (contains o "bcs") eqn:C; [|injection T2 as <-; apply all_nil].
  step T2 bcs Sb. step T2 c0 Cc. step T2 q Cq. step T2 e Ce. step T2 w Cw. injection T2 as <-. repeat apply all_app.
  - unfold convectionTerm in Cc. destruct (contains bcs "convection"); [|injection Cc as <-; apply all_nil]. step Cc bc Sc.
    assert (Gc := sub_get _ _ _ Sc). rewrite <- (sub_get _ _ _ Sb) in Gc.
    destruct (isArray bc) eqn:Ia; [|destruct (isObject bc) eqn:Io].
    + step Cc l L. apply (onb_src _ _ _ Cc). split; [reflexivity|]. intros f Hf Lf. cbv zeta. rewrite Gc.
      destruct bc as [|x|m]; try discriminate. destruct x; try discriminate. cbn in L. injection L as <-. split; [exact Lf|reflexivity].
    + step Cc a1 A1. step Cc l L. step Cc h Hh. step Cc t Ht. apply (onb_src _ _ _ Cc). split; [reflexivity|]. intros f Hf Lf. cbv zeta. rewrite Gc.
      rewrite (value_num _ _ _ _ Hh). destruct bc as [|x|m]; try discriminate. unfold attributes. rewrite (sub_get _ _ _ A1), (ints_ok _ _ L). split; [exact Lf|reflexivity].
    + apply (onb_src _ _ _ Cc). split; [reflexivity|]. intros f Hf Lf. discriminate.
  - unfold outfluxTerm in Cq. destruct (contains bcs "outflux"); [|injection Cq as <-; apply all_nil]. step Cq bc Sc.
    destruct (isArray bc); [step Cq l L; apply (onb_src _ _ _ Cq I)|]. destruct (isObject bc); [|apply (onb_src _ _ _ Cq I)].
    step Cq a1 A1. step Cq l L. step Cq h Hh. apply (onb_src _ _ _ Cq I).
  - rewrite D in Ce. destruct (discontinuous o) eqn:E; [|injection Ce as <-; apply all_nil]. apply (weak_src 2 bcs "essential"); auto.
  - apply (weak_src 2 bcs "weak-essential"); auto.
Qed.
Lemma magnet_src c : magnetConfig nattr o = Ok c -> all_src o M c.
Proof.
  intros H. unfold magnetConfig in H. step H sd S. step H b B. step H basis A. assert (D := basis_dg o _ _ _ S B A).
  step H t1 T1. step H t2 T2. injection H as <-.
  intros pt [<-|Hpt]; [exact I|]. revert pt Hpt. change (all_src o M (t1 ++ t2)). apply all_app; [exact (interior_src _ _ _ D T1)|].
  destruct (contains o "bcs") eqn:C; [|injection T2 as <-; apply all_nil].
  step T2 bcs Sb. step T2 e Ce. step T2 w Cw. injection T2 as <-. apply all_app.
  - rewrite D in Ce. destruct (discontinuous o) eqn:E; [|injection Ce as <-; apply all_nil]. apply (weak_src 3 bcs "essential"); auto.
  - apply (weak_src 3 bcs "weak-essential"); auto.
Qed.
End Sources.
