(** C145: the equations a set of thermal options stands for. *)
From Coq Require Import Reals List String Bool ZArith Lra Lia.
From Coquelicot Require Import Coquelicot.
From Verif Require Import Vec Inputs Options EmInteg Thermal ThermalSpec ThermalProofs DgFace DgFaceSpec DgFaceProofs FlowOptions Props_DgFace.
From Verif Require Import ThermalOptionsSpec ThermalOptions ThermalOptionsProofs.
Import ListNotations.
Local Open Scope R_scope.
Local Open Scope string_scope.

(** C145: options the constructor accepts stand for these equations, tested with v: conduction in the elements; on each
    boundary face what the conditions listing its attribute say, with their defaults; on each inner face the coupling of a
    discontinuous space, once less for every interface the face belongs to, and the interfaces' own laws. *)
Theorem C145_equations : forall N nattr M o c u v, fits N nattr M -> one_of_each o -> thermalConfig nattr o = Ok c ->
  dot N v (formVector M c u) =
    total (fun e => conduction e u v) (elems M) + total (fun f => on_boundary o f u v) (outer M) +
    total (fun f => (when (discontinuous o) 1 - INR (separations o f)) * coupling (penalty_of 2 o) f u v + across o f u v) (inner M).
Proof. intros N nattr M o c u v F O E. rewrite (form_pair N nattr M c u v F). exact (thermal_means N nattr M o u v F c O E). Qed.
Print Assumptions C145_equations.

(** C145: an interface separates the two bodies: on a discontinuous space, a face that belongs to one interface carries the
    interface's law in place of the coupling. *)
Theorem C145_interfaces_partial : forall N nattr M o c u v, fits N nattr M -> one_of_each o -> thermalConfig nattr o = Ok c ->
  discontinuous o = true -> (forall f, In f (inner M) -> (separations o f <= 1)%nat) ->
  dot N v (formVector M c u) =
    total (fun e => conduction e u v) (elems M) + total (fun f => on_boundary o f u v) (outer M) +
    total (fun f => if (separations o f =? 0)%nat then coupling (penalty_of 2 o) f u v else across o f u v) (inner M).
Proof.
  intros N nattr M o c u v F O E D S. rewrite (C145_equations N nattr M o c u v F O E). rewrite D. cbn [when]. f_equal. apply sums_ext. intros f Hf.
  destruct (separations o f =? 0)%nat eqn:Z.
  - apply Nat.eqb_eq in Z. rewrite Z. cbn [INR]. unfold separations in Z. unfold across. destruct (contacts o f) as [|a l]; [|cbn in Z; lia]. destruct (channels o f) as [|b l]; [|cbn in Z; lia]. cbn. ring.
  - apply Nat.eqb_neq in Z. assert (E1 : separations o f = 1%nat) by (specialize (S f Hf); lia). rewrite E1. cbn [INR]. ring.
Qed.
Print Assumptions C145_interfaces_partial.

(** C145: heat balance.  The residual's entries sum to the heat leaving through the boundary and into the channels, so in a
    steady state that is the heat generated. *)
Lemma constant f : local f (fun _ => 1) = fun _ => 1. Proof. reflexivity. Qed.
Lemma exchange_1 g f u : unity (tf_th f) -> exchange g f u (fun _ => 1) = exchanged g f u.
Proof.
  intros U. unfold exchange, exchanged. cbv zeta. apply integral_ext. intros q _. rewrite constant. unfold T1 at 1, T2 at 2. destruct (U (vec_order (tf_th f) g) q) as [U1 U2].
  rewrite (rsum_ext (n1 (tf_th f)) _ (sh1 (tf_th f) (vec_order (tf_th f) g) q)) by (intros; ring).
  rewrite (rsum_ext (n2 (tf_th f)) (fun i => 1 * _) (sh2 (tf_th f) (vec_order (tf_th f) g) q)) by (intros; ring). rewrite U1, U2. ring.
Qed.
Lemma contact_no_heat n h a f u : exchanged (Contact n h a) f u = 0.
Proof. unfold exchanged, integral. rewrite (rsum_ext _ _ (fun _ => 0)); [apply rsum_0|]. intros q _. cbn. ring. Qed.
Lemma coupling_1 mu f u : partition (tf_s1 f) -> partition (tf_s2 f) -> coupling mu f u (fun _ => 1) = 0.
Proof.
  intros P1 P2. unfold coupling. rewrite constant. unfold over_face. rewrite (rsum_ext _ _ (fun _ => 0)); [rewrite rsum_0; ring|]. intros q _.
  unfold interior_penalty. change (lower (tf_s1 f) (fun _ => 1)) with (fun _ : nat => 1).
  destruct (one_side (tf_dg f) (int_order (tf_s1 f) (tf_s2 f)) q (tf_s1 f) (tf_X1 f) (tf_XF f) P1) as [-> ->].
  destruct (one_side (tf_dg f) (int_order (tf_s1 f) (tf_s2 f)) q (tf_s2 f) (tf_X2 f) (tf_XF f) P2) as [-> ->]. unfold Rdiv. ring.
Qed.
Lemma prescribed_1 mu f u : partition (tf_s1 f) -> prescribed mu f u (fun _ => 1) = prescribed_heat mu f u.
Proof.
  intros P. unfold prescribed, prescribed_heat. cbv zeta. rewrite constant. apply over_ext. intros q _. unfold weak_dirichlet.
  destruct (one_side (tf_dg f) (bdr_order (tf_dg f) (tf_s1 f)) q (tf_s1 f) (tf_X1 f) (tf_XF f) P) as [-> ->]. unfold Rdiv. ring.
Qed.
Lemma conduction_1 e u : (forall q k, rsum (el_n e) (fun i => el_C e q i k) = 0) -> conduction e u (fun _ => 1) = 0.
Proof.
  intros C. unfold conduction. rewrite (rsum_ext _ _ (fun _ => 0)); [apply rsum_0|]. intros q _. rewrite (rsum_ext (el_dim e) (fun k => _ * egrad e q (fun _ => 1) k) (fun _ => 0)); [rewrite rsum_0; ring|].
  intros k _. unfold egrad at 2. rewrite (rsum_ext _ _ (fun i => el_C e q i k)) by (intros; ring). rewrite C. unfold Rdiv. ring.
Qed.
Lemma held_sum p o f x : when (discontinuous o && lists (ints (get (get o "bcs") "essential")) f) x + when (lists (ints (get (get o "bcs") "weak-essential")) f) x = INR (held p o f) * x.
Proof. unfold held. destruct (discontinuous o && _); destruct (lists _ f); cbn; ring. Qed.
Lemma when_ext b x y : x = y -> when b x = when b y. Proof. now intros ->. Qed.
Lemma tsum_ext {A} (f g : A -> R) l : (forall a, In a l -> f a = g a) -> ThermalSpec.lsum f l = ThermalSpec.lsum g l.
Proof. induction l as [|a r IH]; intros H; cbn; [reflexivity|]. rewrite H by (now left). rewrite IH; [reflexivity|]. intros; apply H; now right. Qed.
Theorem C145_heat_balance : forall N nattr M o c u load, fits N nattr M -> one_of_each o -> complete M -> thermalConfig nattr o = Ok c ->
  rsum N (formVector M c u) = total (fun f => leaving o f u) (outer M) + total (fun f => to_channels o f u) (inner M) /\
  ((forall d, (d < N)%nat -> formVector M c u d - load d = 0) ->
     total (fun f => leaving o f u) (outer M) + total (fun f => to_channels o f u) (inner M) = rsum N load).
Proof.
  intros N nattr M o c u load F O [C1 C2] E.
  assert (A : rsum N (formVector M c u) = total (fun f => leaving o f u) (outer M) + total (fun f => to_channels o f u) (inner M)).
  { assert (A0 : rsum N (formVector M c u) = dot N (fun _ => 1) (formVector M c u)) by (apply rsum_ext; intros; ring).
    rewrite A0, (C145_equations N nattr M o c u _ F O E). rewrite (sums_ext (fun e => conduction e u (fun _ => 1)) (fun _ => 0)) by (intros e He; apply conduction_1; intros; now apply C1).
    rewrite sums_0, Rplus_0_l. f_equal; apply sums_ext; intros f Hf.
    - destruct (C2 f ltac:(apply in_or_app; now right)) as (P1 & P2 & U). unfold on_boundary, leaving, strong_or_weak. cbv zeta. rewrite !exchange_1 by assumption.
      rewrite prescribed_1 by assumption. rewrite (held_sum 2). reflexivity.
    - destruct (C2 f ltac:(apply in_or_app; now left)) as (P1 & P2 & U). rewrite coupling_1 by assumption. unfold across, to_channels.
      rewrite (tsum_ext (fun x => exchange (Contact _ _ _) f u _) (fun _ => 0)) by (intros; rewrite exchange_1 by assumption; apply contact_no_heat).
      rewrite (tsum_ext (fun x => exchange (InternalConvection _ _ _ _) f u _) (fun x => exchanged (InternalConvection (fst x) (num (snd x) "h" 0) (num (snd x) "fluid_temp" 0) 1) f u)) by (intros; now rewrite exchange_1).
      assert (Z : ThermalSpec.lsum (fun _ : string * opts => 0) (contacts o f) = 0) by (induction (contacts o f) as [|a l IH]; cbn; [reflexivity|rewrite IH; ring]). rewrite Z. ring. }
  split; [exact A|]. intros H. rewrite <- A. apply rsum_ext. intros d Hd. specialize (H d Hd). lra.
Qed.
Print Assumptions C145_heat_balance.

(** C145: with nothing driving it heat does not appear: u . R is at least the conduction less 1 / mu of the energy at the
    points of the faces that are coupled or held. *)
Lemma exchange_pos g f u : unity (tf_th f) \/ True -> (forall o q, (q < npts (tf_th f) o)%nat -> 0 <= wts (tf_th f) o q * Wf (tf_th f) o q (tf_XT f)) ->
  (match g with Contact _ h _ => 0 <= h | InternalConvection _ h t _ | ConvectionBC h t _ => 0 <= h /\ t = 0 | OutfluxBC q _ => q = 0 end) -> 0 <= exchange g f u u.
Proof.
  intros _ W H. unfold exchange. cbv zeta. apply integral_nonneg; [apply W|]. intros q. set (a := T1 _ _ _ _). set (b := T2 _ _ _ _).
  destruct g as [n h al|n h t al|h t al|fl al]; cbn [law1 law2].
  - replace (a * (h * (a - b)) + b * (h * (b - a))) with (h * ((a - b) * (a - b))) by ring. apply Rmult_le_pos; [exact H|apply Rle_0_sqr].
  - destruct H as [H ->]. replace (a * (h * (a - 0)) + b * (h * (b - 0))) with (h * (a * a + b * b)) by ring. apply Rmult_le_pos; [exact H|]. apply Rplus_le_le_0_compat; apply Rle_0_sqr.
  - destruct H as [H ->]. replace (a * (h * (a - 0)) + b * 0) with (h * (a * a)) by ring. apply Rmult_le_pos; [exact H|apply Rle_0_sqr].
  - rewrite H. right. ring.
Qed.
Lemma sums_le {A} (f g : A -> R) l : (forall a, In a l -> f a <= g a) -> total f l <= total g l.
Proof. induction l as [|a r IH]; intros H; cbn; [lra|]. assert (B := H a (or_introl eq_refl)). assert (B2 : total f r <= total g r) by (apply IH; intros; apply H; now right). lra. Qed.
Lemma tsum_pos {A} (f : A -> R) l : (forall a, In a l -> 0 <= f a) -> 0 <= ThermalSpec.lsum f l.
Proof. induction l as [|a r IH]; intros H; cbn; [lra|]. assert (B := H a (or_introl eq_refl)). assert (B2 : 0 <= ThermalSpec.lsum f r) by (apply IH; intros; apply H; now right). lra. Qed.
Lemma over_scal F o c f : over_face F 1 o (fun q => c * f q) = c * over_face F 1 o f.
Proof. unfold over_face. rewrite !Rmult_1_l. rewrite <- rsum_scal. apply rsum_ext; intros; ring. Qed.
Lemma when_pos b x : 0 <= x -> 0 <= when b x. Proof. destruct b; cbn; lra. Qed.
Lemma prescribed_ge f mu u : 0 < mu -> (forall o q, (q < np (tf_dg f) o)%nat -> 0 <= wt (tf_dg f) o q /\ 0 < We (tf_s1 f) o q (tf_X1 f) /\ 0 < We (tf_s2 f) o q (tf_X2 f)) ->
  (forall p x, 0 <= nu (tf_s1 f) p x /\ 0 <= nu (tf_s2 f) p x) -> (forall o q, tf_g f o q = 0) -> - / mu * one_sided f u <= prescribed mu f u u.
Proof.
  intros Hm W K G. destruct (C144_stability (tf_dg f) (tf_s1 f) (tf_s2 f) mu 1 (tf_XF f) (tf_X1 f) (tf_X2 f) (local f u) Rle_0_1 Hm W K) as [B _]. rewrite bdr_weak in B.
  unfold one_sided. rewrite <- over_scal. eapply Rle_trans; [exact B|]. right. apply over_ext. intros q _. unfold weak_dirichlet. rewrite G. reflexivity.
Qed.
Lemma coupling_ge f mu u : 0 < mu -> (forall o q, (q < np (tf_dg f) o)%nat -> 0 <= wt (tf_dg f) o q /\ 0 < We (tf_s1 f) o q (tf_X1 f) /\ 0 < We (tf_s2 f) o q (tf_X2 f)) ->
  (forall p x, 0 <= nu (tf_s1 f) p x /\ 0 <= nu (tf_s2 f) p x) -> - / (2 * mu) * two_sided f u <= coupling mu f u u.
Proof.
  intros Hm W K. destruct (C144_stability (tf_dg f) (tf_s1 f) (tf_s2 f) mu 1 (tf_XF f) (tf_X1 f) (tf_X2 f) (local f u) Rle_0_1 Hm W K) as [_ B]. rewrite int_weak in B.
  unfold two_sided. rewrite <- over_scal. exact B.
Qed.
Theorem C145_stability : forall N nattr M o c u, fits N nattr M -> one_of_each o -> thermalConfig nattr o = Ok c ->
  discontinuous o = true -> (forall f, In f (inner M) -> (separations o f <= 1)%nat) -> undriven o -> positive_mesh M -> 0 < penalty_of 2 o ->
  total (fun e => conduction e u u) (elems M) - total (fun f => INR (held 2 o f) * (/ penalty_of 2 o * one_sided f u)) (outer M) -
    total (fun f => if (separations o f =? 0)%nat then / (2 * penalty_of 2 o) * two_sided f u else 0) (inner M) <= dot N u (formVector M c u).
Proof.
  intros N nattr M o c u F O E D S (U1 & U2 & U4 & U5) P Hm. rewrite (C145_interfaces_partial N nattr M o c u u F O E D S). set (mu := penalty_of 2 o) in *.
  assert (B1 : - total (fun f => INR (held 2 o f) * (/ mu * one_sided f u)) (outer M) <= total (fun f => on_boundary o f u u) (outer M)).
  { replace (- total (fun f => INR (held 2 o f) * (/ mu * one_sided f u)) (outer M)) with (total (fun f => (-1) * (INR (held 2 o f) * (/ mu * one_sided f u))) (outer M)) by (rewrite sums_scal; ring).
    apply sums_le. intros f Hf. destruct (P f ltac:(apply in_or_app; now right)) as (W & K & G & T). unfold on_boundary, strong_or_weak. cbv zeta. fold mu. rewrite (held_sum 2).
    assert (X1 : 0 <= when (lists (attributes (get (get o "bcs") "convection")) f) (exchange (ConvectionBC (num (get (get o "bcs") "convection") "h" 1) (num (get (get o "bcs") "convection") "fluid_temp" 1) 1) f u u))
      by (destruct U1 as [-> |U1]; [cbn; lra|exact (when_pos _ _ (exchange_pos (ConvectionBC _ _ 1) f u (or_intror I) T U1))]).
    assert (X2 : 0 <= when (lists (attributes (get (get o "bcs") "outflux")) f) (exchange (OutfluxBC (num (get (get o "bcs") "outflux") "flux" 1) 1) f u u))
      by (destruct U2 as [-> |U2]; [cbn; lra|exact (when_pos _ _ (exchange_pos (OutfluxBC _ 1) f u (or_intror I) T U2))]).
    assert (X3 := prescribed_ge f mu u Hm W K G). assert (X4 := pos_INR (held 2 o f)). nra. }
  assert (B2 : - total (fun f => if (separations o f =? 0)%nat then / (2 * mu) * two_sided f u else 0) (inner M) <= total (fun f => if (separations o f =? 0)%nat then coupling mu f u u else across o f u u) (inner M)).
  { replace (- total (fun f => if (separations o f =? 0)%nat then / (2 * mu) * two_sided f u else 0) (inner M)) with (total (fun f => (-1) * (if (separations o f =? 0)%nat then / (2 * mu) * two_sided f u else 0)) (inner M)) by (rewrite sums_scal; ring).
    apply sums_le. intros f Hf. destruct (P f ltac:(apply in_or_app; now left)) as (W & K & G & T). destruct (separations o f =? 0)%nat.
    - assert (X := coupling_ge f mu u Hm W K). lra.
    - rewrite Rmult_0_r. unfold across. apply Rplus_le_le_0_compat; apply tsum_pos; intros x Hx; apply filter_In in Hx; destruct Hx as [Hx _].
      + apply exchange_pos; [now right|exact T|]. exact (U4 x Hx).
      + apply exchange_pos; [now right|exact T|]. exact (U5 x Hx). }
  lra.
Qed.
Print Assumptions C145_stability.

(** C145: what is accepted: values that are held are given as a list of attributes (anything else is an exception), every
    attribute listed exists, and every interface states its coefficients. *)
Definition in_range (nattr : nat) (l : list Z) : Prop := forall a, In a l -> (1 <= a <= Z.of_nat nattr)%Z.
Lemma marker_range nattr l m : marker nattr l = Ok m -> in_range nattr l.
Proof.
  unfold marker. intros E a Ha. destruct (Z_le_dec 1 a); destruct (Z_le_dec a (Z.of_nat nattr)); try lia;
    rewrite (BdrArrayProofs.attr_ub l (repeat 0%Z nattr) a Ha) in E by (rewrite repeat_length; lia); discriminate.
Qed.
Lemma boundary_range nattr l t c : onBoundary nattr l t = Ok c -> in_range nattr l.
Proof. unfold onBoundary. intros H. step H m E. eapply marker_range, E. Qed.
Lemma internal_range nattr l t c : onInternal nattr l t = Ok c -> in_range nattr l.
Proof. unfold onInternal. intros H. step H m E. eapply marker_range, E. Qed.
Lemma nil_range nattr : in_range nattr []. Proof. intros a []. Qed.
Lemma convection_range nattr bcs c : convectionTerm nattr bcs = Ok c -> in_range nattr (attributes (get bcs "convection")).
Proof.
  unfold convectionTerm. intros H. destruct (contains bcs "convection") eqn:C; [|rewrite (contains_get _ _ C); apply nil_range].
  step H bc S. rewrite (sub_get _ _ _ S). destruct bc as [|x|m]; [apply nil_range| |].
  - destruct x; try apply nil_range. cbn in H. exact (boundary_range _ _ _ _ H).
  - cbn [isArray isObject] in H. step H a A. step H l L. step H h Hh. step H t Ht. unfold attributes. rewrite (sub_get _ _ _ A), (ints_ok _ _ L). exact (boundary_range _ _ _ _ H).
Qed.
Lemma outflux_range nattr bcs c : outfluxTerm nattr bcs = Ok c -> in_range nattr (attributes (get bcs "outflux")).
Proof.
  unfold outfluxTerm. intros H. destruct (contains bcs "outflux") eqn:C; [|rewrite (contains_get _ _ C); apply nil_range].
  step H bc S. rewrite (sub_get _ _ _ S). destruct bc as [|x|m]; [apply nil_range| |].
  - destruct x; try apply nil_range. cbn in H. exact (boundary_range _ _ _ _ H).
  - cbn [isArray isObject] in H. step H a A. step H l L. step H h Hh. unfold attributes. rewrite (sub_get _ _ _ A), (ints_ok _ _ L). exact (boundary_range _ _ _ _ H).
Qed.
Lemma weak_range p nattr o bcs key c : weakTerm p nattr o bcs key = Ok c -> in_range nattr (ints (get bcs key)) /\ (contains bcs key = true -> exists l, get bcs key = JLeaf (LInts l)).
Proof.
  unfold weakTerm. intros H. destruct (contains bcs key) eqn:C; [|rewrite (contains_get _ _ C); split; [apply nil_range|discriminate]].
  step H e S. rewrite (sub_get _ _ _ S). destruct (isArray e) eqn:A; [|discriminate]. step H l L. step H mu P. split.
  - rewrite (ints_ok _ _ L). exact (boundary_range _ _ _ _ H).
  - intros _. destruct e as [|x|m]; try discriminate. destruct x; try discriminate. now eexists.
Qed.
Lemma forItems_each f l : forall c, forItems f l = Ok c -> forall x, In x l -> exists c', f (fst x) (snd x) = Ok c'.
Proof.
  induction l as [|[k w] r IH]; intros c H x Hx; [easy|]. cbn in H. step H a A. step H b B. destruct Hx as [<-|Hx]; [now exists a|]. exact (IH b eq_refl x Hx).
Qed.
Theorem C145_accepted : forall nattr o c, one_of_each o -> thermalConfig nattr o = Ok c ->
  (forall l, In l (mentioned o) -> in_range nattr l) /\
  (contains (get o "bcs") "weak-essential" = true -> exists l, get (get o "bcs") "weak-essential" = JLeaf (LInts l)) /\
  (discontinuous o = true -> contains (get o "bcs") "essential" = true -> exists l, get (get o "bcs") "essential" = JLeaf (LInts l)) /\
  (forall x, In x (members (get (get o "interfaces") "thermal_contact_resistance")) -> exists r, asReal (get (snd x) "h") = Ok r) /\
  (forall x, In x (members (get (get o "interfaces") "convection")) -> exists r t, asReal (get (snd x) "h") = Ok r /\ asReal (get (snd x) "fluid_temp") = Ok t).
Proof.
  intros nattr o c ND H. unfold thermalConfig in H. step H sd S. step H b B. step H basis A. assert (D := basis_dg o _ _ _ S B A). rewrite D in H.
  step H t1 T1. step H t2 T2. step H t3 T3. clear H T1.
  assert (Bc : (in_range nattr (attributes (get (get o "bcs") "convection")) /\ in_range nattr (attributes (get (get o "bcs") "outflux")) /\ in_range nattr (ints (get (get o "bcs") "weak-essential")) /\
    (discontinuous o = true -> in_range nattr (ints (get (get o "bcs") "essential")))) /\
    (contains (get o "bcs") "weak-essential" = true -> exists l, get (get o "bcs") "weak-essential" = JLeaf (LInts l)) /\
    (discontinuous o = true -> contains (get o "bcs") "essential" = true -> exists l, get (get o "bcs") "essential" = JLeaf (LInts l))).
  { destruct (contains o "bcs") eqn:C.
    - step T2 bcs Sb. step T2 c0 Cc. step T2 q Cq. step T2 e Ce. step T2 w Cw. rewrite (sub_get _ _ _ Sb). destruct (weak_range _ _ _ _ _ _ Cw) as [W1 W2].
      split; [split; [|split; [|split]]|split].
      + exact (convection_range _ _ _ Cc).
      + exact (outflux_range _ _ _ Cq).
      + exact W1.
      + intros Dd. rewrite Dd in Ce. exact (proj1 (weak_range _ _ _ _ _ _ Ce)).
      + exact W2.
      + intros Dd. rewrite Dd in Ce. exact (proj2 (weak_range _ _ _ _ _ _ Ce)).
    - rewrite (contains_get _ _ C). cbn. split; [split; [|split; [|split]]|split]; try discriminate; try (intros; apply nil_range); apply nil_range. }
  assert (Ic : forall kind f, kind = "thermal_contact_resistance" /\ f = contactTerms nattr o \/ kind = "convection" /\ f = internalConvectionTerms nattr o ->
    forall x, In x (members (get (get o "interfaces") kind)) -> exists c', f (fst x) (snd x) = Ok c').
  { intros kind f K x Hx. unfold interfaceTerms in T3. destruct (contains o "interfaces") eqn:C; [|rewrite (contains_get _ _ C) in Hx; destruct Hx].
    step T3 i Si. rewrite (sub_get _ _ _ Si) in Hx. destruct i as [|y|m]; [destruct Hx|destruct Hx|]. cbn [get] in Hx.
    destruct (find kind m) as [w|] eqn:Fk; [|destruct Hx].
    assert (Hin : In (kind, w) (items (JObj m))).
    { clear - Fk. cbn. induction m as [|[k' w'] r IH]; cbn in Fk; [discriminate|]. destruct (String.eqb_spec kind k') as [->|]; [injection Fk as ->; now left|right; auto]. }
    destruct (forItems_each _ _ _ T3 (kind, w) Hin) as (c' & Ec). cbn [fst snd] in Ec. destruct K as [[-> ->]|[-> ->]].
    - cbn [String.eqb] in Ec. change (String.eqb "thermal_contact_resistance" "thermal_contact_resistance") with true in Ec. cbv iota in Ec.
      rewrite (items_members _ _ _ (contact_needs nattr o) Ec) in Ec. exact (forItems_each _ _ _ Ec x Hx).
    - change (String.eqb "convection" "thermal_contact_resistance") with false in Ec. change (String.eqb "convection" "convection") with true in Ec. cbv iota in Ec.
      rewrite (items_members _ _ _ (channel_needs nattr o) Ec) in Ec. exact (forItems_each _ _ _ Ec x Hx). }
  assert (Kc : forall x, In x (members (get (get o "interfaces") "thermal_contact_resistance")) -> in_range nattr (ints (get (snd x) "attrs")) /\ exists r, asReal (get (snd x) "h") = Ok r).
  { intros x Hx. destruct (Ic _ _ (or_introl (conj eq_refl eq_refl)) x Hx) as (c' & Ec). unfold contactTerms in Ec. step Ec a Ea. step Ec l El. step Ec mu Em. step Ec u1 Eu. step Ec h' Eh. step Ec h Ehh.
    rewrite (sub_get _ _ _ Ea), (ints_ok _ _ El), (sub_get _ _ _ Eh). split; [exact (internal_range _ _ _ _ Eu)|now exists h]. }
  assert (Kv : forall x, In x (members (get (get o "interfaces") "convection")) -> in_range nattr (ints (get (snd x) "attrs")) /\ exists r t, asReal (get (snd x) "h") = Ok r /\ asReal (get (snd x) "fluid_temp") = Ok t).
  { intros x Hx. destruct (Ic _ _ (or_intror (conj eq_refl eq_refl)) x Hx) as (c' & Ec). unfold internalConvectionTerms in Ec. step Ec a Ea. step Ec l El. step Ec mu Em. step Ec u1 Eu. step Ec h' Eh. step Ec h Ehh. step Ec t' Et. step Ec t Ett.
    rewrite (sub_get _ _ _ Ea), (ints_ok _ _ El), (sub_get _ _ _ Eh), (sub_get _ _ _ Et). split; [exact (internal_range _ _ _ _ Eu)|now exists h, t]. }
  destruct Bc as ((B1 & B2 & B3 & B4) & B5 & B6). split; [|split; [exact B5|split; [exact B6|split; [intros x Hx; exact (proj2 (Kc x Hx))|intros x Hx; exact (proj2 (Kv x Hx))]]]].
  intros l Hl. unfold mentioned in Hl. cbv zeta in Hl. repeat (apply in_app_or in Hl; destruct Hl as [Hl|Hl]).
  - destruct Hl as [<-|[<-|[<-|[]]]]; assumption.
  - destruct (discontinuous o); [destruct Hl as [<-|[]]; auto|destruct Hl].
  - apply in_map_iff in Hl. destruct Hl as (x & <- & Hx). exact (proj1 (Kc x Hx)).
  - apply in_map_iff in Hl. destruct Hl as (x & <- & Hx). exact (proj1 (Kv x Hx)).
Qed.
Print Assumptions C145_accepted.

(** On continuous elements a contact resistance does nothing: whatever its coefficient, the equations are those without it. *)
Theorem C145_continuous_contact_refuted : forall N nattr M o c u v, fits N nattr M -> one_of_each o -> thermalConfig nattr o = Ok c ->
  discontinuous o = false -> continuous M u -> continuous M v ->
  dot N v (formVector M c u) =
    total (fun e => conduction e u v) (elems M) + total (fun f => on_boundary o f u v) (outer M) +
    total (fun f => ThermalSpec.lsum (fun x => exchange (InternalConvection (fst x) (num (snd x) "h" 0) (num (snd x) "fluid_temp" 0) 1) f u v) (channels o f)) (inner M).
Proof.
  intros N nattr M o c u v F O E D Cu Cv. rewrite (C145_equations N nattr M o c u v F O E). f_equal. apply sums_ext. intros f Hf.
  assert (Z : coupling (penalty_of 2 o) f u v = 0).
  { unfold coupling. unfold over_face. rewrite (rsum_ext _ _ (fun _ => 0)); [rewrite rsum_0; ring|]. intros q _. unfold interior_penalty. cbv zeta.
    rewrite (proj1 (Cu f Hf _ q)), (proj1 (Cv f Hf _ q)). unfold Rdiv. ring. }
  rewrite Z. unfold across. rewrite (tsum_ext (fun x => exchange (Contact _ _ _) f u v) (fun _ => 0)).
  - assert (Y : ThermalSpec.lsum (fun _ : string * opts => 0) (contacts o f) = 0) by (induction (contacts o f) as [|a l IH]; cbn; [reflexivity|rewrite IH; ring]). rewrite Y. ring.
  - intros x _. unfold exchange. cbv zeta. unfold integral. rewrite (rsum_ext _ _ (fun _ => 0)); [apply rsum_0|]. intros q _. cbn [law1 law2].
    rewrite (proj2 (Cu f Hf _ q)), (proj2 (Cv f Hf _ q)). ring.
Qed.
Print Assumptions C145_continuous_contact_refuted.

(** two elements of widths 1 and 2 side by side, as in the examples of C144, joined by face 3; faces 1 and 2 are the ends *)
Definition plain (right : bool) : side := {| nd := 2; sord := 1; pk := true; shp := shp (cell right); dsh := dsh (cell right);
  eip := eip (cell right); nu := fun _ _ => 1; dnu := fun _ _ => 0; snn := 2; IJ := IJ (cell right); We := We (cell right); IJRev := IJRev (cell right); WeRev := WeRev (cell right) |}.
Definition tside (r1 r2 : bool) : Thermal.face := {| n1 := 2; n2 := 2; ord1 := 1; ord2 := 1; ordW := 0; npts := fun _ => 1%nat; wts := fun _ _ => 1;
  sh1 := shp (cell r1); sh2 := shp (cell r2); fdim := 2; Thermal.fnn := 1; Wf := fun _ _ _ => 1; WfRev := fun _ _ _ _ _ _ => 0 |}.
Definition outside (right : bool) : DgFace.face := {| dim := 2; np := fun _ => 1%nat; wt := fun _ _ => 1; fip := fun _ _ _ => 1 / 2; DgFace.fnn := 1;
  nor := fun _ _ _ k => match k with O => if right then 1 else -1 | _ => 0 end; norRev := fun _ _ _ _ _ _ => 0 |}.
Definition mface (a : Z) (dg : DgFace.face) (r1 r2 : bool) (X1 X2 : mat) (g : nat -> nat) : tface :=
  {| tf_attr := a; tf_dg := dg; tf_s1 := plain r1; tf_s2 := plain r2; tf_th := tside r1 r2; tf_XF := fun _ _ => 0; tf_X1 := X1; tf_X2 := X2; tf_XT := fun _ _ => 0;
     tf_g := fun _ _ => 0; tf_glob := g |}.
Definition piece (w : R) (first : nat) : telem := {| el_n := 2; el_dim := 2; el_nq := 1; el_pw := fun _ => 1; el_W := fun _ => w;
  el_C := fun _ i k => match k, i with O, O => -1 | O, _ => 1 | _, _ => 0 end; el_nu := fun _ _ => 1; el_dnu := fun _ _ => 0; el_glob := fun i => (first + i)%nat |}.
Definition rod : tmesh := {| elems := [piece 1 0; piece 2 2]; inner := [mface 3 strip true false (at_nodes 0 1) (at_nodes 1 3) (fun i => i)];
  outer := [mface 1 (outside false) false false (at_nodes 0 1) (at_nodes 0 1) (fun i => (i mod 2)%nat);
            mface 2 (outside true) true true (at_nodes 1 3) (at_nodes 1 3) (fun i => (2 + i mod 2)%nat)] |}.
Lemma rod_fits : fits 4 3 rod /\ complete rod /\ positive_mesh rod.
Proof.
  split; [|split].
  - unfold fits. split; [|split; [|split; [|split; [|split]]]].
    + intros e i [<-|[<-|[]]]; cbn; lia.
    + intros e q [<-|[<-|[]]]; cbn; lra.
    + intros f i [<-|[<-|[<-|[]]]]; cbn [tf_s1 tf_s2 tf_glob mface nd plain]; intros Hi; try lia; assert (Hm := Nat.mod_upper_bound i 2 ltac:(lia)); lia.
    + intros f [<-|[<-|[<-|[]]]]; cbn; split; reflexivity.
    + intros f [<-|[]]; cbn; lia.
    + intros f [<-|[<-|[]]]; cbn; lia.
  - split.
    + intros e q k [<-|[<-|[]]]; destruct k; cbn; ring.
    + assert (P : forall b, partition (plain b)) by (intros b o q; split; [|intros [|a]]; destruct b; cbn; ring).
      assert (U : forall a b, unity (tside a b)) by (intros a b o q; split; destruct a, b; cbn; ring).
      intros f [<-|[<-|[<-|[]]]]; cbn [tf_s1 tf_s2 tf_th mface]; split; [apply P|split; [apply P|apply U]|apply P|split; [apply P|apply U]|apply P|split; [apply P|apply U]].
  - intros f [<-|[<-|[<-|[]]]]; cbn [tf_s1 tf_s2 tf_th tf_dg tf_X1 tf_X2 tf_XT tf_g mface]; (split; [|split; [|split]]);
      intros; cbn; unfold width, at_nodes; cbn; try lra; try (split; [|split]; lra); split; lra.
Qed.
Definition rod_options : opts := JObj [("space-dis", JObj [("basis-type", JLeaf (LStr "DG")); ("degree", JLeaf (LInt 1))]);
  ("bcs", JObj [("convection", JObj [("attrs", JLeaf (LInts [1]%Z)); ("h", JLeaf (LReal 2))]); ("weak-essential", JLeaf (LInts [2]%Z))]);
  ("interfaces", JObj [("thermal_contact_resistance", JObj [("gap", JObj [("attrs", JLeaf (LInts [3]%Z)); ("h", JLeaf (LInt 5))])])])].
Example C145_equations_met : one_of_each rod_options /\ discontinuous rod_options = true /\ penalty_of 2 rod_options = 4 /\
  (forall f, In f (inner rod) -> (separations rod_options f <= 1)%nat) /\
  thermalConfig 3 rod_options = Ok [(OnDomain, Diffusion); (OnInterior, Sipg ((1 + 1) ^ 2) 1); (OnBoundary [1; 0; 0]%Z, Exchange (ConvectionBC 2 1 1));
    (OnBoundary [0; 1; 0]%Z, Weak ((1 + 1) ^ 2)); (OnInternal [0; 0; 1]%Z, Sipg ((1 + 1) ^ 2) (-1)); (OnInternal [0; 0; 1]%Z, Exchange (Contact "gap" 5 1))].
Proof.
  split; [repeat constructor; intros []|]. split; [reflexivity|].
  assert (Pn : forall k, penalty_of k rod_options = (1 + 1) ^ k) by (intros k; unfold penalty_of; cbn; destruct (Rlt_dec (-1) 0); [reflexivity|exfalso; lra]).
  split; [rewrite Pn; ring|]. split; [intros f [<-|[]]; cbn; lia|].
  assert (Pe : penalty 2 rod_options = Ok ((1 + 1) ^ 2)) by (unfold penalty; cbn; destruct (Rlt_dec (-1) 0); [reflexivity|exfalso; lra]).
  unfold thermalConfig, interiorTerm, interfaceTerms, contactTerms, internalConvectionTerms, weakTerm. rewrite Pe. reflexivity.
Qed.
(** in a rod held at 0 on the right, the balance: convection on the left against the held end *)
Example C145_heat_balance_met : rsum 4 (formVector rod (match thermalConfig 3 rod_options with Ok c => c | _ => [] end) (fun i => INR i)) = 7 / 2.
Proof.
  destruct C145_equations_met as (O & _ & _ & _ & E). rewrite E. destruct rod_fits as (F & C & _).
  destruct (C145_heat_balance 4 3 rod rod_options _ (fun i => INR i) (fun _ => 0) F O C E) as [H _]. rewrite H. clear H.
  assert (Pn : penalty_of 2 rod_options = 4) by (unfold penalty_of; cbn; destruct (Rlt_dec (-1) 0); [ring|exfalso; lra]).
  unfold leaving, to_channels. rewrite Pn. cbn. unfold exchanged, prescribed_heat, integral, over_face, material, slope, value, gradient, area2, T1, T2, local. cbn. unfold width, at_nodes. cbn. field.
Qed.

(** a rod that cools to an ambient temperature of 0 through a contact meets the hypotheses of stability *)
Definition cooled : opts := JObj [("space-dis", JObj [("basis-type", JLeaf (LStr "DG")); ("degree", JLeaf (LInt 1))]);
  ("bcs", JObj [("convection", JObj [("attrs", JLeaf (LInts [1]%Z)); ("h", JLeaf (LReal 2)); ("fluid_temp", JLeaf (LInt 0))]); ("essential", JLeaf (LInts [2]%Z))]);
  ("interfaces", JObj [("thermal_contact_resistance", JObj [("gap", JObj [("attrs", JLeaf (LInts [3]%Z)); ("h", JLeaf (LInt 5))])])])].
Example C145_stability_met : one_of_each cooled /\ (exists c, thermalConfig 3 cooled = Ok c) /\ discontinuous cooled = true /\
  (forall f, In f (inner rod) -> (separations cooled f <= 1)%nat) /\ undriven cooled /\ 0 < penalty_of 2 cooled.
Proof.
  assert (Pe : penalty 2 cooled = Ok ((1 + 1) ^ 2)) by (unfold penalty; cbn; destruct (Rlt_dec (-1) 0); [reflexivity|exfalso; lra]).
  split; [repeat constructor; intros []|]. split; [|split; [reflexivity|split; [intros f [<-|[]]; cbn; lia|split]]].
  - eexists. unfold thermalConfig, interiorTerm, interfaceTerms, contactTerms, internalConvectionTerms, weakTerm. rewrite Pe. reflexivity.
  - split; [right; cbn; lra|split; [left; reflexivity|split]]; [intros x [<-|[]]; cbn; lra|intros x []].
  - unfold penalty_of; cbn; destruct (Rlt_dec (-1) 0); [lra|exfalso; lra].
Qed.

(** Naming one face in two interfaces subtracts its coupling twice: with all coefficients positive the face then sends heat
    from cold to hot. *)
Definition doubled : opts := JObj [("space-dis", JObj [("basis-type", JLeaf (LStr "DG")); ("degree", JLeaf (LInt 1))]);
  ("interfaces", JObj [("thermal_contact_resistance", JObj [("gap", JObj [("attrs", JLeaf (LInts [3]%Z)); ("h", JLeaf (LReal (1 / 4)))]);
                                                          ("paste", JObj [("attrs", JLeaf (LInts [3]%Z)); ("h", JLeaf (LReal (1 / 4)))])])])].
Theorem C145_double_interface_refuted : exists c, thermalConfig 3 doubled = Ok c /\ undriven doubled /\
  (let u := fun i : nat => if (i <? 2)%nat then 1 else 0 in dot 4 u (formVector rod c u) < 0).
Proof.
  assert (Pe : penalty 2 doubled = Ok ((1 + 1) ^ 2)) by (unfold penalty; cbn; destruct (Rlt_dec (-1) 0); [reflexivity|exfalso; lra]).
  assert (Pn : penalty_of 2 doubled = 4) by (unfold penalty_of; cbn; destruct (Rlt_dec (-1) 0); [ring|exfalso; lra]).
  assert (O : one_of_each doubled) by (repeat constructor; intros []).
  destruct rod_fits as (F & _).
  assert (E : exists c, thermalConfig 3 doubled = Ok c).
  { eexists. unfold thermalConfig, interiorTerm, interfaceTerms, contactTerms, internalConvectionTerms, weakTerm. rewrite Pe. reflexivity. }
  destruct E as (c & E). exists c. split; [exact E|]. split.
  - split; [left; reflexivity|split; [left; reflexivity|split]].
    + intros x [<-|[<-|[]]]; cbn; lra.
    + intros x [].
  - intros u. rewrite (C145_equations 4 3 rod doubled c u u F O E). rewrite Pn. cbn.
    unfold on_boundary, strong_or_weak, across, exchange, conduction, coupling, over_face, interior_penalty, material, slope, steepness, value, gradient, area2, egrad, integral, T1, T2, lower, local, u. cbn.
    unfold width, at_nodes. cbn.
    match goal with |- ?l < 0 => replace l with (- (5 / 2)) by (field) end. lra.
Qed.
Print Assumptions C145_double_interface_refuted.

(** A convection (or outflux) condition given as anything but a list or an object is accepted and forgotten. *)
Theorem C145_silent_condition_refuted : forall M u v f,
  let o k := JObj [("space-dis", JObj [("basis-type", JLeaf (LStr "H1"))]); ("bcs", JObj [(k, JLeaf (LInt 1))])] in
  (exists c, thermalConfig 3 (o "convection") = Ok c /\ means M c u v = total (fun e => conduction e u v) (elems M) + total (fun f => when (visited [0; 0; 0]%Z f) (face_mean (Exchange (ConvectionBC 1 1 1)) f u v)) (outer M)) /\
  on_boundary (o "convection") f u v = 0 /\ (exists c, thermalConfig 3 (o "outflux") = Ok c) /\ on_boundary (o "outflux") f u v = 0 /\
  (forall k, k = "essential" \/ k = "weak-essential" -> thermalConfig 3 (JObj [("space-dis", JObj [("basis-type", JLeaf (LStr "DG")); ("sipg-penalty", JLeaf (LReal 1))]); ("bcs", JObj [(k, JLeaf (LInt 1))])]) = ThrowMISO).
Proof.
  intros M u v f o. split; [|split; [|split; [|split]]].
  - eexists. split; [reflexivity|]. unfold means, mean. cbn. ring.
  - unfold on_boundary, strong_or_weak. cbn. ring.
  - eexists. reflexivity.
  - unfold on_boundary, strong_or_weak. cbn. ring.
  - intros k [-> | ->]; unfold thermalConfig, interiorTerm, penalty, weakTerm; cbn; destruct (Rlt_dec 1 0); try (exfalso; lra); reflexivity.
Qed.
Print Assumptions C145_silent_condition_refuted.
