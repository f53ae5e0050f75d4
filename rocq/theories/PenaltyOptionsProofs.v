(** Proof support for interior penalty problems given by options. *)
From Coq Require Import Reals Lra Lia List Bool Arith ZArith String FunctionalExtensionality.
From Coquelicot Require Import Coquelicot.
From Verif Require Import Vec Inputs Options EmInteg EmIntegSpec EmIntegProofs Thermal ThermalSpec ThermalProofs DgFace DgFaceSpec DgFaceProofs FlowOptions.
From Verif Require Import ThermalOptions ThermalOptionsSpec ThermalOptionsProofs JacOptions JacOptionsSpec JacOptionsProofs EnergyOptionsSpec EnergyOptionsProofs PenaltyOptionsSpec.
From Verif Require Form Props_DgFace Props_ThermalOptions Props_JacOptions Props_EnergyOptions.
Import ListNotations.
Local Open Scope R_scope.
Local Open Scope string_scope.
Notation zero := (fun _ : nat => 0).

(** the equations of the problem *)
Definition on_outer (p : physics) (o : opts) (f : tface) (u v : vec) : R :=
  match p with Heat => on_boundary o f u v | Magnetism => strong_or_weak 3 o f u v end.
Definition on_inner (p : physics) (o : opts) (f : tface) (u v : vec) : R :=
  if coupled p o f then coupling (mu_of p o) f u v else across o f u v.
Lemma dg_pair p N nattr M o c u v : fits N nattr M -> built p nattr o c -> discontinuous o = true -> one_interface p o M ->
  dot N v (formVector M c u) = total (fun e => conduction e u v) (elems M) + total (fun f => on_outer p o f u v) (outer M) + total (fun f => on_inner p o f u v) (inner M).
Proof.
  intros F B D S. destruct p; cbn [built one_interface] in *.
  - destruct B as [O E]. exact (Props_ThermalOptions.C145_interfaces_partial N nattr M o c u v F O E D S).
  - rewrite (form_pair N nattr M c u v F), (magnet_means N nattr M o u v F c B), D. reflexivity.
Qed.

(** the difference between the form at v and at 0 *)
Lemma conduction_0 e v : conduction e zero v = 0.
Proof.
  unfold conduction. rewrite (rsum_ext _ _ zero); [apply rsum_0|]. intros q _.
  rewrite (rsum_ext (el_dim e) (fun k => egrad e q zero k * egrad e q v k) zero); [rewrite rsum_0; ring|]. intros k _.
  unfold egrad at 1. rewrite (rsum_ext _ _ zero) by (intros; ring). rewrite rsum_0. unfold Rdiv. ring.
Qed.
Lemma T1_0 F o q : T1 F o zero q = 0. Proof. unfold T1. rewrite (rsum_ext _ _ zero) by (intros; ring). apply rsum_0. Qed.
Lemma T2_0 F o q : T2 F o zero q = 0. Proof. unfold T2. rewrite (rsum_ext _ _ zero) by (intros; ring). apply rsum_0. Qed.
Lemma exchange_diff g f v : exchange g f v v - exchange g f zero v = integral (tf_th f) (tf_XT f) (vec_order (tf_th f) g) (fun q =>
  let a := T1 (tf_th f) (vec_order (tf_th f) g) (local f v) q in let b := T2 (tf_th f) (vec_order (tf_th f) g) (local f v) q in
  match g with Contact _ h _ => h * ((a - b) * (a - b)) | InternalConvection _ h _ _ => h * (a * a + b * b) | ConvectionBC h _ _ => h * (a * a) | OutfluxBC _ _ => 0 end).
Proof.
  unfold exchange. cbv zeta. rewrite integral_minus. apply integral_ext. intros q _. change (local f zero) with zero. rewrite T1_0, T2_0.
  destruct g; cbn [law1 law2]; ring.
Qed.
Lemma integral_scal F X o c a : integral F X o (fun q => c * a q) = c * integral F X o a.
Proof. unfold integral. rewrite <- rsum_scal. apply rsum_ext. intros; ring. Qed.
Lemma prescribed_diff mu f v : linear_material (tf_s1 f) -> 0 < mu ->
  (forall r q, (q < np (tf_dg f) r)%nat -> 0 <= wt (tf_dg f) r q /\ 0 < We (tf_s1 f) r q (tf_X1 f)) -> (forall x s, 0 <= nu (tf_s1 f) x s) ->
  mu / 2 * face_square f v - 2 / mu * one_sided f v <= prescribed mu f v v - prescribed mu f zero v.
Proof.
  intros L Hm W K. unfold prescribed, face_square, one_sided. cbv zeta. change (local f zero) with zero. set (r := bdr_order (tf_dg f) (tf_s1 f)).
  rewrite <- !Props_ThermalOptions.over_scal. unfold over_face. rewrite !Rmult_1_l, <- !rsum_minus. apply rsum_le. intros q Hq. destruct (W r q Hq) as [P W1].
  destruct (Props_DgFace.zero_side (tf_dg f) r q (tf_s1 f) (tf_X1 f) (tf_XF f)) as [V0 S0].
  assert (B := Props_DgFace.side_bound (tf_dg f) r q (tf_s1 f) (tf_X1 f) (local f v) (tf_XF f) (mu / 2) (value r q (tf_s1 f) (local f v)) ltac:(lra) W1 (K (eip (tf_s1 f) r q) _)).
  assert (M0 : material (tf_dg f) r q (tf_s1 f) (tf_X1 f) zero = material (tf_dg f) r q (tf_s1 f) (tf_X1 f) (local f v)) by apply L.
  unfold weak_dirichlet. cbv zeta. rewrite M0, V0, S0. replace (/ (mu / 2)) with (2 / mu) in B by (field; lra).
  set (m := material _ _ _ _ _ (local f v)) in *. set (s := slope _ _ _ _ _ (local f v) _) in *. set (x := value _ _ _ (local f v)) in *. set (a := area2 _ _ _ _ / We _ _ _ _) in *. set (e := point_energy _ _ _ _ _ _) in *.
  rewrite <- !Rmult_minus_distr_l. apply Rle_trans with (wt (tf_dg f) r q * (mu / 2 * (m * a * (x * x)) - 2 / mu * e)); [right; ring|].
  eapply Rle_trans; [apply Rmult_le_compat_l; [exact P|]|right].
  - apply Rle_trans with (mu / 2 * (m * a * (x * x)) + m * (mu / 2 * a * (x * x) - 2 * s * x)); [lra|].
    apply Rle_refl.
  - field.
Qed.
Lemma coupling_diff mu f v : linear_material (tf_s1 f) -> linear_material (tf_s2 f) -> 0 < mu ->
  (forall r q, (q < np (tf_dg f) r)%nat -> 0 <= wt (tf_dg f) r q /\ 0 < We (tf_s1 f) r q (tf_X1 f) /\ 0 < We (tf_s2 f) r q (tf_X2 f)) ->
  (forall x s, 0 <= nu (tf_s1 f) x s /\ 0 <= nu (tf_s2 f) x s) ->
  mu / 2 * face_jump f v - / mu * two_sided f v <= coupling mu f v v - coupling mu f zero v.
Proof.
  intros L1 L2 Hm W K. unfold coupling, face_jump, two_sided, jump. cbv zeta. change (local f zero) with zero. set (r := int_order (tf_s1 f) (tf_s2 f)).
  rewrite <- !Props_ThermalOptions.over_scal. unfold over_face. rewrite !Rmult_1_l, <- !rsum_minus. apply rsum_le. intros q Hq. destruct (W r q Hq) as (P & W1 & W2).
  destruct (Props_DgFace.zero_side (tf_dg f) r q (tf_s1 f) (tf_X1 f) (tf_XF f)) as [V0 S0]. destruct (Props_DgFace.zero_side (tf_dg f) r q (tf_s2 f) (tf_X2 f) (tf_XF f)) as [V1 S1].
  set (J := value r q (tf_s1 f) (local f v) - value r q (tf_s2 f) (lower (tf_s1 f) (local f v))).
  assert (B1 := Props_DgFace.side_bound (tf_dg f) r q (tf_s1 f) (tf_X1 f) (local f v) (tf_XF f) (mu / 2) J ltac:(lra) W1 (proj1 (K (eip (tf_s1 f) r q) _))).
  assert (B2 := Props_DgFace.side_bound (tf_dg f) r q (tf_s2 f) (tf_X2 f) (lower (tf_s1 f) (local f v)) (tf_XF f) (mu / 2) J ltac:(lra) W2 (proj2 (K (eip (tf_s2 f) r q) _))).
  unfold interior_penalty. cbv zeta. change (lower (tf_s1 f) zero) with zero. rewrite V0, V1, S0, S1. replace (/ (mu / 2)) with (2 * / mu) in B1, B2 by (field; lra). fold J.
  set (m1 := material _ _ _ (tf_s1 f) _ (local f v)) in *. set (m2 := material _ _ _ (tf_s2 f) _ (lower _ _)) in *.
  set (s1 := slope _ _ _ (tf_s1 f) _ (local f v) _) in *. set (s2 := slope _ _ _ (tf_s2 f) _ (lower _ (local f v)) _) in *. set (a1 := _ / We (tf_s1 f) _ _ _) in *. set (a2 := _ / We (tf_s2 f) _ _ _) in *.
  set (e1 := point_energy _ (tf_s1 f) _ _ _ _) in *. set (e2 := point_energy _ (tf_s2 f) _ _ _ _) in *.
  rewrite <- !Rmult_minus_distr_l. apply Rle_trans with (wt (tf_dg f) r q * (mu / 2 * ((m1 * a1 + m2 * a2) / 2 * (J * J)) - / mu * (e1 + e2))); [right; ring|].
  eapply Rle_trans; [apply Rmult_le_compat_l; [exact P|]|right].
  - apply Rle_trans with (mu / 2 * ((m1 * a1 + m2 * a2) / 2 * (J * J)) + / 2 * (m1 * (mu / 2 * a1 * (J * J) - 2 * s1 * J) + m2 * (mu / 2 * a2 * (J * J) - 2 * s2 * J))); [|apply Rle_refl]. lra.
  - unfold Rdiv. field.
Qed.

Section Problem.
Variables (p : physics) (N nattr : nat) (M : tmesh) (o : opts) (c : config).
Hypotheses (F : fits N nattr M) (B : built p nattr o c) (D : discontinuous o = true) (S : one_interface p o M) (L : linear_materials M) (Ps : passive o M) (Hm : 0 < mu_of p o).
Lemma outer_diff f v : In f (outer M) -> mu_of p o / 2 * (INR (held 2 o f) * face_square f v) - INR (held 2 o f) * (2 / mu_of p o * one_sided f v) +
    match p with Heat => to_fluid o f v | Magnetism => 0 end <= on_outer p o f v v - on_outer p o f zero v.
Proof.
  intros Hf. destruct Ps as (_ & P2 & P3 & _). assert (Hi : In f (inner M ++ outer M)) by (apply in_or_app; now right). destruct (P2 f Hi) as (W & K & T).
  assert (Pd := prescribed_diff (mu_of p o) f v (proj1 (proj2 L f Hi)) Hm (fun r q Hq => let H := W r q Hq in conj (proj1 H) (proj1 (proj2 H))) (fun x s => proj1 (K x s))).
  assert (Sw : forall k u w, mu_of p o = penalty_of k o -> strong_or_weak k o f u w = INR (held 2 o f) * prescribed (mu_of p o) f u w).
  { intros k u w E. unfold strong_or_weak. cbv zeta. rewrite <- E. apply (Props_ThermalOptions.held_sum 2). }
  assert (Hp := pos_INR (held 2 o f)). assert (Hd := Rmult_le_compat_l _ _ _ Hp Pd). destruct p; cbn [on_outer].
  - unfold on_boundary. cbv zeta. rewrite !(Sw 2%nat) by reflexivity. unfold to_fluid. cbv zeta.
    assert (E1 := exchange_diff (ConvectionBC (num (get (get o "bcs") "convection") "h" 1) (num (get (get o "bcs") "convection") "fluid_temp" 1) 1) f v).
    assert (E2 := exchange_diff (OutfluxBC (num (get (get o "bcs") "outflux") "flux" 1) 1) f v). cbv zeta in E1, E2. cbn [vec_order] in E1, E2.
    rewrite integral_scal in E1. unfold integral at 1 in E2. rewrite (rsum_ext _ _ zero) in E2 by (intros; ring). rewrite rsum_0 in E2.
    destruct (lists (attributes (get (get o "bcs") "convection")) f), (lists (attributes (get (get o "bcs") "outflux")) f); cbn [when]; lra.
  - rewrite !(Sw 3%nat) by reflexivity. lra.
Qed.
Lemma across_diff f v : across o f v v - across o f zero v = through_interface o f v.
Proof.
  unfold across, through_interface. cbv zeta.
  assert (Sub : forall (g h k : string * opts -> R) l, (forall x, In x l -> g x - h x = k x) -> ThermalSpec.lsum g l - ThermalSpec.lsum h l = ThermalSpec.lsum k l).
  { intros g h k l. induction l as [|x l IH]; intros H; cbn; [ring|]. rewrite <- (H x) by (now left). rewrite <- IH by (intros; apply H; now right). ring. }
  match goal with |- ?a + ?b - (?c + ?d) = _ => replace (a + b - (c + d)) with ((a - c) + (b - d)) by ring end. f_equal; apply Sub; intros x _.
  - rewrite exchange_diff. cbv zeta. rewrite integral_scal. reflexivity.
  - rewrite exchange_diff. cbv zeta. rewrite integral_scal. reflexivity.
Qed.
Lemma inner_diff f v : In f (inner M) -> mu_of p o / 2 * (if coupled p o f then face_jump f v else 0) - (if coupled p o f then / mu_of p o * two_sided f v else 0) +
    (if coupled p o f then 0 else through_interface o f v) <= on_inner p o f v v - on_inner p o f zero v.
Proof.
  intros Hf. destruct Ps as (_ & P2 & _). assert (Hi : In f (inner M ++ outer M)) by (apply in_or_app; now left). destruct (P2 f Hi) as (W & K & T).
  unfold on_inner. destruct (coupled p o f).
  - assert (H := coupling_diff (mu_of p o) f v (proj1 (proj2 L f Hi)) (proj2 (proj2 L f Hi)) Hm W K). lra.
  - rewrite across_diff. lra.
Qed.
Lemma sums_minus {A} (f g : A -> R) l : total f l - total g l = total (fun a => f a - g a) l.
Proof. induction l as [|a l IH]; cbn; [ring|]. rewrite <- IH. ring. Qed.
Lemma coercive theta v : penalised theta p o M ->
  theta * dissipation M v + mu_of p o / 2 * jumps p o M v + transfers p o M v <= dot N v (formVector M c v) - dot N v (formVector M c zero).
Proof.
  intros Pe. rewrite !(dg_pair p N nattr M o c _ v F B D S). specialize (Pe v).
  match goal with |- _ <= ?a + ?b + ?d - (?a' + ?b' + ?d') => replace (a + b + d - (a' + b' + d')) with ((a - a') + (b - b') + (d - d')) by ring end.
  rewrite (sums_ext (fun e => conduction e zero v) (fun _ => 0)) by (intros; apply conduction_0). rewrite (sums_0 (elems M)). fold (dissipation M v). rewrite Rminus_0_r.
  rewrite (sums_minus (fun f => on_outer p o f v v)), (sums_minus (fun f => on_inner p o f v v)).
  assert (B1 := Props_ThermalOptions.sums_le _ _ (outer M) (fun f Hf => outer_diff f v Hf)). assert (B2 := Props_ThermalOptions.sums_le _ _ (inner M) (fun f Hf => inner_diff f v Hf)).
  rewrite sums_plus, <- sums_minus, sums_scal in B1. rewrite sums_plus, <- sums_minus, sums_scal in B2. unfold jumps.
  assert (T : transfers p o M v = total (fun f => match p with Heat => to_fluid o f v | Magnetism => 0 end) (outer M) + total (fun f => if coupled p o f then 0 else through_interface o f v) (inner M)).
  { unfold transfers. destruct p; [reflexivity|]. cbn [coupled]. rewrite (sums_0 (outer M)), (sums_0 (inner M)). ring. }
  rewrite T. lra.
Qed.
Lemma dissipation_pos v : 0 <= dissipation M v.
Proof.
  apply Props_JacOptions.total_nonneg. intros e He. apply rsum_nonneg. intros q Hq. destruct F as (_ & HW & _), Ps as (P1 & _). destruct (P1 e q He Hq) as [Pw Nu].
  apply Rmult_le_pos; [apply Rmult_le_pos; [exact Pw|left; now apply HW]|]. apply Rmult_le_pos; [apply Nu|]. apply rsum_nonneg. intros; apply Rle_0_sqr.
Qed.
Lemma over_pos G r h : (forall q, (q < np G r)%nat -> 0 <= wt G r q /\ 0 <= h q) -> 0 <= over_face G 1 r h.
Proof. intros H. unfold over_face. rewrite Rmult_1_l. apply rsum_nonneg. intros q Hq. destruct (H q Hq). now apply Rmult_le_pos. Qed.
Lemma area_pos G r q XF : 0 <= area2 G r q XF. Proof. apply rsum_nonneg. intros; apply Rle_0_sqr. Qed.
Lemma jumps_pos v : 0 <= jumps p o M v.
Proof.
  destruct Ps as (_ & P2 & _). apply Rplus_le_le_0_compat; apply Props_JacOptions.total_nonneg; intros f Hf.
  - destruct (P2 f ltac:(apply in_or_app; now right)) as (W & K & _). apply Rmult_le_pos; [apply pos_INR|]. apply over_pos. intros q Hq. destruct (W _ q Hq) as (P & W1 & _). split; [exact P|].
    apply Rmult_le_pos; [|apply Rle_0_sqr]. apply Rmult_le_pos; [apply K|]. apply Rmult_le_pos; [apply area_pos|left; now apply Rinv_0_lt_compat].
  - destruct (coupled p o f); [|lra]. destruct (P2 f ltac:(apply in_or_app; now left)) as (W & K & _). apply over_pos. intros q Hq. destruct (W _ q Hq) as (P & W1 & W2). split; [exact P|].
    apply Rmult_le_pos; [|apply Rle_0_sqr]. apply Rmult_le_pos; [|lra].
    apply Rplus_le_le_0_compat; (apply Rmult_le_pos; [apply K|apply Rmult_le_pos; [apply area_pos|left; now apply Rinv_0_lt_compat]]).
Qed.
Lemma transfers_pos v : 0 <= transfers p o M v.
Proof.
  clear B S Hm. destruct Ps as (_ & P2 & P3 & P4). unfold transfers. destruct p; [|lra]. apply Rplus_le_le_0_compat; apply Props_JacOptions.total_nonneg; intros f Hf.
  - destruct (P2 f ltac:(apply in_or_app; now right)) as (_ & _ & T). unfold to_fluid. cbv zeta. destruct (lists _ f) eqn:E; cbn [when]; [|lra]. apply Rmult_le_pos; [exact (P3 f Hf E)|].
    apply integral_nonneg; [apply T|]. intros; apply Rle_0_sqr.
  - destruct (coupled Heat o f); [lra|]. destruct (P2 f ltac:(apply in_or_app; now left)) as (_ & _ & T). unfold through_interface. cbv zeta.
    apply Rplus_le_le_0_compat; apply Props_ThermalOptions.tsum_pos; intros x Hx; apply filter_In in Hx; destruct Hx as [Hx _]; (apply Rmult_le_pos; [apply P4, in_or_app; tauto|]);
      (apply integral_nonneg; [apply T|]); intros q; [apply Rle_0_sqr|]. apply Rplus_le_le_0_compat; apply Rle_0_sqr.
Qed.
End Problem.
