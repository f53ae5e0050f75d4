(** Lemmas about Direction.v *)
From Coq Require Import Reals String List Bool ZArith Lra Lia Ratan.
From Verif Require Import Vec Current Direction.
Local Open Scope R_scope.

Definition dot3 (a b : vec) : R := a 0%nat * b 0%nat + a 1%nat * b 1%nat + a 2%nat * b 2%nat.

Lemma norm_r_pos x : x 0%nat <> 0 \/ x 1%nat <> 0 -> 0 < norm_r x.
Proof. intros H. apply sqrt_lt_R0. destruct H as [H|H]; nra. Qed.
Lemma norm_r_sqr x : norm_r x * norm_r x = x 0%nat * x 0%nat + x 1%nat * x 1%nat.
Proof. apply sqrt_sqrt. nra. Qed.

(** std::atan2 gives the polar angle *)
Lemma cos_atan u : cos (atan u) = / sqrt (1 + u * u).
Proof.
  assert (C : 0 < cos (atan u)). { destruct (atan_bound u). apply cos_gt_0; lra. }
  assert (S : 0 < 1 + u * u) by nra. assert (Q : 0 < sqrt (1 + u * u)) by (now apply sqrt_lt_R0).
  assert (T : sin (atan u) = u * cos (atan u)).
  { assert (X := tan_atan u). unfold tan in X. rewrite <- X at 2. field. lra. }
  assert (E := sin2_cos2 (atan u)). unfold Rsqr in E. rewrite T in E.
  assert (F : (cos (atan u) * sqrt (1 + u * u)) * (cos (atan u) * sqrt (1 + u * u)) = 1).
  { replace _ with (cos (atan u) * cos (atan u) * (sqrt (1 + u * u) * sqrt (1 + u * u))) by ring. rewrite sqrt_sqrt by lra. lra. }
  assert (P : 0 < cos (atan u) * sqrt (1 + u * u)) by (now apply Rmult_lt_0_compat).
  assert (F1 : cos (atan u) * sqrt (1 + u * u) = 1) by nra.
  apply (Rmult_eq_reg_r (sqrt (1 + u * u))); [|lra]. rewrite F1, Rinv_l; lra.
Qed.
Lemma sin_atan u : sin (atan u) = u / sqrt (1 + u * u).
Proof.
  assert (C : 0 < cos (atan u)). { destruct (atan_bound u). apply cos_gt_0; lra. }
  assert (X := tan_atan u). unfold tan in X. unfold Rdiv at 1. rewrite <- cos_atan. rewrite <- X at 2. field. lra.
Qed.
Lemma sqrt_scaled x y : x <> 0 -> sqrt (x * x + y * y) = Rabs x * sqrt (1 + (y / x) * (y / x)).
Proof.
  intros H. rewrite <- sqrt_Rsqr_abs. rewrite <- sqrt_mult by (unfold Rsqr; nra). f_equal. unfold Rsqr. field. exact H.
Qed.
Lemma atan2_polar y x : x <> 0 \/ y <> 0 ->
  sqrt (x * x + y * y) * cos (atan2 y x) = x /\ sqrt (x * x + y * y) * sin (atan2 y x) = y.
Proof.
  intros H. unfold atan2.
  assert (Q : forall u, 0 < sqrt (1 + u * u)) by (intros u; apply sqrt_lt_R0; nra).
  destruct (Rlt_dec 0 x) as [P|P].
  - rewrite sqrt_scaled by lra. rewrite Rabs_pos_eq by lra. rewrite cos_atan, sin_atan. specialize (Q (y / x)).
    split; field; lra.
  - destruct (Rlt_dec x 0) as [N|N].
    + rewrite sqrt_scaled by lra. rewrite Rabs_left by lra. specialize (Q (y / x)).
      assert (C : forall s, s = PI \/ s = - PI -> cos (atan (y / x) + s) = - / sqrt (1 + y / x * (y / x)) /\ sin (atan (y / x) + s) = - (y / x / sqrt (1 + y / x * (y / x)))).
      { intros s [-> | ->].
        - rewrite neg_cos, neg_sin, cos_atan, sin_atan. split; reflexivity.
        - rewrite cos_plus, sin_plus, cos_neg, sin_neg, cos_PI, sin_PI, cos_atan, sin_atan. split; ring. }
      destruct (Rle_dec 0 y).
      * destruct (C PI (or_introl eq_refl)) as [-> ->]. split; field; lra.
      * unfold Rminus. destruct (C (- PI) (or_intror eq_refl)) as [-> ->]. split; field; lra.
    + assert (x = 0) by lra. subst x.
      replace (0 * 0 + y * y) with (Rsqr y) by (unfold Rsqr; ring). rewrite sqrt_Rsqr_abs.
      destruct (Rlt_dec 0 y).
      * rewrite cos_PI2, sin_PI2, Rabs_pos_eq by lra. lra.
      * destruct (Rlt_dec y 0) as [Y|Y].
        -- replace (- PI / 2) with (- (PI / 2)) by field. rewrite cos_neg, sin_neg, cos_PI2, sin_PI2, Rabs_left by lra. lra.
        -- exfalso. destruct H as [H|H]; [now apply H|apply H; lra].
Qed.

(** std::round is within one half *)
Lemma Int_part_half x : - (1 / 2) <= x - IZR (Int_part (x + 1 / 2)) <= 1 / 2.
Proof. destruct (base_Int_part (x + 1 / 2)). lra. Qed.
Lemma round_half x : Rabs (x - round x) <= 1 / 2.
Proof.
  unfold round. destruct (Rle_dec 0 x).
  - assert (H := Int_part_half x). apply Rabs_le. lra.
  - assert (H := Int_part_half (- x)). apply Rabs_le. lra.
Qed.
Lemma round_integer x : exists z : Z, round x = IZR z.
Proof. unfold round. destruct (Rle_dec 0 x); [eexists; reflexivity|]. exists (- Int_part (- x + 1 / 2))%Z. now rewrite opp_IZR. Qed.

Lemma slot_width_pos n : (2 <= n)%Z -> 0 < slot_width n <= PI.
Proof.
  intros H. unfold slot_width. assert (P := PI_RGT_0). assert (N : 2 <= IZR n) by (now apply IZR_le).
  split.
  - apply Rdiv_lt_0_compat; lra.
  - apply (Rmult_le_reg_r (IZR n)); [lra|]. unfold Rdiv. rewrite Rmult_assoc, Rinv_l by lra. nra.
Qed.
Lemma theta_bound n x : (2 <= n)%Z -> Rabs (theta n x) <= slot_width n / 2.
Proof.
  intros H. assert (W := slot_width_pos n H). unfold theta, slot. set (a := atan2 (x 1%nat) (x 0%nat)). set (w := slot_width n) in *.
  replace (a - round (a / w) * w) with ((a / w - round (a / w)) * w) by (field; lra).
  rewrite Rabs_mult, (Rabs_pos_eq w) by lra. assert (R := round_half (a / w)). nra.
Qed.
(** z component of the cross product of the position with the axis of its slot *)
Lemma cross_z n x c : x 0%nat <> 0 \/ x 1%nat <> 0 ->
  cross (v3 (x 0%nat) (x 1%nat) c) (slot_axis n x) 2%nat = - (norm_r x * sin (theta n x)).
Proof.
  intros H. destruct (atan2_polar (x 1%nat) (x 0%nat) H) as [C S]. unfold cross, slot_axis, v3, theta. cbn.
  set (a := atan2 (x 1%nat) (x 0%nat)) in *. set (b := slot n x * slot_width n). fold (norm_r x) in C, S. rewrite sin_minus.
  rewrite <- C at 1. rewrite <- S at 1. ring.
Qed.
Lemma sin_theta_sign n x : (2 <= n)%Z ->
  (0 < theta n x -> 0 < sin (theta n x)) /\ (theta n x < 0 -> sin (theta n x) < 0).
Proof.
  intros H. assert (B := theta_bound n x H). destruct (slot_width_pos n H) as [W0 W1]. assert (P := PI_RGT_0).
  assert (L := Rle_abs (theta n x)). assert (L' := Rle_abs (- theta n x)). rewrite Rabs_Ropp in L'. split; intros T.
  - apply sin_gt_0; lra.
  - apply sin_lt_0_var; lra.
Qed.

Lemma norm3_sqr v : norm3 v * norm3 v = dot3 v v.
Proof. unfold norm3, dot3. apply sqrt_sqrt. nra. Qed.
Lemma norm3_pos v : dot3 v v <> 0 -> 0 < norm3 v.
Proof. intros H. unfold norm3. apply sqrt_lt_R0. unfold dot3 in H. nra. Qed.
Lemma unit_normalized v : dot3 v v <> 0 -> dot3 (fun k => v k / norm3 v) (fun k => v k / norm3 v) = 1.
Proof.
  intros H. assert (P := norm3_pos v H). assert (S := norm3_sqr v). unfold dot3 in *.
  replace _ with ((v 0%nat * v 0%nat + v 1%nat * v 1%nat + v 2%nat * v 2%nat) / (norm3 v * norm3 v)) by (field; lra).
  rewrite S. field. exact H.
Qed.
