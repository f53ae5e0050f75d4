(** C71: direction fields of magnets and currents. *)
From Coq Require Import Reals String List Bool ZArith Lra Lia Ratan.
From Coquelicot Require Import Coquelicot.
From Verif Require Import Vec Current Direction DirectionProofs.
Local Open Scope R_scope.

(** Off the axis, "north" is the outward unit radial field, "south" its opposite, "cw" and "ccw" opposite unit
    tangential fields. *)
Theorem C71_magnets : forall (x : vec), x 0%nat <> 0 \/ x 1%nat <> 0 -> forall vdim,
  exists N S W V, magnetization vdim "north" x = Some (Ret N) /\ magnetization vdim "south" x = Some (Ret S) /\
    magnetization vdim "cw" x = Some (Ret W) /\ magnetization vdim "ccw" x = Some (Ret V) /\
    dot3 N N = 1 /\ x 0%nat * N 1%nat - x 1%nat * N 0%nat = 0 /\ N 2%nat = 0 /\ 0 < x 0%nat * N 0%nat + x 1%nat * N 1%nat /\
    dot3 W W = 1 /\ x 0%nat * W 0%nat + x 1%nat * W 1%nat = 0 /\ W 2%nat = 0 /\
    (forall k, S k = - N k) /\ (forall k, V k = - W k).
Proof.
  intros x H vdim. exists (north x), (south x), (cw x), (ccw x). assert (P := norm_r_pos x H). assert (Q := norm_r_sqr x).
  split; [reflexivity|]. split; [reflexivity|]. split; [reflexivity|]. split; [reflexivity|].
  assert (U : (x 0%nat * x 0%nat + x 1%nat * x 1%nat) / (norm_r x * norm_r x) = 1) by (rewrite <- Q; field; lra).
  unfold north, south, cw, ccw, dot3, v3. cbn. repeat split.
  - rewrite <- U. field. lra.
  - field. lra.
  - match goal with |- 0 < ?u => replace u with ((x 0%nat * x 0%nat + x 1%nat * x 1%nat) / norm_r x) by (field; lra) end. rewrite <- Q. unfold Rdiv. rewrite Rmult_assoc, Rinv_r by lra. lra.
  - rewrite <- U. field. lra.
  - field. lra.
  - intros [|[|[|k]]]; field; lra.
  - intros [|[|[|k]]]; field; lra.
Qed.
Print Assumptions C71_magnets.
Example C71_magnets_met : v3 3 4 0 0%nat <> 0 \/ v3 3 4 0 1%nat <> 0.
Proof. left. cbn. lra. Qed.

(** The axis directions; "z" stops the program in two dimensions. *)
Theorem C71_axes : forall vdim x,
  magnetization vdim "x" x = Some (Ret (v3 1 0 0)) /\ magnetization vdim "y" x = Some (Ret (v3 0 1 0)) /\
  magnetization vdim "z" x = Some (if Nat.ltb vdim 3 then Aborts else Ret (v3 0 0 1)) /\
  (forall s, ~ List.In s ("north" :: "south" :: "cw" :: "ccw" :: "x" :: "y" :: "z" :: nil)%string -> magnetization vdim s x = None).
Proof.
  intros vdim x. split; [reflexivity|]. split; [reflexivity|]. split; [reflexivity|]. intros s N. unfold magnetization.
  repeat match goal with |- context [String.eqb s ?t] =>
    destruct (String.eqb_spec s t) as [E|_]; [exfalso; apply N; subst; cbn; tauto|] end. reflexivity.
Qed.
Print Assumptions C71_axes.

(** "cw" is the counter-clockwise field and "ccw" the clockwise one, everywhere off the axis. *)
Theorem C71_cw_refuted : forall vdim x, x 0%nat <> 0 \/ x 1%nat <> 0 -> exists W V,
  magnetization vdim "cw" x = Some (Ret W) /\ magnetization vdim "ccw" x = Some (Ret V) /\
  0 < x 0%nat * W 1%nat - x 1%nat * W 0%nat /\ x 0%nat * V 1%nat - x 1%nat * V 0%nat < 0.
Proof.
  intros vdim x H. exists (cw x), (ccw x). assert (P := norm_r_pos x H). assert (Q := norm_r_sqr x).
  split; [reflexivity|]. split; [reflexivity|]. unfold cw, ccw, v3. cbn.
  assert (U : (x 0%nat * x 0%nat + x 1%nat * x 1%nat) / norm_r x = norm_r x) by (rewrite <- Q; field; lra). split.
  - match goal with |- 0 < ?u => replace u with ((x 0%nat * x 0%nat + x 1%nat * x 1%nat) / norm_r x) by (field; lra) end. lra.
  - match goal with |- ?u < 0 => replace u with (- ((x 0%nat * x 0%nat + x 1%nat * x 1%nat) / norm_r x)) by (field; lra) end. lra.
Qed.
Print Assumptions C71_cw_refuted.

(** partial derivative of component k of a field in coordinate k *)
Definition dcomp (F : vec -> vec) (x : vec) (k : nat) (d : R) : Prop :=
  is_derive (fun s => F (fun i => if Nat.eqb i k then s else x i) k) (x k) d.
(** all three exist and sum to 0 *)
Definition divergence_free (F : vec -> vec) (x : vec) : Prop :=
  exists a b c, dcomp F x 0 a /\ dcomp F x 1 b /\ dcomp F x 2 c /\ a + b + c = 0.

(** The ring current is a unit tangential field without sources, and counter-clockwise. *)
Theorem C71_ring : forall x, x 0%nat <> 0 \/ x 1%nat <> 0 ->
  exists f e, known3d "ring"%string = Some (f, e) /\ dot3 (f x) (f x) = 1 /\ x 0%nat * f x 0%nat + x 1%nat * f x 1%nat = 0 /\ f x 2%nat = 0 /\
  0 < x 0%nat * f x 1%nat - x 1%nat * f x 0%nat /\ divergence_free f x.
Proof.
  intros x H. exists ring. eexists. split; [reflexivity|]. assert (P := norm_r_pos x H). assert (Q := norm_r_sqr x).
  assert (U : (x 0%nat * x 0%nat + x 1%nat * x 1%nat) / (norm_r x * norm_r x) = 1) by (rewrite <- Q; field; lra).
  assert (U' : (x 0%nat * x 0%nat + x 1%nat * x 1%nat) / norm_r x = norm_r x) by (rewrite <- Q; field; lra).
  unfold ring, dot3, v3. cbn. split; [|split; [|split; [|split]]].
  - rewrite <- U. field. lra.
  - field. lra.
  - reflexivity.
  - match goal with |- 0 < ?u => replace u with ((x 0%nat * x 0%nat + x 1%nat * x 1%nat) / norm_r x) by (field; lra) end. lra.
  - assert (S : 0 < x 0%nat * x 0%nat + x 1%nat * x 1%nat) by (destruct H as [H|H]; nra).
    exists (x 0%nat * x 1%nat / (norm_r x * norm_r x * norm_r x)), (- (x 0%nat * x 1%nat / (norm_r x * norm_r x * norm_r x))), 0.
    unfold dcomp, norm_r. cbn. fold (norm_r x). split; [|split; [|split]].
    + auto_derive; fold (norm_r x); [repeat split; [exact S|lra]|]. field. lra.
    + auto_derive; fold (norm_r x); [repeat split; [exact S|lra]|]. field. lra.
    + apply (is_derive_const (V := R_NormedModule) 0).
    + lra.
Qed.
Print Assumptions C71_ring.

(** The two box currents are opposite, along z, and without sources; the 2-D class has the same z components. *)
Theorem C71_box : forall x, exists f1 e1 f2 e2 g1 d1 g2 d2,
  known3d "box1"%string = Some (f1, e1) /\ known3d "box2"%string = Some (f2, e2) /\
  known2d "box1"%string = Some (g1, d1) /\ known2d "box2"%string = Some (g2, d2) /\
  f1 x 0%nat = 0 /\ f1 x 1%nat = 0 /\ (forall k, f2 x k = - f1 x k) /\ f1 x 2%nat = g1 x 0%nat /\ f2 x 2%nat = g2 x 0%nat /\
  divergence_free f1 x /\ divergence_free f2 x.
Proof.
  intros x. exists box1. eexists. exists box2. eexists. exists (fun x _ => -6 * (x 1%nat - 1 / 2)). eexists. exists (fun x _ => 6 * (x 1%nat - 1 / 2)). eexists.
  split; [reflexivity|]. split; [reflexivity|]. split; [reflexivity|]. split; [reflexivity|]. unfold box1, box2, v3. cbn.
  split; [reflexivity|]. split; [reflexivity|]. split; [intros [|[|[|k]]]; lra|]. split; [reflexivity|]. split; [reflexivity|].
  split; exists 0, 0, 0; unfold dcomp; cbn; (split; [apply (is_derive_const (V := R_NormedModule) 0)|]); (split; [apply (is_derive_const (V := R_NormedModule) 0)|]);
    (split; [apply (is_derive_const (V := R_NormedModule) _)|lra]).
Qed.
Print Assumptions C71_box.

(** The TEAM 13 coil: a unit counter-clockwise field in the plane everywhere except on the segment x = 0, |y| <= 0.075,
    where the code divides 0 by 0. *)
Theorem C71_team13 : forall X : vec,
  (team13 X = None <-> X 0%nat = 0 /\ Rabs (X 1%nat) <= 75 / 1000) /\
  (forall J, team13 X = Some J -> dot3 J J = 1 /\ J 2%nat = 0 /\ 0 < X 0%nat * J 1%nat - X 1%nat * J 0%nat).
Proof.
  intros X. set (x := X 0%nat). set (y := X 1%nat).
  assert (A : forall a b, (a <> 0 \/ b <> 0) -> 0 < x * b - y * a -> team13_raw X = (a, b) ->
     (team13 X = None <-> False) /\ (forall J, team13 X = Some J -> dot3 J J = 1 /\ J 2%nat = 0 /\ 0 < x * J 1%nat - y * J 0%nat)).
  { intros a b H P E. unfold team13. rewrite E. cbn [fst snd].
    assert (S : 0 < sqrt (a * a + b * b)) by (apply sqrt_lt_R0; destruct H as [H|H]; nra).
    assert (Q : sqrt (a * a + b * b) * sqrt (a * a + b * b) = a * a + b * b) by (apply sqrt_sqrt; nra).
    destruct (Req_EM_T (sqrt (a * a + b * b)) 0) as [Z|_]; [lra|]. split; [split; [discriminate|intros []]|].
    intros J EJ. injection EJ as <-. unfold dot3, v3. cbn. split; [|split; [reflexivity|]].
    - match goal with |- ?u = 1 => replace u with ((a * a + b * b) / (sqrt (a * a + b * b) * sqrt (a * a + b * b))) by (field; lra) end. rewrite Q. field. nra.
    - match goal with |- 0 < ?u => replace u with ((x * b - y * a) / sqrt (a * a + b * b)) by (field; lra) end. apply Rdiv_lt_0_compat; assumption. }
  assert (R0 : forall z, Rabs z <= 75 / 1000 <-> - c75 <= z /\ z <= c75). { intros z. unfold c75. split; [intros H; apply Rabs_le_between in H; lra|intros H; apply Rabs_le; lra]. }
  assert (Sg : forall z, (0 < z -> sgn z = 1) /\ (z < 0 -> sgn z = -1) /\ (z = 0 -> sgn z = 0)).
  { intros z. unfold sgn. destruct (Rlt_dec 0 z), (Rlt_dec z 0); repeat split; intros; lra. }
  assert (C : 0 < c75) by (unfold c75; lra).
  assert (B : forall a b, team13_raw X = (a, b) -> (a <> 0 \/ b <> 0) -> 0 < x * b - y * a -> ~ (x = 0 /\ Rabs y <= 75 / 1000) ->
    (team13 X = None <-> x = 0 /\ Rabs y <= 75 / 1000) /\ (forall J, team13 X = Some J -> dot3 J J = 1 /\ J 2%nat = 0 /\ 0 < x * J 1%nat - y * J 0%nat)).
  { intros a b E H P N. destruct (A a b H P E) as [A1 A2]. split; [|exact A2]. rewrite A1. tauto. }
  destruct (Rle_dec (- c75) y) as [Y1|Y1]; [destruct (Rle_dec y c75) as [Y2|Y2]|].
  - (* the two sides along y *)
    assert (E : team13_raw X = (0, sgn x)). { unfold team13_raw. fold x y. destruct (Rle_dec (- c75) y); [|lra]. destruct (Rle_dec y c75); [reflexivity|lra]. }
    destruct (Sg x) as [S1 [S2 S3]]. destruct (Rtotal_order x 0) as [L|[Z|L]].
    + rewrite (S2 L) in E; apply (B _ _ E); [right; lra|nra|intros [Z _]; lra].
    + assert (T : team13 X = None). { unfold team13. rewrite E, (S3 Z). cbn [fst snd]. replace (0 * 0 + 0 * 0) with 0 by ring. rewrite sqrt_0.
        destruct (Req_EM_T 0 0) as [_|N]; [reflexivity|now elim N]. }
      rewrite T. split; [split; [intros _; split; [exact Z|apply R0; lra]|reflexivity]|discriminate].
    + rewrite (S1 L) in E; apply (B _ _ E); [right; lra|nra|intros [Z _]; lra].
  - assert (NY : ~ (x = 0 /\ Rabs y <= 75 / 1000)) by (intros [_ H]; apply R0 in H; lra).
    destruct (Rle_dec (- c75) x) as [X1|X1]; [destruct (Rle_dec x c75) as [X2|X2]|].
    + assert (E : team13_raw X = (- sgn y, 0)). { unfold team13_raw. fold x y. destruct (Rle_dec (- c75) y); [|lra]. destruct (Rle_dec y c75); [lra|].
        destruct (Rle_dec (- c75) x); [|lra]. destruct (Rle_dec x c75); [reflexivity|lra]. }
      destruct (Sg y) as [S1 _]. rewrite (S1 ltac:(lra)) in E. apply (B _ _ E); [left; lra|nra|exact NY].
    + assert (E : team13_raw X = (- (y - c75), x - c75)). { unfold team13_raw. fold x y. destruct (Rle_dec (- c75) y); [|lra]. destruct (Rle_dec y c75); [lra|].
        destruct (Rle_dec (- c75) x); [|lra]. destruct (Rle_dec x c75); [lra|]. destruct (Rlt_dec c75 x); [|lra]. destruct (Rlt_dec c75 y); [reflexivity|lra]. }
      apply (B _ _ E); [left; lra|nra|exact NY].
    + assert (E : team13_raw X = (- (y - c75), x + c75)). { unfold team13_raw. fold x y. destruct (Rle_dec (- c75) y); [|lra]. destruct (Rle_dec y c75); [lra|].
        destruct (Rle_dec (- c75) x); [lra|]. destruct (Rlt_dec x c75); [|lra]. destruct (Rlt_dec c75 y); [reflexivity|lra]. }
      apply (B _ _ E); [left; lra|nra|exact NY].
  - assert (NY : ~ (x = 0 /\ Rabs y <= 75 / 1000)) by (intros [_ H]; apply R0 in H; lra).
    destruct (Rle_dec (- c75) x) as [X1|X1]; [destruct (Rle_dec x c75) as [X2|X2]|].
    + assert (E : team13_raw X = (- sgn y, 0)). { unfold team13_raw. fold x y. destruct (Rle_dec (- c75) y); [lra|].
        destruct (Rle_dec (- c75) x); [|lra]. destruct (Rle_dec x c75); [reflexivity|lra]. }
      destruct (Sg y) as [_ [S2 _]]. rewrite (S2 ltac:(lra)) in E. apply (B _ _ E); [left; lra|nra|exact NY].
    + assert (E : team13_raw X = (- (y + c75), x - c75)). { unfold team13_raw. fold x y. destruct (Rle_dec (- c75) y); [lra|].
        destruct (Rle_dec (- c75) x); [|lra]. destruct (Rle_dec x c75); [lra|]. destruct (Rlt_dec c75 x); [|lra]. destruct (Rlt_dec y c75); [reflexivity|lra]. }
      apply (B _ _ E); [left; lra|nra|exact NY].
    + assert (E : team13_raw X = (- (y + c75), x + c75)). { unfold team13_raw. fold x y. destruct (Rle_dec (- c75) y); [lra|].
        destruct (Rle_dec (- c75) x); [lra|]. destruct (Rlt_dec x c75); [|lra]. destruct (Rlt_dec y c75); [reflexivity|lra]. }
      apply (B _ _ E); [left; lra|nra|exact NY].
Qed.
Print Assumptions C71_team13.
Example C71_team13_met : exists J, team13 (v3 1 2 0) = Some J.
Proof. destruct (C71_team13 (v3 1 2 0)) as [[A _] _]. destruct (team13 (v3 1 2 0)) as [J|]; [now exists J|]. destruct (A eq_refl) as [H _]. cbn in H. lra. Qed.

(** Stator windings (at least two slots).  The two windings are opposite.  Inside the stack the current runs along z,
    against the sign of the angle from the slot centre; above and below it is a unit field around the slot axis whose z
    component has the same sign. *)
Theorem C71_stator : forall n L x, (2 <= n)%Z -> x 0%nat <> 0 \/ x 1%nat <> 0 ->
  (forall k, cw_stator n L x k = - ccw_stator n L x k) /\
  Rabs (theta n x) <= PI / IZR n /\
  (exists z : Z, theta n x = atan2 (x 1%nat) (x 0%nat) - IZR z * (2 * PI / IZR n)) /\
  (- L / 2 <= x 2%nat <= L / 2 ->
     ccw_stator n L x 0%nat = 0 /\ ccw_stator n L x 1%nat = 0 /\
     (theta n x < 0 -> ccw_stator n L x 2%nat = 1) /\ (0 < theta n x -> ccw_stator n L x 2%nat = -1) /\ (theta n x = 0 -> ccw_stator n L x 2%nat = 0)) /\
  (0 <= L -> x 2%nat < - L / 2 \/ L / 2 < x 2%nat ->
     let z' := if Rlt_dec (x 2%nat) 0 then x 2%nat + L / 2 else x 2%nat - L / 2 in
     let J := ccw_stator n L x in
     dot3 J J = 1 /\ dot3 J (slot_axis n x) = 0 /\ dot3 J (v3 (x 0%nat) (x 1%nat) z') = 0 /\
     (theta n x < 0 -> 0 < J 2%nat) /\ (0 < theta n x -> J 2%nat < 0)).
Proof.
  intros n L x Hn H. assert (P := PI_RGT_0). assert (Hn' : 2 <= IZR n) by (now apply IZR_le). split; [|split; [|split; [|split]]].
  - intros k. unfold cw_stator. lra.
  - assert (B := theta_bound n x Hn). unfold slot_width in B. replace (PI / IZR n) with (2 * PI / IZR n / 2) by (field; lra). exact B.
  - unfold theta, slot, slot_width. destruct (round_integer (atan2 (x 1%nat) (x 0%nat) / (2 * PI / IZR n))) as [z Z]. exists z. now rewrite Z.
  - intros [B1 B2]. unfold ccw_stator. destruct (Rle_dec (- L / 2) (x 2%nat)); [|lra]. destruct (Rle_dec (x 2%nat) (L / 2)); [|lra]. cbn.
    split; [reflexivity|]. split; [reflexivity|]. destruct (Rlt_dec (theta n x) 0), (Rlt_dec 0 (theta n x)); repeat split; intros; lra.
  - intros HL HZ z' J.
    set (c := cross (v3 (x 0%nat) (x 1%nat) z') (slot_axis n x)).
    assert (HJ : forall k, J k = c k / norm3 c).
    { intros k. unfold J, ccw_stator, c, z'. destruct HZ as [HZ|HZ].
      - destruct (Rle_dec (- L / 2) (x 2%nat)); [lra|]. destruct (Rlt_dec (x 2%nat) 0); [|lra].
        replace (x 2%nat - - L / 2) with (x 2%nat + L / 2) by field. reflexivity.
      - destruct (Rle_dec (- L / 2) (x 2%nat)); [|lra]. destruct (Rle_dec (x 2%nat) (L / 2)); [lra|]. destruct (Rlt_dec (x 2%nat) 0); [lra|]. reflexivity. }
    assert (Z0 : z' <> 0). { unfold z'. destruct HZ as [HZ|HZ]; destruct (Rlt_dec (x 2%nat) 0); lra. }
    assert (SC := sin2_cos2 (slot n x * slot_width n)). unfold Rsqr in SC.
    assert (D : dot3 c c <> 0).
    { unfold c, cross, slot_axis, dot3, v3. cbn. set (co := cos _) in *. set (si := sin _) in *. set (q := x 0%nat * si - x 1%nat * co).
      match goal with |- ?u <> 0 => replace u with (z' * z' * (si * si + co * co) + q * q) by (unfold q; ring) end. rewrite SC. nra. }
    assert (Pc := norm3_pos c D). assert (S1 := sin_theta_sign n x Hn). assert (R1 := norm_r_pos x H).
    assert (Cz : c 2%nat = - (norm_r x * sin (theta n x))) by (exact (cross_z n x z' H)).
    split; [|split; [|split; [|split]]].
    + rewrite <- (unit_normalized c D). unfold dot3. now rewrite !HJ.
    + unfold dot3. rewrite !HJ. match goal with |- ?u = 0 => replace u with (dot3 c (slot_axis n x) / norm3 c) by (unfold dot3; field; lra) end.
      replace (dot3 c (slot_axis n x)) with 0; [unfold Rdiv; ring|]. unfold c, cross, slot_axis, dot3, v3. cbn. ring.
    + unfold dot3. rewrite !HJ. match goal with |- ?u = 0 => replace u with (dot3 c (v3 (x 0%nat) (x 1%nat) z') / norm3 c) by (unfold dot3; field; lra) end.
      replace (dot3 c (v3 (x 0%nat) (x 1%nat) z')) with 0; [unfold Rdiv; ring|]. unfold c, cross, slot_axis, dot3, v3. cbn. ring.
    + intros T. rewrite HJ, Cz. apply Rdiv_lt_0_compat; [|exact Pc]. destruct S1 as [_ S1]. specialize (S1 T). nra.
    + intros T. rewrite HJ, Cz. destruct S1 as [S1 _]. specialize (S1 T).
      assert (0 < norm_r x * sin (theta n x) / norm3 c) by (apply Rdiv_lt_0_compat; [nra|exact Pc]). unfold Rdiv in *. lra.
Qed.
Print Assumptions C71_stator.
Example C71_stator_met : (2 <= 24)%Z /\ (v3 1 0 0 0%nat <> 0 \/ v3 1 0 0 1%nat <> 0) /\ 345 / 1000 / 2 < v3 1 0 1 2%nat /\
  (exists x, 0 < theta 24 x).
Proof.
  split; [lia|]. split; [left; cbn; lra|]. split; [cbn; lra|].
  assert (P := PI_RGT_0). exists (v3 (cos (PI / 48)) (sin (PI / 48)) 0).
  assert (C : 0 < cos (PI / 48)) by (apply cos_gt_0; lra).
  assert (T : atan2 (sin (PI / 48)) (cos (PI / 48)) = PI / 48).
  { unfold atan2. destruct (Rlt_dec 0 (cos (PI / 48))); [|lra]. change (sin (PI / 48) / cos (PI / 48)) with (tan (PI / 48)). apply atan_tan. lra. }
  unfold theta, slot, slot_width, v3. rewrite T.
  replace (PI / 48 / (2 * PI / 24)) with (1 / 4) by (field; lra).
  destruct (round_integer (1 / 4)) as [z Z]. assert (B := round_half (1 / 4)). rewrite Z in *. apply Rabs_le_between in B.
  assert (z < 1)%Z by (apply lt_IZR; lra). assert (-1 < z)%Z by (apply lt_IZR; lra). replace z with 0%Z by lia. lra.
Qed.

(** Continuity across the ends of the stack: off the axis and off the slot centres the winding current tends to its value
    at the end of the stack when the end is approached from either side. *)
Theorem C71_stator_continuous : forall n L a b k, (2 <= n)%Z -> 0 < L -> a <> 0 \/ b <> 0 -> theta n (v3 a b 0) <> 0 -> (k < 3)%nat ->
  forall zend, zend = L / 2 \/ zend = - L / 2 ->
  forall eps, 0 < eps -> exists delta, 0 < delta /\ forall z, Rabs (z - zend) < delta ->
    Rabs (ccw_stator n L (v3 a b z) k - ccw_stator n L (v3 a b zend) k) < eps.
Proof.
  intros n L a b k Hn HL H Ht Hk zend Hz eps He.
  set (ax := slot_axis n (v3 a b 0)). set (F := fun z' => cross (v3 a b z') ax k / norm3 (cross (v3 a b z') ax)).
  assert (TH : forall z, theta n (v3 a b z) = theta n (v3 a b 0)) by reflexivity.
  assert (AX : forall z, slot_axis n (v3 a b z) = ax) by reflexivity.
  assert (R1 := norm_r_pos (v3 a b 0) H). destruct (sin_theta_sign n (v3 a b 0) Hn) as [S1 S2].
  assert (Cz : forall z', cross (v3 a b z') ax 2%nat = - (norm_r (v3 a b 0) * sin (theta n (v3 a b 0)))) by (intros z'; exact (cross_z n (v3 a b 0) z' H)).
  set (q := - (norm_r (v3 a b 0) * sin (theta n (v3 a b 0)))) in *.
  assert (Q0 : q <> 0). { unfold q. destruct (Rtotal_order (theta n (v3 a b 0)) 0) as [T|[T|T]]; [specialize (S2 T); nra|contradiction|specialize (S1 T); nra]. }
  assert (HF : continuity_pt F 0).
  { apply derivable_continuous_pt. apply ex_derive_Reals_0. unfold F.
    assert (X : forall co si, ax = v3 co si 0 -> a * si - b * co = q -> ex_derive (fun z' => cross (v3 a b z') ax k / norm3 (cross (v3 a b z') ax)) 0).
    { intros co si -> E. assert (S : 0 < (b * 0 - 0 * si) * (b * 0 - 0 * si) + (0 * co - a * 0) * (0 * co - a * 0) + (a * si - b * co) * (a * si - b * co)).
      { rewrite E. nra. }
      destruct k as [|[|[|k]]]; [| | |lia]; unfold norm3, cross, v3; cbn; auto_derive;
        (split; [exact S|split; [apply Rgt_not_eq, sqrt_lt_R0; exact S|exact Logic.I]]). }
    apply (X _ _ eq_refl). assert (Y := Cz 0). unfold cross, ax, slot_axis, v3 in Y. cbn in Y. unfold v3. cbn. exact Y. }
  (* the value at the end of the stack is F 0 *)
  assert (V : ccw_stator n L (v3 a b zend) k = F 0).
  { unfold ccw_stator. cbn [v3]. change (v3 a b zend 2%nat) with zend.
    destruct (Rle_dec (- L / 2) zend) as [B1|B1]; [|destruct Hz; lra]. destruct (Rle_dec zend (L / 2)) as [B2|B2]; [|destruct Hz; lra].
    rewrite TH. unfold F, norm3. rewrite Cz.
    assert (C0 : cross (v3 a b 0) ax 0%nat = 0) by (unfold cross, ax, slot_axis, v3; cbn; ring).
    assert (C1 : cross (v3 a b 0) ax 1%nat = 0) by (unfold cross, ax, slot_axis, v3; cbn; ring).
    rewrite C0, C1. replace (0 * 0 + 0 * 0 + q * q) with (Rsqr q) by (unfold Rsqr; ring). rewrite sqrt_Rsqr_abs.
    assert (A0 : Rabs q <> 0) by (now apply Rabs_no_R0).
    destruct k as [|[|[|k]]]; [rewrite C0; cbn; unfold Rdiv; ring|rewrite C1; cbn; unfold Rdiv; ring| |lia].
    rewrite Cz. cbn. destruct (Rtotal_order (theta n (v3 a b 0)) 0) as [T|[T|T]]; [|contradiction|].
    - destruct (Rlt_dec (theta n (v3 a b 0)) 0); [|lra]. assert (0 < q) by (unfold q; specialize (S2 T); nra). rewrite Rabs_pos_eq by lra. field. exact Q0.
    - destruct (Rlt_dec (theta n (v3 a b 0)) 0); [lra|]. destruct (Rlt_dec 0 (theta n (v3 a b 0))); [|lra].
      assert (q < 0) by (unfold q; specialize (S1 T); nra). rewrite Rabs_left by lra. field. exact Q0. }
  destruct (HF eps He) as [d [Hd HD]]. exists (Rmin d L). split; [apply Rmin_glb_lt; lra|]. intros z Hzd.
  assert (D1 : Rabs (z - zend) < d) by (eapply Rlt_le_trans; [exact Hzd|apply Rmin_l]).
  assert (D2 : Rabs (z - zend) < L) by (eapply Rlt_le_trans; [exact Hzd|apply Rmin_r]).
  apply Rabs_lt_between in D2.
  assert (FC : forall u, Rabs u < d -> Rabs (F u - F 0) < eps).
  { intros u Hu. destruct (Req_EM_T u 0) as [->|N]; [replace (F 0 - F 0) with 0 by ring; rewrite Rabs_R0; exact He|].
    specialize (HD u). cbn in HD. unfold R_dist, D_x, no_cond in HD. apply HD. split; [split; [exact Logic.I|lra]|]. now rewrite Rminus_0_r. }
  rewrite V.
  (* inside the stack, on its ends or beyond *)
  destruct (Rle_dec (- L / 2) z) as [B1|B1]; [destruct (Rle_dec z (L / 2)) as [B2|B2]|].
  - assert (W : ccw_stator n L (v3 a b z) k = ccw_stator n L (v3 a b zend) k).
    { unfold ccw_stator. change (v3 a b z 2%nat) with z. change (v3 a b zend 2%nat) with zend.
      destruct (Rle_dec (- L / 2) z) as [_|]; [|lra]. destruct (Rle_dec z (L / 2)) as [_|]; [|lra].
      destruct (Rle_dec (- L / 2) zend) as [_|]; [|destruct Hz; lra]. destruct (Rle_dec zend (L / 2)) as [_|]; [|destruct Hz; lra]. reflexivity. }
    rewrite W, V. replace (F 0 - F 0) with 0 by ring. rewrite Rabs_R0. exact He.
  - assert (zend = L / 2) by (destruct Hz; lra). subst zend.
    assert (W : ccw_stator n L (v3 a b z) k = F (z - L / 2)).
    { unfold ccw_stator. change (v3 a b z 2%nat) with z. destruct (Rle_dec (- L / 2) z) as [_|]; [|lra]. destruct (Rle_dec z (L / 2)) as [|_]; [lra|]. reflexivity. }
    rewrite W. apply FC. exact D1.
  - assert (zend = - L / 2) by (destruct Hz; lra). subst zend.
    assert (W : ccw_stator n L (v3 a b z) k = F (z - - L / 2)).
    { unfold ccw_stator. change (v3 a b z 2%nat) with z. destruct (Rle_dec (- L / 2) z) as [|_]; [lra|]. reflexivity. }
    rewrite W. apply FC. exact D1.
Qed.
Print Assumptions C71_stator_continuous.

(** Around a slot (its axis held fixed) the current over the ends has no sources. *)
Theorem C71_stator_ends : forall (alpha zend : R) (x : vec), x 2%nat <> zend ->
  let axis := v3 (cos alpha) (sin alpha) 0 in
  divergence_free (fun y => let c := cross (v3 (y 0%nat) (y 1%nat) (y 2%nat - zend)) axis in fun k => c k / norm3 c) x.
Proof.
  intros alpha zend x H axis. set (co := cos alpha). set (si := sin alpha).
  assert (SC : si * si + co * co = 1) by (unfold si, co; assert (E := sin2_cos2 alpha); unfold Rsqr in E; exact E).
  set (X := x 0%nat). set (Y := x 1%nat). set (Z := x 2%nat - zend). set (q := X * si - Y * co).
  assert (Z0 : Z <> 0) by (unfold Z; lra).
  set (S := (Y * 0 - Z * si) * (Y * 0 - Z * si) + (Z * co - X * 0) * (Z * co - X * 0) + (X * si - Y * co) * (X * si - Y * co)).
  assert (ES : S = Z * Z + q * q) by (unfold S, q; replace (Z * Z) with (Z * Z * (si * si + co * co)) by (rewrite SC; ring); ring).
  assert (PS : 0 < S) by (rewrite ES; nra). assert (NN : 0 < sqrt S) by (now apply sqrt_lt_R0).
  exists (Z * si * q * si / (sqrt S * sqrt S * sqrt S)), (Z * co * q * co / (sqrt S * sqrt S * sqrt S)), (- (q * Z) / (sqrt S * sqrt S * sqrt S)).
  unfold dcomp, norm3, cross, axis, v3. cbn. fold co si X Y. change (x 2%nat - zend) with Z.
  assert (Q2 : sqrt S * sqrt S = S) by (apply sqrt_sqrt; lra).
  split; [|split; [|split]].
  - auto_derive; repeat match goal with |- context [sqrt ?u] => progress change u with S end;
      [split; [exact PS|split; [lra|exact Logic.I]]|]. unfold q. field. lra.
  - auto_derive; repeat match goal with |- context [sqrt ?u] => progress change u with S end;
      [split; [exact PS|split; [lra|exact Logic.I]]|]. unfold q. field. lra.
  - auto_derive; change (x 2%nat + - zend) with Z; repeat match goal with |- context [sqrt ?u] => progress change u with S end;
      [split; [exact PS|split; [lra|exact Logic.I]]|].
    replace (- (q * Z) / (sqrt S * sqrt S * sqrt S)) with (- (q * (Z * (si * si + co * co))) / (sqrt S * sqrt S * sqrt S)) by (rewrite SC, Rmult_1_r; reflexivity).
    unfold q. field. lra.
  - replace (Z * si * q * si / (sqrt S * sqrt S * sqrt S) + Z * co * q * co / (sqrt S * sqrt S * sqrt S) + - (q * Z) / (sqrt S * sqrt S * sqrt S))
      with (q * Z * (si * si + co * co - 1) / (sqrt S * sqrt S * sqrt S)) by (field; lra).
    rewrite SC. unfold Rdiv. ring.
Qed.
Print Assumptions C71_stator_ends.
