(** Proofs about the quarter annulus mesh. *)
From Coq Require Import Reals Bool Arith Lia Lra.
From Verif Require Import AnnulusMesh.
Local Open Scope R_scope.

(** twice the signed area of a triangle *)
Definition area2 (t : (R * R) * (R * R) * (R * R)) : R :=
  let '(a, b, c) := t in (fst b - fst a) * (snd c - snd a) - (fst c - fst a) * (snd b - snd a).
(** the numbers drawn lie in [-pert, pert] *)
Definition drawn (pert : R) (u : nat -> nat -> R) : Prop := forall i j, - pert <= u i j <= pert.

Lemma eps_pos : 0 < eps.
Proof. unfold eps. apply Rinv_0_lt_compat, pow_lt. lra. Qed.
Lemma rlt_true x y : rlt x y = true -> x < y.
Proof. unfold rlt. destruct (Rlt_dec x y); [auto|discriminate]. Qed.
Lemma rlt_is x y : x < y -> rlt x y = true.
Proof. intros H. unfold rlt. destruct (Rlt_dec x y); [reflexivity|lra]. Qed.
Lemma rlt_not x y : ~ x < y -> rlt x y = false.
Proof. intros H. unfold rlt. destruct (Rlt_dec x y); [lra|reflexivity]. Qed.

Section Mesh.
Variables (nr na : nat) (pert : R) (ux uy : nat -> nat -> R).
Hypotheses (Nr : (0 < nr)%nat) (Na : (0 < na)%nat) (P0 : 0 <= pert) (Ux : drawn pert ux) (Uy : drawn pert uy).
Let V := vertex nr na pert ux uy.
Lemma nr_pos : 0 < INR nr. Proof. now apply lt_0_INR. Qed.
Lemma na_pos : 0 < INR na. Proof. now apply lt_0_INR. Qed.
(** every vertex is a grid vertex displaced by at most pert cells; it is not displaced unless interior *)
Lemma vertex_form i j : exists a b, - pert <= a <= pert /\ - pert <= b <= pert /\
  V i j = ((INR i + a) * (2 / INR nr), (INR j + b) * (PI * 0.5 / INR na)) /\
  (interior (grid nr na i j) = false -> a = 0 /\ b = 0).
Proof.
  assert (R1 := nr_pos). assert (A1 := na_pos).
  unfold V, vertex. cbv zeta. destruct (rlt eps pert && interior (grid nr na i j)) eqn:E.
  - exists (ux i j), (uy i j). split; [apply Ux|]. split; [apply Uy|]. split.
    + unfold grid. cbn [fst snd]. f_equal; field; lra.
    + intros F. rewrite F, Bool.andb_false_r in E. discriminate.
  - exists 0, 0. split; [lra|]. split; [lra|]. split; [|auto]. unfold grid. f_equal; field; lra.
Qed.
Lemma edge i j : i = O \/ i = nr \/ j = O \/ j = na -> interior (grid nr na i j) = false.
Proof.
  assert (R1 := nr_pos). assert (A1 := na_pos). assert (E := eps_pos). unfold interior, grid. cbn [fst snd].
  intros [->|[->|[->| ->]]]; cbn [INR].
  - rewrite (rlt_not eps); [reflexivity|]. replace (0 * 2 / INR nr) with 0 by (field; lra). lra.
  - rewrite (rlt_not (INR nr * 2 / INR nr)); [now rewrite Bool.andb_false_r|]. replace (INR nr * 2 / INR nr) with 2 by (field; lra). lra.
  - rewrite (rlt_not eps (0 * _ / _)); [now rewrite Bool.andb_false_r|]. replace (0 * (PI * 0.5) / INR na) with 0 by (field; lra). lra.
  - rewrite (rlt_not (INR na * _ / _)); [now rewrite Bool.andb_false_r|]. replace (INR na * (PI * 0.5) / INR na) with (PI * 0.5) by (field; lra). lra.
Qed.
Lemma vertex_edge i j : i = O \/ i = nr \/ j = O \/ j = na -> V i j = grid nr na i j.
Proof. intros H. unfold V, vertex. rewrite (edge i j H). now rewrite Bool.andb_false_r. Qed.

(** a number of cells from the boundary *)
Lemma inside n i a : (i <= n)%nat -> (0 < n)%nat -> (i = O \/ i = n -> a = 0) -> - 1 <= a <= 1 -> 0 <= INR i + a <= INR n.
Proof.
  intros H N E A. destruct (Nat.eq_dec i 0) as [->|I0]; [rewrite E by tauto; cbn; split; [lra|]; assert (K := pos_INR n); lra|].
  destruct (Nat.eq_dec i n) as [->|I1]; [rewrite E by tauto; assert (K := pos_INR n); lra|].
  assert (K := le_INR 1 i ltac:(lia)). assert (K' := le_INR (i + 1) n ltac:(lia)). rewrite plus_INR in K'. cbn in K, K'. lra.
Qed.
Lemma vertex_inside i j : pert <= 1 -> (i <= nr)%nat -> (j <= na)%nat -> 0 <= fst (V i j) <= 2 /\ 0 <= snd (V i j) <= PI / 2.
Proof.
  intros P Hi Hj. assert (R1 := nr_pos). assert (A1 := na_pos). assert (PP := PI_RGT_0).
  destruct (vertex_form i j) as (a & b & A & B & E & Z). rewrite E. cbn [fst snd].
  assert (I1 : 0 <= INR i + a <= INR nr) by (apply inside; [assumption|assumption|intros K; apply Z, edge; tauto|lra]).
  assert (I2 : 0 <= INR j + b <= INR na) by (apply inside; [assumption|assumption|intros K; apply Z, edge; tauto|lra]).
  assert (Q1 : 0 < 2 / INR nr) by (apply Rdiv_lt_0_compat; lra). assert (Q2 : 0 < PI * 0.5 / INR na) by (apply Rdiv_lt_0_compat; lra).
  split; split.
  - apply Rmult_le_pos; lra.
  - apply Rle_trans with (INR nr * (2 / INR nr)); [apply Rmult_le_compat_r; lra|right; field; lra].
  - apply Rmult_le_pos; lra.
  - apply Rle_trans with (INR na * (PI * 0.5 / INR na)); [apply Rmult_le_compat_r; lra|right; replace 0.5 with (1 / 2) by lra; field; lra].
Qed.
Lemma unit_area p d1 d2 d3 d4 : 0 <= p < 1 / 4 -> - (2 * p) <= d1 <= 2 * p -> - (2 * p) <= d2 <= 2 * p -> - (2 * p) <= d3 <= 2 * p -> - (2 * p) <= d4 <= 2 * p ->
  0 < (1 + d1) * (1 + d4) - d2 * d3.
Proof.
  intros P H1 H2 H3 H4.
  assert (A : (1 - 2 * p) * (1 - 2 * p) <= (1 + d1) * (1 + d4)) by (apply Rmult_le_compat; lra).
  assert (B : d2 * d3 <= (2 * p) * (2 * p)).
  { apply Rle_trans with (Rabs d2 * Rabs d3); [rewrite <- Rabs_mult; apply Rle_abs|].
    apply Rmult_le_compat; try apply Rabs_pos; apply Rabs_le; lra. }
  nra.
Qed.
Lemma lower_pos i j : pert < 1 / 4 -> 0 < area2 (lower nr na pert ux uy i j).
Proof.
  intros P. assert (R1 := nr_pos). assert (A1 := na_pos). assert (PP := PI_RGT_0).
  unfold lower, area2. fold V. cbv zeta.
  destruct (vertex_form i j) as (a0 & b0 & A0 & B0 & E0 & _). destruct (vertex_form (S i) j) as (a1 & b1 & A1' & B1 & E1 & _).
  destruct (vertex_form (S i) (S j)) as (a2 & b2 & A2 & B2 & E2 & _). rewrite E0, E1, E2. cbn [fst snd]. rewrite !S_INR.
  assert (U := unit_area pert (a1 - a0) (b1 - b0) (a2 - a1) (b2 - b1) ltac:(lra) ltac:(lra) ltac:(lra) ltac:(lra) ltac:(lra)).
  assert (Q1 : 0 < 2 / INR nr) by (apply Rdiv_lt_0_compat; lra). assert (Q2 : 0 < PI * 0.5 / INR na) by (apply Rdiv_lt_0_compat; lra).
  set (h := 2 / INR nr) in *. set (k := PI * 0.5 / INR na) in *.
  match goal with |- 0 < ?x => replace x with (h * k * ((1 + (a1 - a0)) * (1 + (b2 - b1)) - (b1 - b0) * (a2 - a1))) by ring end.
  apply Rmult_lt_0_compat; [now apply Rmult_lt_0_compat|exact U].
Qed.
Lemma upper_pos i j : pert < 1 / 4 -> 0 < area2 (upper nr na pert ux uy i j).
Proof.
  intros P. assert (R1 := nr_pos). assert (A1 := na_pos). assert (PP := PI_RGT_0).
  unfold upper, area2. fold V. cbv zeta.
  destruct (vertex_form i j) as (a0 & b0 & A0 & B0 & E0 & _). destruct (vertex_form i (S j)) as (a2 & b2 & A2 & B2 & E2 & _).
  destruct (vertex_form (S i) (S j)) as (a1 & b1 & A1' & B1 & E1 & _). rewrite E0, E1, E2. cbn [fst snd]. rewrite !S_INR.
  assert (U := unit_area pert (a1 - a2) (b1 - b2) (a2 - a0) (b2 - b0) ltac:(lra) ltac:(lra) ltac:(lra) ltac:(lra) ltac:(lra)).
  assert (Q1 : 0 < 2 / INR nr) by (apply Rdiv_lt_0_compat; lra). assert (Q2 : 0 < PI * 0.5 / INR na) by (apply Rdiv_lt_0_compat; lra).
  set (h := 2 / INR nr) in *. set (k := PI * 0.5 / INR na) in *.
  match goal with |- 0 < ?x => replace x with (h * k * ((1 + (a1 - a2)) * (1 + (b2 - b0)) - (b1 - b2) * (a2 - a0))) by ring end.
  apply Rmult_lt_0_compat; [now apply Rmult_lt_0_compat|exact U].
Qed.
End Mesh.

Lemma xy_radius r t : fst (xy_fun (r, t)) ^ 2 + snd (xy_fun (r, t)) ^ 2 = (r + 1) ^ 2.
Proof. unfold xy_fun. cbn [fst snd]. assert (H := sin2_cos2 t). unfold Rsqr in H. replace ((r + 1) ^ 2) with ((r + 1) ^ 2 * (sin t * sin t + cos t * cos t)) by (rewrite H; ring). ring. Qed.
Lemma xy_injective r t r' t' : 0 <= r -> 0 <= r' -> 0 <= t <= PI / 2 -> 0 <= t' <= PI / 2 -> xy_fun (r, t) = xy_fun (r', t') -> r = r' /\ t = t'.
Proof.
  intros R1 R2 T1 T2 E. assert (P := PI_RGT_0). assert (K := xy_radius r t). rewrite E, xy_radius in K.
  assert (r = r') as -> by nra. split; [reflexivity|]. unfold xy_fun in E. cbn [fst snd] in E. injection E as E1 E2.
  assert (S : sin t = sin t') by (apply (Rmult_eq_reg_l (r' + 1)); [exact E2|lra]).
  destruct (Rtotal_order t t') as [L|[L|L]]; [|exact L|].
  - assert (sin t < sin t') by (apply sin_increasing_1; lra). lra.
  - assert (sin t' < sin t) by (apply sin_increasing_1; lra). lra.
Qed.
