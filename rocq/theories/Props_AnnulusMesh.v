(** C152: the quarter annulus mesh. *)
From Coq Require Import Reals Bool Arith Lia Lra.
From Verif Require Import AnnulusMesh AnnulusMeshProofs.
Local Open Scope R_scope.

(** C152: with at most one cell of perturbation every vertex of the mesh lies in the quarter annulus of radii 1 and 3 in the
    first quadrant. *)
Theorem C152_annulus : forall nr na pert ux uy i j, (0 < nr)%nat -> (0 < na)%nat -> 0 <= pert <= 1 -> drawn pert ux -> drawn pert uy ->
  (i <= nr)%nat -> (j <= na)%nat ->
  let '(x, y) := xy_fun (vertex nr na pert ux uy i j) in 0 <= x /\ 0 <= y /\ 1 <= x ^ 2 + y ^ 2 <= 9.
Proof.
  intros nr na pert ux uy i j Nr Na P Ux Uy Hi Hj.
  destruct (vertex_inside nr na pert ux uy Nr Na (proj1 P) Ux Uy i j (proj2 P) Hi Hj) as [A B].
  destruct (vertex nr na pert ux uy i j) as [r t]. cbn [fst snd] in A, B. assert (K := xy_radius r t). unfold xy_fun in *. cbn [fst snd] in *.
  rewrite K. split; [apply Rmult_le_pos; [lra|apply cos_ge_0; lra]|]. split; [apply Rmult_le_pos; [lra|apply sin_ge_0; lra]|]. nra.
Qed.
Print Assumptions C152_annulus.
Example C152_annulus_nonvacuous : drawn (1 / 5) (fun _ _ => - (1 / 5)) /\ fst (vertex 4 4 (1 / 5) (fun _ _ => - (1 / 5)) (fun _ _ => 0) 2 2) = 9 / 10.
Proof.
  split; [intros i j; lra|]. unfold vertex. cbv zeta. assert (PG := PI_RGT_0). assert (PB := PI_4).
  assert (E : eps < 1 / 10). { unfold eps. assert (16 < 2 ^ 52) by (replace 16 with (2 ^ 4) by lra; apply Rlt_pow; [lra|lia]). replace (1 / 10) with (/ 10) by lra. apply Rinv_lt_contravar; [|lra]. apply Rmult_lt_0_compat; lra. }
  assert (Q := PI2_3_2). unfold PI2 in Q.
  assert (L : rlt eps (1 / 5) && interior (grid 4 4 2 2) = true).
  { unfold interior, grid. cbn [fst snd INR]. rewrite (rlt_is eps) by lra. rewrite (rlt_is eps ((1 + 1) * 2 / (1 + 1 + 1 + 1))) by lra. rewrite (rlt_is _ (2 - eps)) by lra.
    rewrite (rlt_is eps) by lra. rewrite rlt_is by lra. reflexivity. }
  rewrite L. unfold grid. cbn [fst INR]. lra.
Qed.

(** C152: vertices of the boundary do not move: the four sides are the arcs of radius 1 and 3 and the segments of the two axes. *)
Theorem C152_boundary : forall nr na pert ux uy i j, (0 < nr)%nat -> (0 < na)%nat -> 0 <= pert -> drawn pert ux -> drawn pert uy ->
  let '(x, y) := xy_fun (vertex nr na pert ux uy i j) in
  let theta := INR j / INR na * (PI / 2) in let rho := 1 + 2 * (INR i / INR nr) in
  (i = O -> x = cos theta /\ y = sin theta) /\ (i = nr -> x = 3 * cos theta /\ y = 3 * sin theta) /\
  (j = O -> x = rho /\ y = 0) /\ (j = na -> x = 0 /\ y = rho).
Proof.
  intros nr na pert ux uy i j Nr Na P Ux Uy. assert (R1 := nr_pos nr Nr). assert (A1 := na_pos na Na).
  destruct (xy_fun (vertex nr na pert ux uy i j)) as [x y] eqn:E. cbv zeta.
  assert (G : i = O \/ i = nr \/ j = O \/ j = na -> (x, y) = xy_fun (grid nr na i j)) by (intros H; rewrite <- E; f_equal; now apply vertex_edge).
  assert (T : INR j * (PI * 0.5) / INR na = INR j / INR na * (PI / 2)) by (replace 0.5 with (1 / 2) by lra; field; lra).
  split; [|split; [|split]]; intros H; specialize (G ltac:(tauto)); unfold xy_fun, grid in G; cbn [fst snd] in G; rewrite T in G; injection G as -> ->; rewrite H.
  - cbn [INR]. replace (0 * 2 / INR nr + 1) with 1 by (field; lra). lra.
  - replace (INR nr * 2 / INR nr + 1) with 3 by (field; lra). auto.
  - cbn [INR]. replace (0 / INR na * (PI / 2)) with 0 by (field; lra). rewrite cos_0, sin_0. split; [field; lra|ring].
  - replace (INR na / INR na * (PI / 2)) with (PI / 2) by (field; lra). rewrite cos_PI2, sin_PI2. split; [ring|field; lra].
Qed.
Print Assumptions C152_boundary.
Example C152_boundary_nonvacuous : xy_fun (vertex 2 2 (1 / 5) (fun _ _ => 1 / 5) (fun _ _ => 0) 2 0) = (3, 0).
Proof.
  assert (D : drawn (1 / 5) (fun _ _ => 1 / 5)) by (intros i j; lra). assert (D0 : drawn (1 / 5) (fun _ _ => 0)) by (intros i j; lra).
  assert (K := C152_boundary 2 2 (1 / 5) _ _ 2 0 ltac:(lia) ltac:(lia) ltac:(lra) D D0). destruct (xy_fun _) as [x y].
  destruct K as (_ & K & _). destruct (K eq_refl) as [-> ->]. cbn [INR]. replace (0 / (1 + 1) * (PI / 2)) with 0 by (field; lra). rewrite cos_0, sin_0. f_equal; ring.
Qed.

(** C152: perturbed by less than a quarter of a cell, no triangle of the straight mesh is inverted or degenerate, whatever
    numbers are drawn, and the map to the annulus identifies no two of its points. *)
Theorem C152_not_tangled : forall nr na pert ux uy i j, (0 < nr)%nat -> (0 < na)%nat -> 0 <= pert < 1 / 4 -> drawn pert ux -> drawn pert uy ->
  0 < area2 (lower nr na pert ux uy i j) /\ 0 < area2 (upper nr na pert ux uy i j).
Proof. intros nr na pert ux uy i j Nr Na P Ux Uy. split; [now apply lower_pos|now apply upper_pos]. Qed.
Print Assumptions C152_not_tangled.
Example C152_not_tangled_nonvacuous : drawn (1 / 5) (fun i _ => if Nat.even i then 1 / 5 else - (1 / 5)) /\ 0 <= 1 / 5 < 1 / 4 /\
  area2 (lower 1 1 (1 / 5) (fun i _ => if Nat.even i then 1 / 5 else - (1 / 5)) (fun _ _ => 1 / 5) 0 0) = PI.
Proof.
  split; [intros i j; destruct (Nat.even i); lra|]. split; [lra|]. unfold lower.
  rewrite !(vertex_edge 1 1 (1 / 5) _ _ (le_n 1) (le_n 1)) by tauto. unfold grid, area2. cbn [fst snd INR]. replace 0.5 with (1 / 2) by lra. field.
Qed.
Theorem C152_injective : forall r t r' t', 0 <= r <= 2 -> 0 <= r' <= 2 -> 0 <= t <= PI / 2 -> 0 <= t' <= PI / 2 ->
  xy_fun (r, t) = xy_fun (r', t') -> (r, t) = (r', t').
Proof. intros r t r' t' R1 R2 T1 T2 E. destruct (xy_injective r t r' t') as [-> ->]; try tauto; lra. Qed.
Print Assumptions C152_injective.
Example C152_injective_nonvacuous : xy_fun (2, 0) = (3, 0) /\ 0 <= PI / 2.
Proof. split; [unfold xy_fun; cbn [fst snd]; rewrite cos_0, sin_0; f_equal; lra|]. assert (P := PI_RGT_0). lra. Qed.

(** C152 is false of a quarter of a cell and more, which the function accepts: some numbers invert a triangle. *)
Theorem C152_tangled_refuted : forall pert, 1 / 4 <= pert ->
  exists ux uy, drawn pert ux /\ drawn pert uy /\ area2 (lower 4 4 pert ux uy 1 1) <= 0.
Proof.
  intros p P. set (ux := fun i j : nat => match i, j with 1, 1 => p | 2, 1 => - p | _, _ => p end%nat).
  set (uy := fun i j : nat => match i, j with 1, 1 => - p | 2, 1 => p | _, _ => - p end%nat). exists ux, uy.
  assert (PG := PI_RGT_0). assert (PB := PI_4). assert (Q := PI2_3_2). unfold PI2 in Q.
  assert (E : eps < 1 / 10). { unfold eps. assert (16 < 2 ^ 52) by (replace 16 with (2 ^ 4) by lra; apply Rlt_pow; [lra|lia]). replace (1 / 10) with (/ 10) by lra. apply Rinv_lt_contravar; [|lra]. apply Rmult_lt_0_compat; lra. }
  split; [intros i j; unfold ux; destruct i as [|[|[|i]]], j as [|[|j]]; lra|]. split; [intros i j; unfold uy; destruct i as [|[|[|i]]], j as [|[|j]]; lra|].
  assert (L : forall i j, (i = 1 \/ i = 2)%nat -> (j = 1 \/ j = 2)%nat -> rlt eps p && interior (grid 4 4 i j) = true).
  { intros i j Hi Hj. unfold interior, grid. cbn [fst snd]. rewrite (rlt_is eps) by lra.
    destruct Hi as [-> | ->], Hj as [-> | ->]; cbn [INR]; rewrite !rlt_is by lra; reflexivity. }
  unfold lower, vertex. cbv zeta. rewrite !L by auto. unfold grid, ux, uy, area2. cbn [fst snd INR].
  match goal with |- ?x <= 0 => replace x with (PI / 16 * (1 - 4 * p)) by (replace 0.5 with (1 / 2) by lra; field) end. 
  assert (0 <= PI / 16) by lra. nra.
Qed.
Print Assumptions C152_tangled_refuted.
