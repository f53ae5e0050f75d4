(** Properties C21, C22, C23: time marchers. *)
From Coq Require Import Reals List Arith Lia Lra Bool.
From Verif Require Import Num Vec RootFind RKSpec RungeKutta RungeKuttaProofs RelaxationProofs.
Import ListNotations.
Local Open Scope R_scope.

(** C21.  Pseudo-transient stepping is backward Euler: M (x'-x) + dt R(t', x') = 0, t' = t + dt. *)
Theorem C21_ptc_is_backward_euler :
  forall f kold M Res x t dt x' t', linear_op M ->
  (forall i, M (ec_implicit f (t + dt) dt x kold) i + Res (t + dt) (axpy x dt (ec_implicit f (t + dt) dt x kold)) i = 0) ->
  ptc_step f kold x t dt = (x', t') ->
  t' = t + dt /\ forall i, M (vsub x' x) i + dt * Res t' x' i = 0.
Proof. exact ptc_backward_euler. Qed.
Print Assumptions C21_ptc_is_backward_euler.

(** Relaxed implicit midpoint: state and time advance by the same gamma along the midpoint slope. *)
Theorem C21_midpoint_scheme :
  forall f kold M Res x t dt x' t', let k := ec_implicit f (t + dt / 2) (dt / 2) x kold in
  linear_op M -> (forall i, M k i + Res (t + dt / 2) (axpy x (dt / 2) k) i = 0) ->
  rrk_midpoint_step f kold x t dt = Some (x', t') ->
  exists gamma, t' = t + gamma * dt /\ (forall i, x' i = x i + gamma * dt * k i) /\
  (forall i, M (vsub x' x) i + gamma * dt * Res (t + dt / 2) (axpy x (dt / 2) k) i = 0).
Proof. exact midpoint_step. Qed.
Print Assumptions C21_midpoint_scheme.

(** Explicit relaxed RK with any number of stages and any table: the stages are those of the textbook scheme
    with the packed triangular coefficients, and x' = x + gamma dt sum b_i K_i, t' = t + gamma dt. *)
Theorem C21_explicit_rk_scheme :
  forall f s a b c kold x t dt x' t', (1 <= s)%nat ->
  rrk_explicit_step f s a b c kold x t dt = Some (x', t') ->
  exists K gamma, rk_stages s (fun i j => a (packed i j)) (cs c) (ec_mult f) t dt x K /\
    (forall d, x' d = x d + gamma * dt * rsum s (fun i => b i * K i d)) /\ t' = t + gamma * dt.
Proof.
  intros f s a b c kold x t dt x' t' Hs H. destruct (explicit_step f s a b c kold x t dt x' t' Hs H) as (K & Y & g & de & H1 & _ & H3 & H4 & _).
  exists K, g. split; [|auto]. intros i Hi. exists (Y i). apply H1. exact Hi.
Qed.
Print Assumptions C21_explicit_rk_scheme.

(** a step always returns (the relaxation solver cannot throw) *)
Theorem C21_relaxed_step_total :
  forall f s a b c kold kold1 x t dt,
  (exists r, rrk_explicit_step f s a b c kold x t dt = Some r) /\ (exists r, rrk_midpoint_step f kold1 x t dt = Some r).
Proof.
  intros. assert (G : forall F, exists g, relax_gamma F = Returned g).
  { intros F. unfold relax_gamma. apply RootFindProofs.secant_never_reports_failure. eauto. }
  split.
  - unfold rrk_explicit_step. destruct (stages _ _ _ _ _ _ _ _ _ _ _ _) as [K de].
    match goal with |- context [relax_gamma ?F] => destruct (G F) as [g ->] end. eauto.
  - unfold rrk_midpoint_step. match goal with |- context [relax_gamma ?F] => destruct (G F) as [g ->] end. eauto.
Qed.
Print Assumptions C21_relaxed_step_total.

(** The "steady" marcher selected for a flow solver: the operator it is given solves M k + R(x + dt k) = 0,
    and the state is then overwritten by k; a converged steady state (R(x) = 0) is lost in one step. *)
Theorem C21_steady_marcher_on_time_residual_refuted :
  exists (f : ecop) (Res : vec -> vec) x dt, 0 < dt /\
  (forall t d u k0 i, 0 < d -> ec_implicit f t d u k0 i + Res (axpy u d (ec_implicit f t d u k0)) i = 0) /\
  (forall i, Res x i = 0) /\ (forall i, Res (fst (steady_step f x 0 dt)) i <> 0).
Proof.
  exists relax_to_one, (fun u i => u i - 1), (fun _ => 1), 1. repeat split; try lra; intros; cbn; unfold axpy.
  - field. lra.
  - lra.
  - lra.
Qed.
Print Assumptions C21_steady_marcher_on_time_residual_refuted.

(** C22.  Entropy after a relaxed midpoint step = entropy before - gamma dt (predicted rate) + defect, where
    the defect is the relaxation residual at gamma: below 1e-12 unless the secant search stopped on a small
    update or on its iteration limit ([relaxed_ok]; see C03). *)
Theorem C22_midpoint_entropy_balance_partial :
  forall f kold x t dt x' t', rrk_midpoint_step f kold x t dt = Some (x', t') ->
  let k := ec_implicit f (t + dt / 2) (dt / 2) x kold in
  let delta := ec_change f (t + dt / 2) (1/2 * dt) (axpy x (1/2 * dt) k) k in
  exists gamma, t' = t + gamma * dt /\ (forall i, x' i = x i + gamma * dt * k i) /\
  ec_entropy f x' = ec_entropy f x - gamma * dt * delta + midpoint_entropyFun f x k dt delta gamma /\
  relaxed_ok (midpoint_entropyFun f x k dt delta) gamma.
Proof. exact midpoint_entropy. Qed.
Print Assumptions C22_midpoint_entropy_balance_partial.

Theorem C22_explicit_entropy_balance_partial :
  forall f s a b c kold x t dt x' t', (1 <= s)%nat ->
  rrk_explicit_step f s a b c kold x t dt = Some (x', t') ->
  exists K Y gamma, 
    (forall i, (i < s)%nat -> (forall d, Y i d = x d + dt * rsum i (fun j => a (packed i j) * K j d)) /\ K i = ec_mult f (t + cs c i * dt) (Y i)) /\
    let delta := rsum s (fun i => b i * ec_change f (t + cs c i * dt) (cs c i * dt) (Y i) (K i)) in
    let defect := fun g => ec_entropy f (fun d => x d + g * dt * rsum s (fun i => b i * K i d)) - ec_entropy f x + g * dt * delta in
    t' = t + gamma * dt /\ ec_entropy f x' = ec_entropy f x - gamma * dt * delta + defect gamma /\ relaxed_ok defect gamma.
Proof.
  intros f s a b c kold x t dt x' t' Hs H. destruct (explicit_step f s a b c kold x t dt x' t' Hs H) as (K & Y & g & de & H1 & H2 & H3 & H4 & H5).
  exists K, Y, g. split; [exact H1|]. intros delta df. subst de. fold delta in H5. fold df in H5. split; [exact H4|]. split; [|apply relax_gamma_ok; exact H5].
  unfold df. replace (fun d => x d + g * dt * rsum s (fun i => b i * K i d)) with x'; [ring|].
  apply FunctionalExtensionality.functional_extensionality. exact H3.
Qed.
Print Assumptions C22_explicit_entropy_balance_partial.

(** Quadratic entropy with the consistent rate: the relaxation equation is (dt^2/2)|k|^2 gamma (gamma - 1),
    so the non-trivial relaxation factor is exactly 1. *)
Theorem C22_midpoint_quadratic_entropy :
  forall n f x k dt g, (forall u, ec_entropy f u = 1/2 * dot n u u) ->
  midpoint_entropyFun f x k dt (- dot n (axpy x (1/2 * dt) k) k) g = dt^2 / 2 * dot n k k * (g * (g - 1)).
Proof. exact midpoint_quadratic. Qed.
Print Assumptions C22_midpoint_quadratic_entropy.

(** Convex entropy: a non-zero relaxation factor is positive, so time moves forward. *)
Theorem C22_relaxation_factor_positive :
  forall n f w x k dt g, (forall u v, ec_entropy f u + dot n (w u) (vsub v u) <= ec_entropy f v) ->
  0 < dt -> dot n (w x) k < dot n (w (axpy x (1/2 * dt) k)) k ->
  midpoint_entropyFun f x k dt (- dot n (w (axpy x (1/2 * dt) k)) k) g = 0 -> g <> 0 -> 0 < g.
Proof. exact midpoint_positive. Qed.
Print Assumptions C22_relaxation_factor_positive.

(** but gamma = 0 is always a solution, and with time-dependent forcing the flow solver's predicted rate is
    evaluated half a step too late, which can make it the only one: the step then goes nowhere *)
Theorem C22_no_progress_refuted :
  (forall f x k dt delta, midpoint_entropyFun f x k dt delta 0 = 0) /\
  (forall kold x, exists x', rrk_midpoint_step forced kold x 0 1 = Some (x', 0) /\ (forall i, x' i = x i)).
Proof. split; [exact midpoint_zero_root|exact forced_stuck]. Qed.
Print Assumptions C22_no_progress_refuted.

(** C23.  The table of the 8-stage scheme, read as decimals. *)
Theorem C23_order_six :
  forall t, (order t <= 6)%nat -> Rabs (defect 8 A6 b6 t) <= 1 / 10 ^ 34.
Proof. exact order6. Qed.
Print Assumptions C23_order_six.

Theorem C23_row_sums :
  forall i, (i < 8)%nat -> Rabs (rsum i (fun j => A6 i j) - c6 i) <= 1 / 10 ^ 37.
Proof. exact row_sums. Qed.
Print Assumptions C23_row_sums.

Theorem C23_not_order_seven :
  exists t, order t = 7%nat /\ 1 / 10 ^ 7 < Rabs (defect 8 A6 b6 t).
Proof. exact order7_fails. Qed.
Print Assumptions C23_not_order_seven.

(** the packed indices used by the stage loop never leave the arrays *)
Theorem C23_table_in_bounds :
  length RRK6_b = RRK6_s /\ length RRK6_c = (RRK6_s - 1)%nat /\
  forall i j, (i < RRK6_s)%nat -> (j < i)%nat -> (packed i j < length RRK6_a)%nat.
Proof.
  repeat split. intros i j Hi Hj. unfold RRK6_s in Hi. change (length RRK6_a) with 28%nat.
  do 8 (destruct i as [|i]; [unfold packed; cbn; lia|]). lia.
Qed.
Print Assumptions C23_table_in_bounds.

Example C23_nonvacuous : order (Node [Node []; Node [Node []; Node []]; Node []]) = 6%nat /\ density (Node [Node []; Node [Node []; Node []]; Node []]) = 18%nat.
Proof. split; reflexivity. Qed.
(** decay x' = -x: the midpoint solve in closed form *)
Example C21_nonvacuous :
  let f := {| ec_mult := fun t x i => - x i; ec_implicit := fun t dt x k0 i => - x i / (1 + dt);
              ec_entropy := fun x => 1/2 * dot 1 x x; ec_change := fun t dt u k => dot 1 u u |} in
  linear_op (fun v => v) /\
  forall x t dt kold, 0 < dt -> let k := ec_implicit f (t + dt / 2) (dt / 2) x kold in forall i, k i + axpy x (dt / 2) k i = 0.
Proof. split; [intros u v s; reflexivity|]. intros x t dt kold H. cbn. unfold axpy. intros i. field. lra. Qed.
