(** Property C20: the time-dependent residual and its Jacobian. *)
From Coq Require Import Reals List String Bool Arith Lia Lra.
From Coquelicot Require Import Coquelicot.
From Verif Require Import Num Vec Inputs Ode OdeProofs LineSearch Newton.
Import ListNotations.
Local Open Scope R_scope.

(** After FirstOrderODE::solve(dt, u, du_dt) has set the inputs (u in buffer ub, du_dt in buffer kb), the
    residual at any later memory m' is  M k + R(t, u + dt k)  for the current contents u, k of the two
    buffers; for dt = 0 (explicit stepping) this is M k + R(t, u). *)
Theorem C20_residual_is_Mk_plus_R :
  forall p m r n ub kb dt t r', setInputs m r (solve_inputs n ub kb dt t) = Ok r' ->
  (forall tt u w i, (forall j, u j = w j) -> spatial p tt u i = spatial p tt w i) ->
  forall m' inp i, let u := blk m' ub in let k := blk m' kb in
  evaluate p m' r' inp i = mass p k i + spatial p t (fun j => u j + dt * k j) i.
Proof. exact evaluate_spec. Qed.
Print Assumptions C20_residual_is_Mk_plus_R.

(** setting the inputs never throws, whatever the previous state of the residual *)
Theorem C20_solve_inputs_accepted :
  forall m r n ub kb dt t, exists r', setInputs m r (solve_inputs n ub kb dt t) = Ok r'.
Proof. intros. destruct (solve_sets m r n ub kb dt t) as (r' & E & _). eauto. Qed.
Print Assumptions C20_solve_inputs_accepted.

(** The Jacobian handed to the Newton solver is the derivative of that residual with respect to k: move the
    buffer of k along v ([move]) and differentiate.  R is differentiable along every direction with
    derivative jac, M is linear. *)
Theorem C20_jacobian_is_derivative :
  forall p jac m r n ub kb dt t r', ub <> kb ->
  setInputs m r (solve_inputs n ub kb dt t) = Ok r' ->
  (forall tt u w i, (forall j, u j = w j) -> spatial p tt u i = spatial p tt w i) ->
  (forall u v s i, mass p (fun j => u j + s * v j) i = mass p u i + s * mass p v i) ->
  (forall tt x v i, is_derive (fun s => spatial p tt (fun j => x j + s * v j) i) 0 (jac tt x v i)) ->
  (forall tt x v s i, jac tt x (fun j => s * v j) i = s * jac tt x v i) ->
  forall m' v inp i,
  is_derive (fun s => evaluate p (move m' kb s v) r' inp i) 0 (getJacobian p jac m' r' v i).
Proof. exact jacobian_derivative. Qed.
Print Assumptions C20_jacobian_is_derivative.

(** assembling A + dt*B *)
Theorem C20_addJacobians_sum :
  forall A dt B C D, addJacobians A dt B C = Some D ->
  (kind A = Hypre /\ kind B = Hypre) \/ (kind A = Identity /\ kind B = Dense /\ (forall v i, act A v i = v i)) \/ kind A = Block ->
  forall v i, act D v i = act A v i + dt * act B v i.
Proof. exact addJacobians_supported. Qed.
Print Assumptions C20_addJacobians_sum.

(** any other combination silently keeps the old Jacobian (e.g. a parallel mass matrix with a dense spatial
    Jacobian) *)
Theorem C20_addJacobians_unsupported_refuted :
  exists A B C D, kind A = Hypre /\ kind B = Dense /\ addJacobians A 1 B C = Some D /\
  exists v i, act D v i <> act A v i + 1 * act B v i.
Proof.
  exists {| kind := Hypre; act := fun v => v |}, {| kind := Dense; act := fun v => v |}, {| kind := Hypre; act := fun v => v |},
    {| kind := Hypre; act := fun v => v |}.
  repeat split. exists (fun _ => 1), 0%nat. cbn. lra.
Qed.
Print Assumptions C20_addJacobians_unsupported_refuted.

(** The residual seen by the nonlinear solver does not depend on the point it is asked for, only on the
    buffer of k: evaluating at a trial point held elsewhere gives the residual at the current iterate. *)
Theorem C20_argument_ignored_refuted :
  forall p m r xb yb n, Mult p m r xb n = Mult p m r yb n.
Proof. intros. apply evaluate_ignores. Qed.
Print Assumptions C20_argument_ignored_refuted.

(** hence RelaxedNewton's line search on a time-dependent residual rejects every step: whenever the
    direction c is a descent direction of the residual norm the step length is 0 *)
Theorem C20_relaxed_newton_stalls_refuted :
  forall p m r n ub kb dt t r' o jac m' sb c,
  setInputs m r (solve_inputs n ub kb dt t) = Ok r' -> sb <> ub -> sb <> kb ->
  (forall tt u w, (forall j, u j = w j) -> spatial p tt u = spatial p tt w) ->
  (forall u w, (forall j, u j = w j) -> mass p u = mass p w) ->
  let res := Mult p m' r' kb n in
  norm n res <> 0 -> 0 < dot n (jac c) res -> 0 < mu Rnum o -> 0 < rho_lo Rnum o ->
  ComputeScalingFactor n o (fun z => Mult p (put m' sb z) r' sb n) jac (blk m' kb) res c = 0.
Proof. exact relaxed_newton_stalls. Qed.
Print Assumptions C20_relaxed_newton_stalls_refuted.

(** a logistic-type scalar problem meets the hypotheses of the residual and Jacobian theorems *)
Example C20_nonvacuous :
  let p := {| spatial := fun t x i => t + x i * x i; mass := fun v i => 2 * v i |} in
  let jac := fun (t : R) (x v : vec) i => 2 * x i * v i in
  (forall tt u w i, (forall j, u j = w j) -> spatial p tt u i = spatial p tt w i) /\
  (forall u v s i, mass p (fun j => u j + s * v j) i = mass p u i + s * mass p v i) /\
  (forall tt x v i, is_derive (fun s => spatial p tt (fun j => x j + s * v j) i) 0 (jac tt x v i)) /\
  (forall tt x v s i, jac tt x (fun j => s * v j) i = s * jac tt x v i).
Proof.
  cbn. split; [|split; [|split]].
  - intros tt u w i E. rewrite E. reflexivity.
  - intros u v s i. ring.
  - intros tt x v i. auto_derive; [trivial|ring].
  - intros tt x v s i. ring.
Qed.
