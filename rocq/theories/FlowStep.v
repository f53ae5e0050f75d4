(** Model of the flow solver's step-size control: src/physics/fluidflow/flow_solver.cpp:88-182 (steady
    pseudo-transient continuation) and flow_residual.cpp:582-630 (constant-CFL step). *)
From Coq Require Import Reals List ZArith Bool.
From Verif Require Import Num Vec Euler.
Import ListNotations.
Local Open Scope R_scope.

(** options["time-dis"] entries read in steady mode, default_options.cpp:43-60 *)
Record steady_opts := { so_dt : R; so_exp : R; so_abstol : R; so_reltol : R; so_max_iter : nat }.

(** FlowSolver::calcStepSize, steady branch, flow_solver.cpp:136-146, over any arithmetic; [pow] is the C
    library's pow.  std::max(dt, dt_old). *)
Definition ptc_step (N : num) (pow : T N -> T N -> T N) (dt0 exponent res_norm0 res_norm dt_old : T N) : T N :=
  nmax N (nmul N dt0 (pow (ndiv N res_norm0 res_norm) exponent)) dt_old.

(** FlowSolver::iterationExit, steady branch, flow_solver.cpp:161-177 *)
Definition steady_exit (o : steady_opts) (res_norm0 norm : R) : bool :=
  if Rleb norm (so_abstol o) then true else Rleb norm (res_norm0 * so_reltol o).

Section Steady.
Context {S : Type}.
(** ode->step: new state and time *)
Variable step : S -> R -> R -> S * R.
(** calcResidualNorm(state) *)
Variable resnorm : S -> R.
Variable o : steady_opts.

(** one pass of the loop: step size used, state before, state after *)
Record pass := { ps_dt : R; ps_before : S; ps_after : S }.

(** the loop of AbstractSolver2::solveForState (abstract_solver.cpp:98-114) with the steady branches of
    calcStepSize and iterationExit; [r0] = res_norm0, set by derivedPDEInitialHook (flow_solver.cpp:88-96).
    [n]: remaining passes, [dt]: the step size of the previous pass *)
Fixpoint steady_loop (n : nat) (r0 t dt : R) (s : S) : list pass * S :=
  match n with
  | O => ([], s)
  | Datatypes.S n' =>
      let dt' := ptc_step Rnum Rpower (so_dt o) (so_exp o) r0 (resnorm s) dt in
      let s' := fst (step s t dt') in
      let t' := snd (step s t dt') in
      let p := {| ps_dt := dt'; ps_before := s; ps_after := s' |} in
      if steady_exit o r0 (resnorm s') then ([p], s')
      else (p :: fst (steady_loop n' r0 t' dt' s'), snd (steady_loop n' r0 t' dt' s'))
  end.
(** solveForState in steady mode; the loop starts with dt = 0 (abstract_solver.cpp:96) *)
Definition solveSteadyPTC (t_initial : R) (s : S) : list pass * S :=
  steady_loop (so_max_iter o) (resnorm s) t_initial 0 s.
End Steady.
Arguments ps_dt {S}. Arguments ps_before {S}. Arguments ps_after {S}.

(** one element as minCFLTimeStep sees it: node count, physical node positions, nodal states *)
Record elem := { el_n : nat; el_x : nat -> vec; el_u : nat -> vec }.

(** std::min(a,b) = (b < a) ? b : a *)
Definition cmin (a b : R) : R := if Rltb b a then b else a.

(** the inner loop over j, flow_residual.cpp:607-621 *)
Fixpoint cfl_j (d : nat) (entvar : bool) (cfl : R) (e : elem) (i : nat) (js : list nat) (dt : R) : R :=
  match js with
  | [] => dt
  | j :: r =>
      let dt' := if Nat.eqb j i then dt else
        let dxij := vsub (el_x e j) (el_x e i) in
        let dx := norm d dxij in
        cmin dt (cfl * dx * dx / calcSpectralRadius d entvar dxij (el_u e i)) in
      cfl_j d entvar cfl e i r dt'
  end.
(** the loop over the nodes of an element, :601-622 *)
Definition cfl_elem (d : nat) (entvar : bool) (cfl : R) (dt : R) (e : elem) : R :=
  fold_left (fun dt i => cfl_j d entvar cfl e i (seq 0 (el_n e)) dt) (seq 0 (el_n e)) dt.
(** dt_local on one rank, :587-623 *)
Definition cfl_rank (d : nat) (entvar : bool) (cfl : R) (es : list elem) : R :=
  fold_left (cfl_elem d entvar cfl) es (10 ^ 100).
(** minCFLTimeStep, :582-631: MPI_Allreduce with MPI_MIN over the ranks (at least one) *)
Definition minCFLTimeStep (d : nat) (entvar : bool) (cfl : R) (r0 : list elem) (ranks : list (list elem)) : R :=
  fold_left Rmin (map (cfl_rank d entvar cfl) ranks) (cfl_rank d entvar cfl r0).
