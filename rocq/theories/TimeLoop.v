(** Model of the time loop and the logging hooks, src/common/abstract_solver.cpp.
    Times are real numbers (exact arithmetic); [S] is the type of state vectors. *)
From Coq Require Import Reals List ZArith Bool.
From Verif Require Import Num.
Import ListNotations.
Local Open Scope R_scope.

(** the options["time-dis"] entries read by the loop, default_options.cpp:43-60 *)
Record time_opts := { t_initial : R; t_final : R; dt_opt : R; max_iter : Z; exact_t_final : bool }.

(** struct LoggingOptions, data_logging.hpp:14-19 *)
Record log_opts := { initial_state : bool; each_timestep : bool; final_state : bool }.

(** one logState(logger, state, "state", timestep, time, rank) call, abstract_solver.cpp:9-19, for the
    logger at hand; a log is the list of calls, oldest first *)
Record event (S : Type) := { e_step : Z; e_time : R; e_state : S }.
Arguments e_step {S}. Arguments e_time {S}. Arguments e_state {S}. Arguments Build_event {S}.

(** AbstractSolver2::calcStepSize, abstract_solver.cpp:687-699 (std::min(a,b) = b<a ? b : a) *)
Definition calcStepSize (o : time_opts) (t : R) : R :=
  if exact_t_final o then (if Rltb (t_final o - t) (dt_opt o) then t_final o - t else dt_opt o) else dt_opt o.

(** AbstractSolver2::iterationExit, abstract_solver.cpp:701-708 *)
Definition iterationExit (o : time_opts) (t dt : R) : bool := Rleb (t_final o - 1 / 10^14 * dt) t.

Section Loop.
Context {S : Type}.
(** ode->step(state, t, dt): new state and new time.  Simplification: the step-size reference argument is
    not modified (none of MISO's time marchers does). *)
Variable step : S -> R -> R -> S * R.
Variable o : time_opts.
Variable lo : log_opts.

(** initialHook / iterationHook / terminalHook, abstract_solver.cpp:655-685, 710-724 (one logger) *)
Definition initialHook (s : S) (log : list (event S)) :=
  if initial_state lo then log ++ [Build_event 0%Z 0 s] else log.
Definition iterationHook (iter : Z) (t : R) (s : S) (log : list (event S)) :=
  if each_timestep lo then log ++ [Build_event iter t s] else log.
Definition terminalHook (iter : Z) (t : R) (s : S) (log : list (event S)) :=
  if final_state lo then log ++ [Build_event iter t s] else log.

(** what a run did: the arguments of each pass through the loop (iteration, time before, step size,
    state before), then the values of ti, t, state at the terminal hook and the log *)
Record result := { passes : list (Z * R * R * S); r_iter : Z; r_t : R; r_state : S; r_log : list (event S) }.

(** the for loop of solveForState, abstract_solver.cpp:98-114; [n] = remaining passes max-iter - ti *)
Fixpoint loop (n : nat) (ti : Z) (t : R) (s : S) (log : list (event S)) (acc : list (Z * R * R * S)) : result :=
  match n with
  | O => {| passes := acc; r_iter := ti; r_t := t; r_state := s; r_log := log |}
  | Datatypes.S n' =>
    let dt := calcStepSize o t in
    let log1 := iterationHook ti t s log in
    let '(s', t') := step s t dt in
    let acc' := acc ++ [(ti, t, dt, s)] in
    if iterationExit o t' dt then {| passes := acc'; r_iter := ti; r_t := t'; r_state := s'; r_log := log1 |}
    else loop n' (ti + 1) t' s' log1 acc'
  end.

(** unsteady branch of solveForState, abstract_solver.cpp:88-116 *)
Definition solveForState (s : S) : result :=
  let r := loop (Z.to_nat (max_iter o)) 0 (t_initial o) s (initialHook s []) [] in
  {| passes := passes r; r_iter := r_iter r; r_t := r_t r; r_state := r_state r;
     r_log := terminalHook (r_iter r) (r_t r) (r_state r) (r_log r) |}.

(** steady branch, abstract_solver.cpp:117-133: [newton] = nonlinear_solver->Mult; the final log ignores
    the logger's options *)
Definition solveSteady (newton : S -> S) (s : S) : S * list (event S) :=
  let s' := newton s in (s', initialHook s [] ++ [Build_event 1%Z 1 s']).
End Loop.
Arguments passes {S}. Arguments r_iter {S}. Arguments r_t {S}. Arguments r_state {S}. Arguments r_log {S}.
