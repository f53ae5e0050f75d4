(** Model of the time-dependent residual and the first-order ODE, src/common/ode.{hpp,cpp}, on the explicit
    memory of [Inputs]: the residual keeps views of the caller's buffers, as the code does. *)
From Coq Require Import Reals List String Bool Arith.
From Verif Require Import Num Vec Inputs.
Import ListNotations.
Local Open Scope string_scope.
Local Open Scope R_scope.

(** A spatial residual R(time, state); the mass matrix as an operator.  Both are the wrapped objects'
    evaluate/Mult, taken as pure functions of the state and of the "time" input they were last given. *)
Record physics := { spatial : R -> vec -> vec; mass : vec -> vec }.

(** data members of TimeDependentResidual, ode.hpp:92-106 (work vector dropped: it is always written before use) *)
Record tdr := { td_state : vector; td_state_dot : vector; td_dt : R; td_time : R }.

(** reading through a view *)
Definition view (m : mem) (v : vector) : vec := blk m (vdata v).

(** setInputs(TimeDependentResidual), ode.cpp:58-88: shallow views of state and state_dot, scalars copied.
    std::get on the wrong alternative is an exception; absent keys leave the member. *)
Definition setInputs (m : mem) (r : tdr) (inputs : inputs) : outcome tdr :=
  match setVectorFromInputs m inputs "state" (td_state r) false false with
  | Ok (_, s) =>
    match setVectorFromInputs m inputs "state_dot" (td_state_dot r) false false with
    | Ok (_, sd) =>
      match setValueFromInputs inputs "dt" (td_dt r) false with
      | Ok d =>
        match setValueFromInputs inputs "time" (td_time r) false with
        | Ok t => Ok {| td_state := s; td_state_dot := sd; td_dt := d; td_time := t |}
        | _ => BadVariantAccess
        end
      | _ => BadVariantAccess
      end
    | _ => BadVariantAccess
    end
  | _ => BadVariantAccess
  end.

(** evaluate(TimeDependentResidual), ode.cpp:95-117.  The [inputs] argument is not used by the code. *)
Definition evaluate (p : physics) (m : mem) (r : tdr) (inputs : inputs) : vec :=
  let state := view m (td_state r) in
  let state_dot := view m (td_state_dot r) in
  let res_vec :=
    if Reqb (td_dt r) 0 then spatial p (td_time r) state
    else spatial p (td_time r) (axpy state (td_dt r) state_dot) in
  vadd res_vec (mass p state_dot).

(** MISOResidual::Mult, miso_residual.hpp:327-331, for a wrapped TimeDependentResidual: x lives in block xb *)
Definition Mult (p : physics) (m : mem) (r : tdr) (xb n : nat) : vec :=
  evaluate p m r [("state", Vector xb n)].

(** getJacobian(TimeDependentResidual), ode.cpp:119-152, explicit-Jacobian branch.  [jac t x] is the spatial
    Jacobian at (t, x) as a linear operator. *)
Definition getJacobian (p : physics) (jac : R -> vec -> vec -> vec) (m : mem) (r : tdr) : vec -> vec :=
  let state := view m (td_state r) in
  let state_dot := view m (td_state_dot r) in
  if Reqb (td_dt r) 0 then mass p
  else
    let work := axpy state (td_dt r) state_dot in
    fun v => vadd (mass p v) (vscal (td_dt r) (jac (td_time r) work v)).

(** inputs built by FirstOrderODE::solve, ode.cpp:257-263: u in block ub, du_dt in block kb, n entries *)
Definition solve_inputs (n ub kb : nat) (dt t : R) : inputs :=
  [("state", Vector ub n); ("state_dot", Vector kb n); ("dt", Scalar dt); ("time", Scalar t)].

(** FirstOrderODE::Mult, ode.hpp:153-156: explicit evaluation uses dt = 0; ImplicitSolve passes dt *)
Definition mult_inputs (n ub kb : nat) (t : R) : inputs := solve_inputs n ub kb 0 t.

(** ** addJacobians, ode.cpp:11-49: operators by dynamic type; [None] = null-pointer dereference *)
Inductive op_kind := Hypre | Identity | Dense | Block | SumOf | Other.
Record operator := { kind : op_kind; act : vec -> vec }.
Definition addJacobians (A : operator) (dt : R) (B C : operator) : option operator :=
  match kind A, kind B with
  | Hypre, Hypre =>
    match kind C with Hypre => Some {| kind := Hypre; act := fun v => vadd (act A v) (vscal dt (act B v)) |} | _ => None end
  | Identity, Dense =>
    match kind C with Dense => Some {| kind := Dense; act := fun v => vadd (vscal 1 v) (vscal dt (act B v)) |} | _ => None end
  | Block, _ =>
    match kind C with SumOf => Some {| kind := SumOf; act := fun v => vadd (vscal 1 (act A v)) (vscal dt (act B v)) |} | _ => None end
  | _, _ => Some C
  end.

(** ** FirstOrderODE::setTimestepper, ode.cpp:199-249.  [has_deprecated]: the options contain "ode-solver";
    [ty]: the value of "type". *)
Inductive stepper := ForwardEuler | RK4 | ImplicitMidpoint | RRKImplicitMidpoint | RRK6 | PseudoTransient | SteadyODE.
Inductive ts_outcome := Stepper (s : stepper) (iterative_mode : bool) | TsMISOException | TsUndefined.
Definition setTimestepper (has_deprecated : bool) (ty : string) : ts_outcome :=
  if has_deprecated then TsMISOException
  else if String.eqb ty "RK1" then Stepper ForwardEuler false
  else if String.eqb ty "RK4" then Stepper RK4 false
  else if String.eqb ty "MIDPOINT" then Stepper ImplicitMidpoint false
  else if String.eqb ty "RRK" || String.eqb ty "RRKMIDPOINT" then Stepper RRKImplicitMidpoint false
  else if String.eqb ty "RRK6" then Stepper RRK6 false
  else if String.eqb ty "PTC" then Stepper PseudoTransient false
  else if String.eqb ty "steady" then Stepper SteadyODE true
  else
    (* the message is built with ode_options["ode-solver"] on a const json that cannot contain the key here:
       const operator[] with a missing key is undefined (assert) in nlohmann::json *)
    TsUndefined.
