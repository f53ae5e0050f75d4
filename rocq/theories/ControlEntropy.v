(** The coupled flow-control residual as an object with memory: setInputs_, evaluate_, calcEntropy_, calcEntropyChange_ and
    calcSupplyRate_ of FlowControlResidual, src/physics/fluidflow/flow_control_residual.cpp:338-449, on one process.
    Vectors by value (sharing of memory with the caller is the subject of Inputs). *)
From Coq Require Import Reals String List Bool Arith.
From Verif Require Import Num Vec Control Sbp SbpMesh ViscWall FlowJac EntropyRate.
Import ListNotations.
Local Open Scope R_scope.

(** what the flow integrators remember between calls: ControlBC and ViscousControlBC's control and x_actuator
    (euler_integ.hpp:592-596, navier_stokes_integ.hpp:1203-1207), the time of the time-dependent conditions *)
Record fmem := { f_control : R; f_act : option vec; f_time : R }.
(** the residual's members: the controller, the flow integrators, x_actuator (flow_control_residual.hpp:303; empty, None,
    until it is supplied) *)
Record coupled := { k_ctrl : cstate; k_flow : fmem; k_act : option vec }.
(** constructor: ControlBC is built with xc = (0.5, 0), flow_residual.cpp:292; control is 0 (euler_integ.hpp:544-546) *)
Definition k_init : coupled := {| k_ctrl := cinit; k_flow := {| f_control := 0; f_act := Some (fun i => match i with O => 1/2 | _ => 0 end); f_time := 0 |}; k_act := None |}.

(** result of a call and the object afterwards; Undefined: squaredExponential on an empty vector (utils.cpp:51-55) *)
Inductive result (A : Type) := Value (a : A) | Throws (e : stop) | Undefined.
Arguments Value {A}. Arguments Throws {A}. Arguments Undefined {A}.

(** setInputs of the flow form's integrators with "control", "x-actuator" and "time" *)
Definition flow_set (l : cins) (f : fmem) : fmem * stop :=
  match find "control" l with
  | Some (Arr _) => (f, BadVariantAccess)
  | c =>
    let f := {| f_control := match c with Some (Num v) => v | _ => f_control f end; f_act := f_act f; f_time := f_time f |} in
    match find "x-actuator" l with
    | Some (Num _) => (f, BadVariantAccess)
    | a =>
      let f := {| f_control := f_control f; f_act := match a with Some (Arr v) => Some v | _ => f_act f end; f_time := f_time f |} in
      match find "time" l with
      | Some (Arr _) => (f, BadVariantAccess)
      | t => ({| f_control := f_control f; f_act := f_act f; f_time := match t with Some (Num v) => v | _ => f_time f end |}, Fine)
      end
    end
  end.
(** setInputs_, :338-355: controller, flow, then x_actuator *)
Definition setInputs_ (l : cins) (x : vec) (k : coupled) : coupled * stop :=
  match setInputs (set_state x l) (k_ctrl k) with
  | (c, Fine) =>
    match flow_set l (k_flow k) with
    | (f, Fine) =>
      match find "x-actuator" l with
      | Some (Num _) => ({| k_ctrl := c; k_flow := f; k_act := k_act k |}, BadVariantAccess)
      | Some (Arr a) => ({| k_ctrl := c; k_flow := f; k_act := Some a |}, Fine)
      | None => ({| k_ctrl := c; k_flow := f; k_act := k_act k |}, Fine)
      end
    | (f, e) => ({| k_ctrl := c; k_flow := f; k_act := k_act k |}, e)
    end
  | (c, e) => ({| k_ctrl := c; k_flow := k_flow k; k_act := k_act k |}, e)
  end.

Section Coupled.
Variable test_ode : bool.
(** the flow: dimension, variables, coefficients, mesh; the boundary conditions for given control, actuator and time *)
Variables (d : nat) (entvar : bool) (lps : R) (visc : option viscosity) (ifc : option R) (M : mesh).
Variable bcs : R -> vec -> R -> bface -> bc.
Variable walls : R -> vec -> R -> list vface.
(** the boundary-entropy output for an actuator position, and the far-field supply rate (Aero) *)
Variable bndry_entropy : vec -> (nat -> vec) -> R.
Variable supply_rate : (nat -> vec) -> R.

(** the control velocity: :367-374, 411-417 *)
Definition controlVelocity (x : vec) (u : nat -> vec) (k : coupled) : coupled * result R :=
  match k_act k with
  | None => (k, Undefined)
  | Some a =>
    match setInputs [("state"%string, Arr x); ("boundary-entropy"%string, Num (bndry_entropy a u))] (k_ctrl k) with
    | (c, Fine) => ({| k_ctrl := c; k_flow := k_flow k; k_act := k_act k |}, Value (velocity test_ode c))
    | (c, e) => ({| k_ctrl := c; k_flow := k_flow k; k_act := k_act k |}, Throws e)
    end
  end.
(** evaluate_, :358-381: the control residual and the flow residual *)
Definition evaluate_ (l : cins) (x : vec) (u : nat -> vec) (k : coupled) : coupled * result (vec * option mat) :=
  match setInputs_ l x k with
  | (k, Fine) =>
    match controlVelocity x u k with
    | (k, Value vel) =>
      match k_act k with
      | None => (k, Undefined)
      | Some a =>
        let f := {| f_control := vel; f_act := Some a; f_time := f_time (k_flow k) |} in
        let r := residualAt d entvar lps visc ifc M (bcs vel a) (walls vel a) (f_time f) u in
        match setInputs [("state"%string, Arr x); ("boundary-entropy"%string, Num (bndry_entropy a u))] (k_ctrl k) with
        | (c, Fine) => ({| k_ctrl := c; k_flow := f; k_act := k_act k |}, Value (residual test_ode c, r))
        | (c, e) => ({| k_ctrl := c; k_flow := f; k_act := k_act k |}, Throws e)
        end
      end
    | (k, Throws e) => (k, Throws e)
    | (k, Undefined) => (k, Undefined)
    end
  | (k, e) => (k, Throws e)
  end.
(** calcEntropy_, :383-394: flow entropy plus controller entropy *)
Definition calcEntropy_ (l : cins) (x : vec) (u : nat -> vec) (k : coupled) : coupled * result R :=
  match setInputs_ l x k with
  | (k, Fine) =>
    match setInputs [("state"%string, Arr x)] (k_ctrl k) with
    | (c, Fine) => ({| k_ctrl := c; k_flow := k_flow k; k_act := k_act k |}, Value (calcEntropy d entvar M u + Control.entropy test_ode c))
    | (c, e) => ({| k_ctrl := c; k_flow := k_flow k; k_act := k_act k |}, Throws e)
    end
  | (k, e) => (k, Throws e)
  end.
(** calcEntropyChange_, :396-430: of the caller's inputs only state, state_dot, time and dt are read; the flow gets the
    new control, the time and dt, and keeps its actuator *)
Definition calcEntropyChange_ (l : cins) (x : vec) (u : nat -> vec) (xdot : vec) (udot : nat -> vec) (k : coupled) : coupled * result R :=
  match find "time" l, find "dt" l with
  | Some (Num t), Some (Num dt) =>
    match controlVelocity x u k with
    | (k, Value vel) =>
      match f_act (k_flow k) with
      | None => (k, Undefined)
      | Some a =>
        (* calcFormOutput sets the integrators' time once more, to time + dt *)
        let f := {| f_control := vel; f_act := Some a; f_time := t + dt |} in
        match calcEntropyChange d entvar lps visc ifc M (bcs vel a) (walls vel a) t dt u udot with
        | None => ({| k_ctrl := k_ctrl k; k_flow := f; k_act := k_act k |}, Throws MISOException)
        | Some flow =>
          match setInputs [("state"%string, Arr x); ("state_dot"%string, Arr xdot); ("time"%string, Num t); ("dt"%string, Num dt)] (k_ctrl k) with
          | (c, Fine) => ({| k_ctrl := c; k_flow := f; k_act := k_act k |}, Value (flow + entropyChange test_ode c xdot))
          | (c, e) => ({| k_ctrl := c; k_flow := f; k_act := k_act k |}, Throws e)
          end
        end
      end
    | (k, Throws e) => (k, Throws e)
    | (k, Undefined) => (k, Undefined)
    end
  | None, _ => (k, Throws MISOException)
  | Some (Num _), None => (k, Throws MISOException)
  | _, _ => (k, Throws BadVariantAccess)
  end.
(** calcSupplyRate_, :432-449 *)
Definition calcSupplyRate_ (l : cins) (u : nat -> vec) (k : coupled) : coupled * result R :=
  match find "time" l, find "dt" l with
  | Some (Num _), Some (Num _) => (k, Value (supply_rate u))
  | None, _ => (k, Throws MISOException)
  | Some (Num _), None => (k, Throws MISOException)
  | _, _ => (k, Throws BadVariantAccess)
  end.

(** a call, with the caller's inputs and states *)
Inductive call := CSet (l : cins) (x : vec) | CEvaluate (l : cins) (x : vec) (u : nat -> vec) | CEntropy (l : cins) (x : vec) (u : nat -> vec)
  | CChange (l : cins) (x : vec) (u : nat -> vec) (xdot : vec) (udot : nat -> vec) | CSupply (l : cins) (u : nat -> vec).
Definition after (k : coupled) (c : call) : coupled :=
  match c with
  | CSet l x => fst (setInputs_ l x k)
  | CEvaluate l x u => fst (evaluate_ l x u k)
  | CEntropy l x u => fst (calcEntropy_ l x u k)
  | CChange l x u xdot udot => fst (calcEntropyChange_ l x u xdot udot k)
  | CSupply l u => fst (calcSupplyRate_ l u k)
  end.
Definition history (h : list call) : coupled := fold_left after h k_init.
End Coupled.
