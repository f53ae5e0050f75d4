(** Model of the flow controller: ControlResidual and FlowControlResidual,
    src/physics/fluidflow/flow_control_residual.cpp.  Exact reals; vectors by value (sharing of the caller's memory is
    the subject of the Inputs model); MPI_Bcast hands rank 0's number to every rank. *)
From Coq Require Import Reals String List Bool Arith.
From Verif Require Import Num Vec.
Import ListNotations.
Local Open Scope R_scope.

(** MISOInputs: named scalars or vectors (miso_input.hpp:27-30) *)
Inductive cin := Num (v : R) | Arr (v : vec).
Definition cins := list (string * cin).
Fixpoint find (k : string) (l : cins) : option cin :=
  match l with [] => None | (k', v) :: r => if String.eqb k k' then Some v else find k r end.

(** the members of ControlResidual that inputs can change (flow_control_residual.hpp:100-140); x has two entries *)
Record cstate := { Kp : R; Td : R; Ti : R; eta : R; beta : R; target_entropy : R; boundary_entropy : R; time : R;
                   closed_loop : bool; P : nat -> nat -> R; cx : vec }.
(** constructor, :15-51 (rank 0) *)
Definition cinit : cstate := {| Kp := 0; Td := 0; Ti := 0; eta := 0; beta := 0; target_entropy := 0; boundary_entropy := 0;
  time := 0; closed_loop := true; P := fun _ _ => 0; cx := fun _ => 0 |}.

(** a step either continues with a state or stops with an exception, leaving the state reached *)
Inductive stop := Fine | MISOException | BadVariantAccess.
Definition act := cstate -> cstate * stop.
Definition seq (a b : act) : act := fun s => match a s with (s', Fine) => b s' | r => r end.
(** setValueFromInputs / setVectorFromInputs with the default error_if_not_found = false (miso_input.cpp:6-57) *)
Definition set_num (k : string) (l : cins) (upd : R -> cstate -> cstate) : act := fun s =>
  match find k l with Some (Num v) => (upd v s, Fine) | Some (Arr _) => (s, BadVariantAccess) | None => (s, Fine) end.
Definition set_arr (k : string) (l : cins) (upd : vec -> cstate -> cstate) : act := fun s =>
  match find k l with Some (Arr v) => (upd v s, Fine) | Some (Num _) => (s, BadVariantAccess) | None => (s, Fine) end.

Definition upd_time v s := {| Kp := Kp s; Td := Td s; Ti := Ti s; eta := eta s; beta := beta s; target_entropy := target_entropy s; boundary_entropy := boundary_entropy s; time := v; closed_loop := closed_loop s; P := P s; cx := cx s |}.
Definition upd_bent v s := {| Kp := Kp s; Td := Td s; Ti := Ti s; eta := eta s; beta := beta s; target_entropy := target_entropy s; boundary_entropy := v; time := time s; closed_loop := closed_loop s; P := P s; cx := cx s |}.
Definition upd_x v s := {| Kp := Kp s; Td := Td s; Ti := Ti s; eta := eta s; beta := beta s; target_entropy := target_entropy s; boundary_entropy := boundary_entropy s; time := time s; closed_loop := closed_loop s; P := P s; cx := v |}.
Definition upd_Kp v s := {| Kp := v; Td := Td s; Ti := Ti s; eta := eta s; beta := beta s; target_entropy := target_entropy s; boundary_entropy := boundary_entropy s; time := time s; closed_loop := closed_loop s; P := P s; cx := cx s |}.
Definition upd_Td v s := {| Kp := Kp s; Td := v; Ti := Ti s; eta := eta s; beta := beta s; target_entropy := target_entropy s; boundary_entropy := boundary_entropy s; time := time s; closed_loop := closed_loop s; P := P s; cx := cx s |}.
Definition upd_Ti v s := {| Kp := Kp s; Td := Td s; Ti := v; eta := eta s; beta := beta s; target_entropy := target_entropy s; boundary_entropy := boundary_entropy s; time := time s; closed_loop := closed_loop s; P := P s; cx := cx s |}.
Definition upd_eta v s := {| Kp := Kp s; Td := Td s; Ti := Ti s; eta := v; beta := beta s; target_entropy := target_entropy s; boundary_entropy := boundary_entropy s; time := time s; closed_loop := closed_loop s; P := P s; cx := cx s |}.
Definition upd_beta v s := {| Kp := Kp s; Td := Td s; Ti := Ti s; eta := eta s; beta := v; target_entropy := target_entropy s; boundary_entropy := boundary_entropy s; time := time s; closed_loop := closed_loop s; P := P s; cx := cx s |}.
Definition upd_target v s := {| Kp := Kp s; Td := Td s; Ti := Ti s; eta := eta s; beta := beta s; target_entropy := v; boundary_entropy := boundary_entropy s; time := time s; closed_loop := closed_loop s; P := P s; cx := cx s |}.
Definition upd_closed v s := {| Kp := Kp s; Td := Td s; Ti := Ti s; eta := eta s; beta := beta s; target_entropy := target_entropy s; boundary_entropy := boundary_entropy s; time := time s; closed_loop := v; P := P s; cx := cx s |}.
Definition upd_P v s := {| Kp := Kp s; Td := Td s; Ti := Ti s; eta := eta s; beta := beta s; target_entropy := target_entropy s; boundary_entropy := boundary_entropy s; time := time s; closed_loop := closed_loop s; P := v; cx := cx s |}.

(** numeric_limits<double>::epsilon() *)
Definition eps : R := / 2 ^ 52.
(** :66-75 *)
Definition set_closed (l : cins) : act := fun s =>
  match find "closed-loop" l with
  | Some (Num v) => (upd_closed (negb (Rltb (Rabs v) eps)) s, Fine)
  | Some (Arr _) => (s, BadVariantAccess)
  | None => (upd_closed (negb (Rltb (Rabs 1) eps)) s, Fine)
  end.
(** :93-110: P is written first, the symmetry test comes after *)
Definition set_P (l : cins) : act := fun s =>
  match find "P-matrix" l with
  | None => (s, Fine)
  | Some (Num _) => (s, BadVariantAccess)
  | Some (Arr p) =>
      let s' := upd_P (fun i j => match i, j with
        | 0%nat, 0%nat => p 0%nat | 0%nat, _ => p 1%nat | _, 0%nat => p 1%nat | _, _ => p 3%nat end) s in
      (s', if Rltb (10000 * eps) (Rabs (p 1%nat - p 2%nat)) then MISOException else Fine)
  end.
(** setInputs(ControlResidual, inputs), :53-111, rank 0 *)
Definition setInputs (l : cins) : act :=
  seq (set_num "time" l upd_time) (seq (set_num "boundary-entropy" l upd_bent) (seq (set_arr "state" l upd_x)
  (seq (set_num "Kp" l upd_Kp) (seq (set_num "Td" l upd_Td) (seq (set_num "Ti" l upd_Ti) (seq (set_num "eta" l upd_eta)
  (seq (set_num "beta" l upd_beta) (seq (set_num "target-entropy" l upd_target) (seq (set_closed l) (set_P l)))))))))).

(** body of evaluate(ControlResidual), :122-158, after setInputs *)
Definition residual (test_ode : bool) (s : cstate) : vec :=
  if test_ode then fun k => match k with 0%nat => - (5/100) * cx s 1%nat | _ => 5/100 * cx s 0%nat + boundary_entropy s end
  else
    let fac := 1 / (beta s * eta s * Ti s * Td s) in
    let r0 := fac * cx s 1%nat in
    let r1 := - cx s 0%nat + fac * (beta s * Ti s + eta s * Td s) * cx s 1%nat in
    let scaled_error := (target_entropy s - boundary_entropy s) * Kp s / (eta s * Ti s * Td s) in
    fun k => match k with
    | 0%nat => if closed_loop s then r0 + (1 / (eta s * beta s) - 1) * scaled_error else r0
    | _ => if closed_loop s then r1 + ((beta s * Ti s + eta s * Td s) / (eta s * beta s) - (Ti s + Td s)) * scaled_error else r1
    end.
(** body of getJacobian(ControlResidual), :167-194 *)
Definition jacobian (test_ode : bool) (s : cstate) (i j : nat) : R :=
  if test_ode then match i, j with 0%nat, 1%nat => - (5/100) | 1%nat, 0%nat => 5/100 | _, _ => 0 end
  else
    let fac := 1 / (beta s * eta s * Ti s * Td s) in
    match i, j with 0%nat, 1%nat => fac | 1%nat, 0%nat => -1 | 1%nat, 1%nat => fac * (beta s * Ti s + eta s * Td s) | _, _ => 0 end.
(** DenseMatrix::InnerProduct(x, y) = y^T A x *)
Definition innerProduct (A : nat -> nat -> R) (x y : vec) : R := rsum 2 (fun i => y i * rsum 2 (fun j => A i j * x j)).
(** body of calcEntropy, :200-214 *)
Definition entropy (test_ode : bool) (s : cstate) : R :=
  if test_ode then 1/2 * (cx s 0%nat * cx s 0%nat + cx s 1%nat * cx s 1%nat) else 1/2 * innerProduct (P s) (cx s) (cx s).
(** body of calcEntropyChange, :225-238 *)
Definition entropyChange (test_ode : bool) (s : cstate) (dxdt : vec) : R :=
  if test_ode then - dot 2 (cx s) dxdt else - innerProduct (P s) (cx s) dxdt.
(** body of getControlVelocity, :246-263 *)
Definition velocity (test_ode : bool) (s : cstate) : R :=
  if test_ode then cx s 1%nat
  else cx s 1%nat + (if closed_loop s then Kp s * (target_entropy s - boundary_entropy s) / eta s else 0).

(** ** FlowControlResidual on any number of ranks.  The control state lives on rank 0 in front of its flow state
    (:299-304, 318-324); [boundary_ent] is the globally reduced boundary-entropy output of the flow states of all ranks and
    [flow_eval r u v] the flow residual of rank r for its flow state u and control velocity v. *)
Definition num_control (rank : nat) : nat := if Nat.eqb rank 0 then 2 else 0.
Definition control_of (rank : nat) (state : vec) : vec := state.
Definition flow_of (rank : nat) (state : vec) : vec := fun i => state (num_control rank + i)%nat.

Section Coupled.
Variable test_ode : bool.
Variable boundary_ent : (nat -> vec) -> R.
Variable flow_eval : nat -> (nat -> vec) -> R -> vec.

(** the control inputs: a copy of the caller's with "state" replaced (:344-351); on rank 0 *)
Definition set_state (x : vec) (l : cins) : cins := ("state"%string, Arr x) :: l.
(** evaluate_, :359-381: setInputs_ with the caller's inputs, then the controller is given only state and boundary
    entropy, three times (velocity, then evaluate; getControlVelocity and evaluate each call setInputs).
    Result: control state afterwards, stop, velocity, residual of each rank (index 0.. of its own vector). *)
Definition coupled_evaluate (l : cins) (state : nat -> vec) (s : cstate) : cstate * stop * option (R * (nat -> vec)) :=
  match setInputs (set_state (control_of 0 (state 0%nat)) l) s with
  | (s1, Fine) =>
      let bndry_ent := boundary_ent (fun r => flow_of r (state r)) in
      let control_inputs := [("state"%string, Arr (control_of 0 (state 0%nat))); ("boundary-entropy"%string, Num bndry_ent)] in
      match setInputs control_inputs s1 with
      | (s2, Fine) =>
          let vel := velocity test_ode s2 in
          match setInputs control_inputs s2 with
          | (s3, Fine) =>
              (s3, Fine, Some (vel, fun r i => if Nat.ltb i (num_control r) then residual test_ode s3 i
                                              else flow_eval r (fun r' => flow_of r' (state r')) vel (i - num_control r)%nat))
          | (s3, e) => (s3, e, None)
          end
      | (s2, e) => (s2, e, None)
      end
  | (s1, e) => (s1, e, None)
  end.
End Coupled.
