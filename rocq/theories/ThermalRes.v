(** The thermal residual around its nonlinear form, src/physics/thermal/thermal_residual.cpp:20-160: the thermal load.

    The form (C67, C68 and C75 are about it) is an arbitrary function of memory and inputs.  Memory is that of Inputs.v:
    an input vector is a block of its owner.  The lifetime of blocks is not modelled. *)
From Coq Require Import Reals String List Bool Arith.
From Verif Require Import Vec Inputs Form.
Import ListNotations.
Local Open Scope R_scope.

Section Residual.
Variables (n : nat) (ess : list nat).            (* getSize(res), res.getEssentialDofs() *)
Variable form : mem -> inputs -> vec.            (* evaluate(residual.res, inputs, .) *)

(** SetSubVector(dofs, 0.0) on a vector: None when an index lies outside it *)
Definition clear (m : mem) (v : vector) : option mem :=
  if forallb (fun i => Nat.ltb i (vsize v)) ess
  then Some {| blk := fun b i => if Nat.eqb b (vdata v) && memb i ess then 0 else blk m b i; next := next m |}
  else None.
Inductive result (A : Type) := Value (a : A) | Throw | OutOfBounds.
Arguments Value {A}. Arguments Throw {A}. Arguments OutOfBounds {A}.

(** setInputs, :22-34; [load] starts as an empty vector *)
Definition tr_setInputs (l : inputs) (s : mem * vector) : result (mem * vector) :=
  match Inputs.setVectorFromInputs (fst s) l "thermal_load" (snd s) false false with
  | Inputs.Ok (m, v) =>
      if Nat.eqb (vsize v) 0 then Value (m, v)
      else match clear m v with Some m' => Value (m', v) | None => OutOfBounds end
  | _ => Throw
  end.
(** evaluate, :41-51 *)
Definition tr_evaluate (l : inputs) (s : mem * vector) : vec := fun i =>
  form (fst s) l i + (if Nat.eqb (vsize (snd s)) n then -1 * blk (fst s) (vdata (snd s)) i else 0).

(** jacobianVectorProduct and vectorJacobianProduct with a vector, :95-121, :131-158; fwd and rev: those of the form *)
Definition tr_jvp (wrt : string) (wrt_dot res_dot : vec) (fwd : vec -> vec) : vec :=
  if String.prefix "thermal_load" wrt then fun i => 0 + -1 * wrt_dot i
  else if String.prefix "temperature" wrt then res_dot else fwd res_dot.
Definition tr_vjp (wrt : string) (res_bar wrt_bar : vec) (rev : vec -> vec) : vec :=
  if String.prefix "thermal_load" wrt then fun i => 0 + -1 * res_bar i
  else if String.prefix "temperature" wrt then wrt_bar else rev wrt_bar.

(** what users do: set inputs, evaluate, write into their own buffers *)
Inductive tcall := TSet (l : inputs) | TEval (l : inputs) | TStore (d i : nat) (x : R).
Definition tstep (c : tcall) (s : mem * vector) : result (mem * vector) :=
  match c with
  | TSet l => tr_setInputs l s
  | TEval _ => Value s
  | TStore d i x => Value (store (fst s) d i x, snd s)
  end.
Fixpoint truns (h : list tcall) (s : mem * vector) : result (mem * vector) :=
  match h with
  | [] => Value s
  | c :: r => match tstep c s with Value s' => truns r s' | Throw => Throw | OutOfBounds => OutOfBounds end
  end.
End Residual.
Arguments Value {A}. Arguments Throw {A}. Arguments OutOfBounds {A}.
