(** What the theorems about losses and heat sources mean. *)
From Coq Require Import Reals String List.
From Coquelicot Require Import Coquelicot.
From Verif Require Import Vec EmIntegSpec SbpSpec CommonFun Loss.
Import ListNotations.
Local Open Scope R_scope.

(** the value of a finite element field at point q of element e *)
Definition at_point (F : ffield) (e : elem) (q : nat) (u : vec) : R := rsum (f_ndof F e) (fun i => f_shape F e q i * u (f_dof F e i)).
(** position of an element's nodes *)
Definition place (e : elem) (X : nat -> nat -> R) : nat -> nat -> R := fun k j => X k (e_node e j).
(** value g of a quantity and quadrature weight times volume element, at every quadrature point *)
Definition measured (g : elem -> nat -> R) (M : list elem) (X : nat -> nat -> R) : list (R * R) :=
  flat_map (fun e => map (fun q => (g e q, e_pw e q * e_W e q (place e X))) (seq 0 (e_nq e))) M.
(** the sum of value times weight over such a list *)
Definition integral (l : list (R * R)) : R := lsum (fun p => fst p * snd p) l.

(** dofs of a field are numbered below N; nodes below NN, and WeightRevDiff is the transposed derivative of Weight *)
Definition field_numbered (F : ffield) (N : nat) (M : list elem) : Prop := forall e i, In e M -> (i < f_ndof F e)%nat -> (f_dof F e i < N)%nat.
Definition nodes_ok (sdim NN : nat) (M : list elem) : Prop := forall e, In e M ->
  (forall j, (j < e_nn e)%nat -> (e_node e j < NN)%nat) /\ (forall q, (q < e_nq e)%nat -> rev_scalar sdim (e_nn e) (e_W e q) (e_WRev e q)).
Definition partition_of_unity (F : ffield) (M : list elem) : Prop := forall e q, In e M -> (q < e_nq e)%nat -> rsum (f_ndof F e) (f_shape F e q) = 1.

(** EvalStateDeriv is the derivative of Eval with respect to the state; EvalRevDiff the transposed derivative with respect to
    the nodes; or Eval does not depend on the nodes *)
Definition temp_derivative (S : scoef) : Prop := forall e q Y t, is_derive (c_val S e q Y) t (c_dT S e q Y t).
Definition node_derivative (sdim : nat) (S : scoef) (M : list elem) : Prop := forall e q t, In e M -> (q < e_nq e)%nat ->
  rev_scalar sdim (e_nn e) (fun Y => c_val S e q Y t) (fun Y b => c_rev S e q Y t b).
Definition node_independent (S : scoef) : Prop := forall e q Y Y' t, c_val S e q Y t = c_val S e q Y' t.
(** the conductivity vanishes at no quadrature point *)
Definition conducting (S : scoef) (TF : ffield) (M : list elem) (X : nat -> nat -> R) (T : vec) : Prop := forall e q, In e M -> (q < e_nq e)%nat ->
  c_val S e q (place e X) (at_point TF e q T) <> 0.
(** EvalDerivS1..S3 are the derivatives of Eval *)
Definition three_state_derivatives (c : tcoef) : Prop := forall e t f b,
  is_derive (fun x => t_val c e x f b) t (t_d1 c e t f b) /\ is_derive (fun x => t_val c e t x b) f (t_d2 c e t f b) /\
  is_derive (fun x => t_val c e t f x) b (t_d3 c e t f b).

(** the name of a parameter is given in full: no known name is a proper prefix of it *)
Definition full_name (known : list string) (wrt : string) : Prop := forall n, In n known -> prefix n wrt = true -> wrt = n.
(** the parameters with one of them moved by t d *)
Definition nudged (P : params) (wrt : string) (d t : R) : params := fun k => if String.eqb k wrt then P wrt + t * d else P k.

Definition dc_names : list string := ["wire_length"; "rms_current"; "strand_radius"; "strands_in_hand"]%string.
Definition ac_names : list string := ["strand_radius"; "frequency"; "stack_length"; "strands_in_hand"; "num_turns"; "num_slots"]%string.
