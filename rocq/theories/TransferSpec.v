(** What the theorems about transfers to discontinuous spaces mean. *)
From Coq Require Import Reals List.
From Coquelicot Require Import Coquelicot.
From Verif Require Import Vec EmIntegSpec SbpSpec CommonFun Transfer.
Import ListNotations.
Local Open Scope R_scope.

(** every output dof belongs to one node and component of one element of the mesh (given by its position in the list) *)
Definition discontinuous (OS : ospace) (nc : nat) (M : list elem) : Prop :=
  forall a b e f q r c d, nth_error M a = Some e -> nth_error M b = Some f -> (q < e_nq e)%nat -> (r < e_nq f)%nat -> (c < nc)%nat -> (d < nc)%nat ->
  os_dof OS e q c = os_dof OS f r d -> a = b /\ q = r /\ c = d.
(** the output basis is nodal: at node q, function p has value 1 when p = q and 0 otherwise, wherever the mesh nodes are *)
Definition nodal (OS : ospace) (M : list elem) : Prop := forall e q, In e M -> (q < e_nq e)%nat ->
  (forall X p, (p < e_nq e)%nat -> os_shape OS e q X p = if Nat.eqb p q then 1 else 0) /\ (forall X bar k j, os_rev OS e q X bar k j = 0).
Definition numbered (OS : ospace) (nc N NO NN : nat) (M : list elem) : Prop := forall e, In e M ->
  (forall i, (i < e_ndof e)%nat -> (e_dof e i < N)%nat) /\ (forall q c, (q < e_nq e)%nat -> (c < nc)%nat -> (os_dof OS e q c < NO)%nat) /\
  (forall j, (j < e_nn e)%nat -> (e_node e j < NN)%nat).
(** the reverse function of an n-vector (an n x m table) of the nodes is the transposed derivative *)
Definition rev_vector (sdim nn n : nat) (f : (nat -> nat -> R) -> vec) (rev : (nat -> nat -> R) -> vec -> nat -> nat -> R) : Prop :=
  forall X V B, is_derive (fun t => dot n B (f (moved X V t))) 0 (pairing sdim nn (rev X B) V).
Definition rev_table (sdim nn n m : nat) (f : (nat -> nat -> R) -> nat -> nat -> R) (rev : (nat -> nat -> R) -> (nat -> nat -> R) -> nat -> nat -> R) : Prop :=
  forall X V B, is_derive (fun t => pairing n m B (f (moved X V t))) 0 (pairing sdim nn (rev X B) V).
(** Weight has its RevDiff, and is positive at X *)
Definition weights_rev (sdim : nat) (M : list elem) : Prop := forall e q, In e M -> (q < e_nq e)%nat -> rev_scalar sdim (e_nn e) (e_W e q) (e_WRev e q).
