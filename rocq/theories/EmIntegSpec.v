(** What the theorems about the electromagnetic integrators mean, without the model's helpers. *)
From Coq Require Import Reals.
From Coquelicot Require Import Coquelicot.
From Verif Require Import Vec.
Local Open Scope R_scope.

(** u + t v *)
Definition along (u v : vec) (t : R) : vec := fun i => u i + t * v i.
(** the field at a quadrature point: (sum_i u_i S_i) / W, S_i the (transformed) gradient or curl of basis function i *)
Definition field (ndof : nat) (S : nat -> nat -> R) (W : R) (u : vec) : vec := fun k => rsum ndof (fun i => S i k * u i) / W.
(** its magnitude *)
Definition field_magnitude (ndof sdim : nat) (S : nat -> nat -> R) (W : R) (u : vec) : R :=
  sqrt (rsum sdim (fun k => field ndof S W u k * field ndof S W u k)).
(** D is the directional derivative of a vector function F at u *)
Definition derivative_at (n : nat) (F : vec -> vec) (u v D : vec) : Prop :=
  forall i, (i < n)%nat -> is_derive (fun t => F (along u v t) i) 0 (D i).

(** nodes moved along V, and the pairing of two node matrices *)
Definition moved (X V : nat -> nat -> R) (t : R) : nat -> nat -> R := fun k j => X k j + t * V k j.
Definition pairing (a b : nat) (P Q : nat -> nat -> R) : R := rsum a (fun i => rsum b (fun j => P i j * Q i j)).
(** the reverse function of a scalar (matrix) valued function of the nodes is the transpose of its derivative *)
Definition rev_scalar (sdim nn : nat) (f : (nat -> nat -> R) -> R) (rev : (nat -> nat -> R) -> R -> nat -> nat -> R) : Prop :=
  forall X V b, is_derive (fun t => b * f (moved X V t)) 0 (pairing sdim nn (rev X b) V).
Definition rev_matrix (sdim nn : nat) (f : (nat -> nat -> R) -> nat -> nat -> R)
    (rev : (nat -> nat -> R) -> (nat -> nat -> R) -> nat -> nat -> R) : Prop :=
  forall X V B, is_derive (fun t => pairing sdim sdim B (f (moved X V t))) 0 (pairing sdim nn (rev X B) V).
