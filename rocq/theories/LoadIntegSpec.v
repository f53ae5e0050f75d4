(** What the theorems about the magnetostatic load integrators mean. *)
From Coq Require Import Reals ZArith List Bool.
From Coquelicot Require Import Coquelicot.
From Verif Require Import Vec EmIntegSpec LoadInteg.
Import ListNotations.
Local Open Scope R_scope.

(** numbering in range *)
Definition lnumbered (m NN : nat) (M : list lelem) : Prop := forall e, In e M ->
  (forall i, (i < le_nd e)%nat -> (le_dof e i < m)%nat) /\ (forall j, (j < le_nn e)%nat -> (le_node e j < NN)%nat).
(** the reverse function of a matrix-valued function of the nodes is the transpose of its derivative, at X *)
Definition rev_rect_at (a b dim nn : nat) (f : (nat -> nat -> R) -> nat -> nat -> R) (rev : (nat -> nat -> R) -> (nat -> nat -> R) -> nat -> nat -> R) (X : nat -> nat -> R) : Prop :=
  forall V B, is_derive (fun t => pairing a b B (f (moved X V t))) 0 (pairing dim nn (rev X B) V).
(** the reverse functions of the coefficients are the transposed derivatives at a position *)
Definition scalar_rev_at (dim : nat) (Q : scoef) (attr : Z) (x : vec) : Prop := forall b d,
  is_derive (fun t => b * sc_eval Q attr (fun k => x k + t * d k)) 0 (dot dim (sc_rev Q attr x b) d).
Definition vector_rev_at (dim : nat) (F : vcoef) (attr : Z) (x : vec) : Prop := forall b d,
  is_derive (fun t => dot dim b (vc_eval F attr (fun k => x k + t * d k))) 0 (dot dim (vc_rev F attr x b) d).
(** the nodes of an element, the position of a point *)
Definition element_nodes (e : lelem) (X : nat -> nat -> R) : nat -> nat -> R := fun k j => X k (le_node e j).
Definition point_at (e : lelem) (r : lrule) (X : nat -> nat -> R) (q : nat) : vec := fun k => rsum (le_nn e) (fun j => X k j * lr_N r q j).
(** the pairing of a vector stored by dimension with a movement of the nodes *)
Definition with_nodes (dim NN : nat) (v : vec) (V : nat -> nat -> R) : R := rsum dim (fun k => rsum NN (fun J => v (k * NN + J)%nat * V k J)).
