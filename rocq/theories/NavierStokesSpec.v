(** Independent vocabulary for the viscous theorems. *)
From Coq Require Import Reals Arith.
From Coquelicot Require Import Coquelicot.
From Verif Require Import Vec.
Local Open Scope R_scope.

(** velocity gradient G k j = d u_k / d x_j; Newtonian stress (Stokes' hypothesis) for viscosity mu *)
Definition divergence (d : nat) (G : nat -> nat -> R) : R := rsum d (fun k => G k k).
Definition stress (d : nat) (mu : R) (G : nat -> nat -> R) (i k : nat) : R :=
  mu * (G k i + G i k - (if Nat.eqb k i then 2/3 * divergence d G else 0)).
(** the point x moved by t along coordinate j; partial derivative at x *)
Definition shift (x : vec) (j : nat) (t : R) : vec := fun i => if Nat.eqb i j then x i + t else x i.
Definition partial_at (f : vec -> R) (x : vec) (j : nat) (l : R) : Prop := is_derive (fun t => f (shift x j t)) 0 l.
