(** What a user expects of a time-marching operator M dx/dt + R(x) + K x + l = 0. *)
From Coq Require Import Reals List Arith.
From Coquelicot Require Import Coquelicot.
From Verif Require Import Vec Form.
Import ListNotations.
Local Open Scope R_scope.

(** optional terms of the equation *)
Definition matrix_term (n : nat) (A : option (nat -> nat -> R)) (x : vec) (i : nat) : R :=
  match A with Some A => mv n A x i | None => 0 end.
Definition vector_term (l : option vec) (i : nat) : R := match l with Some l => l i | None => 0 end.
(** y is the rate at x *)
Definition is_rate (n : nat) (M : nat -> nat -> R) (F : vec -> vec) (K : option (nat -> nat -> R)) (l : option vec) (x y : vec) (i : nat) : Prop :=
  mv n M y i + F x i + matrix_term n K x i + vector_term l i = 0.
(** residual of the implicit equation for the slope k over a step dt *)
Definition implicit_residual (n : nat) (M : nat -> nat -> R) (F : vec -> vec) (K : option (nat -> nat -> R)) (l : option vec) (dt : R) (x k : vec) (i : nat) : R :=
  mv n M k i + F (fun j => x j + dt * k j) i + matrix_term n K (fun j => x j + dt * k j) i + vector_term l i.
(** the same with a nonlinear mass N: the change of N over the step per unit of time *)
Definition implicit_residual_nm (N F : vec -> vec) (l : option vec) (dt : R) (x k : vec) (i : nat) : R :=
  (N (fun j => x j + dt * k j) i - N x i) / dt + F (fun j => x j + dt * k j) i + vector_term l i.

(** F depends on the n entries of its argument only *)
Definition on_entries (n : nat) (F : vec -> vec) : Prop := forall u u', veq n u u' -> forall i, (i < n)%nat -> F u i = F u' i.
(** G u is the matrix of partial derivatives of F at u *)
Definition jacobian_of (n : nat) (F : vec -> vec) (G : vec -> nat -> nat -> R) : Prop :=
  forall u v i, (i < n)%nat -> is_derive (fun t : R => F (fun j => u j + t * v j) i) 0 (mv n (G u) v i).
Definition affine_map (n : nat) (F : vec -> vec) (A : nat -> nat -> R) (b : vec) : Prop :=
  forall u i, (i < n)%nat -> F u i = mv n A u i + b i.
