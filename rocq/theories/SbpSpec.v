(** Vocabulary of the SBP theorems, independent of the assembly code. *)
From Coq Require Import Reals Arith List.
From Coquelicot Require Import Coquelicot.
From Verif Require Import Num Vec.
Import ListNotations.
Local Open Scope R_scope.

(** a differentiable curve of ns-vectors through u with velocity v *)
Definition curve (ns : nat) (c : R -> vec) (u v : vec) : Prop :=
  c 0 = u /\ forall k, (k < ns)%nat -> is_derive (fun s => c s k) 0 (v k).
(** J is the Jacobian of f at u *)
Definition has_jac (ns : nat) (f : vec -> vec) (u : vec) (J : nat -> nat -> R) : Prop :=
  forall c v, curve ns c u v -> forall m, (m < ns)%nat -> is_derive (fun s => f (c s) m) 0 (rsum ns (fun k => J m k * v k)).
(** J1, J2 are the partial Jacobians of f at (u1, u2) *)
Definition has_jac2 (ns : nat) (f : vec -> vec -> vec) (u1 u2 : vec) (J1 J2 : nat -> nat -> R) : Prop :=
  forall c1 v1 c2 v2, curve ns c1 u1 v1 -> curve ns c2 u2 v2 -> forall m, (m < ns)%nat ->
  is_derive (fun s => f (c1 s) (c2 s) m) 0 (rsum ns (fun k => J1 m k * v1 k) + rsum ns (fun k => J2 m k * v2 k)).
(** the same with d columns as the second argument *)
Definition has_jac_cols (ns d : nat) (f : vec -> (nat -> vec) -> vec) (u : vec) (D : nat -> vec)
    (Ju : nat -> nat -> R) (JD : nat -> nat -> nat -> R) : Prop :=
  forall c v (cD : R -> nat -> vec) (vD : nat -> vec), curve ns c u v -> cD 0 = D ->
  (forall k, (k < d)%nat -> curve ns (fun s => cD s k) (D k) (vD k)) -> forall m, (m < ns)%nat ->
  is_derive (fun s => f (c s) (cD s) m) 0
    (rsum ns (fun k => Ju m k * v k) + rsum d (fun e => rsum ns (fun k => JD e m k * vD e k))).
(** An element matrix A(m,i ; k,j) (row: state m at node i) is the derivative of the element residual r at u:
    in every direction v, every entry of r(u + s v) has derivative (A v) at s = 0. *)
Definition is_jacobian (n ns : nat) (r : (nat -> vec) -> nat -> nat -> R) (u : nat -> vec) (A : nat -> nat -> nat -> nat -> R) : Prop :=
  forall (v : nat -> vec) i m, (i < n)%nat -> (m < ns)%nat ->
  is_derive (fun s => r (fun j => axpy (u j) s (v j)) i m) 0 (rsum n (fun j => rsum ns (fun k => A m i k j * v j k))).
(** sum over a list *)
Definition lsum {A : Type} (f : A -> R) (l : list A) : R := fold_right (fun a s => f a + s) 0 l.
