(** Independent specification: explicit Runge-Kutta schemes in textbook form, Butcher's rooted trees and
    order conditions. *)
From Coq Require Import Reals List Arith.
From Verif Require Import Vec.
Import ListNotations.
Local Open Scope R_scope.

(** K are the stages of the s-stage explicit scheme (A, b, c) for x' = f(t, x):
    K_i = f(t + c_i dt, x + dt sum_{j<i} A_ij K_j) *)
Definition rk_stages (s : nat) (A : nat -> nat -> R) (c : nat -> R) (f : R -> vec -> vec) (t dt : R) (x : vec)
  (K : nat -> vec) : Prop :=
  forall i, (i < s)%nat -> exists y, (forall d, y d = x d + dt * rsum i (fun j => A i j * K j d)) /\ K i = f (t + c i * dt) y.

(** rooted trees *)
Inductive rtree := Node (children : list rtree).
Fixpoint order (t : rtree) : nat := match t with Node l => S (fold_right (fun c n => order c + n)%nat 0%nat l) end.
(** density gamma(t) = |t| * product of the densities of the subtrees *)
Fixpoint density (t : rtree) : nat := match t with Node l => (order (Node l) * fold_right (fun c n => density c * n)%nat 1%nat l)%nat end.
(** elementary weights  Phi_i(t) = product over subtrees c of  sum_j A_ij Phi_j(c) *)
Fixpoint weight (s : nat) (A : nat -> nat -> R) (t : rtree) (i : nat) : R :=
  match t with Node l => fold_right (fun c w => rsum s (fun j => A i j * weight s A c j) * w) 1 l end.
(** defect of the order condition of t: sum_i b_i Phi_i(t) - 1/gamma(t) *)
Definition defect (s : nat) (A : nat -> nat -> R) (b : nat -> R) (t : rtree) : R :=
  rsum s (fun i => b i * weight s A t i) - 1 / INR (density t).
