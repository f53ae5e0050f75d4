(** What the theorems about the field magnitude functionals mean. *)
From Coq Require Import Reals List.
From Coquelicot Require Import Coquelicot.
From Verif Require Import Vec EmIntegSpec SbpSpec CommonFun CommonFunSpec.
Import ListNotations.
Local Open Scope R_scope.

(** the magnitude of the field and weight times volume element, at every quadrature point.  In three dimensions the physical
    shape is Jacobian * curl, in two it is gradient * adjugate (entry k of function i); the field is divided by the weight *)
Definition physical (sdim : nat) (three : bool) (shape A : nat -> nat -> R) (i k : nat) : R :=
  rsum sdim (fun a => shape i a * (if three then A k a else A a k)).
Definition field_samples (sdim : nat) (three : bool) (shape : elem -> nat -> nat -> nat -> R) (A : elem -> nat -> (nat -> nat -> R) -> nat -> nat -> R)
    (M : list elem) (X : nat -> nat -> R) (u : vec) : list (R * R) :=
  flat_map (fun e => map (fun q =>
     let P := fun k j => X k (e_node e j) in
     (field_magnitude (e_ndof e) sdim (physical sdim three (shape e q) (A e q P)) (e_W e q P) (fun i => u (e_dof e i)), e_pw e q * e_W e q P))
     (seq 0 (e_nq e))) M.
(** all transformations are orientation preserving at X *)
Definition weights_ok (M : list elem) (X : nat -> nat -> R) : Prop :=
  forall e q, In e M -> (q < e_nq e)%nat -> 0 < e_W e q (fun k j => X k (e_node e j)).
Definition no_zero_field (l : list (R * R)) : Prop := forall g w, In (g, w) l -> g <> 0.
(** the transformation matrices' reverse functions are transposed derivatives *)
Definition matrices_ok (sdim : nat) (A : elem -> nat -> (nat -> nat -> R) -> nat -> nat -> R)
    (Rev : elem -> nat -> (nat -> nat -> R) -> (nat -> nat -> R) -> nat -> nat -> R) (M : list elem) : Prop :=
  forall e q, In e M -> (q < e_nq e)%nat -> rev_matrix sdim (e_nn e) (A e q) (Rev e q).
