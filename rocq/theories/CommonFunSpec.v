(** What the theorems about the common functionals mean. *)
From Coq Require Import Reals List.
From Coquelicot Require Import Coquelicot.
From Verif Require Import Vec EmIntegSpec SbpSpec CommonFun.
Import ListNotations.
Local Open Scope R_scope.

(** the value of the finite element field with global dofs u, and the quadrature weight times the volume element, at every
    quadrature point of the mesh with nodes X *)
Definition samples (M : list elem) (X : nat -> nat -> R) (u : vec) : list (R * R) :=
  flat_map (fun e => map (fun q =>
     (rsum (e_ndof e) (fun i => e_shape e q i * u (e_dof e i)), e_pw e q * e_W e q (fun k j => X k (e_node e j)))) (seq 0 (e_nq e))) M.
Definition weights_positive (l : list (R * R)) : Prop := l <> [] /\ forall g w, In (g, w) l -> 0 < w.
Definition is_maximum (m : R) (l : list (R * R)) : Prop := (exists w, In (m, w) l) /\ forall g w, In (g, w) l -> g <= m.
Definition measure (l : list (R * R)) : R := lsum (fun p => snd p) l.
(** weighted mean of the values *)
Definition mean (l : list (R * R)) : R := lsum (fun p => fst p * snd p) l / measure l.
(** the induced exponential aggregate of the values, as defined in the literature (no shift) *)
Definition induced_exponential (rho : R) (l : list (R * R)) : R :=
  lsum (fun p => fst p * exp (rho * fst p) * snd p) l / lsum (fun p => exp (rho * fst p) * snd p) l.

(** the numbering of the elements of a mesh with N dofs and NN nodes, and the transposed derivative of the weight *)
Definition mesh_ok (sdim N NN : nat) (M : list elem) : Prop := forall e, In e M ->
  (forall i, (i < e_ndof e)%nat -> (e_dof e i < N)%nat) /\ (forall j, (j < e_nn e)%nat -> (e_node e j < NN)%nat) /\
  (forall q, (q < e_nq e)%nat -> rev_scalar sdim (e_nn e) (e_W e q) (e_WRev e q)).
(** shape functions form a partition of unity *)
Definition unity (M : list elem) : Prop := forall e q, In e M -> (q < e_nq e)%nat -> rsum (e_ndof e) (e_shape e q) = 1.

(** the signed area of the triangle with vertices (x_j, y_j) = (P 0 j, P 1 j), and a linear triangle with a rule that integrates constants *)
Definition signed_area (P : nat -> nat -> R) : R :=
  ((P 0%nat 1%nat - P 0%nat 0%nat) * (P 1%nat 2%nat - P 1%nat 0%nat) - (P 0%nat 2%nat - P 0%nat 0%nat) * (P 1%nat 1%nat - P 1%nat 0%nat)) / 2.
Definition triangle (e : elem) : Prop :=
  (forall q P, (q < e_nq e)%nat -> e_W e q P = 2 * signed_area P) /\ rsum (e_nq e) (e_pw e) = 1 / 2.
