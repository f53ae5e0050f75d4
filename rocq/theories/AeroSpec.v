(** Vocabulary for the theorems about the aerodynamic outputs. *)
From Coq Require Import Reals Arith List Bool.
From Coquelicot Require Import Coquelicot.
From Verif Require Import Num Vec Euler EulerSpec Sbp SbpSpec SbpMesh SbpMeshSpec FlowJacSpec ViscWall ViscWallSpec Aero.
Import ListNotations.
Local Open Scope R_scope.

(** quadrature over a list of boundary faces *)
Definition osum (faces : list bface) (g : bface -> nat -> R) : R := lsum (fun b => rsum (b_nf b) (fun k => b_wt b k * g b k)) faces.
(** the faces that are not on the listed boundaries *)
Definition elsewhere {F} (bdrs : list nat) (l : list (tagged F)) : list F :=
  map t_face (filter (fun t => negb (existsb (Nat.eqb (t_attr t)) bdrs)) l).
(** face nodes are mesh nodes *)
Definition face_fits (N : nat) (b : bface) : Prop :=
  (forall i, (i < b_n b)%nat -> (b_glob b i < N)%nat) /\ (forall k, (k < b_nf b)%nat -> (b_idx b k < b_n b)%nat).
(** the outward normals integrate to zero, as over the whole surface of a body *)
Definition closed_surface (d : nat) (faces : list bface) : Prop := forall i, (i < d)%nat -> osum faces (fun b k => b_nrm b k i) = 0.
Definition closed_walls (d : nat) (faces : list vface) : Prop := forall i, (i < d)%nat -> wsum faces (fun f k => w_nrm f k i) = 0.
(** G is the gradient of the functional F at u, over N nodes with ns unknowns each *)
Definition is_gradient (N ns : nat) (F : (nat -> vec) -> R) (u : nat -> vec) (G : nat -> nat -> R) : Prop :=
  forall v : nat -> vec, is_derive (fun s => F (fun j => axpy (u j) s (v j))) 0 (rsum N (fun i => dot ns (v i) (G i))).
