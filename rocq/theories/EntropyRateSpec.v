(** Vocabulary for the theorems about entropy reports and the mass matrix. *)
From Coq Require Import Reals Arith List.
From Verif Require Import Num Vec SbpSpec SbpMesh EulerSpec FlowJacSpec.
Import ListNotations.
Local Open Scope R_scope.

(** the entropy variables of a gas at every node *)
Definition entropy_variables (d N : nat) (g : gas) (w : nat -> vec) : Prop :=
  forall i, (i < N)%nat -> describes d true (w i) (g_rho g i) (g_u g i) (g_p g i).
(** quadrature of a nodal quantity over the mesh *)
Definition mesh_integral (M : mesh) (f : nat -> R) : R :=
  lsum (fun e => rsum (e_n e) (fun i => e_H e i * e_detJ e i * f (e_glob e i))) (els M).
(** every mesh node is a node of some element *)
Definition covered (N : nat) (M : mesh) : Prop :=
  forall i, (i < N)%nat -> exists e a, In e (els M) /\ (a < e_n e)%nat /\ e_glob e a = i.
