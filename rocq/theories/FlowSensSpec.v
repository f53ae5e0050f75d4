(** Vocabulary of the flow mesh-sensitivity theorems. *)
From Coq Require Import Reals Arith List.
From Coquelicot Require Import Coquelicot.
From Verif Require Import Vec EmIntegSpec IsoGeom Force FlowSens.
Local Open Scope R_scope.

(** psi^T R over N nodes with ns values each; mesh sensitivity (node, direction) against a motion V k J *)
Definition weighted (N ns : nat) (psi r : nat -> nat -> R) : R := rsum N (fun i => rsum ns (fun m => psi i m * r i m)).
Definition along (NN d : nat) (G V : nat -> nat -> R) : R := rsum NN (fun J => rsum d (fun k => G J k * V k J)).
(** N state nodes and NN mesh nodes; every local index in range *)
Definition numbered (N NN : nat) (M : smesh) : Prop :=
  (forall e, In e (sm_els M) -> (forall i, (i < se_n e)%nat -> (se_glob e i < N)%nat) /\ (forall j, (j < se_nn e)%nat -> (se_node e j < NN)%nat)) /\
  (forall b, In b (sm_bnd M) -> (forall i, (i < se_n (sf_el b))%nat -> (se_glob (sf_el b) i < N)%nat) /\
     (forall j, (j < se_nn (sf_el b))%nat -> (se_node (sf_el b) j < NN)%nat) /\ (forall f, (f < sf_nf b)%nat -> (sf_idx b f < se_n (sf_el b))%nat)).
(** the mapping is invertible at the nodes of boundary faces *)
Definition invertible (three : bool) (M : smesh) (X : nat -> nat -> R) : Prop := forall b f, In b (sm_bnd M) -> (f < sf_nf b)%nat ->
  gdet three (iso_jac (se_nn (sf_el b)) (sf_dN b f) (el_nodes (sf_el b) X)) <> 0.
(** fluxBar is the derivative of flux_bar^T flux with respect to the normal, and the flux does not depend on the position *)
Definition is_flux_bar (d ns : nat) (flux : vec -> vec -> vec -> vec) (fluxBar : vec -> vec -> vec -> vec -> vec) : Prop :=
  (forall x y n u m, (m < ns)%nat -> flux x n u m = flux y n u m) /\
  forall x u b (c : R -> vec) (v : vec), (forall k, (k < d)%nat -> is_derive (fun t => c t k) 0 (v k)) ->
  is_derive (fun t => rsum ns (fun m => b m * flux x (c t) u m)) 0 (rsum d (fun k => fluxBar x (c 0) u b k * v k)).
