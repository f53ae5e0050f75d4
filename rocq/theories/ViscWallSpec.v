(** Vocabulary for the theorems about viscous walls. *)
From Coq Require Import Reals Arith List.
From Verif Require Import Num Vec Euler EulerSpec Sbp SbpSpec SbpMesh SbpMeshSpec ViscWall.
Import ListNotations.
Local Open Scope R_scope.

(** the wall's own reference state has a density *)
Definition wall_ok (w : wall) : Prop := match w with NoSlip qfs => qfs 0%nat <> 0 | Control qfs _ _ => qfs 0%nat <> 0 | _ => True end.
(** a wall face whose element has its nodes among the N mesh nodes and whose face nodes are nodes of the element *)
Definition wall_fits (N : nat) (f : vface) : Prop :=
  (forall i, (i < e_n (w_el f))%nat -> (e_glob (w_el f) i < N)%nat) /\ (forall k, (k < w_nf f)%nat -> (w_idx f k < e_n (w_el f))%nat) /\ wall_ok (w_bc f).
Definition wnode (f : vface) (k : nat) : nat := e_glob (w_el f) (w_idx f k).
(** quadrature over the wall faces *)
Definition wsum (walls : list vface) (g : vface -> nat -> R) : R := lsum (fun f => rsum (w_nf f) (fun k => w_wt f k * g f k)) walls.
(** the geometry of a wall face, as a boundary face *)
Definition outline (f : vface) : bface :=
  {| b_n := e_n (w_el f); b_nf := w_nf f; b_idx := w_idx f; b_wt := w_wt f; b_nrm := w_nrm f; b_glob := e_glob (w_el f); b_flux := fun _ _ _ _ => 0 |}.
Definition with_walls (M : mesh) (walls : list vface) : mesh :=
  {| els := els M; ifs := ifs M; bfs := bfs M ++ map outline walls |}.
(** no-slip adiabatic and viscous slip walls; the reference state of the penalty is a gas *)
Definition solid (d : nat) (f : vface) : Prop := match w_bc f with NoSlip qfs => physical d qfs | ViscSlip => True | _ => False end.
Definition normals_nonzero (d : nat) (f : vface) : Prop := forall k, (k < w_nf f)%nat -> 0 < dot d (w_nrm f k) (w_nrm f k).
(** the derivatives of the entropy variables that the face sees at its k-th node *)
Definition wall_grad (d : nat) (f : vface) (u : nat -> vec) (k : nat) : nat -> vec := fun e s =>
  let E := w_el f in let i := w_idx f k in
  rsum (e_n E) (fun j => getQEntry d (e_Q E) e i j (e_adj E i) (e_adj E j) * calcEntropyVars d false (u (e_glob E j)) s) * (1 / (e_H E i * e_detJ E i)).
Definition wall_flux (d : nat) (vp : viscosity) (f : vface) (u : nat -> vec) (k : nat) : vec :=
  wallFlux d vp (w_bc f) k (w_nrm f k) (e_detJ (w_el f) (w_idx f k)) (u (wnode f k)) (wall_grad d f u k).
