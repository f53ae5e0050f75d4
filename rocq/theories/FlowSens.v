(** Mesh sensitivities of the flow residual: DyadicMeshSensIntegrator and BoundaryMeshSensIntegrator
    (src/physics/fluidflow/mesh_sens_integ_def.hpp), IsmailRoeMeshSensIntegrator and SlipWallBCMeshSens
    (euler_sens_integ_def.hpp), and the residual terms they differentiate with the mesh made explicit.

    Two and three dimensions ([three]).  The transformation of an element is isoparametric (J = PointMat dN); the face
    transformation of MFEM is the element's composed with the affine map Loc1 of the reference face, so its Jacobian is J
    times the derivative of Loc1.  AdjugateJacobianRevDiff and JacobianRevDiff of the project's MFEM fork add, and
    CalcOrthoRevDiff sets, the transposed derivatives.  State and adjoint are nodal (SBP), so their values at the nodes do not
    depend on the mesh.  Adept's reverse sweep is exact.  One process; exact arithmetic. *)
From Coq Require Import Reals List Bool Arith.
From Verif Require Import Num Vec EmIntegSpec IsoGeom Force Euler Sbp SbpMesh.
Import ListNotations.
Local Open Scope R_scope.

(** entrywise sum of two arrays (accumulation of a RevDiff function) *)
Definition madd (A B : mat) : mat := fun k j => A k j + B k j.
(** transposed derivatives of the adjugate and of the Jacobian with respect to the nodes, at Jacobian J *)
Definition adj_rev (three : bool) (dN J B : mat) : mat :=
  to_nodes dN (gdim three) (fun k l => pairing (gdim three) (gdim three) B (gdadj three J (unit_mat k l))).
(** mfem::CalcOrtho of a 2x1 or 3x2 matrix, and its transposed derivative *)
Definition calc_ortho (three : bool) (F : mat) : vec :=
  if three then fun k => match k with
    | O => F 1%nat 0%nat * F 2%nat 1%nat - F 2%nat 0%nat * F 1%nat 1%nat
    | S O => F 2%nat 0%nat * F 0%nat 1%nat - F 0%nat 0%nat * F 2%nat 1%nat
    | _ => F 0%nat 0%nat * F 1%nat 1%nat - F 1%nat 0%nat * F 0%nat 1%nat end
  else fun k => match k with O => F 1%nat 0%nat | _ => - F 0%nat 0%nat end.
Definition calc_ortho_rev (three : bool) (F : mat) (b : vec) : mat :=
  if three then fun k l => match l with
    | O => match k with
           | O => F 1%nat 1%nat * b 2%nat - F 2%nat 1%nat * b 1%nat
           | S O => F 2%nat 1%nat * b 0%nat - F 0%nat 1%nat * b 2%nat
           | _ => F 0%nat 1%nat * b 1%nat - F 1%nat 1%nat * b 0%nat end
    | _ => match k with
           | O => F 2%nat 0%nat * b 1%nat - F 1%nat 0%nat * b 2%nat
           | S O => F 0%nat 0%nat * b 2%nat - F 2%nat 0%nat * b 0%nat
           | _ => F 1%nat 0%nat * b 0%nat - F 0%nat 0%nat * b 1%nat end end
  else fun k _ => match k with O => - b 1%nat | _ => b 0%nat end.

(** an element: SBP nodes with their operators and global numbers, mesh nodes with their numbers, and the derivatives of the mesh
    shape functions at SBP node i *)
Record selem := { se_n : nat; se_Q : nat -> mat; se_glob : nat -> nat; se_nn : nat; se_node : nat -> nat; se_dN : nat -> mat }.
(** a boundary face of element [sf_el]: nodes of the SBP face with weights, the element node at each
    (getIntegrationPointIndex), derivative of Loc1, and the mesh shape functions and their derivatives at the point Loc1 maps it to *)
Record sface := { sf_el : selem; sf_nf : nat; sf_idx : nat -> nat; sf_wt : vec; sf_loc : nat -> mat; sf_N : nat -> vec; sf_dN : nat -> mat }.
(** PointMat of the element; X k J: coordinate k of mesh node J *)
Definition el_nodes (e : selem) (X : mat) : mat := fun k j => X k (se_node e j).

Section Sens.
Variables (three : bool) (ns : nat) (alpha : R).
Notation d := (gdim three).
Notation df := (if three then 2%nat else 1%nat).

(** * Volume term *)
(** the adjugate at SBP node i, inviscid_integ_def.hpp:163-171 *)
Definition el_adj (e : selem) (P : mat) (i : nat) : mat := gadj three (iso_jac (se_nn e) (se_dN e i) P).
(** DyadicFluxIntegrator::AssembleElementVector (inviscid_integ_def.hpp:136-185) on the mesh P *)
Definition vol_vector (flux : nat -> vec -> vec -> vec) (e : selem) (P : mat) (u : nat -> vec) : mat :=
  dyadicVector (se_n e) d (se_Q e) ns alpha (el_adj e P) flux u.
(** DyadicMeshSensIntegrator::AssembleRHSElementVect, mesh_sens_integ_def.hpp:12-92: PointMat_bar, that is elvect(d*ndof + i) at (d, i) *)
Definition vol_sens (flux : nat -> vec -> vec -> vec) (e : selem) (P : mat) (u psi : nat -> vec) : mat :=
  let rev i (B : mat) := adj_rev three (se_dN e i) (iso_jac (se_nn e) (se_dN e i) P) B in
  loop (se_n e) (fun i PM =>
    let r := loop (se_n e) (fun j (s : mat * mat) =>
      if Nat.ltb i j then
        let b := loop d (fun di (b : mat * mat) =>
          let fluxij := flux di (u i) (u j) in
          let Sij_bar := loop ns (fun m s => s + fluxij m * psi i m - fluxij m * psi j m) 0 in
          let Sij_bar := Sij_bar * alpha in
          let inc := getSkewEntryRevDiff (se_Q e) di i j Sij_bar in
          (loop d (fun k A => add2 A k di (fst inc k)) (fst b), loop d (fun k A => add2 A k di (snd inc k)) (snd b)))
          (snd s, zero2) in
        (madd (fst s) (rev j (snd b)), fst b)
      else s) (PM, zero2) in
    madd (fst r) (rev i (snd r))) zero2.

(** * Boundary term *)
(** trans.Face->Jacobian() at face node f, and the position *)
Definition el_jac (b : sface) (P : mat) (f : nat) : mat := iso_jac (se_nn (sf_el b)) (sf_dN b f) P.
Definition face_jac (b : sface) (P : mat) (f : nat) : mat := fun k l => rsum d (fun c => el_jac b P f k c * sf_loc b f c l).
Definition face_pos (b : sface) (P : mat) (f : nat) : vec := fun k => rsum (se_nn (sf_el b)) (fun j => P k j * sf_N b f j).
(** InviscidBoundaryIntegrator::AssembleFaceVector (inviscid_integ_def.hpp:469-531) on the mesh P; flux takes position, normal, state *)
Definition bnd_vector (flux : vec -> vec -> vec -> vec) (b : sface) (P : mat) (u : nat -> vec) : mat :=
  boundaryVector (sf_nf b) ns alpha (sf_idx b) (sf_wt b) (fun f => calc_ortho three (face_jac b P f)) (fun f => flux (face_pos b P f)) u.
(** BoundaryMeshSensIntegrator::AssembleRHSElementVect (face version), mesh_sens_integ_def.hpp:186-290; CalcInverse is adj J / det J *)
Definition bnd_sens (fluxBar : vec -> vec -> vec -> vec -> vec) (b : sface) (P : mat) (u psi : nat -> vec) : mat :=
  loop (sf_nf b) (fun f PM =>
    let J := el_jac b P f in
    let Jinv : mat := fun a c => gadj three J a c / gdet three J in
    let Jac_map : mat := fun a l => rsum d (fun c => Jinv a c * face_jac b P f c l) in
    let j := sf_idx b f in
    let nrm := calc_ortho three (face_jac b P f) in
    let nrm_bar := fluxBar (face_pos b P f) nrm (u j) (psi j) in
    let nrm_bar : vec := fun k => nrm_bar k * (sf_wt b f * alpha) in
    let Jac_face_bar := calc_ortho_rev three (face_jac b P f) nrm_bar in
    let Jac_bar : mat := fun k c => rsum df (fun l => Jac_face_bar k l * Jac_map c l) in
    madd PM (to_nodes (sf_dN b f) d Jac_bar)) zero2.
End Sens.

(** * Fluxes *)
(** IsmailRoeMeshSensIntegrator::calcFlux, euler_sens_integ_def.hpp:16-31: the flux of the residual's integrator *)
Definition ir_sens_flux (d : nat) (entvar : bool) (di : nat) (qL qR : vec) : vec :=
  if entvar then calcIsmailRoeFluxUsingEntVars d di qL qR else calcIsmailRoeFlux d di qL qR.
(** SlipWallBC::calcFlux (euler_integ_def.hpp:467-475) ignores the position *)
Definition slip_flux (d : nat) (entvar : bool) (x dir u : vec) : vec := calcSlipWallFlux d entvar dir u.
(** SlipWallBCMeshSens::calcFluxBar, euler_sens_integ_def.hpp:33-57: reverse sweep through calcSlipWallFlux (euler_fluxes.hpp:956-985),
    in which only flux[k+1] = dir[k]*press depends on dir *)
Definition slip_flux_bar (d : nat) (entvar : bool) (x dir u flux_bar : vec) : vec :=
  let press :=
    if entvar then
      let Vel2 := dot d (mom u) (mom u) in
      let s := gamma + gami * (1/2 * Vel2 / u (S d) - u 0%nat) in
      - Rpower (- exp (- s) / u (S d)) (1 / gami) / u (S d)
    else pressure d u in
  fun k => flux_bar (S k) * press.

(** * Assembly over the mesh: mfem::NonlinearForm::Mult and mfem::LinearForm::Assemble *)
Record smesh := { sm_els : list selem; sm_bnd : list sface }.
(** residual at the global SBP nodes: the two-point volume term and a boundary flux on the faces of [sm_bnd] *)
Definition flow_res (three : bool) (ns : nat) (alpha : R) (flux : nat -> vec -> vec -> vec) (bflux : vec -> vec -> vec -> vec)
    (M : smesh) (X : mat) (u : nat -> vec) : mat :=
  let R := fold_left (fun R e => scatter (se_n e) ns (se_glob e) (vol_vector three ns alpha flux e (el_nodes e X) (fun i => u (se_glob e i))) R) (sm_els M) zero2 in
  fold_left (fun R b => scatter (se_n (sf_el b)) ns (se_glob (sf_el b))
    (bnd_vector three ns alpha bflux b (el_nodes (sf_el b) X) (fun i => u (se_glob (sf_el b) i))) R) (sm_bnd M) R.
(** dfdx at the mesh nodes (node, direction) *)
Definition flow_sens (three : bool) (ns : nat) (alpha : R) (flux : nat -> vec -> vec -> vec) (bfluxBar : vec -> vec -> vec -> vec -> vec)
    (M : smesh) (X : mat) (u psi : nat -> vec) : mat :=
  let G := fold_left (fun G e => scatter (se_nn e) (gdim three) (se_node e)
    (fun j k => vol_sens three ns alpha flux e (el_nodes e X) (fun i => u (se_glob e i)) (fun i => psi (se_glob e i)) k j) G) (sm_els M) zero2 in
  fold_left (fun G b => scatter (se_nn (sf_el b)) (gdim three) (se_node (sf_el b))
    (fun j k => bnd_sens three alpha bfluxBar b (el_nodes (sf_el b) X) (fun i => u (se_glob (sf_el b) i)) (fun i => psi (se_glob (sf_el b) i)) k j) G) (sm_bnd M) G.
