(** The assembled flow residual: FlowResidual::addFlowDomainIntegrators / addFlowInterfaceIntegrators /
    addFlowBoundaryIntegrators (src/physics/fluidflow/flow_residual.cpp:138-330) on a whole mesh.
    What mfem contributes (looping over elements, interior faces and boundary faces and adding each local vector
    into the global one) is [scatter] and the three folds.  A continuous space maps local nodes of different
    elements to the same global node, a discontinuous one does not; the theorems cover both. *)
From Coq Require Import Reals Arith List Bool.
From Verif Require Import Num Vec Euler NavierStokes Sbp.
Import ListNotations.
Local Open Scope R_scope.

Record element := { e_n : nat; e_H : vec; e_Q : nat -> mat; e_adj : nat -> mat; e_detJ : vec;
                    e_nv : nat; e_V : mat; e_glob : nat -> nat }.
Record iface := { f_nL : nat; f_nR : nat; f_nf : nat; f_idxL : nat -> nat; f_idxR : nat -> nat;
                  f_wt : vec; f_nrm : nat -> vec; f_globL : nat -> nat; f_globR : nat -> nat }.
(** b_flux: the flux of the boundary condition attached to this face (face node, normal, state) *)
Record bface := { b_n : nat; b_nf : nat; b_idx : nat -> nat; b_wt : vec; b_nrm : nat -> vec; b_glob : nat -> nat;
                  b_flux : nat -> vec -> vec -> vec }.
Record mesh := { els : list element; ifs : list iface; bfs : list bface }.

(** mfem Vector::AddElementVector with the element's dofs (mfem, not part of /repo) *)
Definition scatter (n ns : nat) (glob : nat -> nat) (r R : mat) : mat :=
  loop n (fun i R => loop ns (fun m R => add2 R (glob i) m (r i m)) R) R.

(** IsmailRoeIntegrator::calcFlux, euler_integ_def.hpp:86-103 *)
Definition irFlux (d : nat) (entvar : bool) (di : nat) (qL qR : vec) : vec :=
  if entvar then calcIsmailRoeFluxUsingEntVars d di qL qR else calcIsmailRoeFlux d di qL qR.
Definition irVector (d : nat) (entvar : bool) (e : element) (u : nat -> vec) : mat :=
  dyadicVector (e_n e) d (e_Q e) (d + 2) 1 (e_adj e) (irFlux d entvar) u.
(** EntStableLPSIntegrator(stack, lps_coeff): the second argument is the constructor's [a], the coefficient stays at
    its default 1 (euler_integ.hpp:126-133); convertVars and applyScaling, euler_integ_def.hpp:173-178, 213-230 *)
Definition lpsScaling (d : nat) (entvar : bool) (adjJ : mat) (q v : vec) : vec :=
  if entvar then applyLPSScalingUsingEntVars d adjJ q v else applyLPSScaling d adjJ q v.
Definition lpsTerm (d : nat) (entvar : bool) (a : R) (e : element) (u : nat -> vec) : mat :=
  lpsVector (e_n e) (e_H e) (e_nv e) (e_V e) a (e_adj e) 1 (calcEntropyVars d entvar) (lpsScaling d entvar) u.
(** ESViscousIntegrator::applyScaling, navier_stokes_integ.hpp:98-112; Dw is flattened column by column *)
Record viscosity := { v_Re : R; v_Pr : R; v_mu : R }.
Definition muRe (d : nat) (vp : viscosity) (q : vec) : R :=
  (if Rlt_dec (v_mu vp) 0 then calcSutherlandViscosity d q else v_mu vp) / v_Re vp.
Definition flatten (d : nat) (D : nat -> vec) : vec := fun x => D (x / (d + 2))%nat (x mod (d + 2))%nat.
Definition viscousScaling (d : nat) (vp : viscosity) (di : nat) (q : vec) (D : nat -> vec) : vec :=
  applyViscousScaling d di (muRe d vp q) (v_Pr vp) q (flatten d D).
Definition viscousTerm (d : nat) (vp : viscosity) (e : element) (u : nat -> vec) : mat :=
  viscousVector (e_n e) d (e_H e) (e_Q e) (d + 2) 1 (e_adj e) (e_detJ e) (calcEntropyVars d false)
    (fun di _ q D => viscousScaling d vp di q D) u.
(** addFlowDomainIntegrators with flux-fun "IR", flow_residual.cpp:138-188 (manufactured source terms not included) *)
Definition domainIntegrators (d : nat) (entvar : bool) (lps_coeff : R) (viscous : option viscosity) : list (element -> (nat -> vec) -> mat) :=
  [irVector d entvar] ++ (if Rlt_dec 0 lps_coeff then [lpsTerm d entvar lps_coeff] else []) ++
  (match viscous with Some vp => [viscousTerm d vp] | None => [] end).
(** InterfaceIntegrator::calcFlux, euler_integ_def.hpp:818-840 *)
Definition ifaceFlux (d : nat) (entvar : bool) (diss_coeff : R) (dir qL qR : vec) : vec :=
  if entvar then calcIsmailRoeFaceFluxWithDissUsingEntVars d dir diss_coeff qL qR
  else calcIsmailRoeFaceFluxWithDiss d dir diss_coeff qL qR.
(** addFlowInterfaceIntegrators, flow_residual.cpp:190-209: only for basis-type "dsbp" ([iface_coeff] = Some c);
    dsbp with viscous throws ([None] result) *)
Definition flowResidual (d : nat) (entvar : bool) (lps_coeff : R) (viscous : option viscosity) (iface_coeff : option R)
    (M : mesh) (u : nat -> vec) : option mat :=
  match iface_coeff, viscous with
  | Some _, Some _ => None
  | _, _ =>
    let R := fold_left (fun R e => fold_left (fun R (integ : element -> (nat -> vec) -> mat) =>
               scatter (e_n e) (d + 2) (e_glob e) (integ e (fun i => u (e_glob e i))) R)
               (domainIntegrators d entvar lps_coeff viscous) R) (els M) zero2 in
    let R := match iface_coeff with
      | None => R
      | Some c => fold_left (fun R f =>
          let r := faceVector (f_nf f) (d + 2) 1 (f_idxL f) (f_idxR f) (f_wt f) (f_nrm f) (ifaceFlux d entvar c)
                     (fun i => u (f_globL f i)) (fun i => u (f_globR f i)) in
          scatter (f_nR f) (d + 2) (f_globR f) (snd r) (scatter (f_nL f) (d + 2) (f_globL f) (fst r) R)) (ifs M) R
      end in
    Some (fold_left (fun R b => scatter (b_n b) (d + 2) (b_glob b)
            (boundaryVector (b_nf b) (d + 2) 1 (b_idx b) (b_wt b) (b_nrm b) (b_flux b) (fun i => u (b_glob b i))) R) (bfs M) R)
  end.
(** the same boundary face with another flux *)
Definition set_flux (b : bface) (g : nat -> vec -> vec -> vec) : bface :=
  {| b_n := b_n b; b_nf := b_nf b; b_idx := b_idx b; b_wt := b_wt b; b_nrm := b_nrm b; b_glob := b_glob b; b_flux := g |}.
Definition with_fluxes (M : mesh) (g : bface -> nat -> vec -> vec -> vec) : mesh :=
  {| els := els M; ifs := ifs M; bfs := map (fun b => set_flux b (g b)) (bfs M) |}.
