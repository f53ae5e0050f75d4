(** The entropy a flow residual reports, the entropy change it reports, and the mass matrix of the time integrators:
    FlowResidual::calcEntropy_, calcEntropyChange_ and getMassMatrix_ (src/physics/fluidflow/flow_residual.cpp:121-133,
    373-376, 438-460, 554-569).  calcFormOutput is mfem's GetEnergy on the residual's own form
    (src/physics/miso_nonlinearform.cpp:55-61): the project's mfem adds GetElementEnergy over the elements and
    GetFaceEnergy over interior and boundary faces (mfem, not part of /repo). *)
From Coq Require Import Reals Arith List Bool.
From Verif Require Import Num Vec Euler NavierStokes Sbp SbpSpec SbpMesh SmoothCalc Vortex FlowJac ViscWall.
Import ListNotations.
Local Open Scope R_scope.

(** IsmailRoeIntegrator::GetElementEnergy, euler_integ_def.hpp:60-84, EntStableLPSIntegrator's, :147-171, and
    SymmetricViscousIntegrator's, viscous_integ_def.hpp:12-37: the element vector against the converted states *)
Definition weightedResidual (n ns : nat) (conv : vec -> vec) (u : nat -> vec) (res : mat) : R :=
  rsum n (fun i => dot ns (conv (u i)) (res i)).
Definition irEnergy (d : nat) (entvar : bool) (e : element) (u : nat -> vec) : R :=
  weightedResidual (e_n e) (d + 2) (calcEntropyVars d entvar) u (irVector d entvar e u).
Definition lpsEnergy (d : nat) (entvar : bool) (a : R) (e : element) (u : nat -> vec) : R :=
  weightedResidual (e_n e) (d + 2) (calcEntropyVars d entvar) u (lpsTerm d entvar a e u).
Definition viscousEnergy (d : nat) (vp : viscosity) (e : element) (u : nat -> vec) : R :=
  weightedResidual (e_n e) (d + 2) (calcEntropyVars d false) u (viscousTerm d vp e u).
(** InviscidIntegrator::GetElementEnergy, inviscid_integ_def.hpp:12-40; alpha = 1 *)
Definition volumeEnergy (volFun : vec -> R) (e : element) (u : nat -> vec) : R :=
  rsum (e_n e) (fun i => volFun (u i) * e_detJ e i * e_H e i) * 1.
(** EulerIntegrator::calcVolFun, euler_integ.hpp:27-31 ("Not used by this integrator") *)
Definition eulerEnergy (e : element) (u : nat -> vec) : R := volumeEnergy (fun _ => 0) e u.
(** EntropyIntegrator::calcVolFun, euler_integ_def.hpp:960-965; addEntropyIntegrators and calcEntropy_,
    flow_residual.cpp:373-376, 438-442 *)
Definition calcEntropy (d : nat) (entvar : bool) (M : mesh) (u : nat -> vec) : R :=
  lsum (fun e => volumeEnergy (entropy d entvar) e (fun i => u (e_glob e i))) (els M).

(** the integrators of addFlowDomainIntegrators with flux-fun "IR" (flow_residual.cpp:138-188), as energies *)
Definition domainEnergies (d : nat) (entvar : bool) (lps_coeff : R) (viscous : option viscosity) : list (element -> (nat -> vec) -> R) :=
  [irEnergy d entvar] ++ (if Rlt_dec 0 lps_coeff then [lpsEnergy d entvar lps_coeff] else []) ++
  (match viscous with Some vp => [viscousEnergy d vp] | None => [] end).
(** InterfaceIntegrator::calcIFaceFun, euler_integ_def.hpp:803-816, and InviscidFaceIntegrator::GetFaceEnergy,
    inviscid_integ_def.hpp:610-659 (the normal carries the weight; no alpha) *)
Definition ifaceFun (d : nat) (entvar : bool) (c : R) (dir qL qR : vec) : R :=
  dot (d + 2) (fun m => calcEntropyVars d entvar qL m - calcEntropyVars d entvar qR m) (ifaceFlux d entvar c dir qL qR).
Definition ifaceEnergy (d : nat) (entvar : bool) (c : R) (f : iface) (uL uR : nat -> vec) : R :=
  rsum (f_nf f) (fun k => ifaceFun d entvar c (fun i => f_nrm f k i * f_wt f k) (uL (f_idxL f k)) (uR (f_idxR f k))).

(** calcBoundaryFlux (euler_fluxes.hpp:692-759) when the output array is the array of the boundary state: what is read
    from qbnd after flux has been written are flux's entries *)
Definition boundaryFluxInPlace (d : nat) (dir qbnd q : vec) : vec :=
  let dA := sqrt (dot d dir dir) in
  let fac := 1 / qbnd 0%nat in
  let phi := 1/2 * dot d (mom qbnd) (mom qbnd) * fac * fac in
  let H := gamma * qbnd (S d) * fac - gami * phi in
  let a := sqrt (gami * (H - phi)) in
  let Un := dot d (mom qbnd) dir * fac in
  let l1 := Un + dA * a in
  let l2 := Un - dA * a in
  let l3 := Un in
  let rhoA := Rabs Un + dA * a in
  let lambda1 := 1/2 * (Rmax (Rabs l1) (0 * rhoA) - l1) in
  let lambda2 := 1/2 * (Rmax (Rabs l2) (0 * rhoA) - l2) in
  let lambda3 := 1/2 * (Rmax (Rabs l3) (0 * rhoA) - l3) in
  let dq := fun i => q i - qbnd i in
  let f1 := fun i => calcEulerFlux d dir q i + lambda3 * dq i in
  let tmp1 := 1/2 * (lambda1 + lambda2) - lambda3 in
  let E1 := tmp1 * gami / (a * a) in
  let E2 := tmp1 / (dA * dA) in
  let E34 := 1/2 * (lambda1 - lambda2) / (dA * a) in
  let Edq := phi * dq 0%nat + dq (S d) - dot d (mom f1) (mom dq) * fac in
  let f2 := mk d (f1 0%nat + E1 * Edq) (fun i => f1 (S i) + Edq * (E1 * f1 (S i) * fac + gami * E34 * dir i))
              (f1 (S d) + Edq * (E1 * H + gami * E34 * Un)) in
  let Fdq := - Un * dq 0%nat + dot d dir (mom dq) in
  mk d (f2 0%nat + E34 * Fdq) (fun i => f2 (S i) + Fdq * (E2 * dir i + E34 * f2 (S i) * fac)) (f2 (S d) + Fdq * (E2 * Un + E34 * H)).
(** calcBoundaryFluxEC (euler_fluxes.hpp:769-795) called that way *)
Definition boundaryFluxECInPlace (d : nat) (dir qbnd q : vec) (entflux : R) : vec :=
  let flux := boundaryFluxInPlace d dir qbnd q in
  let w := calcEntropyVars d false q in
  let psi := dot d (mom q) dir in
  let dF := dot (d + 2) w flux - psi - entflux in
  let Aw := calcdQdWProduct d q w in
  let dF := dF / dot (d + 2) w Aw in
  fun i => flux i - dF * Aw i.
(** calcBndryFun of IsentropicVortexBC, SlipWallBC, FarFieldBC and ControlBC: entropy variables times flux
    (euler_integ_def.hpp:380-390, 454-464, 526-536, 704-713).  EntropyConserveBC (:609-616) asks calcFlux (:618-637) to
    write into work1, where calcFlux itself keeps the boundary state *)
Definition bcFun (d : nat) (entvar : bool) (b : bc) (f : nat) (dir q : vec) : R :=
  match b with
  | EntropyConserve qb =>
      let Un := dot d (mom (qb f)) dir / qb f 0%nat in
      dot (d + 2) (calcEntropyVars d entvar q)
        (boundaryFluxECInPlace d dir (qb f) (calcConservativeVars d entvar q) (Un * entropy d false (qb f)))
  | _ => dot (d + 2) (calcEntropyVars d entvar q) (bcFlux d entvar b f dir q)
  end.
(** InviscidBoundaryIntegrator::GetFaceEnergy, inviscid_integ_def.hpp:416-461; alpha = 1 *)
Definition boundaryEnergy (d : nat) (entvar : bool) (c : bc) (b : bface) (u : nat -> vec) : R :=
  rsum (b_nf b) (fun k => bcFun d entvar c k (b_nrm b k) (u (b_idx b k)) * b_wt b k * 1).
(** calcBndryFun of NoSlipAdiabaticWallBC, ViscousSlipWallBC, ViscousExactBC and ViscousControlBC,
    navier_stokes_integ_def.hpp:96-107, 329-340, 816-827, 994-1005 *)
Definition wallFun (d : nat) (vp : viscosity) (w : wall) (k : nat) (dir : vec) (jac : R) (q : vec) (D : nat -> vec) : R :=
  dot (d + 2) (calcEntropyVars d false q) (wallFlux d vp w k dir jac q D).
Definition wallFaceEnergy (d : nat) (vp : viscosity) (f : vface) (u : nat -> vec) : R :=
  let e := w_el f in
  wallEnergy (e_n e) d (e_H e) (e_Q e) (e_adj e) (e_detJ e) 1 (w_nf f) (w_idx f) (w_wt f) (w_nrm f) (calcEntropyVars d false)
    (wallFun d vp (w_bc f)) u.

(** GetEnergy of the residual's form.  bcs: the inviscid boundary condition of each boundary face; walls: the viscous
    ones, attached only when the flow is viscous (flow_residual.cpp:211-224) *)
Definition formOutput (d : nat) (entvar : bool) (lps_coeff : R) (viscous : option viscosity) (iface_coeff : option R)
    (M : mesh) (bcs : bface -> bc) (walls : list vface) (u : nat -> vec) : option R :=
  match iface_coeff, viscous with
  | Some _, Some _ => None
  | _, _ => Some (
      lsum (fun e => lsum (fun E : element -> (nat -> vec) -> R => E e (fun i => u (e_glob e i))) (domainEnergies d entvar lps_coeff viscous)) (els M)
      + match iface_coeff with
        | None => 0
        | Some c => lsum (fun f => ifaceEnergy d entvar c f (fun i => u (f_globL f i)) (fun i => u (f_globR f i))) (ifs M)
        end
      + lsum (fun b => boundaryEnergy d entvar (bcs b) b (fun i => u (b_glob b i))) (bfs M)
      + match viscous with
        | None => 0
        | Some vp => lsum (fun f => wallFaceEnergy d vp f (fun i => u (e_glob (w_el f) i))) walls
        end)
  end.
(** calcEntropyChange_, flow_residual.cpp:445-460: the state passed in, the boundary data of time + dt; state_dot is
    read and not used *)
Definition calcEntropyChange (d : nat) (entvar : bool) (lps_coeff : R) (viscous : option viscosity) (iface_coeff : option R)
    (M : mesh) (bcs : R -> bface -> bc) (walls : R -> list vface) (time dt : R) (state state_dot : nat -> vec) : option R :=
  formOutput d entvar lps_coeff viscous iface_coeff M (bcs (time + dt)) (walls (time + dt)) state.
(** the residual at a given time, for comparison: flow_residual.cpp:211-371 attach the same conditions to it *)
Definition residualAt (d : nat) (entvar : bool) (lps_coeff : R) (viscous : option viscosity) (iface_coeff : option R)
    (M : mesh) (bcs : R -> bface -> bc) (walls : R -> list vface) (time : R) (u : nat -> vec) : option mat :=
  let M' := with_fluxes M (fun b => bcFlux d entvar (bcs time b)) in
  match viscous with
  | Some vp => match flowResidual d entvar lps_coeff viscous iface_coeff M' u with
               | None => None
               | Some r => Some (fold_left (fun r f => scatter (e_n (w_el f)) (d + 2) (e_glob (w_el f)) (faceResidual d vp f (fun i => u (e_glob (w_el f) i))) r) (walls time) r)
               end
  | None => flowResidual d entvar lps_coeff None iface_coeff M' u
  end.

(** DiagMassIntegrator::AssembleElementMatrix, src/physics/diag_mass_integ.cpp:8-37: entries are addressed by
    i + k * num_nodes; pow on a positive Jacobian *)
Definition set2 (A : mat) (i j : nat) (x : R) : mat := fun a b => if Nat.eqb a i && Nat.eqb b j then x else A a b.
Definition diagMassElement (d ns : nat) (space_vary : bool) (e : element) : mat :=
  loop (e_n e) (fun i elmat =>
    let norm := e_H e i * e_detJ e i in
    let norm := if space_vary then norm / Rpower (e_detJ e i) (1 / INR d) else norm in
    loop ns (fun k elmat => set2 elmat (i + k * e_n e)%nat (i + k * e_n e)%nat norm) elmat) zero2.
(** getMassMatrix_, flow_residual.cpp:554-569, with the integrator of :123-129 (space_vary is the option
    time-dis.steady): mass.Assemble adds the element matrices; local dof i + k * num_nodes is state k at node i *)
Definition massMatrix (d ns : nat) (steady : bool) (M : mesh) : mat4 :=
  fold_left (fun J e => scatter4 (e_n e) (e_n e) ns (e_glob e) (e_glob e)
    (fun m i k j => diagMassElement d ns steady e (i + m * e_n e)%nat (j + k * e_n e)%nat) J) (els M) zero4.
Definition massMult (N ns : nat) (A : mat4) (v : nat -> vec) : mat := fun i m => rsum N (fun j => rsum ns (fun k => A m i k j * v j k)).
