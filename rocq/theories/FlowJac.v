(** The assembled Jacobian of the flow residual: what NonlinearForm::GetGradient of FlowResidual's form assembles when
    every integrator differentiates its own flux with adept.  adept (an external library) is modelled by [partial], the
    partial derivatives of the recorded function (SmoothCalc.v). *)
From Coq Require Import Reals Arith List Bool.
From Verif Require Import Num Vec Euler NavierStokes Sbp SbpMesh SmoothCalc Vortex.
Import ListNotations.
Local Open Scope R_scope.

(** mfem SparseMatrix::AddSubMatrix(rows, cols, elmat) (mfem, not part of /repo) *)
Definition scatter4 (nr nc ns : nat) (rows cols : nat -> nat) (A J : mat4) : mat4 :=
  loop nr (fun i J => loop ns (fun m J => loop nc (fun j J => loop ns (fun k J => add4 J m (rows i) k (cols j) (A m i k j)) J) J) J) J.

(** EulerIntegrator::calcFluxJacState, euler_integ_def.hpp:15-35 *)
Definition eulerFluxJac (d : nat) (dir q : vec) : mat := fun m k => partial (fun q => calcEulerFlux d dir q m) q k.
(** IsmailRoeIntegrator::calcFluxJacStates, euler_integ_def.hpp:105-145: both states independent, columns split *)
Definition irJacL (d : nat) (entvar : bool) (di : nat) (qL qR : vec) : mat := fun m k => partial (fun q => irFlux d entvar di q qR m) qL k.
Definition irJacR (d : nat) (entvar : bool) (di : nat) (qL qR : vec) : mat := fun m k => partial (fun q => irFlux d entvar di qL q m) qR k.
(** EntStableLPSIntegrator::convertVarsJacState, euler_integ_def.hpp:180-211: the identity for entropy variables *)
Definition lpsConvJac (d : nat) (entvar : bool) (q : vec) : mat := fun m k =>
  if entvar then (if Nat.eqb m k then 1 else 0) else partial (fun q => calcEntropyVars d false q m) q k.
(** EntStableLPSIntegrator::applyScalingJacState, euler_integ_def.hpp:232-266 *)
Definition lpsScalingJac (d : nat) (entvar : bool) (adjJ : mat) (q v : vec) : mat := fun m k => partial (fun q => lpsScaling d entvar adjJ q v m) q k.
(** EntStableLPSIntegrator::applyScalingJacV, euler_integ_def.hpp:304-338: "dependence on vec is linear, so any value
    is ok; use q" *)
Definition lpsScalingJacV (d : nat) (entvar : bool) (adjJ : mat) (q : vec) : mat := fun m k => partial (fun v => lpsScaling d entvar adjJ q v m) q k.
(** convertVarsJac, navier_stokes_integ.hpp / ESViscousIntegrator::convertVarsJacState, :87-90 *)
Definition viscConvJac (d : nat) (q : vec) : mat := fun m k => partial (fun q => calcEntropyVars d false q m) q k.
(** ESViscousIntegrator::applyScalingJacState, navier_stokes_integ_def.hpp:18-50, applyScalingJacDw, :52-91 (the work
    array is split into one block per column of Dw) *)
Definition viscScalingJac (d : nat) (vp : viscosity) (di : nat) (q : vec) (D : nat -> vec) : mat := fun m k => partial (fun q => viscousScaling d vp di q D m) q k.
Definition viscScalingJacDw (d : nat) (vp : viscosity) (di : nat) (q : vec) (D : nat -> vec) (e : nat) : mat := fun m k =>
  partial (fun c => viscousScaling d vp di q (setcol D e c) m) (D e) k.
(** InterfaceIntegrator::calcFluxJacState, euler_integ_def.hpp:842-884 *)
Definition ifaceJacL (d : nat) (entvar : bool) (c : R) (dir qL qR : vec) : mat := fun m k => partial (fun q => ifaceFlux d entvar c dir q qR m) qL k.
Definition ifaceJacR (d : nat) (entvar : bool) (c : R) (dir qL qR : vec) : mat := fun m k => partial (fun q => ifaceFlux d entvar c dir qL q m) qR k.
(** the boundary integrators' calcFluxJacState: IsentropicVortexBC :402-425, SlipWallBC :477-498, FarFieldBC :551-577,
    EntropyConserveBC :639-669, ControlBC :730-755 of euler_integ_def.hpp.  All record the function calcFlux evaluates. *)
Definition bdryJac (flux : nat -> vec -> vec -> vec) (f : nat) (dir q : vec) : mat := fun m k => partial (fun q => flux f dir q m) q k.

(** AssembleElementGrad of the domain integrators of addFlowDomainIntegrators (flow_residual.cpp:138-188) *)
Definition irGrad (d : nat) (entvar : bool) (e : element) (u : nat -> vec) : mat4 :=
  dyadicGrad (e_n e) d (e_Q e) (d + 2) 1 (e_adj e) (irJacL d entvar) (irJacR d entvar) u.
Definition lpsTermGrad (d : nat) (entvar : bool) (a : R) (e : element) (u : nat -> vec) : mat4 :=
  lpsGrad (e_n e) (e_H e) (e_nv e) (e_V e) (d + 2) a (e_adj e) (calcEntropyVars d entvar) (lpsConvJac d entvar)
    (lpsScalingJac d entvar) (lpsScalingJacV d entvar) u.
Definition viscousTermGrad (d : nat) (vp : viscosity) (e : element) (u : nat -> vec) : mat4 :=
  viscousJac (e_n e) d (e_H e) (e_Q e) (d + 2) 1 (e_adj e) (e_detJ e) (calcEntropyVars d false) (viscConvJac d)
    (fun di _ q D => viscScalingJac d vp di q D) (fun di _ q D e => viscScalingJacDw d vp di q D e) u.
Definition domainGrads (d : nat) (entvar : bool) (lps_coeff : R) (viscous : option viscosity) : list (element -> (nat -> vec) -> mat4) :=
  [irGrad d entvar] ++ (if Rlt_dec 0 lps_coeff then [lpsTermGrad d entvar lps_coeff] else []) ++
  (match viscous with Some vp => [viscousTermGrad d vp] | None => [] end).
(** the whole matrix, in the order NonlinearForm::GetGradient visits elements, interior faces and boundary faces *)
Definition flowJacobian (d : nat) (entvar : bool) (lps_coeff : R) (viscous : option viscosity) (iface_coeff : option R)
    (M : mesh) (u : nat -> vec) : option mat4 :=
  match iface_coeff, viscous with
  | Some _, Some _ => None
  | _, _ =>
    let J := fold_left (fun J e => fold_left (fun J (g : element -> (nat -> vec) -> mat4) =>
               scatter4 (e_n e) (e_n e) (d + 2) (e_glob e) (e_glob e) (g e (fun i => u (e_glob e i))) J)
               (domainGrads d entvar lps_coeff viscous) J) (els M) zero4 in
    let J := match iface_coeff with
      | None => J
      | Some c => fold_left (fun J f =>
          let B := faceGrad (f_nf f) (d + 2) 1 (f_idxL f) (f_idxR f) (f_wt f) (f_nrm f) (ifaceJacL d entvar c) (ifaceJacR d entvar c)
                     (fun i => u (f_globL f i)) (fun i => u (f_globR f i)) in
          let J := scatter4 (f_nL f) (f_nL f) (d + 2) (f_globL f) (f_globL f) (bLL B) J in
          let J := scatter4 (f_nL f) (f_nR f) (d + 2) (f_globL f) (f_globR f) (bLR B) J in
          let J := scatter4 (f_nR f) (f_nL f) (d + 2) (f_globR f) (f_globL f) (bRL B) J in
          scatter4 (f_nR f) (f_nR f) (d + 2) (f_globR f) (f_globR f) (bRR B) J) (ifs M) J
      end in
    Some (fold_left (fun J b => scatter4 (b_n b) (b_n b) (d + 2) (b_glob b) (b_glob b)
            (boundaryGrad (b_nf b) (d + 2) 1 (b_idx b) (b_wt b) (b_nrm b) (bdryJac (b_flux b)) (fun i => u (b_glob b i))) J) (bfs M) J)
  end.
(** the fluxes of the inviscid boundary integrators (calcFlux of each class), for one boundary face: the data may differ
    from face node to face node *)
Inductive bc :=
| Vortex (pos : nat -> vec)               (** IsentropicVortexBC::calcFlux, :392-400 (two dimensions) *)
| SlipWall                                (** SlipWallBC::calcFlux, :469-475 *)
| FarField (qfs : vec)                    (** FarFieldBC::calcFlux, :539-549 *)
| EntropyConserve (qb : nat -> vec)       (** EntropyConserveBC::calcFlux, :618-637 *)
| ControlWall (uc : nat -> R).            (** ControlBC::calcFlux, :716-728 *)
Definition bcFlux (d : nat) (entvar : bool) (b : bc) (f : nat) (dir q : vec) : vec :=
  match b with
  | Vortex pos => calcIsentropicVortexFlux entvar (pos f) dir q
  | SlipWall => calcSlipWallFlux d entvar dir q
  | FarField qfs => calcFarFieldFlux d entvar dir qfs q
  | EntropyConserve qb =>
      let Un := dot d (mom (qb f)) dir / qb f 0%nat in
      calcBoundaryFluxEC d dir (qb f) (calcConservativeVars d entvar q) (Un * entropy d false (qb f))
  | ControlWall uc => calcControlFlux d dir (calcConservativeVars d entvar q) (uc f)
  end.
