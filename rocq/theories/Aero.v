(** The aerodynamic outputs of the flow solver: FlowResidual::constructOutput "drag", "lift", "boundary-entropy" and
    "far-field-supply-rate" (flow_residual.cpp:697-826), with the integrators PressureForce, BoundaryEntropy and
    SupplyRate (euler_integ_def.hpp:922-1000) and SurfaceForce (navier_stokes_integ_def.hpp:1247-1625).
    As in Sbp.v the face's position argument is folded into the face node index. *)
From Coq Require Import Reals Arith List Bool.
From Verif Require Import Num Vec Euler NavierStokes Sbp SbpMesh SmoothCalc FlowJac ViscWall.
Import ListNotations.
Local Open Scope R_scope.

(** mfem::Vector::operator()(int) on a vector of [d] entries: writing outside is undefined behaviour ([None]; an
    assertion in debug builds of mfem) *)
Definition setEntry (d i : nat) (v : R) (f : vec) : option vec :=
  if Nat.ltb i d then Some (fun j => if Nat.eqb j i then v else f j) else None.
(** drag_dir, flow_residual.cpp:704-716 *)
Definition dragDir (d : nat) (mach aoa : R) (iroll ipitch : nat) : option vec :=
  let z : vec := fun _ => 0 in
  let dir := if Nat.eqb d 1 then setEntry d 0 1 z
             else match setEntry d iroll (cos aoa) z with None => None | Some f => setEntry d ipitch (sin aoa) f end in
  match dir with None => None | Some f => Some (fun i => f i * (1 / mach ^ 2)) end.
(** lift_dir, :743-755 *)
Definition liftDir (d : nat) (mach aoa : R) (iroll ipitch : nat) : option vec :=
  let z : vec := fun _ => 0 in
  let dir := if Nat.eqb d 1 then setEntry d 0 0 z
             else match setEntry d iroll (- sin aoa) z with None => None | Some f => setEntry d ipitch (cos aoa) f end in
  match dir with None => None | Some f => Some (fun i => f i * (1 / mach ^ 2)) end.

(** InviscidBoundaryIntegrator::GetFaceEnergy, inviscid_integ_def.hpp:416-466 *)
Definition boundaryEnergy (nf : nat) (alpha : R) (idx : nat -> nat) (wt : vec) (nrm : nat -> vec) (fn : nat -> vec -> vec -> R) (u : nat -> vec) : R :=
  rsum nf (fun k => fn k (nrm k) (u (idx k)) * wt k * alpha).

(** PressureForce::calcBndryFun, euler_integ_def.hpp:922-930 *)
Definition pressureForceFun (d : nat) (entvar : bool) (force : vec) (k : nat) (dir q : vec) : R :=
  dot d force (mom (calcSlipWallFlux d entvar dir q)).
(** PressureForce::calcFlux, :933-958: the adept gradient of the same expression in q *)
Definition pressureForceGrad (d : nat) (entvar : bool) (force : vec) (k : nat) (dir q : vec) : vec := fun s =>
  partial (fun q => pressureForceFun d entvar force k dir q) q s.

(** a boundary face with its attribute; NonlinearForm::GetEnergy / Mult over boundary faces: the integrator visits the
    faces whose attribute is marked, i.e. is in the "boundaries" list of the output *)
Record tagged (F : Type) := { t_attr : nat; t_face : F }.
Arguments t_attr {F}. Arguments t_face {F}. Arguments Build_tagged {F}.
Definition onBoundaries {F} (bdrs : list nat) (l : list (tagged F)) : list F :=
  map t_face (filter (fun t => existsb (Nat.eqb (t_attr t)) bdrs) l).

(** an inviscid boundary output: the sum of the face energies; its gradient: the assembled face vectors.  PressureForce
    passes alpha = 1 to its base class (euler_integ.hpp:765-768) *)
Definition pressureForce (d : nat) (entvar : bool) (force : vec) (faces : list bface) (u : nat -> vec) : R :=
  fold_left (fun a b => a + boundaryEnergy (b_nf b) 1 (b_idx b) (b_wt b) (b_nrm b) (pressureForceFun d entvar force) (fun i => u (b_glob b i))) faces 0.
Definition pressureForceGradient (d : nat) (entvar : bool) (force : vec) (faces : list bface) (u : nat -> vec) : mat :=
  fold_left (fun r b => scatter (b_n b) (d + 2) (b_glob b) (boundaryVector (b_nf b) (d + 2) 1 (b_idx b) (b_wt b) (b_nrm b) (pressureForceGrad d entvar force) (fun i => u (b_glob b i))) r) faces zero2.

(** SurfaceForce::calcBndryFun, navier_stokes_integ_def.hpp:1251-1280 (the same three steps as NoSlipAdiabaticWallBC::
    calcFlux), calcBndryFunJacState, :1283-1341, calcBndryFunJacDw, :1344-1408 *)
Definition surfaceForceFun (d : nat) (vp : viscosity) (qfs force : vec) (k : nat) (dir : vec) (jac : R) (q : vec) (D : nat -> vec) : R :=
  let flux_vec := calcSlipWallFlux d false dir q in
  let mu_Re := muRe d vp q in
  let work_vec := calcAdiabaticWallFlux d dir mu_Re (v_Pr vp) q (flatten d D) in
  let flux_vec := fun s => flux_vec s - work_vec s in
  let work_vec := calcNoSlipPenaltyFlux d dir jac mu_Re (v_Pr vp) qfs q in
  let flux_vec := fun s => flux_vec s + work_vec s in
  dot d force (mom flux_vec).
Definition surfaceForceJacState (d : nat) (vp : viscosity) (qfs force : vec) (k : nat) (dir : vec) (jac : R) (q : vec) (D : nat -> vec) : vec := fun s =>
  partial (fun q => surfaceForceFun d vp qfs force k dir jac q D) q s.
Definition surfaceForceJacDw (d : nat) (vp : viscosity) (qfs force : vec) (k : nat) (dir : vec) (jac : R) (q : vec) (D : nat -> vec) (e : nat) : vec := fun s =>
  partial (fun col => surfaceForceFun d vp qfs force k dir jac q (setcol D e col)) (D e) s.
(** SurfaceForce::GetFaceEnergy, :1411-1500, and AssembleFaceVector, :1503-1625, over the marked faces; [a] is the
    constructor's last argument (1 by default, and in constructOutput) *)
Definition surfaceForce (d : nat) (vp : viscosity) (qfs force : vec) (a : R) (faces : list vface) (u : nat -> vec) : R :=
  fold_left (fun s f => let e := w_el f in
    s + wallEnergy (e_n e) d (e_H e) (e_Q e) (e_adj e) (e_detJ e) a (w_nf f) (w_idx f) (w_wt f) (w_nrm f) (calcEntropyVars d false)
          (surfaceForceFun d vp qfs force) (fun i => u (e_glob e i))) faces 0.
Definition surfaceForceGradient (d : nat) (vp : viscosity) (qfs force : vec) (a : R) (faces : list vface) (u : nat -> vec) : mat :=
  fold_left (fun r f => let e := w_el f in
    scatter (e_n e) (d + 2) (e_glob e)
      (wallFunctionalGrad (e_n e) d (d + 2) (e_H e) (e_Q e) (e_adj e) (e_detJ e) a (w_nf f) (w_idx f) (w_wt f) (w_nrm f) (calcEntropyVars d false) (viscConvJac d)
         (surfaceForceJacState d vp qfs force) (surfaceForceJacDw d vp qfs force) (fun i => u (e_glob e i))) r) faces zero2.

(** euler::rho_ref and euler::press_ref, euler_fluxes.hpp:26-30 *)
Definition rho_ref : R := Rpower (1 + 1/2 * gami * (4/100)) (1 / gami).
Definition press_ref : R := Rpower (1 + 1/2 * gami * (4/100)) (gamma / gami) / gamma.
(** squaredExponential, utils.cpp:51-55; [nx] and [nc] are the sizes of x and xc: the dot product x * xc runs over the
    entries of x, so a shorter xc is read outside its storage (undefined behaviour, [None]; an assertion in debug builds) *)
Definition squaredExponential (nx nc : nat) (len : R) (xc x : vec) : option R :=
  if Nat.leb nx nc then
    let prod2 := dot nx x x - 2 * dot nx x xc + dot nc xc xc in
    Some (exp (- prod2 / len ^ 2))
  else None.
(** the actuator position of constructOutput, flow_residual.cpp:791-792: two entries in any dimension *)
Definition x_actuator : vec := fun i => match i with O => 1/2 | _ => 0 end.
(** BoundaryEntropy::calcBndryFun, euler_integ_def.hpp:967-980; scale k: control_scale at the face node *)
Definition boundaryEntropyFun (d : nat) (entvar : bool) (scale : nat -> R) (k : nat) (dir q : vec) : R :=
  let S := entropy d entvar q in
  let press := pressure d q in
  let S := S + rho_ref * (press - press_ref) / press_ref in
  let dA := sqrt (dot d dir dir) in
  scale k * S * dA.
(** SupplyRate::calcBndryFun, :982-997, conservative variables; with entropy variables calcFarFieldFlux2 throws *)
Definition supplyRateFun (d : nat) (qfs : vec) (k : nat) (dir q : vec) : R :=
  let flux_vec := calcFarFieldFlux2 d dir qfs q in
  let w := calcEntropyVars d false q in
  dot d dir (mom q) - dot (d + 2) w flux_vec.
(** the gradient that either class assembles: InviscidBoundaryIntegrator::AssembleFaceVector (inviscid_integ_def.hpp:
    469-530) with a calcFlux that does nothing (euler_integ.hpp:897-901, 968-972): at every face node the member
    flux_face keeps its previous contents -- [buf] on entry -- and is scaled by the quadrature weight *)
Definition staleVector (nf ns : nat) (alpha : R) (idx : nat -> nat) (wt : vec) (buf : vec) : vec * mat :=
  loop nf (fun k st =>
    let flux_face := fun m => fst st m * wt k in
    (flux_face, loop ns (fun m res => add2 res (idx k) m (alpha * flux_face m)) (snd st))) (buf, zero2).
