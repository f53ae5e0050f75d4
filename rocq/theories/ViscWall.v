(** The boundary integrators of viscous flow: ViscousBoundaryIntegrator (viscous_integ_def.hpp:246-616) and the fluxes
    of the boundary conditions that addViscousBoundaryIntegrators attaches (flow_residual.cpp:305-371).
    As in Sbp.v the face's position argument is folded into the face node index. *)
From Coq Require Import Reals Arith List Bool.
From Verif Require Import Num Vec Euler NavierStokes Sbp SbpMesh SmoothCalc FlowJac.
Import ListNotations.
Local Open Scope R_scope.

Section Wall.
Variables (n d ns : nat) (H : vec) (Q : nat -> mat) (adj : nat -> mat) (detJ : vec).
Variables (alpha : R) (nf : nat) (idx : nat -> nat) (wt : vec) (nrm : nat -> vec).
Variables (convert : vec -> vec) (convJac : vec -> mat).
Notation Dw := (viscousGrad n d H Q adj detJ convert).

(** GetFaceEnergy, viscous_integ_def.hpp:246-328 *)
Definition wallEnergy (fn : nat -> vec -> R -> vec -> (nat -> vec) -> R) (u : nat -> vec) : R :=
  rsum nf (fun k => let i := idx k in fn k (nrm k) (detJ i) (u i) (Dw u i) * wt k * alpha).
(** AssembleFaceVector, :330-451.  fluxDv k nrm q di s: flux_mat(s, di) of calcFluxDv; note that the terms scaled by the
    test-function derivative are not multiplied by alpha *)
Definition wallVector (flux : nat -> vec -> R -> vec -> (nat -> vec) -> vec) (fluxDv : nat -> vec -> vec -> nat -> vec) (u : nat -> vec) : mat :=
  loop nf (fun k res =>
    let i := idx k in
    let Hinv := 1 / (H i * detJ i) in
    let flux_face := flux k (nrm k) (detJ i) (u i) (Dw u i) in
    let res := loop ns (fun s res => add2 res i s (alpha * (flux_face s * wt k))) res in
    let F := fluxDv k (nrm k) (u i) in
    loop n (fun j res => loop d (fun di res =>
      let Qij := getQEntry d Q di i j (adj i) (adj j) in
      loop ns (fun s res => add2 res j s (Qij * (F di s * wt k * Hinv))) res) res) res) zero2.
(** AssembleFaceGrad, :453-616 (no alpha anywhere).  jacState: calcFluxJacState; jacDw ... di: calcFluxJacDw, the
    derivative in column di of Dw; dvJac ... di: calcFluxDvJacState *)
Definition wallGrad (jacState : nat -> vec -> R -> vec -> (nat -> vec) -> mat) (jacDw : nat -> vec -> R -> vec -> (nat -> vec) -> nat -> mat)
    (dvJac : nat -> vec -> vec -> nat -> mat) (u : nat -> vec) : mat4 :=
  loop nf (fun k A =>
    let i := idx k in
    let Hinv := 1 / (H i * detJ i) in
    let J := jacState k (nrm k) (detJ i) (u i) (Dw u i) in
    let A := loop ns (fun s1 A => loop ns (fun s2 A => add4 A s1 i s2 i (J s1 s2 * wt k)) A) A in
    let JD := jacDw k (nrm k) (detJ i) (u i) (Dw u i) in
    let A := loop n (fun j A => loop d (fun di A =>
      let Qij := getQEntry d Q di i j (adj i) (adj j) in
      let jt := fun a b => rsum ns (fun c => JD di a c * convJac (u j) c b) * (Hinv * Qij * wt k) in
      loop ns (fun si A => loop ns (fun sj A => add4 A si i sj j (jt si sj)) A) A) A) A in
    let JV := dvJac k (nrm k) (u i) in
    loop n (fun j A => loop d (fun di A =>
      let Dij := wt k * Hinv * getQEntry d Q di i j (adj i) (adj j) in
      loop ns (fun si A => loop ns (fun sj A => add4 A sj j si i (Dij * JV di sj si)) A) A) A) A) zero4.
(** SurfaceForce::AssembleFaceVector, navier_stokes_integ_def.hpp:1503-1625: the gradient of a wall functional.
    gState: calcBndryFunJacState; gDw ... di: column di of calcBndryFunJacDw; only the first part carries alpha *)
Definition wallFunctionalGrad (gState : nat -> vec -> R -> vec -> (nat -> vec) -> vec) (gDw : nat -> vec -> R -> vec -> (nat -> vec) -> nat -> vec)
    (u : nat -> vec) : mat :=
  loop nf (fun k res =>
    let i := idx k in
    let Hinv := 1 / (H i * detJ i) in
    let g := gState k (nrm k) (detJ i) (u i) (Dw u i) in
    let res := loop ns (fun s res => add2 res i s (alpha * (g s * wt k))) res in
    let G := gDw k (nrm k) (detJ i) (u i) (Dw u i) in
    loop n (fun j res => loop d (fun di res =>
      let Qij := getQEntry d Q di i j (adj i) (adj j) in
      loop ns (fun s1 res => loop ns (fun s2 res =>
        add2 res j s2 (convJac (u j) s1 s2 * Qij * (G di s1 * wt k * Hinv))) res) res) res) res) zero2.
End Wall.

(** NoSlipAdiabaticWallBC::calcFlux, navier_stokes_integ_def.hpp:110-140 *)
Definition noSlipFlux (d : nat) (vp : viscosity) (qfs dir : vec) (jac : R) (q : vec) (D : nat -> vec) : vec := fun s =>
  calcSlipWallFlux d false dir q s
  - calcAdiabaticWallFlux d dir (muRe d vp q) (v_Pr vp) q (flatten d D) s
  + calcNoSlipPenaltyFlux d dir jac (muRe d vp q) (v_Pr vp) qfs q s.
(** the common second step of ViscousSlipWallBC::calcFlux, :370-385, and ViscousExactBC::calcFlux, :846-863: the
    viscous flux of the derivatives without their normal part (the loop over directions is summed) *)
Definition tangentialFlux (d : nat) (vp : viscosity) (dir q : vec) (D : nat -> vec) : vec := fun s =>
  rsum d (fun e => applyViscousScaling d e (muRe d vp q) (v_Pr vp) q (flatten d (setZeroNormalDeriv d dir (flatten d D))) s * dir e).
(** ViscousSlipWallBC::calcFlux, :343-386 *)
Definition viscousSlipFlux (d : nat) (vp : viscosity) (dir q : vec) (D : nat -> vec) : vec := fun s =>
  calcSlipWallFlux d false dir q s - tangentialFlux d vp dir q D s.
(** ViscousExactBC::calcFlux, :830-864; qex: the exact solution at the face node *)
Definition viscousExactFlux (d : nat) (vp : viscosity) (qex dir q : vec) (D : nat -> vec) : vec := fun s =>
  calcBoundaryFlux d dir qex q s - tangentialFlux d vp dir q D s.
(** ViscousControlBC::calcFlux, :1008-1050; scale: control_scale(len_scale, x_actuator, x) at the face node *)
Definition viscousControlFlux (d : nat) (vp : viscosity) (qfs : vec) (control scale : R) (dir : vec) (jac : R) (q : vec) (D : nat -> vec) : vec := fun s =>
  calcControlFlux d dir q (control * scale) s +
  (if Rlt_dec scale (1 / 10000) then
     - calcAdiabaticWallFlux d dir (muRe d vp q) (v_Pr vp) q (flatten d D) s + calcNoSlipPenaltyFlux d dir jac (muRe d vp q) (v_Pr vp) qfs q s
   else 0).
(** the viscous boundary conditions of addViscousBoundaryIntegrators other than the far field (which is the inviscid
    FarFieldBC, a [bface]); per face, data may vary with the face node *)
Inductive wall :=
| NoSlip (qfs : vec)
| ViscSlip
| Exact (qex : nat -> vec)
| Control (qfs : vec) (control : R) (scale : nat -> R).
Definition wallFlux (d : nat) (vp : viscosity) (w : wall) (k : nat) (dir : vec) (jac : R) (q : vec) (D : nat -> vec) : vec :=
  match w with
  | NoSlip qfs => noSlipFlux d vp qfs dir jac q D
  | ViscSlip => viscousSlipFlux d vp dir q D
  | Exact qex => viscousExactFlux d vp (qex k) dir q D
  | Control qfs c scale => viscousControlFlux d vp qfs c (scale k) dir jac q D
  end.
(** calcFluxDv of every class: flux_mat = 0 (navier_stokes_integ_def.hpp:143-149, 1053-1060, navier_stokes_integ.hpp:
    986-992 and the slip wall's); calcFluxDvJacState: 0 (navier_stokes_integ.hpp:276-285, 425-434, ...) *)
Definition noDv (_ : nat) (_ _ : vec) (_ : nat) : vec := fun _ => 0.
Definition noDvJac (_ : nat) (_ _ : vec) (_ : nat) : mat := fun _ _ => 0.
(** calcFluxJacState, :160-219, 388-440, 866-923, 1070-1132, and calcFluxJacDw, :221-283, 442-509, 925-988, 1134-1202:
    adept Jacobians of calcFlux in q and in the columns of Dw *)
Definition wallJacState (d : nat) (vp : viscosity) (w : wall) (k : nat) (dir : vec) (jac : R) (q : vec) (D : nat -> vec) : mat := fun m c =>
  partial (fun q => wallFlux d vp w k dir jac q D m) q c.
Definition wallJacDw (d : nat) (vp : viscosity) (w : wall) (k : nat) (dir : vec) (jac : R) (q : vec) (D : nat -> vec) (e : nat) : mat := fun m c =>
  partial (fun col => wallFlux d vp w k dir jac q (setcol D e col) m) (D e) c.

(** a boundary face with a viscous boundary condition, and the element it belongs to *)
Record vface := { w_el : element; w_nf : nat; w_idx : nat -> nat; w_wt : vec; w_nrm : nat -> vec; w_bc : wall }.
Definition faceResidual (d : nat) (vp : viscosity) (f : vface) (u : nat -> vec) : mat :=
  let e := w_el f in
  wallVector (e_n e) d (d + 2) (e_H e) (e_Q e) (e_adj e) (e_detJ e) 1 (w_nf f) (w_idx f) (w_wt f) (w_nrm f) (calcEntropyVars d false)
    (wallFlux d vp (w_bc f)) noDv u.
Definition faceJacobian (d : nat) (vp : viscosity) (f : vface) (u : nat -> vec) : mat4 :=
  let e := w_el f in
  wallGrad (e_n e) d (d + 2) (e_H e) (e_Q e) (e_adj e) (e_detJ e) (w_nf f) (w_idx f) (w_wt f) (w_nrm f) (calcEntropyVars d false) (viscConvJac d)
    (wallJacState d vp (w_bc f)) (wallJacDw d vp (w_bc f)) noDvJac u.
(** the viscous flow residual and its matrix: the domain and far-field terms of flowResidual (continuous space: no
    interface terms) plus the viscous boundary faces.  In the code the boundary integrators of all kinds are visited
    in one pass over the boundary; sums of reals do not depend on the order. *)
Definition viscousFlowResidual (d : nat) (lps : R) (vp : viscosity) (M : mesh) (walls : list vface) (u : nat -> vec) : option mat :=
  match flowResidual d false lps (Some vp) None M u with
  | None => None
  | Some r => Some (fold_left (fun r f => scatter (e_n (w_el f)) (d + 2) (e_glob (w_el f)) (faceResidual d vp f (fun i => u (e_glob (w_el f) i))) r) walls r)
  end.
Definition viscousFlowJacobian (d : nat) (lps : R) (vp : viscosity) (M : mesh) (walls : list vface) (u : nat -> vec) : option mat4 :=
  match flowJacobian d false lps (Some vp) None M u with
  | None => None
  | Some J => Some (fold_left (fun J f => scatter4 (e_n (w_el f)) (e_n (w_el f)) (d + 2) (e_glob (w_el f)) (e_glob (w_el f)) (faceJacobian d vp f (fun i => u (e_glob (w_el f) i))) J) walls J)
  end.
