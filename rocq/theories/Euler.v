(** Model of src/physics/fluidflow/euler_fluxes.hpp:1-1250 over exact reals, for any number [d] of space
    dimensions (the code is instantiated at 1, 2 and 3).  A state of d+2 entries is a [vec]: entry 0 density,
    1..d momentum, d+1 energy.  [xdouble] = R; log = ln, pow = Rpower (only ever applied to positive bases in
    the theorems), fabs = Rabs. *)
From Coq Require Import Reals Arith.
From Verif Require Import Num Vec.
Local Open Scope R_scope.

(** euler::gamma, euler::gami, :22-24 *)
Definition gamma : R := 7 / 5.
Definition gami : R := 2 / 5.

(** pointer arithmetic q + 1 *)
Definition mom (q : vec) : vec := fun i => q (S i).
(** the array {a, m[0..d-1], e} *)
Definition mk (d : nat) (a : R) (m : vec) (e : R) : vec :=
  fun i => match i with O => a | S j => if Nat.ltb j d then m j else e end.

(** pressure, :47-52 *)
Definition pressure (d : nat) (q : vec) : R := gami * (q (S d) - 1/2 * dot d (mom q) (mom q) / q 0%nat).

(** dpressdq, :59-71 (writes through a pointer-to-const: cannot be instantiated as written) *)
Definition dpressdq (d : nat) (q : vec) : vec :=
  let u := fun i => q (S i) / q 0%nat in
  let phi := rsum d (fun i => u i * u i) in
  mk d (gami * phi * (1/2)) (fun i => - gami * u i) gami.

(** getFreeStreamQ, :81-103 *)
Definition getFreeStreamQ (d : nat) (mach aoa : R) (iroll ipitch : nat) : vec :=
  let q := fun i : nat => if Nat.eqb i 0 then 1 else 0 in
  let set (i : nat) (v : R) (f : vec) : vec := fun j => if Nat.eqb j i then v else f j in
  let q := if Nat.eqb d 1 then set 1%nat (q 0%nat * mach) q
           else set (S ipitch) (q 0%nat * mach * sin aoa) (set (S iroll) (q 0%nat * mach * cos aoa) q) in
  set (S d) (1 / (gamma * gami) + 1/2 * mach * mach) q.

(** calcEntropyVars, :111-143; [entvar]: already entropy variables, copied *)
Definition calcEntropyVars (d : nat) (entvar : bool) (q : vec) : vec :=
  if entvar then q
  else
    let u := fun i => q (S i) / q 0%nat in
    let p := pressure d q in
    let s := ln (p / Rpower (q 0%nat) gamma) in
    let fac := 1 / p in
    mk d ((gamma - s) / gami - 1/2 * dot d u u * fac * q 0%nat) (fun i => q (S i) * fac) (- q 0%nat * fac).

(** calcConservativeVars, :151-179 *)
Definition calcConservativeVars (d : nat) (entvar : bool) (w : vec) : vec :=
  if entvar then
    let u := fun i => - w (S i) / w (S d) in
    let Vel2 := rsum d (fun i => u i * u i) in
    let s := gamma + gami * (1/2 * Vel2 * w (S d) - w 0%nat) in
    let q0 := Rpower (- exp (- s) / w (S d)) (1 / gami) in
    let p := - q0 / w (S d) in
    mk d q0 (fun i => q0 * u i) (p / gami + 1/2 * q0 * Vel2)
  else w.

(** entropy, :186-210 *)
Definition entropy (d : nat) (entvar : bool) (q : vec) : R :=
  if entvar then
    let Vel2 := dot d (mom q) (mom q) in
    let s := - gamma + gami * (q 0%nat - 1/2 * Vel2 / q (S d)) in
    let rho := Rpower (- exp s / q (S d)) (1 / gami) in
    rho * s / gami
  else - q 0%nat * ln (pressure d q / Rpower (q 0%nat) gamma) / gami.

(** entropy(q, qe), :220-231 (uninstantiated template; its calcEntropyVars call lacks the entvar argument,
    read here as false) *)
Definition entropy_affine (d : nat) (q qe : vec) : R :=
  entropy d false q - entropy d false qe -
  rsum (d + 2) (fun i => calcEntropyVars d false qe i * (q i - qe i)).

(** calcEulerFlux, :239-251 *)
Definition calcEulerFlux (d : nat) (dir q : vec) : vec :=
  let press := pressure d q in
  let U := dot d (mom q) dir in
  mk d U (fun i => q (S i) * (U / q 0%nat) + dir i * press) ((q (S d) + press) * (U / q 0%nat)).

(** Roe-averaged velocity and total enthalpy, :272-295 *)
Definition roe_u (qL qR : vec) : vec :=
  let sqL := sqrt (qL 0%nat) in
  let sqR := sqrt (qR 0%nat) in
  let facL := 1 / qL 0%nat in
  let facR := 1 / qR 0%nat in
  let fac := 1 / (sqL + sqR) in
  fun i => (sqL * qL (S i) * facL + sqR * qR (S i) * facR) * fac.
Definition roe_H (d : nat) (qL qR : vec) : R :=
  let sqL := sqrt (qL 0%nat) in
  let sqR := sqrt (qR 0%nat) in
  let facL := 1 / qL 0%nat in
  let facR := 1 / qR 0%nat in
  let fac := 1 / (sqL + sqR) in
  let HL := (gamma * qL (S d) - 1/2 * gami * dot d (mom qL) (mom qL) * facL) * facL in
  let HR := (gamma * qR (S d) - 1/2 * gami * dot d (mom qR) (mom qR) * facR) * facR in
  (sqL * HL + sqR * HR) * fac.
(** calcRoeFaceFlux, :260-338 *)
Definition calcRoeFaceFlux (d : nat) (dir qL qR : vec) : vec :=
  let sat_Vn := 25 / 1000 in
  let sat_Vl := 25 / 1000 in
  let u := roe_u qL qR in
  let phi := 1/2 * dot d u u in
  let Un := dot d dir u in
  let H := roe_H d qL qR in
  let a := sqrt (gami * (H - phi)) in
  let dA := sqrt (dot d dir dir) in
  let rhoA := Rabs Un + dA * a in
  let lambda1 := 1/2 * Rmax (Rabs (Un + dA * a)) (sat_Vn * rhoA) in
  let lambda2 := 1/2 * Rmax (Rabs (Un - dA * a)) (sat_Vn * rhoA) in
  let lambda3 := 1/2 * Rmax (Rabs Un) (sat_Vl * rhoA) in
  let fL := calcEulerFlux d dir qL in
  let fR := calcEulerFlux d dir qR in
  let dq := fun i => qL i - qR i in
  let flux := fun i => 1/2 * (fL i + fR i) + lambda3 * dq i in
  let tmp1 := 1/2 * (lambda1 + lambda2) - lambda3 in
  let E1 := tmp1 * gami / (a * a) in
  let E2 := tmp1 / (dA * dA) in
  let E34 := 1/2 * (lambda1 - lambda2) / (dA * a) in
  let Edq := phi * dq 0%nat + dq (S d) - dot d u (mom dq) in
  let Fdq := - Un * dq 0%nat + dot d dir (mom dq) in
  mk d (flux 0%nat + E1 * Edq + E34 * Fdq)
     (fun i => flux (S i) + Edq * (E1 * u i + gami * E34 * dir i) + Fdq * (E2 * dir i + E34 * u i))
     (flux (S d) + Edq * (E1 * H + gami * E34 * Un) + Fdq * (E2 * Un + E34 * H)).

(** logavg, :345-362 *)
Definition logavg (aL aR : R) : R :=
  let xi := aL / aR in
  let f := (xi - 1) / (xi + 1) in
  let u := f * f in
  let eps := 1 / 1000 in
  let F := if Rltb u eps then 1 + u * (1/3 + u * (1/5 + u * (1/7 + u / 9))) else (ln xi / 2) / f in
  (aL + aR) / (2 * F).

(** the parameter vector z of both families: from conservative variables, :377-390 (= :479-491), and from
    entropy variables, :426-443 (= :534-552) *)
Definition zcons (d : nat) (q : vec) : vec :=
  let p := pressure d q in
  let z0 := sqrt (q 0%nat / p) in
  mk d z0 (fun i => z0 * q (S i) / q 0%nat) (sqrt (q 0%nat * p)).
Definition zent (d : nat) (w : vec) : vec :=
  let z0 := sqrt (- w (S d)) in
  let s := rsum d (fun i => w (S i) * w (S i)) in
  let s := gamma + gami * (1/2 * s / w (S d) - w 0%nat) in
  mk d z0 (fun i => - w (S i) * z0 / w (S d)) (Rpower (- exp (- s) / w (S d)) (1 / gami) / z0).

(** the averages shared by all variants, :392-400 *)
Definition ir_rho (d : nat) (zL zR : vec) : R := 1/2 * (zL 0%nat + zR 0%nat) * logavg (zL (S d)) (zR (S d)).
Definition ir_u (zL zR : vec) (i : nat) : R := (zL (S i) + zR (S i)) / (zL 0%nat + zR 0%nat).
Definition ir_p1 (d : nat) (zL zR : vec) : R := (zL (S d) + zR (S d)) / (zL 0%nat + zR 0%nat).
Definition ir_h (d : nat) (zL zR : vec) : R :=
  let p2 := ((gamma + 1) * logavg (zL (S d)) (zR (S d)) / logavg (zL 0%nat) (zR 0%nat) +
             gami * (zL (S d) + zR (S d)) / (zL 0%nat + zR 0%nat)) / (2 * gamma) in
  gamma * p2 / (ir_rho d zL zR * gami) + rsum d (fun i => 1/2 * ir_u zL zR i * ir_u zL zR i).
(** flux assembly for a coordinate direction, :402-409, and for a face normal, :510-517 *)
Definition ir_flux_di (d di : nat) (zL zR : vec) : vec :=
  let rho := ir_rho d zL zR in
  let U := ir_u zL zR di in
  mk d (rho * U) (fun i => ir_u zL zR i * (rho * U) + (if Nat.eqb i di then ir_p1 d zL zR else 0)) (rho * ir_h d zL zR * U).
Definition ir_flux_dir (d : nat) (dir zL zR : vec) (U : R) : vec :=
  let rho := ir_rho d zL zR in
  mk d (rho * U) (fun i => ir_u zL zR i * (rho * U) + ir_p1 d zL zR * dir i) (rho * ir_h d zL zR * U).

(** calcIsmailRoeFlux, :371-410; calcIsmailRoeFluxUsingEntVars, :419-464 *)
Definition calcIsmailRoeFlux (d di : nat) (qL qR : vec) : vec := ir_flux_di d di (zcons d qL) (zcons d qR).
Definition calcIsmailRoeFluxUsingEntVars (d di : nat) (wL wR : vec) : vec := ir_flux_di d di (zent d wL) (zent d wR).
(** calcIsmailRoeFaceFlux, :473-518 (its normal velocity is built from q, :494-499); ...UsingEntVars, :527-576 *)
Definition calcIsmailRoeFaceFlux (d : nat) (dir qL qR : vec) : vec :=
  let zL := zcons d qL in
  let zR := zcons d qR in
  let U := rsum d (fun i => (zL 0%nat * qL (S i) / qL 0%nat + zR 0%nat * qR (S i) / qR 0%nat) * dir i / (zL 0%nat + zR 0%nat)) in
  ir_flux_dir d dir zL zR U.
Definition calcIsmailRoeFaceFluxUsingEntVars (d : nat) (dir wL wR : vec) : vec :=
  let zL := zent d wL in
  let zR := zent d wR in
  let U := rsum d (fun i => (zL (S i) + zR (S i)) * dir i / (zL 0%nat + zR 0%nat)) in
  ir_flux_dir d dir zL zR U.

(** calcSpectralRadius, :585-596 *)
Definition calcSpectralRadius (d : nat) (entvar : bool) (dir u : vec) : R :=
  let q := calcConservativeVars d entvar u in
  let press := pressure d q in
  let sndsp := sqrt (gamma * press / q 0%nat) in
  let U := dot d (mom q) dir / q 0%nat in
  Rabs U + sndsp * sqrt (dot d dir dir).

(** calcdQdWProduct, :600-635 *)
Definition calcdQdWProduct (d : nat) (q v : vec) : vec :=
  let p := pressure d q in
  let rho_inv := 1 / q 0%nat in
  let h := (q (S d) + p) * rho_inv in
  let a2 := gamma * p * rho_inv in
  mk d (rsum (d + 2) (fun i => q i * v i))
     (fun j => let u := q (S j) * rho_inv in
               rsum (d + 2) (fun i => u * q i * v i) + p * v (S j) + p * u * v (S d))
     (q (S d) * v 0%nat + rsum d (fun i => q (S i) * h * v (S i)) + (q 0%nat * h * h - a2 * p / gami) * v (S d)).

(** applyLPSScaling, :644-662 and the entropy-variable form, :671-680; adjJ: d rows of length d *)
Definition applyLPSScaling (d : nat) (adjJ : nat -> vec) (q v : vec) : vec :=
  let spect := rsum d (fun i => calcSpectralRadius d false (adjJ i) q) / INR d in
  fun i => calcdQdWProduct d q v i * spect.
Definition applyLPSScalingUsingEntVars (d : nat) (adjJ : nat -> vec) (w v : vec) : vec :=
  applyLPSScaling d adjJ (calcConservativeVars d true w) v.

(** calcBoundaryFlux, :692-759 *)
Definition calcBoundaryFlux (d : nat) (dir qbnd q : vec) : vec :=
  let sat_Vn := 0 in
  let sat_Vl := 0 in
  let dA := sqrt (dot d dir dir) in
  let fac := 1 / qbnd 0%nat in
  let phi := 1/2 * dot d (mom qbnd) (mom qbnd) * fac * fac in
  let H := gamma * qbnd (S d) * fac - gami * phi in
  let a := sqrt (gami * (H - phi)) in
  let Un := dot d (mom qbnd) dir * fac in
  let l1 := Un + dA * a in
  let l2 := Un - dA * a in
  let l3 := Un in
  let rhoA := Rabs Un + dA * a in
  let lambda1 := 1/2 * (Rmax (Rabs l1) (sat_Vn * rhoA) - l1) in
  let lambda2 := 1/2 * (Rmax (Rabs l2) (sat_Vn * rhoA) - l2) in
  let lambda3 := 1/2 * (Rmax (Rabs l3) (sat_Vl * rhoA) - l3) in
  let dq := fun i => q i - qbnd i in
  let f := calcEulerFlux d dir q in
  let flux := fun i => f i + lambda3 * dq i in
  let tmp1 := 1/2 * (lambda1 + lambda2) - lambda3 in
  let E1 := tmp1 * gami / (a * a) in
  let E2 := tmp1 / (dA * dA) in
  let E34 := 1/2 * (lambda1 - lambda2) / (dA * a) in
  let Edq := phi * dq 0%nat + dq (S d) - dot d (mom qbnd) (mom dq) * fac in
  let Fdq := - Un * dq 0%nat + dot d dir (mom dq) in
  mk d (flux 0%nat + E1 * Edq + E34 * Fdq)
     (fun i => flux (S i) + Edq * (E1 * qbnd (S i) * fac + gami * E34 * dir i) + Fdq * (E2 * dir i + E34 * qbnd (S i) * fac))
     (flux (S d) + Edq * (E1 * H + gami * E34 * Un) + Fdq * (E2 * Un + E34 * H)).

(** calcBoundaryFluxEC, :769-795 *)
Definition calcBoundaryFluxEC (d : nat) (dir qbnd q : vec) (entflux : R) : vec :=
  let flux := calcBoundaryFlux d dir qbnd q in
  let w := calcEntropyVars d false q in
  let psi := dot d (mom q) dir in
  let dF := dot (d + 2) w flux - psi - entflux in
  let Aw := calcdQdWProduct d q w in
  let dF := dF / dot (d + 2) w Aw in
  fun i => flux i - dF * Aw i.

(** calcControlFlux, :804-835 (the active branch) *)
Definition calcControlFlux (d : nat) (dir q : vec) (vel_control : R) : vec :=
  let U := - vel_control * sqrt (dot d dir dir) in
  let press := pressure d q in
  mk d (q 0%nat * U) (fun i => q (S i) * U + dir i * press) (q (S d) * U + press * U).

(** calcFarFieldFlux, :848-858 *)
Definition calcFarFieldFlux (d : nat) (entvar : bool) (dir qbnd q : vec) : vec :=
  calcBoundaryFlux d dir qbnd (calcConservativeVars d entvar q).

(** projectStateOntoWall, :929-946 *)
Definition projectStateOntoWall (d : nat) (dir q : vec) : vec :=
  let fac := 1 / sqrt (dot d dir dir) in
  let nrm := fun i => dir i * fac in
  let Unrm := rsum d (fun i => nrm i * q (S i)) in
  mk d (q 0%nat) (fun i => q (S i) - nrm i * Unrm) (q (S d)).

(** calcSlipWallFlux, :956-985 *)
Definition calcSlipWallFlux (d : nat) (entvar : bool) (dir q : vec) : vec :=
  let press :=
    if entvar then
      let Vel2 := dot d (mom q) (mom q) in
      let s := gamma + gami * (1/2 * Vel2 / q (S d) - q 0%nat) in
      - Rpower (- exp (- s) / q (S d)) (1 / gami) / q (S d)
    else pressure d q in
  mk d 0 (fun i => dir i * press) 0.

(** calcIsmailRoeFaceFluxWithDiss, :1066-1133; ...UsingEntVars, :1143-1213 *)
Definition add_dissipation (d : nat) (dir : vec) (diss_coeff : R) (qL qR wL wR flux : vec) : vec :=
  let q_ave := fun i => 1/2 * (qL i + qR i) in
  let w_diff := fun i => wL i - wR i in
  let lambda := diss_coeff * calcSpectralRadius d false dir q_ave in
  let dqdw := calcdQdWProduct d q_ave w_diff in
  fun i => flux i + lambda * dqdw i.
Definition calcIsmailRoeFaceFluxWithDiss (d : nat) (dir : vec) (diss_coeff : R) (qL qR : vec) : vec :=
  add_dissipation d dir diss_coeff qL qR (calcEntropyVars d false qL) (calcEntropyVars d false qR) (calcIsmailRoeFaceFlux d dir qL qR).
Definition calcIsmailRoeFaceFluxWithDissUsingEntVars (d : nat) (dir : vec) (diss_coeff : R) (wL wR : vec) : vec :=
  add_dissipation d dir diss_coeff (calcConservativeVars d true wL) (calcConservativeVars d true wR) wL wR
    (calcIsmailRoeFaceFluxUsingEntVars d dir wL wR).

(** calcFarFieldFlux2, :1215-1250, entvar = false (entvar = true throws -1) *)
Definition calcFarFieldFlux2 (d : nat) (dir qbnd q : vec) : vec :=
  let U := dot d dir (mom qbnd) / qbnd 0%nat in
  let flux := fun i => 1/2 * U * (q i + qbnd i) + 1/2 * Rabs U * (q i - qbnd i) in
  let press := pressure d q in
  let press_bnd := pressure d qbnd in
  mk d (flux 0%nat) (fun i => flux (S i) + dir i * press)
     (flux (S d) + (1/2 * U * (press + press_bnd) + 1/2 * Rabs U * (press - press_bnd))).
