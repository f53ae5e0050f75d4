(** Model of the isentropic vortex: calcIsentropicVortexState and calcIsentropicVortexFlux,
    src/physics/fluidflow/euler_fluxes.hpp:868-922, over exact reals (pow = Rpower on positive bases, atan, sqrt).
    1/sqrt(0) at the origin is left to Coq's total division. *)
From Coq Require Import Reals Arith.
From Verif Require Import Num Vec Euler.
Local Open Scope R_scope.

(** :868-905 *)
Definition calcIsentropicVortexState (x : vec) : vec :=
  let ri := 1 in
  let Mai := 1/2 in
  let rhoi := 2 in
  let prsi := 1 / gamma in
  let rinv := ri / sqrt (x 0%nat * x 0%nat + x 1%nat * x 1%nat) in
  let rho := rhoi * Rpower (1 + 1/2 * gami * Mai * Mai * (1 - rinv * rinv)) (1 / gami) in
  let Ma := sqrt ((2 / gami) * (Rpower (rhoi / rho) gami * (1 + 1/2 * gami * Mai * Mai) - 1)) in
  let theta := if Rltb (1 / 10 ^ 15) (x 0%nat) then atan (x 1%nat / x 0%nat) else PI / 2 in
  let press := prsi * Rpower ((1 + 1/2 * gami * Mai * Mai) / (1 + 1/2 * gami * Ma * Ma)) (gamma / gami) in
  let a := sqrt (gamma * press / rho) in
  fun k => match k with
  | 0%nat => rho
  | 1%nat => - rho * a * Ma * sin theta
  | 2%nat => rho * a * Ma * cos theta
  | 3%nat => press / gami + 1/2 * rho * a * a * Ma * Ma
  | _ => 0
  end.
(** :910-922 *)
Definition calcIsentropicVortexFlux (entvar : bool) (x dir q : vec) : vec :=
  calcBoundaryFlux 2 dir (calcIsentropicVortexState x) (calcConservativeVars 2 entvar q).
