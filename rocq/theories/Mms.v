(** Model of the manufactured solutions and their source terms: InviscidMMSExact and calcInviscidMMS
    (src/physics/fluidflow/euler_fluxes.hpp:1278-1420), viscousMMSExact and calcViscousMMS
    (navier_stokes_fluxes.hpp:362-788), and MMSIntegrator (mms_integ_def.hpp:13-60).

    The long assignments were translated mechanically from the source text.  Decimal literals such as
    0.33333333333333337 stand for the small fraction they round (here 1/3); pow with a literal exponent is ^. *)
From Coq Require Import Reals Arith List.
From Verif Require Import Num Vec Euler.
Local Open Scope R_scope.

(** writing to a caller's array: all entries written, or an access outside an array (undefined behaviour) *)
Inductive filled := Filled (a : vec) | OutOfBounds.

(** calcInviscidMMS, case 3: the assignments to src[0..4], euler_fluxes.hpp:1325-1413 *)
Definition inviscid_src3 (x : vec) : vec :=
  let x0 := x 0%nat in
  let x1 := x 1%nat in
  let rhop := 1/10 in
  let rho0 := 1 in
  let up := 1/10 in
  let u0 := 1/10 in
  let trans := 0 in
  let scale := 1 in
  let T0 := 1 in
  let Tp := 1/10 in
  fun k => match k with
  | 0%nat =>
      (- PI) * rhop * up * (sin (PI * (trans + x0) / scale)) ^ 2 * (sin (2 * PI * (trans + x0) / scale)) ^ 2 * sin
      (PI * (trans + x1) / scale) * cos (PI * (trans + x1) / scale) / scale + 2 * PI * rhop * (up * (sin (PI * (trans
      + x0) / scale)) ^ 2 * sin (2 * PI * (trans + x1) / scale) + 4 * u0 * (1 - (trans + x1) / scale) * (trans + x1)
      / scale) * sin (PI * (trans + x0) / scale) * sin (PI * (trans + x1) / scale) * cos (PI * (trans + x0) / scale)
      / scale + 2 * PI * up * (rho0 + rhop * (sin (PI * (trans + x0) / scale)) ^ 2 * sin (PI * (trans + x1) / scale))
      * sin (PI * (trans + x0) / scale) * sin (2 * PI * (trans + x1) / scale) * cos (PI * (trans + x0) / scale) /
      scale - PI * up * (rho0 + rhop * (sin (PI * (trans + x0) / scale)) ^ 2 * sin (PI * (trans + x1) / scale)) *
      (sin (2 * PI * (trans + x0) / scale)) ^ 2 * cos (PI * (trans + x1) / scale) / scale
  | 1%nat =>
      Tp * (rho0 + rhop * (sin (PI * (trans + x0) / scale)) ^ 2 * sin (PI * (trans + x1) / scale)) * ((2 * trans + 2
      * x0) / (scale) ^ 2 - 6 * (trans + x0) ^ 2 / (scale) ^ 3 + 4 * (trans + x0) ^ 3 / (scale) ^ 4) - PI * rhop * up
      * (up * (sin (PI * (trans + x0) / scale)) ^ 2 * sin (2 * PI * (trans + x1) / scale) + 4 * u0 * (1 - (trans +
      x1) / scale) * (trans + x1) / scale) * (sin (PI * (trans + x0) / scale)) ^ 2 * (sin (2 * PI * (trans + x0) /
      scale)) ^ 2 * sin (PI * (trans + x1) / scale) * cos (PI * (trans + x1) / scale) / scale + 2 * PI * rhop * (T0 +
      Tp * ((trans + x0) ^ 2 / (scale) ^ 2 + (trans + x1) ^ 2 / (scale) ^ 2 - 2 * (trans + x0) ^ 3 / (scale) ^ 3 - 2
      * (trans + x1) ^ 3 / (scale) ^ 3 + (trans + x0) ^ 4 / (scale) ^ 4 + (trans + x1) ^ 4 / (scale) ^ 4)) * sin (PI
      * (trans + x0) / scale) * sin (PI * (trans + x1) / scale) * cos (PI * (trans + x0) / scale) / scale + 2 * PI *
      rhop * (up * (sin (PI * (trans + x0) / scale)) ^ 2 * sin (2 * PI * (trans + x1) / scale) + 4 * u0 * (1 - (trans
      + x1) / scale) * (trans + x1) / scale) ^ 2 * sin (PI * (trans + x0) / scale) * sin (PI * (trans + x1) / scale)
      * cos (PI * (trans + x0) / scale) / scale - up * (rho0 + rhop * (sin (PI * (trans + x0) / scale)) ^ 2 * sin (PI
      * (trans + x1) / scale)) * (4 * u0 * (1 - (trans + x1) / scale) / scale + 2 * PI * up * (sin (PI * (trans + x0)
      / scale)) ^ 2 * cos (2 * PI * (trans + x1) / scale) / scale - 4 * u0 * (trans + x1) / (scale) ^ 2) * (sin (2 *
      PI * (trans + x0) / scale)) ^ 2 * sin (PI * (trans + x1) / scale) + 4 * PI * up * (rho0 + rhop * (sin (PI *
      (trans + x0) / scale)) ^ 2 * sin (PI * (trans + x1) / scale)) * (up * (sin (PI * (trans + x0) / scale)) ^ 2 *
      sin (2 * PI * (trans + x1) / scale) + 4 * u0 * (1 - (trans + x1) / scale) * (trans + x1) / scale) * sin (PI *
      (trans + x0) / scale) * sin (2 * PI * (trans + x1) / scale) * cos (PI * (trans + x0) / scale) / scale - PI * up
      * (rho0 + rhop * (sin (PI * (trans + x0) / scale)) ^ 2 * sin (PI * (trans + x1) / scale)) * (up * (sin (PI *
      (trans + x0) / scale)) ^ 2 * sin (2 * PI * (trans + x1) / scale) + 4 * u0 * (1 - (trans + x1) / scale) * (trans
      + x1) / scale) * (sin (2 * PI * (trans + x0) / scale)) ^ 2 * cos (PI * (trans + x1) / scale) / scale
  | 2%nat =>
      Tp * (rho0 + rhop * (sin (PI * (trans + x0) / scale)) ^ 2 * sin (PI * (trans + x1) / scale)) * ((2 * trans + 2
      * x1) / (scale) ^ 2 - 6 * (trans + x1) ^ 2 / (scale) ^ 3 + 4 * (trans + x1) ^ 3 / (scale) ^ 4) + PI * rhop *
      (up) ^ 2 * (sin (PI * (trans + x0) / scale)) ^ 2 * (sin (2 * PI * (trans + x0) / scale)) ^ 4 * (sin (PI *
      (trans + x1) / scale)) ^ 2 * cos (PI * (trans + x1) / scale) / scale - 2 * PI * rhop * up * (up * (sin (PI *
      (trans + x0) / scale)) ^ 2 * sin (2 * PI * (trans + x1) / scale) + 4 * u0 * (1 - (trans + x1) / scale) * (trans
      + x1) / scale) * sin (PI * (trans + x0) / scale) * (sin (2 * PI * (trans + x0) / scale)) ^ 2 * (sin (PI *
      (trans + x1) / scale)) ^ 2 * cos (PI * (trans + x0) / scale) / scale + PI * rhop * (T0 + Tp * ((trans + x0) ^ 2
      / (scale) ^ 2 + (trans + x1) ^ 2 / (scale) ^ 2 - 2 * (trans + x0) ^ 3 / (scale) ^ 3 - 2 * (trans + x1) ^ 3 /
      (scale) ^ 3 + (trans + x0) ^ 4 / (scale) ^ 4 + (trans + x1) ^ 4 / (scale) ^ 4)) * (sin (PI * (trans + x0) /
      scale)) ^ 2 * cos (PI * (trans + x1) / scale) / scale - 2 * PI * (up) ^ 2 * (rho0 + rhop * (sin (PI * (trans +
      x0) / scale)) ^ 2 * sin (PI * (trans + x1) / scale)) * sin (PI * (trans + x0) / scale) * (sin (2 * PI * (trans
      + x0) / scale)) ^ 2 * sin (PI * (trans + x1) / scale) * sin (2 * PI * (trans + x1) / scale) * cos (PI * (trans
      + x0) / scale) / scale + 2 * PI * (up) ^ 2 * (rho0 + rhop * (sin (PI * (trans + x0) / scale)) ^ 2 * sin (PI *
      (trans + x1) / scale)) * (sin (2 * PI * (trans + x0) / scale)) ^ 4 * sin (PI * (trans + x1) / scale) * cos (PI
      * (trans + x1) / scale) / scale - 4 * PI * up * (rho0 + rhop * (sin (PI * (trans + x0) / scale)) ^ 2 * sin (PI
      * (trans + x1) / scale)) * (up * (sin (PI * (trans + x0) / scale)) ^ 2 * sin (2 * PI * (trans + x1) / scale) +
      4 * u0 * (1 - (trans + x1) / scale) * (trans + x1) / scale) * sin (2 * PI * (trans + x0) / scale) * sin (PI *
      (trans + x1) / scale) * cos (2 * PI * (trans + x0) / scale) / scale
  | 3%nat =>
      0
  | 4%nat =>
      (- up) * (Tp * (rho0 + rhop * (sin (PI * (trans + x0) / scale)) ^ 2 * sin (PI * (trans + x1) / scale)) * ((2 *
      trans + 2 * x1) / (scale) ^ 2 - 6 * (trans + x1) ^ 2 / (scale) ^ 3 + 4 * (trans + x1) ^ 3 / (scale) ^ 4) + Tp *
      (rho0 + rhop * (sin (PI * (trans + x0) / scale)) ^ 2 * sin (PI * (trans + x1) / scale)) * ((2 * trans + 2 * x1)
      / (scale) ^ 2 - 6 * (trans + x1) ^ 2 / (scale) ^ 3 + 4 * (trans + x1) ^ 3 / (scale) ^ 4) / (gamma - 1) + PI *
      rhop * (T0 + Tp * ((trans + x0) ^ 2 / (scale) ^ 2 + (trans + x1) ^ 2 / (scale) ^ 2 - 2 * (trans + x0) ^ 3 /
      (scale) ^ 3 - 2 * (trans + x1) ^ 3 / (scale) ^ 3 + (trans + x0) ^ 4 / (scale) ^ 4 + (trans + x1) ^ 4 / (scale)
      ^ 4)) * (sin (PI * (trans + x0) / scale)) ^ 2 * cos (PI * (trans + x1) / scale) / scale + PI * rhop * (T0 + Tp
      * ((trans + x0) ^ 2 / (scale) ^ 2 + (trans + x1) ^ 2 / (scale) ^ 2 - 2 * (trans + x0) ^ 3 / (scale) ^ 3 - 2 *
      (trans + x1) ^ 3 / (scale) ^ 3 + (trans + x0) ^ 4 / (scale) ^ 4 + (trans + x1) ^ 4 / (scale) ^ 4)) * (sin (PI *
      (trans + x0) / scale)) ^ 2 * cos (PI * (trans + x1) / scale) / (scale * (gamma - 1)) + 1 / 2 * PI * rhop *
      ((up) ^ 2 * (sin (2 * PI * (trans + x0) / scale)) ^ 4 * (sin (PI * (trans + x1) / scale)) ^ 2 + (up * (sin (PI
      * (trans + x0) / scale)) ^ 2 * sin (2 * PI * (trans + x1) / scale) + 4 * u0 * (1 - (trans + x1) / scale) *
      (trans + x1) / scale) ^ 2) * (sin (PI * (trans + x0) / scale)) ^ 2 * cos (PI * (trans + x1) / scale) / scale +
      (1 / 2 * rho0 + 1 / 2 * rhop * (sin (PI * (trans + x0) / scale)) ^ 2 * sin (PI * (trans + x1) / scale)) * ((up
      * (sin (PI * (trans + x0) / scale)) ^ 2 * sin (2 * PI * (trans + x1) / scale) + 4 * u0 * (1 - (trans + x1) /
      scale) * (trans + x1) / scale) * (8 * u0 * (1 - (trans + x1) / scale) / scale + 4 * PI * up * (sin (PI * (trans
      + x0) / scale)) ^ 2 * cos (2 * PI * (trans + x1) / scale) / scale - 8 * u0 * (trans + x1) / (scale) ^ 2) + 2 *
      PI * (up) ^ 2 * (sin (2 * PI * (trans + x0) / scale)) ^ 4 * sin (PI * (trans + x1) / scale) * cos (PI * (trans
      + x1) / scale) / scale)) * (sin (2 * PI * (trans + x0) / scale)) ^ 2 * sin (PI * (trans + x1) / scale) + (up *
      (sin (PI * (trans + x0) / scale)) ^ 2 * sin (2 * PI * (trans + x1) / scale) + 4 * u0 * (1 - (trans + x1) /
      scale) * (trans + x1) / scale) * (Tp * (rho0 + rhop * (sin (PI * (trans + x0) / scale)) ^ 2 * sin (PI * (trans
      + x1) / scale)) * ((2 * trans + 2 * x0) / (scale) ^ 2 - 6 * (trans + x0) ^ 2 / (scale) ^ 3 + 4 * (trans + x0) ^
      3 / (scale) ^ 4) + Tp * (rho0 + rhop * (sin (PI * (trans + x0) / scale)) ^ 2 * sin (PI * (trans + x1) / scale))
      * ((2 * trans + 2 * x0) / (scale) ^ 2 - 6 * (trans + x0) ^ 2 / (scale) ^ 3 + 4 * (trans + x0) ^ 3 / (scale) ^
      4) / (gamma - 1) + 2 * PI * rhop * (T0 + Tp * ((trans + x0) ^ 2 / (scale) ^ 2 + (trans + x1) ^ 2 / (scale) ^ 2
      - 2 * (trans + x0) ^ 3 / (scale) ^ 3 - 2 * (trans + x1) ^ 3 / (scale) ^ 3 + (trans + x0) ^ 4 / (scale) ^ 4 +
      (trans + x1) ^ 4 / (scale) ^ 4)) * sin (PI * (trans + x0) / scale) * sin (PI * (trans + x1) / scale) * cos (PI
      * (trans + x0) / scale) / scale + 2 * PI * rhop * (T0 + Tp * ((trans + x0) ^ 2 / (scale) ^ 2 + (trans + x1) ^ 2
      / (scale) ^ 2 - 2 * (trans + x0) ^ 3 / (scale) ^ 3 - 2 * (trans + x1) ^ 3 / (scale) ^ 3 + (trans + x0) ^ 4 /
      (scale) ^ 4 + (trans + x1) ^ 4 / (scale) ^ 4)) * sin (PI * (trans + x0) / scale) * sin (PI * (trans + x1) /
      scale) * cos (PI * (trans + x0) / scale) / (scale * (gamma - 1)) + PI * rhop * ((up) ^ 2 * (sin (2 * PI *
      (trans + x0) / scale)) ^ 4 * (sin (PI * (trans + x1) / scale)) ^ 2 + (up * (sin (PI * (trans + x0) / scale)) ^
      2 * sin (2 * PI * (trans + x1) / scale) + 4 * u0 * (1 - (trans + x1) / scale) * (trans + x1) / scale) ^ 2) *
      sin (PI * (trans + x0) / scale) * sin (PI * (trans + x1) / scale) * cos (PI * (trans + x0) / scale) / scale +
      (1 / 2 * rho0 + 1 / 2 * rhop * (sin (PI * (trans + x0) / scale)) ^ 2 * sin (PI * (trans + x1) / scale)) * (8 *
      PI * (up) ^ 2 * (sin (2 * PI * (trans + x0) / scale)) ^ 3 * (sin (PI * (trans + x1) / scale)) ^ 2 * cos (2 * PI
      * (trans + x0) / scale) / scale + 4 * PI * up * (up * (sin (PI * (trans + x0) / scale)) ^ 2 * sin (2 * PI *
      (trans + x1) / scale) + 4 * u0 * (1 - (trans + x1) / scale) * (trans + x1) / scale) * sin (PI * (trans + x0) /
      scale) * sin (2 * PI * (trans + x1) / scale) * cos (PI * (trans + x0) / scale) / scale)) + 2 * PI * up * ((T0 +
      Tp * ((trans + x0) ^ 2 / (scale) ^ 2 + (trans + x1) ^ 2 / (scale) ^ 2 - 2 * (trans + x0) ^ 3 / (scale) ^ 3 - 2
      * (trans + x1) ^ 3 / (scale) ^ 3 + (trans + x0) ^ 4 / (scale) ^ 4 + (trans + x1) ^ 4 / (scale) ^ 4)) * (rho0 +
      rhop * (sin (PI * (trans + x0) / scale)) ^ 2 * sin (PI * (trans + x1) / scale)) + (T0 + Tp * ((trans + x0) ^ 2
      / (scale) ^ 2 + (trans + x1) ^ 2 / (scale) ^ 2 - 2 * (trans + x0) ^ 3 / (scale) ^ 3 - 2 * (trans + x1) ^ 3 /
      (scale) ^ 3 + (trans + x0) ^ 4 / (scale) ^ 4 + (trans + x1) ^ 4 / (scale) ^ 4)) * (rho0 + rhop * (sin (PI *
      (trans + x0) / scale)) ^ 2 * sin (PI * (trans + x1) / scale)) / (gamma - 1) + 1 / 2 * (rho0 + rhop * (sin (PI *
      (trans + x0) / scale)) ^ 2 * sin (PI * (trans + x1) / scale)) * ((up) ^ 2 * (sin (2 * PI * (trans + x0) /
      scale)) ^ 4 * (sin (PI * (trans + x1) / scale)) ^ 2 + (up * (sin (PI * (trans + x0) / scale)) ^ 2 * sin (2 * PI
      * (trans + x1) / scale) + 4 * u0 * (1 - (trans + x1) / scale) * (trans + x1) / scale) ^ 2)) * sin (PI * (trans
      + x0) / scale) * sin (2 * PI * (trans + x1) / scale) * cos (PI * (trans + x0) / scale) / scale - PI * up * ((T0
      + Tp * ((trans + x0) ^ 2 / (scale) ^ 2 + (trans + x1) ^ 2 / (scale) ^ 2 - 2 * (trans + x0) ^ 3 / (scale) ^ 3 -
      2 * (trans + x1) ^ 3 / (scale) ^ 3 + (trans + x0) ^ 4 / (scale) ^ 4 + (trans + x1) ^ 4 / (scale) ^ 4)) * (rho0
      + rhop * (sin (PI * (trans + x0) / scale)) ^ 2 * sin (PI * (trans + x1) / scale)) + (T0 + Tp * ((trans + x0) ^
      2 / (scale) ^ 2 + (trans + x1) ^ 2 / (scale) ^ 2 - 2 * (trans + x0) ^ 3 / (scale) ^ 3 - 2 * (trans + x1) ^ 3 /
      (scale) ^ 3 + (trans + x0) ^ 4 / (scale) ^ 4 + (trans + x1) ^ 4 / (scale) ^ 4)) * (rho0 + rhop * (sin (PI *
      (trans + x0) / scale)) ^ 2 * sin (PI * (trans + x1) / scale)) / (gamma - 1) + 1 / 2 * (rho0 + rhop * (sin (PI *
      (trans + x0) / scale)) ^ 2 * sin (PI * (trans + x1) / scale)) * ((up) ^ 2 * (sin (2 * PI * (trans + x0) /
      scale)) ^ 4 * (sin (PI * (trans + x1) / scale)) ^ 2 + (up * (sin (PI * (trans + x0) / scale)) ^ 2 * sin (2 * PI
      * (trans + x1) / scale) + 4 * u0 * (1 - (trans + x1) / scale) * (trans + x1) / scale) ^ 2)) * (sin (2 * PI *
      (trans + x0) / scale)) ^ 2 * cos (PI * (trans + x1) / scale) / scale
  | _ => 0
  end.
(** calcInviscidMMS, euler_fluxes.hpp:1320-1420; [n] = size of the caller's array src.  The default branch writes
    src[0..4] = 0 in every other dimension. *)
Definition calcInviscidMMS (dim n : nat) (x : vec) : filled :=
  if Nat.ltb n 5 then OutOfBounds else Filled (if Nat.eqb dim 3 then inviscid_src3 x else fun _ => 0).

(** InviscidMMSExact, case 3, euler_fluxes.hpp:1282-1303 *)
Definition inviscid_exact3 (x : vec) : vec :=
  let rhop := 1/10 in let rho0 := 1 in let up := 1/10 in let u0 := 1/10 in
  let trans := 0 in let scale := 1 in let T0 := 1 in let Tp := 1/10 in
  let x0 := x 0%nat in let x1 := x 1%nat in
  let r := rho0 + rhop * (sin (PI * ((x0 + trans) / scale) ^ 2)) * sin (PI * (x1 + trans) / scale) in
  let v1 := 4 * u0 * ((x1 + trans) / scale) * (1 - ((x1 + trans) / scale))
            + up * sin (2 * PI * (x1 + trans) / scale) * (sin (PI * ((x0 + trans) / scale) ^ 2)) in
  let v2 := - up * (sin (2 * PI * ((x0 + trans) / scale) ^ 2)) * sin (PI * (x1 + trans) / scale) in
  let v3 := 0 in
  let Tem := T0 + Tp * (((x0 + trans) / scale) ^ 4 - 2 * ((x0 + trans) / scale) ^ 3 + ((x0 + trans) / scale) ^ 2
                        + ((x1 + trans) / scale) ^ 4 - 2 * ((x1 + trans) / scale) ^ 3 + ((x1 + trans) / scale) ^ 2) in
  let p := r * Tem in
  fun k => match k with
  | 0%nat => r
  | 1%nat => v1 * r
  | 2%nat => v2 * r
  | 3%nat => v3 * r
  | 4%nat => p / gami + r * (v1 * v1 + v2 * v2 + v3 * v3) * (1/2)
  | _ => 0
  end.
(** InviscidMMSExact, euler_fluxes.hpp:1278-1312 *)
Definition InviscidMMSExact (dim n : nat) (x : vec) : filled :=
  if Nat.ltb n 5 then OutOfBounds else Filled (if Nat.eqb dim 3 then inviscid_exact3 x else fun _ => 0).

(** calcViscousMMS, default branch (used for dim 2), navier_stokes_fluxes.hpp:528-785 *)
Definition viscous_src2 (mu Pr : R) (x : vec) : vec :=
  let x0 := x 0%nat in
  let x1 := x 1%nat in
  let rho0 := 1 in
  let rhop := 5/100 in
  let U0 := 1/2 in
  let Up := 5/100 in
  let T0 := 1 in
  let Tp := 5/100 in
  let kappa := mu * gamma / (Pr * gami) in
  fun k => match k with
  | 0%nat =>
      PI * ((- Up) * rhop * (sin (PI * x0)) ^ 2 * (sin (2 * PI * x0)) ^ 2 * sin (PI * x1) * cos (PI * x1) + 2 * Up *
      (rho0 + rhop * (sin (PI * x0)) ^ 2 * sin (PI * x1)) * sin (PI * x0) * sin (2 * PI * x1) * cos (PI * x0) - Up *
      (rho0 + rhop * (sin (PI * x0)) ^ 2 * sin (PI * x1)) * (sin (2 * PI * x0)) ^ 2 * cos (PI * x1) - 2 * rhop * (4 *
      U0 * x1 * (x1 - 1) - Up * (sin (PI * x0)) ^ 2 * sin (2 * PI * x1)) * sin (PI * x0) * sin (PI * x1) * cos (PI *
      x0))
  | 1%nat =>
      2 * Tp * x0 * (rho0 + rhop * (sin (PI * x0)) ^ 2 * sin (PI * x1)) * (2 * (x0) ^ 2 - 3 * x0 + 1) + (1/3) * (PI)
      ^ 2 * Up * mu * (sin (PI * (4 * x0 - x1)) + sin (PI * (4 * x0 + x1))) + (8/3) * (PI) ^ 2 * Up * mu * (sin (PI *
      x0)) ^ 2 * sin (2 * PI * x1) - (8/3) * (PI) ^ 2 * Up * mu * sin (2 * PI * x1) * (cos (PI * x0)) ^ 2 + PI * Up *
      rhop * (4 * U0 * x1 * (x1 - 1) - Up * (sin (PI * x0)) ^ 2 * sin (2 * PI * x1)) * (sin (PI * x0)) ^ 2 * (sin (2
      * PI * x0)) ^ 2 * sin (PI * x1) * cos (PI * x1) - 4 * PI * Up * (rho0 + rhop * (sin (PI * x0)) ^ 2 * sin (PI *
      x1)) * (4 * U0 * x1 * (x1 - 1) - Up * (sin (PI * x0)) ^ 2 * sin (2 * PI * x1)) * sin (PI * x0) * sin (2 * PI *
      x1) * cos (PI * x0) + PI * Up * (rho0 + rhop * (sin (PI * x0)) ^ 2 * sin (PI * x1)) * (4 * U0 * x1 * (x1 - 1) -
      Up * (sin (PI * x0)) ^ 2 * sin (2 * PI * x1)) * (sin (2 * PI * x0)) ^ 2 * cos (PI * x1) + 2 * Up * (rho0 + rhop
      * (sin (PI * x0)) ^ 2 * sin (PI * x1)) * (2 * U0 * x1 + 2 * U0 * (x1 - 1) - PI * Up * (sin (PI * x0)) ^ 2 * cos
      (2 * PI * x1)) * (sin (2 * PI * x0)) ^ 2 * sin (PI * x1) + 4 * mu * (2 * U0 + (PI) ^ 2 * Up * (sin (PI * x0)) ^
      2 * sin (2 * PI * x1)) + 1 / 2 * PI * rhop * (T0 + Tp * ((x0) ^ 4 - 2 * (x0) ^ 3 + (x0) ^ 2 + (x1) ^ 4 - 2 *
      (x1) ^ 3 + (x1) ^ 2)) * (cos (PI * (2 * x0 - x1)) - cos (PI * (2 * x0 + x1))) + 2 * PI * rhop * (4 * U0 * x1 *
      (x1 - 1) - Up * (sin (PI * x0)) ^ 2 * sin (2 * PI * x1)) ^ 2 * sin (PI * x0) * sin (PI * x1) * cos (PI * x0)
  | 2%nat =>
      2 * Tp * x1 * (rho0 + rhop * (sin (PI * x0)) ^ 2 * sin (PI * x1)) * (2 * (x1) ^ 2 - 3 * x1 + 1) + PI * (Up) ^ 2
      * rhop * (sin (PI * x0)) ^ 2 * (sin (2 * PI * x0)) ^ 4 * (sin (PI * x1)) ^ 2 * cos (PI * x1) - 16 * PI * (Up) ^
      2 * (rho0 + rhop * (sin (PI * x0)) ^ 2 * sin (PI * x1)) * (sin (PI * x0)) ^ 3 * (sin (PI * x1)) ^ 2 * (cos (PI
      * x0)) ^ 3 * cos (PI * x1) + 2 * PI * (Up) ^ 2 * (rho0 + rhop * (sin (PI * x0)) ^ 2 * sin (PI * x1)) * (sin (2
      * PI * x0)) ^ 4 * sin (PI * x1) * cos (PI * x1) - (1/3) * (PI) ^ 2 * Up * mu * (sin (PI * (2 * x0 - 2 * x1)) +
      sin (PI * (2 * x0 + 2 * x1))) - (28/3) * (PI) ^ 2 * Up * mu * (sin (2 * PI * x0)) ^ 2 * sin (PI * x1) + 8 *
      (PI) ^ 2 * Up * mu * sin (PI * x1) * (cos (2 * PI * x0)) ^ 2 + 2 * PI * Up * rhop * (4 * U0 * x1 * (x1 - 1) -
      Up * (sin (PI * x0)) ^ 2 * sin (2 * PI * x1)) * sin (PI * x0) * (sin (2 * PI * x0)) ^ 2 * (sin (PI * x1)) ^ 2 *
      cos (PI * x0) + 4 * PI * Up * (rho0 + rhop * (sin (PI * x0)) ^ 2 * sin (PI * x1)) * (4 * U0 * x1 * (x1 - 1) -
      Up * (sin (PI * x0)) ^ 2 * sin (2 * PI * x1)) * sin (2 * PI * x0) * sin (PI * x1) * cos (2 * PI * x0) + PI *
      rhop * (T0 + Tp * ((x0) ^ 4 - 2 * (x0) ^ 3 + (x0) ^ 2 + (x1) ^ 4 - 2 * (x1) ^ 3 + (x1) ^ 2)) * (sin (PI * x0))
      ^ 2 * cos (PI * x1)
  | 3%nat =>
      1 / 2 * (2 * PI * Up * (rho0 + rhop * (sin (PI * x0)) ^ 2 * sin (PI * x1)) * (2 * T0 + 2 * Tp * ((x0) ^ 4 - 2 *
      (x0) ^ 3 + (x0) ^ 2 + (x1) ^ 4 - 2 * (x1) ^ 3 + (x1) ^ 2) + (gamma - 1) * (2 * T0 + 2 * Tp * ((x0) ^ 4 - 2 *
      (x0) ^ 3 + (x0) ^ 2 + (x1) ^ 4 - 2 * (x1) ^ 3 + (x1) ^ 2) + (Up) ^ 2 * (sin (2 * PI * x0)) ^ 4 * (sin (PI *
      x1)) ^ 2 + (4 * U0 * x1 * (x1 - 1) - Up * (sin (PI * x0)) ^ 2 * sin (2 * PI * x1)) ^ 2)) * sin (PI * x0) * sin
      (2 * PI * x1) * cos (PI * x0) - PI * Up * (rho0 + rhop * (sin (PI * x0)) ^ 2 * sin (PI * x1)) * (2 * T0 + 2 *
      Tp * ((x0) ^ 4 - 2 * (x0) ^ 3 + (x0) ^ 2 + (x1) ^ 4 - 2 * (x1) ^ 3 + (x1) ^ 2) + (gamma - 1) * (2 * T0 + 2 * Tp
      * ((x0) ^ 4 - 2 * (x0) ^ 3 + (x0) ^ 2 + (x1) ^ 4 - 2 * (x1) ^ 3 + (x1) ^ 2) + (Up) ^ 2 * (sin (2 * PI * x0)) ^
      4 * (sin (PI * x1)) ^ 2 + (4 * U0 * x1 * (x1 - 1) - Up * (sin (PI * x0)) ^ 2 * sin (2 * PI * x1)) ^ 2)) * (sin
      (2 * PI * x0)) ^ 2 * cos (PI * x1) - Up * (4 * Tp * x1 * (rho0 + rhop * (sin (PI * x0)) ^ 2 * sin (PI * x1)) *
      (2 * (x1) ^ 2 - 3 * x1 + 1) + 2 * PI * rhop * (T0 + Tp * ((x0) ^ 4 - 2 * (x0) ^ 3 + (x0) ^ 2 + (x1) ^ 4 - 2 *
      (x1) ^ 3 + (x1) ^ 2)) * (sin (PI * x0)) ^ 2 * cos (PI * x1) + (gamma - 1) * (4 * Tp * x1 * (rho0 + rhop * (sin
      (PI * x0)) ^ 2 * sin (PI * x1)) * (2 * (x1) ^ 2 - 3 * x1 + 1) + 2 * PI * rhop * (T0 + Tp * ((x0) ^ 4 - 2 * (x0)
      ^ 3 + (x0) ^ 2 + (x1) ^ 4 - 2 * (x1) ^ 3 + (x1) ^ 2)) * (sin (PI * x0)) ^ 2 * cos (PI * x1) + PI * rhop * ((Up)
      ^ 2 * (sin (2 * PI * x0)) ^ 4 * (sin (PI * x1)) ^ 2 + (4 * U0 * x1 * (x1 - 1) - Up * (sin (PI * x0)) ^ 2 * sin
      (2 * PI * x1)) ^ 2) * (sin (PI * x0)) ^ 2 * cos (PI * x1) + 2 * (rho0 + rhop * (sin (PI * x0)) ^ 2 * sin (PI *
      x1)) * (PI * (Up) ^ 2 * (sin (2 * PI * x0)) ^ 4 * sin (PI * x1) * cos (PI * x1) + 2 * (4 * U0 * x1 * (x1 - 1) -
      Up * (sin (PI * x0)) ^ 2 * sin (2 * PI * x1)) * (2 * U0 * x1 + 2 * U0 * (x1 - 1) - PI * Up * (sin (PI * x0)) ^
      2 * cos (2 * PI * x1))))) * (sin (2 * PI * x0)) ^ 2 * sin (PI * x1) + 2 * (gamma - 1) * ((- 2) * Tp * kappa *
      (6 * (x0) ^ 2 - 6 * x0 + 1) - 2 * Tp * kappa * (6 * (x1) ^ 2 - 6 * x1 + 1) + (16/3) * (PI) ^ 2 * (Up) ^ 2 * mu
      * (1 - 2 * (sin (PI * x1)) ^ 2) * (sin (PI * x0)) ^ 3 * sin (PI * x1) * (cos (PI * x0)) ^ 3 - (64/3) * (PI) ^ 2
      * (Up) ^ 2 * mu * (sin (PI * x0)) ^ 3 * sin (PI * x1) * (cos (PI * x0)) ^ 3 * (cos (PI * x1)) ^ 2 - (16/3) *
      (PI) ^ 2 * (Up) ^ 2 * mu * (sin (PI * x0)) ^ 2 * (sin (2 * PI * x1)) ^ 2 * (cos (PI * x0)) ^ 2 + (28/3) * (PI)
      ^ 2 * (Up) ^ 2 * mu * (sin (2 * PI * x0)) ^ 4 * (sin (PI * x1)) ^ 2 - (4/3) * (PI) ^ 2 * (Up) ^ 2 * mu * (sin
      (2 * PI * x0)) ^ 4 * (cos (PI * x1)) ^ 2 - 24 * (PI) ^ 2 * (Up) ^ 2 * mu * (sin (2 * PI * x0)) ^ 2 * (sin (PI *
      x1)) ^ 2 * (cos (2 * PI * x0)) ^ 2 - (8/3) * (PI) ^ 2 * Up * mu * (4 * U0 * x1 * (x1 - 1) - Up * (sin (PI *
      x0)) ^ 2 * sin (2 * PI * x1)) * (sin (PI * x0)) ^ 2 * sin (2 * PI * x1) - (4/3) * (PI) ^ 2 * Up * mu * (4 * U0
      * x1 * (x1 - 1) - Up * (sin (PI * x0)) ^ 2 * sin (2 * PI * x1)) * sin (2 * PI * x0) * cos (2 * PI * x0) * cos
      (PI * x1) + (8/3) * (PI) ^ 2 * Up * mu * (4 * U0 * x1 * (x1 - 1) - Up * (sin (PI * x0)) ^ 2 * sin (2 * PI *
      x1)) * sin (2 * PI * x1) * (cos (PI * x0)) ^ 2 - 16 * PI * Up * mu * (2 * U0 * x1 + 2 * U0 * (x1 - 1) - PI * Up
      * (sin (PI * x0)) ^ 2 * cos (2 * PI * x1)) * sin (2 * PI * x0) * sin (PI * x1) * cos (2 * PI * x0) - 4 * mu *
      (2 * U0 + (PI) ^ 2 * Up * (sin (PI * x0)) ^ 2 * sin (2 * PI * x1)) * (4 * U0 * x1 * (x1 - 1) - Up * (sin (PI *
      x0)) ^ 2 * sin (2 * PI * x1)) - 4 * mu * (2 * U0 * x1 + 2 * U0 * (x1 - 1) - PI * Up * (sin (PI * x0)) ^ 2 * cos
      (2 * PI * x1)) ^ 2) - (4 * U0 * x1 * (x1 - 1) - Up * (sin (PI * x0)) ^ 2 * sin (2 * PI * x1)) * (4 * Tp * x0 *
      (rho0 + rhop * (sin (PI * x0)) ^ 2 * sin (PI * x1)) * (2 * (x0) ^ 2 - 3 * x0 + 1) + PI * rhop * (T0 + Tp *
      ((x0) ^ 4 - 2 * (x0) ^ 3 + (x0) ^ 2 + (x1) ^ 4 - 2 * (x1) ^ 3 + (x1) ^ 2)) * (cos (PI * (2 * x0 - x1)) - cos
      (PI * (2 * x0 + x1))) + (gamma - 1) * (4 * Tp * x0 * (rho0 + rhop * (sin (PI * x0)) ^ 2 * sin (PI * x1)) * (2 *
      (x0) ^ 2 - 3 * x0 + 1) + 4 * PI * Up * (rho0 + rhop * (sin (PI * x0)) ^ 2 * sin (PI * x1)) * (2 * Up * (sin (2
      * PI * x0)) ^ 3 * (sin (PI * x1)) ^ 2 * cos (2 * PI * x0) - (4 * U0 * x1 * (x1 - 1) - Up * (sin (PI * x0)) ^ 2
      * sin (2 * PI * x1)) * sin (PI * x0) * sin (2 * PI * x1) * cos (PI * x0)) + PI * rhop * (T0 + Tp * ((x0) ^ 4 -
      2 * (x0) ^ 3 + (x0) ^ 2 + (x1) ^ 4 - 2 * (x1) ^ 3 + (x1) ^ 2)) * (cos (PI * (2 * x0 - x1)) - cos (PI * (2 * x0
      + x1))) + 2 * PI * rhop * ((Up) ^ 2 * (sin (2 * PI * x0)) ^ 4 * (sin (PI * x1)) ^ 2 + (4 * U0 * x1 * (x1 - 1) -
      Up * (sin (PI * x0)) ^ 2 * sin (2 * PI * x1)) ^ 2) * sin (PI * x0) * sin (PI * x1) * cos (PI * x0)))) / (gamma
      - 1)
  | _ => 0
  end.
(** calcViscousMMS, case 3, navier_stokes_fluxes.hpp:423-526 (kappa is computed and not used) *)
Definition viscous_src3 (mu Pr : R) (x : vec) : vec :=
  let x0 := x 0%nat in
  let x1 := x 1%nat in
  let x2 := x 2%nat in
  let r_0 := 1 in
  let r_xyz := 1 in
  let u_0 := 1/2 in
  let v_0 := 1/2 in
  let w_0 := 1/2 in
  let T_0 := 1 in
  fun k => match k with
  | 0%nat =>
      r_0 * ((1/30) * PI * r_xyz * u_0 * (2 * (x0) ^ 3 - 3 * (x0) ^ 2 + 2 * (x1) ^ 3 - 3 * (x1) ^ 2 + 2 * (x2) ^ 3 -
      3 * (x2) ^ 2) * sin (2 * PI * r_xyz * x1) * sin (2 * PI * r_xyz * x2) * cos (2 * PI * r_xyz * x0) + (1/30) * PI
      * r_xyz * v_0 * (2 * (x0) ^ 3 - 3 * (x0) ^ 2 + 2 * (x1) ^ 3 - 3 * (x1) ^ 2 + 2 * (x2) ^ 3 - 3 * (x2) ^ 2) * sin
      (2 * PI * r_xyz * x0) * sin (2 * PI * r_xyz * x2) * cos (2 * PI * r_xyz * x1) + (1/30) * PI * r_xyz * w_0 * (2
      * (x0) ^ 3 - 3 * (x0) ^ 2 + 2 * (x1) ^ 3 - 3 * (x1) ^ 2 + 2 * (x2) ^ 3 - 3 * (x2) ^ 2) * sin (2 * PI * r_xyz *
      x0) * sin (2 * PI * r_xyz * x1) * cos (2 * PI * r_xyz * x2) + u_0 * x0 * (x0 - 1) * ((1/10) * sin (2 * PI *
      r_xyz * x0) * sin (2 * PI * r_xyz * x1) * sin (2 * PI * r_xyz * x2) + 1) + v_0 * x1 * (x1 - 1) * ((1/10) * sin
      (2 * PI * r_xyz * x0) * sin (2 * PI * r_xyz * x1) * sin (2 * PI * r_xyz * x2) + 1) + w_0 * x2 * (x2 - 1) *
      ((1/10) * sin (2 * PI * r_xyz * x0) * sin (2 * PI * r_xyz * x1) * sin (2 * PI * r_xyz * x2) + 1))
  | 1%nat =>
      (1/5) * PI * T_0 * r_0 * r_xyz * sin (2 * PI * r_xyz * x1) * sin (2 * PI * r_xyz * x2) * cos (2 * PI * r_xyz *
      x0) - (4/3) * mu * u_0 * (2 * x0 - 1) - mu * u_0 * (2 * x1 - 1) - mu * u_0 * (2 * x2 - 1) + (1/180) * PI * r_0
      * r_xyz * (u_0) ^ 2 * (2 * (x0) ^ 3 - 3 * (x0) ^ 2 + 2 * (x1) ^ 3 - 3 * (x1) ^ 2 + 2 * (x2) ^ 3 - 3 * (x2) ^ 2)
      ^ 2 * sin (2 * PI * r_xyz * x1) * sin (2 * PI * r_xyz * x2) * cos (2 * PI * r_xyz * x0) + (1/180) * PI * r_0 *
      r_xyz * u_0 * v_0 * (2 * (x0) ^ 3 - 3 * (x0) ^ 2 + 2 * (x1) ^ 3 - 3 * (x1) ^ 2 + 2 * (x2) ^ 3 - 3 * (x2) ^ 2) ^
      2 * sin (2 * PI * r_xyz * x0) * sin (2 * PI * r_xyz * x2) * cos (2 * PI * r_xyz * x1) + (1/180) * PI * r_0 *
      r_xyz * u_0 * w_0 * (2 * (x0) ^ 3 - 3 * (x0) ^ 2 + 2 * (x1) ^ 3 - 3 * (x1) ^ 2 + 2 * (x2) ^ 3 - 3 * (x2) ^ 2) ^
      2 * sin (2 * PI * r_xyz * x0) * sin (2 * PI * r_xyz * x1) * cos (2 * PI * r_xyz * x2) + 1 / 3 * r_0 * (u_0) ^ 2
      * x0 * (x0 - 1) * ((1/10) * sin (2 * PI * r_xyz * x0) * sin (2 * PI * r_xyz * x1) * sin (2 * PI * r_xyz * x2) +
      1) * (2 * (x0) ^ 3 - 3 * (x0) ^ 2 + 2 * (x1) ^ 3 - 3 * (x1) ^ 2 + 2 * (x2) ^ 3 - 3 * (x2) ^ 2) + 1 / 3 * r_0 *
      u_0 * v_0 * x1 * (x1 - 1) * ((1/10) * sin (2 * PI * r_xyz * x0) * sin (2 * PI * r_xyz * x1) * sin (2 * PI *
      r_xyz * x2) + 1) * (2 * (x0) ^ 3 - 3 * (x0) ^ 2 + 2 * (x1) ^ 3 - 3 * (x1) ^ 2 + 2 * (x2) ^ 3 - 3 * (x2) ^ 2) +
      1 / 3 * r_0 * u_0 * w_0 * x2 * (x2 - 1) * ((1/10) * sin (2 * PI * r_xyz * x0) * sin (2 * PI * r_xyz * x1) * sin
      (2 * PI * r_xyz * x2) + 1) * (2 * (x0) ^ 3 - 3 * (x0) ^ 2 + 2 * (x1) ^ 3 - 3 * (x1) ^ 2 + 2 * (x2) ^ 3 - 3 *
      (x2) ^ 2)
  | 2%nat =>
      (1/5) * PI * T_0 * r_0 * r_xyz * sin (2 * PI * r_xyz * x0) * sin (2 * PI * r_xyz * x2) * cos (2 * PI * r_xyz *
      x1) - mu * v_0 * (2 * x0 - 1) - (4/3) * mu * v_0 * (2 * x1 - 1) - mu * v_0 * (2 * x2 - 1) + (1/180) * PI * r_0
      * r_xyz * u_0 * v_0 * (2 * (x0) ^ 3 - 3 * (x0) ^ 2 + 2 * (x1) ^ 3 - 3 * (x1) ^ 2 + 2 * (x2) ^ 3 - 3 * (x2) ^ 2)
      ^ 2 * sin (2 * PI * r_xyz * x1) * sin (2 * PI * r_xyz * x2) * cos (2 * PI * r_xyz * x0) + (1/180) * PI * r_0 *
      r_xyz * (v_0) ^ 2 * (2 * (x0) ^ 3 - 3 * (x0) ^ 2 + 2 * (x1) ^ 3 - 3 * (x1) ^ 2 + 2 * (x2) ^ 3 - 3 * (x2) ^ 2) ^
      2 * sin (2 * PI * r_xyz * x0) * sin (2 * PI * r_xyz * x2) * cos (2 * PI * r_xyz * x1) + (1/180) * PI * r_0 *
      r_xyz * v_0 * w_0 * (2 * (x0) ^ 3 - 3 * (x0) ^ 2 + 2 * (x1) ^ 3 - 3 * (x1) ^ 2 + 2 * (x2) ^ 3 - 3 * (x2) ^ 2) ^
      2 * sin (2 * PI * r_xyz * x0) * sin (2 * PI * r_xyz * x1) * cos (2 * PI * r_xyz * x2) + 1 / 3 * r_0 * u_0 * v_0
      * x0 * (x0 - 1) * ((1/10) * sin (2 * PI * r_xyz * x0) * sin (2 * PI * r_xyz * x1) * sin (2 * PI * r_xyz * x2) +
      1) * (2 * (x0) ^ 3 - 3 * (x0) ^ 2 + 2 * (x1) ^ 3 - 3 * (x1) ^ 2 + 2 * (x2) ^ 3 - 3 * (x2) ^ 2) + 1 / 3 * r_0 *
      (v_0) ^ 2 * x1 * (x1 - 1) * ((1/10) * sin (2 * PI * r_xyz * x0) * sin (2 * PI * r_xyz * x1) * sin (2 * PI *
      r_xyz * x2) + 1) * (2 * (x0) ^ 3 - 3 * (x0) ^ 2 + 2 * (x1) ^ 3 - 3 * (x1) ^ 2 + 2 * (x2) ^ 3 - 3 * (x2) ^ 2) +
      1 / 3 * r_0 * v_0 * w_0 * x2 * (x2 - 1) * ((1/10) * sin (2 * PI * r_xyz * x0) * sin (2 * PI * r_xyz * x1) * sin
      (2 * PI * r_xyz * x2) + 1) * (2 * (x0) ^ 3 - 3 * (x0) ^ 2 + 2 * (x1) ^ 3 - 3 * (x1) ^ 2 + 2 * (x2) ^ 3 - 3 *
      (x2) ^ 2)
  | 3%nat =>
      (1/5) * PI * T_0 * r_0 * r_xyz * sin (2 * PI * r_xyz * x0) * sin (2 * PI * r_xyz * x1) * cos (2 * PI * r_xyz *
      x2) - mu * w_0 * (2 * x0 - 1) - mu * w_0 * (2 * x1 - 1) - (4/3) * mu * w_0 * (2 * x2 - 1) + (1/180) * PI * r_0
      * r_xyz * u_0 * w_0 * (2 * (x0) ^ 3 - 3 * (x0) ^ 2 + 2 * (x1) ^ 3 - 3 * (x1) ^ 2 + 2 * (x2) ^ 3 - 3 * (x2) ^ 2)
      ^ 2 * sin (2 * PI * r_xyz * x1) * sin (2 * PI * r_xyz * x2) * cos (2 * PI * r_xyz * x0) + (1/180) * PI * r_0 *
      r_xyz * v_0 * w_0 * (2 * (x0) ^ 3 - 3 * (x0) ^ 2 + 2 * (x1) ^ 3 - 3 * (x1) ^ 2 + 2 * (x2) ^ 3 - 3 * (x2) ^ 2) ^
      2 * sin (2 * PI * r_xyz * x0) * sin (2 * PI * r_xyz * x2) * cos (2 * PI * r_xyz * x1) + (1/180) * PI * r_0 *
      r_xyz * (w_0) ^ 2 * (2 * (x0) ^ 3 - 3 * (x0) ^ 2 + 2 * (x1) ^ 3 - 3 * (x1) ^ 2 + 2 * (x2) ^ 3 - 3 * (x2) ^ 2) ^
      2 * sin (2 * PI * r_xyz * x0) * sin (2 * PI * r_xyz * x1) * cos (2 * PI * r_xyz * x2) + 1 / 3 * r_0 * u_0 * w_0
      * x0 * (x0 - 1) * ((1/10) * sin (2 * PI * r_xyz * x0) * sin (2 * PI * r_xyz * x1) * sin (2 * PI * r_xyz * x2) +
      1) * (2 * (x0) ^ 3 - 3 * (x0) ^ 2 + 2 * (x1) ^ 3 - 3 * (x1) ^ 2 + 2 * (x2) ^ 3 - 3 * (x2) ^ 2) + 1 / 3 * r_0 *
      v_0 * w_0 * x1 * (x1 - 1) * ((1/10) * sin (2 * PI * r_xyz * x0) * sin (2 * PI * r_xyz * x1) * sin (2 * PI *
      r_xyz * x2) + 1) * (2 * (x0) ^ 3 - 3 * (x0) ^ 2 + 2 * (x1) ^ 3 - 3 * (x1) ^ 2 + 2 * (x2) ^ 3 - 3 * (x2) ^ 2) +
      1 / 3 * r_0 * (w_0) ^ 2 * x2 * (x2 - 1) * ((1/10) * sin (2 * PI * r_xyz * x0) * sin (2 * PI * r_xyz * x1) * sin
      (2 * PI * r_xyz * x2) + 1) * (2 * (x0) ^ 3 - 3 * (x0) ^ 2 + 2 * (x1) ^ 3 - 3 * (x1) ^ 2 + 2 * (x2) ^ 3 - 3 *
      (x2) ^ 2)
  | 4%nat =>
      1 / 72 * (12 * mu * (gamma - 1) * ((- (4/3)) * (u_0) ^ 2 * (2 * x0 - 1) * (2 * (x0) ^ 3 - 3 * (x0) ^ 2 + 2 *
      (x1) ^ 3 - 3 * (x1) ^ 2 + 2 * (x2) ^ 3 - 3 * (x2) ^ 2) - (u_0) ^ 2 * (2 * x1 - 1) * (2 * (x0) ^ 3 - 3 * (x0) ^
      2 + 2 * (x1) ^ 3 - 3 * (x1) ^ 2 + 2 * (x2) ^ 3 - 3 * (x2) ^ 2) - (u_0) ^ 2 * (2 * x2 - 1) * (2 * (x0) ^ 3 - 3 *
      (x0) ^ 2 + 2 * (x1) ^ 3 - 3 * (x1) ^ 2 + 2 * (x2) ^ 3 - 3 * (x2) ^ 2) + 4 * u_0 * x0 * (x0 - 1) * ((- 2) * u_0
      * x0 * (x0 - 1) + v_0 * x1 * (x1 - 1) + w_0 * x2 * (x2 - 1)) - 6 * u_0 * x1 * (x1 - 1) * (u_0 * x1 * (x1 - 1) +
      v_0 * x0 * (x0 - 1)) - 6 * u_0 * x2 * (x2 - 1) * (u_0 * x2 * (x2 - 1) + w_0 * x0 * (x0 - 1)) - (v_0) ^ 2 * (2 *
      x0 - 1) * (2 * (x0) ^ 3 - 3 * (x0) ^ 2 + 2 * (x1) ^ 3 - 3 * (x1) ^ 2 + 2 * (x2) ^ 3 - 3 * (x2) ^ 2) - (4/3) *
      (v_0) ^ 2 * (2 * x1 - 1) * (2 * (x0) ^ 3 - 3 * (x0) ^ 2 + 2 * (x1) ^ 3 - 3 * (x1) ^ 2 + 2 * (x2) ^ 3 - 3 * (x2)
      ^ 2) - (v_0) ^ 2 * (2 * x2 - 1) * (2 * (x0) ^ 3 - 3 * (x0) ^ 2 + 2 * (x1) ^ 3 - 3 * (x1) ^ 2 + 2 * (x2) ^ 3 - 3
      * (x2) ^ 2) - 6 * v_0 * x0 * (x0 - 1) * (u_0 * x1 * (x1 - 1) + v_0 * x0 * (x0 - 1)) + 4 * v_0 * x1 * (x1 - 1) *
      (u_0 * x0 * (x0 - 1) - 2 * v_0 * x1 * (x1 - 1) + w_0 * x2 * (x2 - 1)) - 6 * v_0 * x2 * (x2 - 1) * (v_0 * x2 *
      (x2 - 1) + w_0 * x1 * (x1 - 1)) - (w_0) ^ 2 * (2 * x0 - 1) * (2 * (x0) ^ 3 - 3 * (x0) ^ 2 + 2 * (x1) ^ 3 - 3 *
      (x1) ^ 2 + 2 * (x2) ^ 3 - 3 * (x2) ^ 2) - (w_0) ^ 2 * (2 * x1 - 1) * (2 * (x0) ^ 3 - 3 * (x0) ^ 2 + 2 * (x1) ^
      3 - 3 * (x1) ^ 2 + 2 * (x2) ^ 3 - 3 * (x2) ^ 2) - (4/3) * (w_0) ^ 2 * (2 * x2 - 1) * (2 * (x0) ^ 3 - 3 * (x0) ^
      2 + 2 * (x1) ^ 3 - 3 * (x1) ^ 2 + 2 * (x2) ^ 3 - 3 * (x2) ^ 2) - 6 * w_0 * x0 * (x0 - 1) * (u_0 * x2 * (x2 - 1)
      + w_0 * x0 * (x0 - 1)) - 6 * w_0 * x1 * (x1 - 1) * (v_0 * x2 * (x2 - 1) + w_0 * x1 * (x1 - 1)) + 4 * w_0 * x2 *
      (x2 - 1) * (u_0 * x0 * (x0 - 1) + v_0 * x1 * (x1 - 1) - 2 * w_0 * x2 * (x2 - 1))) + r_0 * u_0 * x0 * (72 * T_0
      + (gamma - 1) * (72 * T_0 + (u_0) ^ 2 * (2 * (x0) ^ 3 - 3 * (x0) ^ 2 + 2 * (x1) ^ 3 - 3 * (x1) ^ 2 + 2 * (x2) ^
      3 - 3 * (x2) ^ 2) ^ 2 + (v_0) ^ 2 * (2 * (x0) ^ 3 - 3 * (x0) ^ 2 + 2 * (x1) ^ 3 - 3 * (x1) ^ 2 + 2 * (x2) ^ 3 -
      3 * (x2) ^ 2) ^ 2 + 36 * (x2) ^ 2)) * (x0 - 1) * ((1/10) * sin (2 * PI * r_xyz * x0) * sin (2 * PI * r_xyz *
      x1) * sin (2 * PI * r_xyz * x2) + 1) + r_0 * u_0 * ((12/5) * PI * T_0 * r_xyz * sin (2 * PI * r_xyz * x1) * sin
      (2 * PI * r_xyz * x2) * cos (2 * PI * r_xyz * x0) + (gamma - 1) * ((12/5) * PI * T_0 * r_xyz * sin (2 * PI *
      r_xyz * x1) * sin (2 * PI * r_xyz * x2) * cos (2 * PI * r_xyz * x0) + (1/30) * PI * r_xyz * ((u_0) ^ 2 * (2 *
      (x0) ^ 3 - 3 * (x0) ^ 2 + 2 * (x1) ^ 3 - 3 * (x1) ^ 2 + 2 * (x2) ^ 3 - 3 * (x2) ^ 2) ^ 2 + (v_0) ^ 2 * (2 *
      (x0) ^ 3 - 3 * (x0) ^ 2 + 2 * (x1) ^ 3 - 3 * (x1) ^ 2 + 2 * (x2) ^ 3 - 3 * (x2) ^ 2) ^ 2 + 36 * (x2) ^ 2) * sin
      (2 * PI * r_xyz * x1) * sin (2 * PI * r_xyz * x2) * cos (2 * PI * r_xyz * x0) + 2 * x0 * ((u_0) ^ 2 + (v_0) ^
      2) * (x0 - 1) * ((1/10) * sin (2 * PI * r_xyz * x0) * sin (2 * PI * r_xyz * x1) * sin (2 * PI * r_xyz * x2) +
      1) * (2 * (x0) ^ 3 - 3 * (x0) ^ 2 + 2 * (x1) ^ 3 - 3 * (x1) ^ 2 + 2 * (x2) ^ 3 - 3 * (x2) ^ 2))) * (2 * (x0) ^
      3 - 3 * (x0) ^ 2 + 2 * (x1) ^ 3 - 3 * (x1) ^ 2 + 2 * (x2) ^ 3 - 3 * (x2) ^ 2) + r_0 * v_0 * x1 * (72 * T_0 +
      (gamma - 1) * (72 * T_0 + (u_0) ^ 2 * (2 * (x0) ^ 3 - 3 * (x0) ^ 2 + 2 * (x1) ^ 3 - 3 * (x1) ^ 2 + 2 * (x2) ^ 3
      - 3 * (x2) ^ 2) ^ 2 + (v_0) ^ 2 * (2 * (x0) ^ 3 - 3 * (x0) ^ 2 + 2 * (x1) ^ 3 - 3 * (x1) ^ 2 + 2 * (x2) ^ 3 - 3
      * (x2) ^ 2) ^ 2 + 36 * (x2) ^ 2)) * (x1 - 1) * ((1/10) * sin (2 * PI * r_xyz * x0) * sin (2 * PI * r_xyz * x1)
      * sin (2 * PI * r_xyz * x2) + 1) + r_0 * v_0 * ((12/5) * PI * T_0 * r_xyz * sin (2 * PI * r_xyz * x0) * sin (2
      * PI * r_xyz * x2) * cos (2 * PI * r_xyz * x1) + (gamma - 1) * ((12/5) * PI * T_0 * r_xyz * sin (2 * PI * r_xyz
      * x0) * sin (2 * PI * r_xyz * x2) * cos (2 * PI * r_xyz * x1) + (1/30) * PI * r_xyz * ((u_0) ^ 2 * (2 * (x0) ^
      3 - 3 * (x0) ^ 2 + 2 * (x1) ^ 3 - 3 * (x1) ^ 2 + 2 * (x2) ^ 3 - 3 * (x2) ^ 2) ^ 2 + (v_0) ^ 2 * (2 * (x0) ^ 3 -
      3 * (x0) ^ 2 + 2 * (x1) ^ 3 - 3 * (x1) ^ 2 + 2 * (x2) ^ 3 - 3 * (x2) ^ 2) ^ 2 + 36 * (x2) ^ 2) * sin (2 * PI *
      r_xyz * x0) * sin (2 * PI * r_xyz * x2) * cos (2 * PI * r_xyz * x1) + 2 * x1 * ((u_0) ^ 2 + (v_0) ^ 2) * (x1 -
      1) * ((1/10) * sin (2 * PI * r_xyz * x0) * sin (2 * PI * r_xyz * x1) * sin (2 * PI * r_xyz * x2) + 1) * (2 *
      (x0) ^ 3 - 3 * (x0) ^ 2 + 2 * (x1) ^ 3 - 3 * (x1) ^ 2 + 2 * (x2) ^ 3 - 3 * (x2) ^ 2))) * (2 * (x0) ^ 3 - 3 *
      (x0) ^ 2 + 2 * (x1) ^ 3 - 3 * (x1) ^ 2 + 2 * (x2) ^ 3 - 3 * (x2) ^ 2) + r_0 * w_0 * x2 * (72 * T_0 + (gamma -
      1) * (72 * T_0 + (u_0) ^ 2 * (2 * (x0) ^ 3 - 3 * (x0) ^ 2 + 2 * (x1) ^ 3 - 3 * (x1) ^ 2 + 2 * (x2) ^ 3 - 3 *
      (x2) ^ 2) ^ 2 + (v_0) ^ 2 * (2 * (x0) ^ 3 - 3 * (x0) ^ 2 + 2 * (x1) ^ 3 - 3 * (x1) ^ 2 + 2 * (x2) ^ 3 - 3 *
      (x2) ^ 2) ^ 2 + 36 * (x2) ^ 2)) * (x2 - 1) * ((1/10) * sin (2 * PI * r_xyz * x0) * sin (2 * PI * r_xyz * x1) *
      sin (2 * PI * r_xyz * x2) + 1) + r_0 * w_0 * ((12/5) * PI * T_0 * r_xyz * sin (2 * PI * r_xyz * x0) * sin (2 *
      PI * r_xyz * x1) * cos (2 * PI * r_xyz * x2) + (gamma - 1) * ((12/5) * PI * T_0 * r_xyz * sin (2 * PI * r_xyz *
      x0) * sin (2 * PI * r_xyz * x1) * cos (2 * PI * r_xyz * x2) + (1/30) * PI * r_xyz * ((u_0) ^ 2 * (2 * (x0) ^ 3
      - 3 * (x0) ^ 2 + 2 * (x1) ^ 3 - 3 * (x1) ^ 2 + 2 * (x2) ^ 3 - 3 * (x2) ^ 2) ^ 2 + (v_0) ^ 2 * (2 * (x0) ^ 3 - 3
      * (x0) ^ 2 + 2 * (x1) ^ 3 - 3 * (x1) ^ 2 + 2 * (x2) ^ 3 - 3 * (x2) ^ 2) ^ 2 + 36 * (x2) ^ 2) * sin (2 * PI *
      r_xyz * x0) * sin (2 * PI * r_xyz * x1) * cos (2 * PI * r_xyz * x2) + 2 * x2 * ((1/10) * sin (2 * PI * r_xyz *
      x0) * sin (2 * PI * r_xyz * x1) * sin (2 * PI * r_xyz * x2) + 1) * ((u_0) ^ 2 * (x2 - 1) * (2 * (x0) ^ 3 - 3 *
      (x0) ^ 2 + 2 * (x1) ^ 3 - 3 * (x1) ^ 2 + 2 * (x2) ^ 3 - 3 * (x2) ^ 2) + (v_0) ^ 2 * (x2 - 1) * (2 * (x0) ^ 3 -
      3 * (x0) ^ 2 + 2 * (x1) ^ 3 - 3 * (x1) ^ 2 + 2 * (x2) ^ 3 - 3 * (x2) ^ 2) + 6))) * (2 * (x0) ^ 3 - 3 * (x0) ^ 2
      + 2 * (x1) ^ 3 - 3 * (x1) ^ 2 + 2 * (x2) ^ 3 - 3 * (x2) ^ 2)) / (gamma - 1)
  | _ => 0
  end.
(** calcViscousMMS, navier_stokes_fluxes.hpp:419-788; [n] = size of src *)
Definition calcViscousMMS (dim n : nat) (mu Pr : R) (x : vec) : filled :=
  if Nat.ltb n (if Nat.eqb dim 3 then 5 else 4) then OutOfBounds
  else Filled (if Nat.eqb dim 3 then viscous_src3 mu Pr x else viscous_src2 mu Pr x).

(** viscousMMSExact, default branch, navier_stokes_fluxes.hpp:388-407 *)
Definition viscous_exact2 (x : vec) : vec :=
  let rho0 := 1 in let rhop := 5/100 in let U0 := 1/2 in let Up := 5/100 in let T0 := 1 in let Tp := 5/100 in
  let x0 := x 0%nat in let x1 := x 1%nat in
  let r := rho0 + rhop * (sin (PI * x0)) ^ 2 * sin (PI * x1) in
  let v1 := 4 * U0 * x1 * (1 - x1) + Up * sin (2 * PI * x1) * (sin (PI * x0)) ^ 2 in
  let v2 := - Up * (sin (2 * PI * x0)) ^ 2 * sin (PI * x1) in
  let T := T0 + Tp * (x0 ^ 4 - 2 * x0 ^ 3 + x0 ^ 2 + x1 ^ 4 - 2 * x1 ^ 3 + x1 ^ 2) in
  let p := r * T in
  fun k => match k with
  | 0%nat => r
  | 1%nat => v1 * r
  | 2%nat => v2 * r
  | 3%nat => p / gami + 1/2 * r * (v1 * v1 + v2 * v2)
  | _ => 0
  end.
(** viscousMMSExact, case 3, navier_stokes_fluxes.hpp:366-386: the density reads x[3]; [x3] is that value *)
Definition viscous_exact3 (x : vec) (x3 : R) : vec :=
  let r_0 := 1 in let r_xyz := 1 in let u_0 := 1/2 in let v_0 := 1/2 in let w_0 := 1/2 in let T_0 := 1 in
  let x0 := x 0%nat in let x1 := x 1%nat in let x2 := x 2%nat in
  let r := r_0 + r_0 * (1/10) * sin (2 * r_xyz * PI * x0) * sin (2 * r_xyz * PI * x1) * sin (2 * r_xyz * PI * x3) in
  let s := (x0 ^ 3 / 3 - x0 ^ 2 / 2) + (x1 ^ 3 / 3 - x1 ^ 2 / 2) + (x2 ^ 3 / 3 - x2 ^ 2 / 2) in
  let v1 := u_0 * s in let v2 := v_0 * s in let v3 := w_0 * s in
  let T := T_0 in
  let p := r * T in
  fun k => match k with
  | 0%nat => r
  | 1%nat => v1 * r
  | 2%nat => v2 * r
  | 3%nat => v3 * r
  | 4%nat => p / gami + 1/2 * r * (v1 * v1 + v2 * v2 + v3 * v3)
  | _ => 0
  end.
(** viscousMMSExact, navier_stokes_fluxes.hpp:362-409; [m] = size of the caller's coordinate vector x *)
Definition viscousMMSExact (dim m : nat) (x : vec) : filled :=
  if Nat.eqb dim 3 then (if Nat.ltb m 4 then OutOfBounds else Filled (viscous_exact3 x (x 3%nat)))
  else Filled (viscous_exact2 x).

(** MMSIntegrator::AssembleElementVector, mms_integ_def.hpp:13-45: element vector entry (node i, state n);
    [xnode i] = physical node, [w i] = trans.Weight() * ip.weight *)
Definition mms_element (alpha : R) (source : vec -> vec) (xnode : nat -> vec) (w : nat -> R) (i n : nat) : R :=
  (0 + w i * source (xnode i) n) * alpha.
(** MMSIntegrator::AssembleElementGrad, mms_integ_def.hpp:47-60 *)
Definition mms_element_grad (r c : nat) : R := 0.
