(** Model of src/physics/fluidflow/navier_stokes_fluxes.hpp:1-352 over exact reals, for any number [d] of space
    dimensions (the code is instantiated at 1, 2, 3).  Column-major derivative arrays are [nat -> R] indexed
    exactly as in the code: entry k of the derivative in direction j is at j*(d+2)+k. *)
From Coq Require Import Reals Arith.
From Verif Require Import Num Vec Euler.
Local Open Scope R_scope.

(** navierstokes::ST, :15-16 *)
Definition ST : R := (1986 / 10) / 460.
(** calcSutherlandViscosity, :25-32 *)
Definition calcSutherlandViscosity (d : nat) (q : vec) : R :=
  let a := sqrt (gamma * pressure d q / q 0%nat) in
  let a2 := a * a in
  let a3 := a * a * a in
  a3 * (1 + ST) / (a2 + ST).

(** Dw + j*(dim+2) *)
Definition col (d j : nat) (Dw : vec) : vec := fun k => Dw (j * (d + 2) + k)%nat.

(** nrm of setZeroNormalDeriv, :37-43, calcAdiabaticWallFlux, :178-186, calcNoSlipDualFlux, :338-345 *)
Definition nrm (d : nat) (dir : vec) : vec := fun i => dir i * (1 / sqrt (dot d dir dir)).
(** setZeroNormalDeriv, :34-55: the value written at Dwt[s + i*(dim+2)] (i < dim, s < dim+2) *)
Definition setZeroNormalDeriv (d : nat) (dir Dw : vec) (i s : nat) : R :=
  let Dw_nrm := rsum d (fun j => Dw (s + j * (d + 2))%nat * nrm d dir j) in
  Dw (s + i * (d + 2))%nat - nrm d dir i * Dw_nrm.

(** applyCijMatrix, :70-115.  [acc] is mat_vec on entry; the result is mat_vec on exit. *)
Definition applyCijMatrix (d i j : nat) (mu Pr : R) (q v acc : vec) : vec :=
  let u := fun k => q (S k) / q 0%nat in
  let RT := pressure d q / q 0%nat in
  let RT2k := RT * RT * gamma * mu / (gami * Pr) in
  let RTmu := RT * mu in
  if Nat.eqb i j then
    mk d (acc 0%nat)
      (fun k => acc (S k) + RTmu * (v (S k) + u k * v (S d)) +
                (if Nat.eqb k i then RTmu * (v (S i) + u i * v (S d)) / 3 else 0))
      (acc (S d) + rsum d (fun k => RTmu * u k * (v (S k) + u k * v (S d))) +
       RTmu * u i * (v (S i) + u i * v (S d)) / 3 + RT2k * v (S d))
  else
    mk d (acc 0%nat)
      (fun k => acc (S k) - (if Nat.eqb k i then 2 * RTmu * (v (S j) + u j * v (S d)) / 3 else 0) +
                (if Nat.eqb k j then RTmu * (v (S i) + u i * v (S d)) else 0))
      (acc (S d) + RTmu * (u j * v (S i) - 2 * u i * v (S j) / 3 + u i * u j * v (S d) / 3)).

(** for (int k = 0; k < n; ++k) f(k, acc) *)
Fixpoint accum (n : nat) (f : nat -> vec -> vec) (acc : vec) : vec :=
  match n with O => acc | S k => f k (accum k f acc) end.
Definition zeros : vec := fun _ => 0.

(** applyViscousScaling, :126-144 *)
Definition applyViscousScaling (d e : nat) (mu Pr : R) (q Dw : vec) : vec :=
  accum d (fun d2 acc => applyCijMatrix d e d2 mu Pr q (col d d2 Dw) acc) zeros.

(** calcAdiabaticWallFlux, :156-203 *)
Definition calcAdiabaticWallFlux (d : nat) (dir : vec) (mu Pr : R) (q Dw : vec) : vec :=
  let Dw_nrm := rsum d (fun e => Dw (e * (d + 2) + d + 1)%nat * nrm d dir e) in
  let Dw_bnd := fun d2 k => if Nat.eqb k (d + 1) then Dw (d2 * (d + 2) + k)%nat - Dw_nrm * nrm d dir d2
                            else Dw (d2 * (d + 2) + k)%nat in
  accum d (fun e acc => accum d (fun d2 acc => applyCijMatrix d e d2 (mu * dir e) Pr q (Dw_bnd d2) acc) acc) zeros.

(** calcNoSlipPenaltyFlux, :216-250, calcControlPenaltyFlux, :264-303: shared tail (the diagonal blocks, the
    scaling of entries 1..dim and the zeroing of the last) *)
Definition penalty (d : nat) (fac mu Pr : R) (qfs dw : vec) : vec :=
  let flux := accum d (fun e acc => applyCijMatrix d e e mu Pr qfs dw acc) zeros in
  mk d (flux 0%nat) (fun k => flux (S k) * fac) 0.
Definition calcNoSlipPenaltyFlux (d : nat) (dir : vec) (Jac mu Pr : R) (qfs q : vec) : vec :=
  let p := pressure d q in
  let dw := mk d 0 (fun e => q (S e) / p) 0 in
  penalty d (sqrt (dot d dir dir) / Jac) mu Pr qfs dw.
Definition calcControlPenaltyFlux (d : nat) (dir : vec) (Jac mu Pr uc : R) (qfs q : vec) : vec :=
  let p := pressure d q in
  let dA := sqrt (dot d dir dir) in
  let dw := mk d 0 (fun e => (q (S e) - q 0%nat * uc * dir e / dA) / p) 0 in
  penalty d (dA / Jac) mu Pr qfs dw.

(** calcNoSlipDualFlux, :313-352.  Column d2 of the result, before the projection (the loop nest over d, d2
    accumulates into the d2-th column; columns are independent) *)
Definition dualColumn (d : nat) (dir : vec) (mu Pr : R) (q : vec) (d2 : nat) : vec :=
  let p := pressure d q in
  let dw := mk d 0 (fun e => q (S e) / p) 0 in
  accum d (fun e acc => applyCijMatrix d d2 e (- mu * dir e) Pr q dw acc) zeros.
(** ... and after the projection of the last variable, :335-350 *)
Definition calcNoSlipDualFlux (d : nat) (dir : vec) (mu Pr : R) (q : vec) (d2 : nat) : vec :=
  let flux_nrm := rsum d (fun e => dualColumn d dir mu Pr q e (d + 1)%nat * nrm d dir e) in
  fun k => if Nat.eqb k (d + 1) then dualColumn d dir mu Pr q d2 k - flux_nrm * nrm d dir d2
           else dualColumn d dir mu Pr q d2 k.
