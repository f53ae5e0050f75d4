(** Independent vocabulary for the Euler theorems: a conservative state in terms of density, velocity and
    pressure of an ideal gas with heat-capacity ratio 7/5. *)
From Coq Require Import Reals Arith.
From Verif Require Import Vec.
Local Open Scope R_scope.

(** q holds the conservative variables of density rho, velocity u (d components) and pressure p:
    momentum rho u, total energy p/(gamma-1) + rho |u|^2/2 *)
Definition is_state (d : nat) (q : vec) (rho : R) (u : vec) (p : R) : Prop :=
  q 0%nat = rho /\ (forall i, (i < d)%nat -> q (S i) = rho * u i) /\
  q (S d) = p / (2/5) + 1/2 * rho * dot d u u.
(** physical: positive density and pressure *)
Definition physical (d : nat) (q : vec) : Prop := exists rho u p, 0 < rho /\ 0 < p /\ is_state d q rho u p.
(** thermodynamic entropy ln(p / rho^gamma), mathematical entropy -rho s/(gamma-1) *)
Definition thermo (rho p : R) : R := ln p - 7/5 * ln rho.
Definition math_entropy (rho p : R) : R := - rho * thermo rho p / (2/5).
(** equality of the d+2 entries of a state *)
Definition same (d : nat) (a b : vec) : Prop := forall i, (i < d + 2)%nat -> a i = b i.
(** Euler flux along n: (rho U, rho U u + p n, (E+p) U) with U = u.n *)
Definition euler_flux (d : nat) (n : vec) (rho : R) (u : vec) (p : R) (f : vec) : Prop :=
  f 0%nat = rho * dot d u n /\
  (forall i, (i < d)%nat -> f (S i) = rho * dot d u n * u i + p * n i) /\
  f (S d) = (p / (2/5) + 1/2 * rho * dot d u u + p) * dot d u n.
(** total enthalpy per unit mass, sound speed *)
Definition enthalpy (d : nat) (rho : R) (u : vec) (p : R) : R := 7/2 * p / rho + 1/2 * dot d u u.
Definition sound (rho p : R) : R := sqrt (7/5 * p / rho).
(** Splitting of a perturbation dq of the conservative variables about a mean state (velocity u, total enthalpy
    H, sound speed a) into the two acoustic waves along the unit vector n, of strengths c1 and c2, and a
    convected part t, which carries neither pressure nor normal velocity. *)
Definition convected (d : nat) (n u t : vec) : Prop :=
  1/2 * dot d u u * t 0%nat - rsum d (fun i => u i * t (S i)) + t (S d) = 0 /\
  rsum d (fun i => n i * t (S i)) - dot d n u * t 0%nat = 0.
Definition waves (d : nat) (n u : vec) (H a c1 c2 : R) (t dq : vec) : Prop :=
  convected d n u t /\
  dq 0%nat = c1 + c2 + t 0%nat /\
  (forall i, (i < d)%nat -> dq (S i) = c1 * (u i + a * n i) + c2 * (u i - a * n i) + t (S i)) /\
  dq (S d) = c1 * (H + a * dot d n u) + c2 * (H - a * dot d n u) + t (S d).
(** the same perturbation with its waves scaled by l1, l2 and its convected part by l3 *)
Definition scaled_waves (d : nat) (n u : vec) (H a c1 c2 l1 l2 l3 : R) (t r : vec) : Prop :=
  r 0%nat = l1 * c1 + l2 * c2 + l3 * t 0%nat /\
  (forall i, (i < d)%nat -> r (S i) = l1 * c1 * (u i + a * n i) + l2 * c2 * (u i - a * n i) + l3 * t (S i)) /\
  r (S d) = l1 * c1 * (H + a * dot d n u) + l2 * c2 * (H - a * dot d n u) + l3 * t (S d).
Definition unit_of (d : nat) (dir : vec) : vec := fun i => dir i / sqrt (dot d dir dir).
(** relative spread of two positive numbers, squared (the quantity logavg branches on) *)
Definition spread (x y : R) : R := (x - y) / (x + y) * ((x - y) / (x + y)).
(** coordinate direction di *)
Definition unitv (di : nat) : vec := fun i => if Nat.eqb i di then 1 else 0.
