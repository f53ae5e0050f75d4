(** C45: viscous fluxes; C48: viscous wall conditions.  Vocabulary in EulerSpec.v and NavierStokesSpec.v.
    Column j of a derivative array Dw is [col d j Dw] (entries Dw[j*(d+2)+k]). *)
From Coq Require Import Reals Arith Lra Lia.
From Coquelicot Require Import Coquelicot.
From Verif Require Import Num Vec Euler EulerSpec EulerProofs NavierStokes NavierStokesSpec NavierStokesProofs Props_Euler.
Local Open Scope R_scope.

(** Let density, velocity and pressure be fields around a point x, q the conservative variables, Dw the partial
    derivatives at x of the entropy variables computed by calcEntropyVars.  Then applyViscousScaling returns the
    viscous flux in direction e: no mass flux, the Newtonian stress, and stress power plus conductive heat
    flux, with conductivity gamma mu/((gamma-1) Pr) times the gradient of p/rho. *)
Theorem C45_viscous_flux_is_physical :
  forall d e mu Pr (rho p : vec -> R) (u q : vec -> vec) (x : vec) eps Dw G gT,
  0 < eps -> Pr <> 0 -> (e < d)%nat ->
  (forall j t, (j < d)%nat -> Rabs t < eps ->
     0 < rho (shift x j t) /\ 0 < p (shift x j t) /\
     is_state d (q (shift x j t)) (rho (shift x j t)) (u (shift x j t)) (p (shift x j t))) ->
  (forall j k, (j < d)%nat -> (k < d + 2)%nat ->
     partial_at (fun y => calcEntropyVars d false (q y) k) x j (Dw (j * (d + 2) + k)%nat)) ->
  (forall j k, (j < d)%nat -> (k < d)%nat -> partial_at (fun y => u y k) x j (G k j)) ->
  (forall j, (j < d)%nat -> partial_at (fun y => p y / rho y) x j (gT j)) ->
  forall f, f = applyViscousScaling d e mu Pr (q x) Dw ->
  f 0%nat = 0 /\
  (forall k, (k < d)%nat -> f (S k) = stress d mu G e k) /\
  f (S d) = rsum d (fun k => u x k * stress d mu G e k) + 7/5 * mu / (2/5 * Pr) * gT e.
Proof. exact viscous_physical. Qed.
Print Assumptions C45_viscous_flux_is_physical.
(** the hypotheses are met by a sheared, non-isothermal gas in one dimension: rho = 1, u = x, p = 1 + x near 0 *)
Example C45_physical_case :
  let rho := fun _ : vec => 1 in let p := fun y : vec => 1 + y 0%nat in
  let u := fun y : vec => (fun _ : nat => y 0%nat) : vec in
  let q := fun y : vec => mk 1 1 (fun _ => y 0%nat) ((1 + y 0%nat) / (2/5) + 1/2 * (y 0%nat * y 0%nat)) in
  let x := (fun _ => 0) : vec in
  (forall j t, (j < 1)%nat -> Rabs t < 1 -> 0 < rho (shift x j t) /\ 0 < p (shift x j t) /\
     is_state 1 (q (shift x j t)) (rho (shift x j t)) (u (shift x j t)) (p (shift x j t))) /\
  (forall j k, (j < 1)%nat -> (k < 1)%nat -> partial_at (fun y => u y k) x j 1) /\
  (forall j, (j < 1)%nat -> partial_at (fun y => p y / rho y) x j 1) /\
  (forall j k, (j < 1)%nat -> (k < 3)%nat -> exists l, partial_at (fun y => calcEntropyVars 1 false (q y) k) x j l).
Proof.
  intros rho p u q x.
  assert (A : forall j t, (j < 1)%nat -> Rabs t < 1 -> 0 < rho (shift x j t) /\ 0 < p (shift x j t) /\
     is_state 1 (q (shift x j t)) (rho (shift x j t)) (u (shift x j t)) (p (shift x j t))).
  { intros j t Hj Ht. assert (j = 0%nat) by lia. subst j. unfold rho, p, u, q, x, shift. simpl Nat.eqb. cbv iota.
    apply Rabs_def2 in Ht. split; [lra|]. split; [lra|]. unfold is_state, mk, dot. cbn. repeat split; try lra.
    intros i Hi. assert (i = 0%nat) by lia. subst i. cbn. ring. }
  split; [exact A|]. split; [|split].
  - intros j k Hj Hk. assert (j = 0%nat) by lia. subst j. unfold partial_at, u, shift, x. cbn. auto_derive; [exact I|ring].
  - intros j Hj. assert (j = 0%nat) by lia. subst j. unfold partial_at, p, rho, shift, x. cbn. auto_derive; [exact I|field].
  - intros j k Hj Hk. assert (j = 0%nat) by lia. subst j. unfold partial_at.
    assert (L : forall P : R -> Prop, (forall t, Rabs t < 1 -> P t) -> locally 0 P) by (intros P; apply (near_pos 1 Rlt_0_1)).
    assert (W : forall t, Rabs t < 1 -> let w := calcEntropyVars 1 false (q (shift x 0 t)) in
       w 0%nat = (7/5 - ln (1 + t)) / (2/5) - 1/2 * (t * t) / (1 + t) /\ w 1%nat = t / (1 + t) /\ w 2%nat = - 1 / (1 + t)).
    { intros t Ht. destruct (A 0%nat t ltac:(lia) Ht) as (B & C & D).
      pose proof (entvars_prim 1 _ _ _ _ B C D) as (W0 & W1 & W2). apply Rabs_def2 in Ht.
      cbv zeta. rewrite W0, (W1 0%nat ltac:(lia)), W2. unfold thermo, rho, p, u, x, shift, dot. cbn. rewrite ln_1. unfold gamma, gami.
      replace (0 + t) with t by ring. repeat split; field; lra. }
    destruct k as [|[|[|k]]]; [| | |lia].
    + eexists. eapply is_derive_ext_loc; [apply L; intros t Ht; symmetry; apply (W t Ht)|]. auto_derive; [|reflexivity]. repeat split; lra.
    + eexists. eapply is_derive_ext_loc; [apply L; intros t Ht; symmetry; apply (W t Ht)|]. auto_derive; [|reflexivity]. repeat split; lra.
    + eexists. eapply is_derive_ext_loc; [apply L; intros t Ht; symmetry; apply (W t Ht)|]. auto_derive; [|reflexivity]. repeat split; lra.
Qed.

(** coefficient blocks are symmetric: v . C_ij w = w . C_ji v *)
Theorem C45_blocks_symmetric :
  forall d i j mu Pr q v w, physical d q -> (i < d)%nat -> (j < d)%nat ->
  dot (d + 2) v (applyCijMatrix d i j mu Pr q w (fun _ => 0)) = dot (d + 2) w (applyCijMatrix d j i mu Pr q v (fun _ => 0)).
Proof. exact cij_symmetric. Qed.
Print Assumptions C45_blocks_symmetric.
(** applyCijMatrix adds to its output and is linear in the viscosity *)
Theorem C45_accumulates :
  forall d i j mu Pr q v acc k, physical d q -> (i < d)%nat -> (j < d)%nat -> (k < d + 2)%nat ->
  applyCijMatrix d i j mu Pr q v acc k = acc k + mu * applyCijMatrix d i j 1 Pr q v (fun _ => 0) k.
Proof. exact cij_lin. Qed.
Print Assumptions C45_accumulates.
(** the viscous terms dissipate entropy: sum_i D_i w . F_i >= 0 in one, two and three dimensions *)
Theorem C45_dissipative :
  forall d mu Pr q Dw, (d <= 3)%nat -> physical d q -> 0 <= mu -> 0 < Pr ->
  0 <= rsum d (fun i => dot (d + 2) (col d i Dw) (applyViscousScaling d i mu Pr q Dw)).
Proof. exact dissipation. Qed.
Print Assumptions C45_dissipative.
(** ... strictly so where the temperature varies *)
Theorem C45_dissipative_strict :
  forall d mu Pr q Dw j, (d <= 3)%nat -> physical d q -> 0 < mu -> 0 < Pr -> (j < d)%nat -> Dw (j * (d + 2) + S d)%nat <> 0 ->
  0 < rsum d (fun i => dot (d + 2) (col d i Dw) (applyViscousScaling d i mu Pr q Dw)).
Proof. exact dissipation_strict. Qed.
Print Assumptions C45_dissipative_strict.
(** Sutherland's law in the nondimensional temperature T = gamma p/rho, positive, and 1 at the free stream *)
Theorem C45_sutherland :
  forall d q rho u p, 0 < rho -> 0 < p -> is_state d q rho u p ->
  let T := 7/5 * p / rho in
  calcSutherlandViscosity d q = T * sqrt T * (1 + 1986/4600) / (T + 1986/4600) /\ 0 < calcSutherlandViscosity d q.
Proof. exact sutherland. Qed.
Print Assumptions C45_sutherland.
Theorem C45_sutherland_freestream :
  forall d q rho u, 0 < rho -> is_state d q rho u (5/7 * rho) -> calcSutherlandViscosity d q = 1.
Proof.
  intros d q rho u Hr H. destruct (sutherland d q rho u (5/7 * rho) Hr ltac:(lra) H) as (-> & _). cbv zeta.
  replace (7/5 * (5/7 * rho) / rho) with 1 by (field; lra). rewrite sqrt_1. field.
Qed.
Print Assumptions C45_sutherland_freestream.
Example C45_case : physical 2 sample2 /\ (2 <= 3)%nat.
Proof. split; [exact sample2_physical|lia]. Qed.

(** Adiabatic wall: the flux neither creates nor destroys entropy; with the gas at rest it is the wall traction
    of the interior viscous stress, without mass or heat flux *)
Theorem C48_adiabatic_entropy_neutral :
  forall d dir mu Pr q Dw, physical d q -> 0 < dot d dir dir ->
  dot (d + 2) (calcEntropyVars d false q) (calcAdiabaticWallFlux d dir mu Pr q Dw) = 0.
Proof. exact adiabatic_entropy. Qed.
Print Assumptions C48_adiabatic_entropy_neutral.
Theorem C48_adiabatic_at_rest :
  forall d dir mu Pr q Dw rho p, 0 < rho -> 0 < p -> is_state d q rho (fun _ => 0) p -> 0 < dot d dir dir ->
  calcAdiabaticWallFlux d dir mu Pr q Dw 0%nat = 0 /\
  (forall k, (k < d)%nat -> calcAdiabaticWallFlux d dir mu Pr q Dw (S k) = rsum d (fun e => dir e * applyViscousScaling d e mu Pr q Dw (S k))) /\
  calcAdiabaticWallFlux d dir mu Pr q Dw (S d) = 0.
Proof. exact adiabatic_at_rest. Qed.
Print Assumptions C48_adiabatic_at_rest.
(** No-slip penalty: it removes entropy at a rate proportional to |u|^2, acts on momentum only, and vanishes
    exactly when the gas is at rest *)
Theorem C48_no_slip_penalty_rate :
  forall d dir Jac mu Pr qfs q rho u p rho0 u0 p0, 0 < rho -> 0 < p -> is_state d q rho u p ->
  0 < rho0 -> 0 < p0 -> is_state d qfs rho0 u0 p0 ->
  dot (d + 2) (calcEntropyVars d false q) (calcNoSlipPenaltyFlux d dir Jac mu Pr qfs q) =
  sqrt (dot d dir dir) / Jac * mu * (p0 / rho0) * (INR d + 1/3) * (rho / p * (rho / p)) * dot d u u.
Proof. exact noslip_entropy. Qed.
Print Assumptions C48_no_slip_penalty_rate.
Theorem C48_no_slip_penalty_dissipative :
  forall d dir Jac mu Pr qfs q, physical d q -> physical d qfs -> 0 < Jac -> 0 <= mu ->
  0 <= dot (d + 2) (calcEntropyVars d false q) (calcNoSlipPenaltyFlux d dir Jac mu Pr qfs q).
Proof.
  intros d dir Jac mu Pr qfs q (rho & u & p & Hr & Hp & H) (r0 & u0 & p0 & Hr0 & Hp0 & H0) HJ Hm.
  rewrite (noslip_entropy d dir Jac mu Pr qfs q rho u p r0 u0 p0) by assumption.
  pose proof (pos_INR d). pose proof (sqrt_pos (dot d dir dir)).
  assert (0 <= dot d u u) by (apply rsum_nonneg; intros; apply Rle_0_sqr).
  pose proof (Rdiv_lt_0_compat p0 r0 Hp0 Hr0). pose proof (Rdiv_lt_0_compat rho p Hr Hp).
  apply Rmult_le_pos; [|assumption]. apply Rmult_le_pos; [|apply Rle_0_sqr]. apply Rmult_le_pos; [|lra]. apply Rmult_le_pos; [|lra].
  apply Rmult_le_pos; [|exact Hm]. apply Rdiv_le_0_compat; assumption.
Qed.
Print Assumptions C48_no_slip_penalty_dissipative.
Theorem C48_no_slip_penalty_at_rest :
  forall d dir Jac mu Pr qfs q rho p, 0 < rho -> 0 < p -> is_state d q rho (fun _ => 0) p -> physical d qfs ->
  same d (calcNoSlipPenaltyFlux d dir Jac mu Pr qfs q) (fun _ => 0).
Proof. exact noslip_zero. Qed.
Print Assumptions C48_no_slip_penalty_at_rest.
(** Flow control penalty: acts on momentum only, proportional to the difference between the velocity and the
    control velocity uc along the unit normal *)
Theorem C48_control_penalty :
  forall d dir Jac mu Pr uc qfs q rho u p rho0 u0 p0, 0 < rho -> 0 < p -> is_state d q rho u p ->
  0 < rho0 -> 0 < p0 -> is_state d qfs rho0 u0 p0 -> forall f, f = calcControlPenaltyFlux d dir Jac mu Pr uc qfs q ->
  f 0%nat = 0 /\ f (S d) = 0 /\
  forall k, (k < d)%nat -> f (S k) = sqrt (dot d dir dir) / Jac * mu * (p0 / rho0) * (INR d + 1/3) * (rho / p) * (u k - uc * unit_of d dir k).
Proof. exact control_form. Qed.
Print Assumptions C48_control_penalty.
(** Dual consistency: the dual fluxes, tested with the gradients of the entropy variables, give minus the
    adiabatic wall flux tested with the momentum entropy variables *)
Theorem C48_dual_flux_is_transpose :
  forall d dir mu Pr q Dw, physical d q -> 0 < dot d dir dir ->
  rsum d (fun j => dot (d + 2) (col d j Dw) (calcNoSlipDualFlux d dir mu Pr q j)) =
  - dot (d + 2) (mk d 0 (fun e => calcEntropyVars d false q (S e)) 0) (calcAdiabaticWallFlux d dir mu Pr q Dw).
Proof. exact dual_identity. Qed.
Print Assumptions C48_dual_flux_is_transpose.
(** setZeroNormalDeriv removes the normal derivative of every variable and keeps the tangential ones *)
Theorem C48_zero_normal_derivative :
  forall d dir Dw s, 0 < dot d dir dir ->
  rsum d (fun i => setZeroNormalDeriv d dir Dw i s * dir i) = 0 /\
  (forall t, dot d t dir = 0 -> rsum d (fun i => setZeroNormalDeriv d dir Dw i s * t i) = rsum d (fun i => Dw (s + i * (d + 2))%nat * t i)).
Proof. exact zero_normal. Qed.
Print Assumptions C48_zero_normal_derivative.
(** a wall with a non-trivial normal and a moving gas *)
Example C48_case : physical 2 sample2 /\ physical 2 sample2' /\ 0 < dot 2 (fun i => INR i + 1) (fun i => INR i + 1).
Proof. split; [exact sample2_physical|]. split; [exact sample2'_physical|]. unfold dot. simpl. lra. Qed.
