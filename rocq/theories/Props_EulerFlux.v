(** C31-C36: numerical fluxes of the Euler equations.  Vocabulary in EulerSpec.v. *)
From Coq Require Import Reals Arith Lra Lia.
From Coquelicot Require Import Coquelicot.
From Verif Require Import Num Vec Euler EulerSpec EulerProofs EulerDeriv LogAvgProofs IsmailRoeProofs FluxProofs RoeProofs BoundaryProofs Props_Euler.
Local Open Scope R_scope.

(** the plain Euler flux *)
Theorem C31_euler_flux :
  forall d dir q rho u p, 0 < rho -> is_state d q rho u p -> euler_flux d dir rho u p (calcEulerFlux d dir q).
Proof. exact euler_flux_prim. Qed.
Print Assumptions C31_euler_flux.
(** Ismail-Roe, coordinate direction di *)
Theorem C31_coordinate_symmetric :
  forall d di qL qR, (di < d)%nat -> physical d qL -> physical d qR ->
  same d (calcIsmailRoeFlux d di qL qR) (calcIsmailRoeFlux d di qR qL).
Proof. exact di_sym. Qed.
Print Assumptions C31_coordinate_symmetric.
Theorem C31_coordinate_consistent :
  forall d di qL qR rho u p, (di < d)%nat -> 0 < rho -> 0 < p -> is_state d qL rho u p -> is_state d qR rho u p ->
  euler_flux d (unitv di) rho u p (calcIsmailRoeFlux d di qL qR).
Proof. exact di_consistent. Qed.
Print Assumptions C31_coordinate_consistent.
(** Tadmor's condition (wL - wR).f = psiL - psiR, psi = momentum along di: exact unless one of the two pairs
    sqrt(rho/p), sqrt(rho p) is unequal but within the series range of the logarithmic average; then off by at
    most a relative 1e-16 *)
Theorem C31_coordinate_tadmor :
  forall d di qL qR rhoL uL pL rhoR uR pR, (di < d)%nat -> 0 < rhoL -> 0 < pL -> 0 < rhoR -> 0 < pR ->
  is_state d qL rhoL uL pL -> is_state d qR rhoR uR pR ->
  let aL := sqrt (rhoL / pL) in let aR := sqrt (rhoR / pR) in let bL := sqrt (rhoL * pL) in let bR := sqrt (rhoR * pR) in
  let wL := calcEntropyVars d false qL in let wR := calcEntropyVars d false qR in
  let defect := dot (d + 2) (fun i => wL i - wR i) (calcIsmailRoeFlux d di qL qR) - (qL (S di) - qR (S di)) in
  Rabs defect <= 1 / 10 ^ 16 * (1/2 * Rabs (aL * uL di + aR * uR di) * (Rabs (bL - bR) + 6 * (Rmax bL bR / Rmin aL aR) * Rabs (aL - aR))) /\
  ((aL = aR \/ 1 / 1000 <= spread aL aR) -> (bL = bR \/ 1 / 1000 <= spread bL bR) -> defect = 0).
Proof. exact di_tadmor. Qed.
Print Assumptions C31_coordinate_tadmor.
(** the same for a face with normal [dir] *)
Theorem C31_face_symmetric :
  forall d dir qL qR, physical d qL -> physical d qR ->
  same d (calcIsmailRoeFaceFlux d dir qL qR) (calcIsmailRoeFaceFlux d dir qR qL).
Proof. exact face_sym. Qed.
Print Assumptions C31_face_symmetric.
Theorem C31_face_consistent :
  forall d dir qL qR rho u p, 0 < rho -> 0 < p -> is_state d qL rho u p -> is_state d qR rho u p ->
  euler_flux d dir rho u p (calcIsmailRoeFaceFlux d dir qL qR).
Proof. exact face_consistent. Qed.
Print Assumptions C31_face_consistent.
Theorem C31_face_tadmor :
  forall d dir qL qR rhoL uL pL rhoR uR pR, 0 < rhoL -> 0 < pL -> 0 < rhoR -> 0 < pR ->
  is_state d qL rhoL uL pL -> is_state d qR rhoR uR pR ->
  let aL := sqrt (rhoL / pL) in let aR := sqrt (rhoR / pR) in let bL := sqrt (rhoL * pL) in let bR := sqrt (rhoR * pR) in
  let wL := calcEntropyVars d false qL in let wR := calcEntropyVars d false qR in
  let defect := dot (d + 2) (fun i => wL i - wR i) (calcIsmailRoeFaceFlux d dir qL qR) - (dot d (mom qL) dir - dot d (mom qR) dir) in
  Rabs defect <= 1 / 10 ^ 16 * (1/2 * Rabs (aL * dot d uL dir + aR * dot d uR dir) * (Rabs (bL - bR) + 6 * (Rmax bL bR / Rmin aL aR) * Rabs (aL - aR))) /\
  ((aL = aR \/ 1 / 1000 <= spread aL aR) -> (bL = bR \/ 1 / 1000 <= spread bL bR) -> defect = 0).
Proof. exact face_tadmor. Qed.
Print Assumptions C31_face_tadmor.
(** the face flux is the normal combination of the coordinate fluxes; the entropy-variable versions agree *)
Theorem C31_face_is_combination :
  forall d dir qL qR k, (k < d + 2)%nat ->
  calcIsmailRoeFaceFlux d dir qL qR k = rsum d (fun i => dir i * calcIsmailRoeFlux d i qL qR k).
Proof. exact face_combination. Qed.
Print Assumptions C31_face_is_combination.
Theorem C31_entropy_variable_versions :
  forall d dir di qL qR, (di < d)%nat -> physical d qL -> physical d qR ->
  let wL := calcEntropyVars d false qL in let wR := calcEntropyVars d false qR in
  same d (calcIsmailRoeFluxUsingEntVars d di wL wR) (calcIsmailRoeFlux d di qL qR) /\
  same d (calcIsmailRoeFaceFluxUsingEntVars d dir wL wR) (calcIsmailRoeFaceFlux d dir qL qR).
Proof. intros d dir di qL qR Hd A B. split; [exact (di_ent_agree d di qL qR Hd A B)|exact (face_ent_agree d dir qL qR A B)]. Qed.
Print Assumptions C31_entropy_variable_versions.
(** the two sample states meet the exactness condition: sqrt(2/3) vs 1, sqrt 6 vs 1 *)
Example C31_exact_case : 1 / 1000 <= spread (sqrt (2 / 3)) (sqrt (1 / 1)) /\ 1 / 1000 <= spread (sqrt (2 * 3)) (sqrt (1 * 1)).
Proof.
  replace (1 / 1) with 1 by field. replace (1 * 1) with 1 by ring. rewrite sqrt_1.
  assert (A : sqrt (2/3) <= 9/10). { rewrite <- (sqrt_square (9/10)) by lra. apply sqrt_le_1_alt. lra. }
  assert (B : 2 <= sqrt (2 * 3)). { rewrite <- (sqrt_square 2) at 1 by lra. apply sqrt_le_1_alt. lra. }
  pose proof (sqrt_pos (2/3)). set (x := sqrt (2/3)) in *. set (y := sqrt (2*3)) in *.
  assert (G : forall f, 1/20 <= f \/ f <= -1/20 -> 1/1000 <= f * f) by (intros f [K|K]; nra). unfold spread. split; apply G.
  - right. apply (Rmult_le_reg_r (x + 1)); [lra|]. unfold Rdiv at 1. rewrite Rmult_assoc, Rinv_l by lra. lra.
  - left. apply (Rmult_le_reg_r (y + 1)); [lra|]. unfold Rdiv at 2. rewrite Rmult_assoc, Rinv_l by lra. lra.
Qed.

(** dq/dw: derivative of the conservative by the entropy variables, symmetric, positive definite *)
Theorem C32_dqdw_is_derivative :
  forall d w v i, w (S d) < 0 -> (i < d + 2)%nat ->
  is_derive (fun s => calcConservativeVars d true (axpy w s v) i) 0 (calcdQdWProduct d (calcConservativeVars d true w) v i).
Proof. exact dqdw_derive. Qed.
Print Assumptions C32_dqdw_is_derivative.
Theorem C32_dqdw_symmetric :
  forall d q v w, physical d q -> dot (d + 2) w (calcdQdWProduct d q v) = dot (d + 2) v (calcdQdWProduct d q w).
Proof. exact dqdw_symmetric. Qed.
Print Assumptions C32_dqdw_symmetric.
Theorem C32_dqdw_positive_definite :
  forall d q v, physical d q ->
  0 <= dot (d + 2) v (calcdQdWProduct d q v) /\ (dot (d + 2) v (calcdQdWProduct d q v) = 0 -> same d v (fun _ => 0)).
Proof. intros d q v H. split; [exact (dqdw_nonneg d q v H)|exact (dqdw_definite d q v H)]. Qed.
Print Assumptions C32_dqdw_positive_definite.
(** the dissipation only adds to (wL - wR).f, strictly so unless the states coincide *)
Theorem C32_dissipation_signed :
  forall d dir c qL qR, physical d qL -> physical d qR -> 0 <= c ->
  let dw := fun i => calcEntropyVars d false qL i - calcEntropyVars d false qR i in
  dot (d + 2) dw (calcIsmailRoeFaceFlux d dir qL qR) <= dot (d + 2) dw (calcIsmailRoeFaceFluxWithDiss d dir c qL qR) /\
  (0 < c -> 0 < dot d dir dir ->
   dot (d + 2) dw (calcIsmailRoeFaceFlux d dir qL qR) = dot (d + 2) dw (calcIsmailRoeFaceFluxWithDiss d dir c qL qR) -> same d qL qR).
Proof.
  intros d dir c qL qR HL HR Hc. cbv zeta.
  destruct (diss_dot d dir c qL qR (calcEntropyVars d false qL) (calcEntropyVars d false qR) (calcIsmailRoeFaceFlux d dir qL qR) HL HR Hc) as (A & B).
  split; [exact A|]. intros Hc' Hd E. pose proof (B Hc' Hd E) as S. apply (same_trans d _ (calcConservativeVars d true (calcEntropyVars d false qL))); [apply same_sym, cons_of_ent, HL|].
  apply (same_trans d _ (calcConservativeVars d true (calcEntropyVars d false qR))); [|apply cons_of_ent, HR].
  pose proof HL as (rho & u & p & Hr & Hp & H). pose proof (entvars_prim d qL rho u p Hr Hp H) as EL.
  assert (ER : ent_of d (calcEntropyVars d false qR) rho u p).
  { destruct EL as (E0 & E1 & E2). repeat split; [rewrite <- (same_0 d _ _ S); exact E0| |rewrite <- (same_E d _ _ S); exact E2]. intros i Hi. rewrite <- (same_S d _ _ i S Hi). exact (E1 i Hi). }
  apply (state_unique d _ _ rho u p); apply cons_prim; assumption.
Qed.
Print Assumptions C32_dissipation_signed.
Theorem C32_dissipation_vanishes :
  forall d dir c qL qR rho u p, 0 < rho -> 0 < p -> is_state d qL rho u p -> is_state d qR rho u p ->
  euler_flux d dir rho u p (calcIsmailRoeFaceFluxWithDiss d dir c qL qR).
Proof.
  intros d dir c qL qR rho u p Hr Hp SL SR. unfold calcIsmailRoeFaceFluxWithDiss.
  eapply euler_flux_transport; [apply add_diss_equal|apply face_consistent; eassumption].
  apply (ent_unique d _ _ rho u p); apply entvars_prim; assumption.
Qed.
Print Assumptions C32_dissipation_vanishes.
(** the entropy-variable version: same sign, and the same flux as from conservative variables *)
Theorem C32_dissipation_entropy_variables :
  forall d dir c wL wR, wL (S d) < 0 -> wR (S d) < 0 -> 0 <= c ->
  let dw := fun i => wL i - wR i in
  dot (d + 2) dw (calcIsmailRoeFaceFluxUsingEntVars d dir wL wR) <= dot (d + 2) dw (calcIsmailRoeFaceFluxWithDissUsingEntVars d dir c wL wR).
Proof.
  intros d dir c wL wR HL HR Hc. cbv zeta.
  exact (proj1 (diss_dot d dir c _ _ wL wR _ (proj1 (ent_of_cons d wL HL)) (proj1 (ent_of_cons d wR HR)) Hc)).
Qed.
Print Assumptions C32_dissipation_entropy_variables.
Theorem C32_dissipation_versions_agree :
  forall d dir c qL qR, physical d qL -> physical d qR ->
  same d (calcIsmailRoeFaceFluxWithDissUsingEntVars d dir c (calcEntropyVars d false qL) (calcEntropyVars d false qR)) (calcIsmailRoeFaceFluxWithDiss d dir c qL qR).
Proof. intros d dir c qL qR HL HR. apply add_diss_same; [apply cons_of_ent, HL|apply cons_of_ent, HR|apply face_ent_agree; assumption]. Qed.
Print Assumptions C32_dissipation_versions_agree.
(** the local-projection stabilisation scaling is positive semi-definite, in either set of variables *)
Theorem C32_lps_scaling :
  forall d adjJ q v, physical d q -> 0 <= dot (d + 2) v (applyLPSScaling d adjJ q v) /\
  same d (applyLPSScalingUsingEntVars d adjJ (calcEntropyVars d false q) v) (applyLPSScaling d adjJ q v).
Proof. intros d adjJ q v H. split; [exact (lps_nonneg d adjJ q v H)|exact (lps_ent d adjJ q v H)]. Qed.
Print Assumptions C32_lps_scaling.

(** Roe flux *)
Theorem C33_roe_consistent :
  forall d dir qL qR rho u p, 0 < rho -> is_state d qL rho u p -> is_state d qR rho u p ->
  euler_flux d dir rho u p (calcRoeFaceFlux d dir qL qR).
Proof. exact roe_consistent. Qed.
Print Assumptions C33_roe_consistent.
Theorem C33_roe_conservative :
  forall d dir qL qR, same d (calcRoeFaceFlux d (fun i => - dir i) qR qL) (fun k => - calcRoeFaceFlux d dir qL qR k).
Proof. exact roe_conservative. Qed.
Print Assumptions C33_roe_conservative.
(** the averaged state is well defined: sqrt(rho)-weighted averages of velocity and enthalpy, whose sound speed
    squared is positive, so no root of a negative number and no division by zero *)
Theorem C33_roe_average :
  forall d qL qR rL uL pL rR uR pR, 0 < rL -> 0 < pL -> 0 < rR -> 0 < pR -> is_state d qL rL uL pL -> is_state d qR rR uR pR ->
  (forall i, (i < d)%nat -> roe_u qL qR i = (sqrt rL * uL i + sqrt rR * uR i) / (sqrt rL + sqrt rR)) /\
  roe_H d qL qR = (sqrt rL * enthalpy d rL uL pL + sqrt rR * enthalpy d rR uR pR) / (sqrt rL + sqrt rR) /\
  0 < roe_H d qL qR - 1/2 * dot d (roe_u qL qR) (roe_u qL qR).
Proof.
  intros d qL qR rL uL pL rR uR pR A B C D SL SR. split; [|split].
  - intros i Hi. exact (roe_u_prim d qL qR rL uL pL rR uR pR i A C SL SR Hi).
  - exact (roe_H_prim d qL qR rL uL pL rR uR pR A C SL SR).
  - apply roe_sound_pos; [exists rL, uL, pL|exists rR, uR, pR]; auto.
Qed.
Print Assumptions C33_roe_average.
(** the jump qL - qR is split into acoustic waves and a convected part about the Roe average (always possible);
    each part is upwinded by half its wave speed, floored at 0.025 of the spectral radius *)
Theorem C33_roe_waves :
  forall d dir qL qR, physical d qL -> physical d qR -> 0 < dot d dir dir ->
  let u := roe_u qL qR in let H := roe_H d qL qR in let a := sqrt (2/5 * (H - 1/2 * dot d u u)) in
  let Un := dot d dir u in let c := sqrt (dot d dir dir) * a in
  let lam := fun l => 1/2 * Rmax (Rabs l) (25/1000 * (Rabs Un + c)) in
  (exists c1 c2 t, waves d (unit_of d dir) u H a c1 c2 t (fun i => qL i - qR i)) /\
  forall c1 c2 t, waves d (unit_of d dir) u H a c1 c2 t (fun i => qL i - qR i) ->
  scaled_waves d (unit_of d dir) u H a c1 c2 (lam (Un + c)) (lam (Un - c)) (lam Un) t
    (fun k => calcRoeFaceFlux d dir qL qR k - 1/2 * (calcEulerFlux d dir qL k + calcEulerFlux d dir qR k)).
Proof.
  intros d dir qL qR HL HR Hd. cbv zeta. destruct (roe_a_pos d qL qR HL HR) as (Pa & AA). split.
  - exact (waves_exist d dir _ _ _ _ Pa Hd AA).
  - intros c1 c2 t W. pose proof (upw_waves d dir _ _ _ (efix (dot d dir (roe_u qL qR) + sqrt (dot d dir dir) * roe_a d qL qR) (Rabs (dot d dir (roe_u qL qR)) + sqrt (dot d dir dir) * roe_a d qL qR))
      (efix (dot d dir (roe_u qL qR) - sqrt (dot d dir dir) * roe_a d qL qR) (Rabs (dot d dir (roe_u qL qR)) + sqrt (dot d dir dir) * roe_a d qL qR))
      (efix (dot d dir (roe_u qL qR)) (Rabs (dot d dir (roe_u qL qR)) + sqrt (dot d dir dir) * roe_a d qL qR)) c1 c2 t _ Pa Hd AA W) as (S0 & S1 & SE).
    pose proof (roe_split d dir qL qR) as RS. cbv zeta in RS. split; [|split].
    + rewrite (RS 0%nat ltac:(lia)). etransitivity; [|exact S0]. ring.
    + intros i Hi. rewrite (RS (S i) ltac:(lia)). etransitivity; [|exact (S1 i Hi)]. ring.
    + rewrite (RS (S d) ltac:(lia)). etransitivity; [|exact SE]. ring.
Qed.
Print Assumptions C33_roe_waves.
(** supersonic faces (beyond the entropy fix) take the upstream Euler flux *)
Theorem C33_roe_supersonic :
  forall d dir qL qR, physical d qL -> physical d qR -> 0 < dot d dir dir ->
  let u := roe_u qL qR in let c := sqrt (dot d dir dir) * sqrt (2/5 * (roe_H d qL qR - 1/2 * dot d u u)) in
  25 / 1000 * (dot d dir u + c) <= dot d dir u - c ->
  same d (calcRoeFaceFlux d dir qL qR) (calcEulerFlux d dir qL).
Proof. exact roe_supersonic. Qed.
Print Assumptions C33_roe_supersonic.

(** characteristic boundary flux *)
Theorem C34_boundary_consistent :
  forall d dir qbnd q rho u p, 0 < rho -> 0 < p -> is_state d qbnd rho u p -> is_state d q rho u p ->
  euler_flux d dir rho u p (calcBoundaryFlux d dir qbnd q).
Proof. exact bnd_consistent. Qed.
Print Assumptions C34_boundary_consistent.
(** the perturbation q - qbnd is split into waves about the boundary state; incoming parts (negative speed) are
    removed from the interior Euler flux, outgoing ones left *)
Theorem C34_boundary_characteristic :
  forall d dir qbnd q rho u p, 0 < rho -> 0 < p -> is_state d qbnd rho u p -> 0 < dot d dir dir ->
  let H := enthalpy d rho u p in let a := sound rho p in let Un := dot d u dir in let c := sqrt (dot d dir dir) * a in
  let incoming := fun l => 1/2 * (Rabs l - l) in
  (exists c1 c2 t, waves d (unit_of d dir) u H a c1 c2 t (fun i => q i - qbnd i)) /\
  forall c1 c2 t, waves d (unit_of d dir) u H a c1 c2 t (fun i => q i - qbnd i) ->
  scaled_waves d (unit_of d dir) u H a c1 c2 (incoming (Un + c)) (incoming (Un - c)) (incoming Un) t
    (fun k => calcBoundaryFlux d dir qbnd q k - calcEulerFlux d dir q k).
Proof.
  intros d dir qbnd q rho u p Hr Hp SB Hd. cbv zeta. destruct (sound_pos d rho u p Hr Hp) as (Pa & AA). split.
  - exact (waves_exist d dir _ _ _ _ Pa Hd AA).
  - intros c1 c2 t W. pose proof (upw_waves d dir _ _ _ (neg (dot d u dir + sqrt (dot d dir dir) * sound rho p)) (neg (dot d u dir - sqrt (dot d dir dir) * sound rho p)) (neg (dot d u dir)) c1 c2 t _ Pa Hd AA W) as (S0 & S1 & SE).
    pose proof (bnd_split d dir qbnd q rho u p Hr Hp SB) as RS. cbv zeta in RS. split; [|split].
    + rewrite (RS 0%nat ltac:(lia)). etransitivity; [|exact S0]. ring.
    + intros i Hi. rewrite (RS (S i) ltac:(lia)). etransitivity; [|exact (S1 i Hi)]. ring.
    + rewrite (RS (S d) ltac:(lia)). etransitivity; [|exact SE]. ring.
Qed.
Print Assumptions C34_boundary_characteristic.
Theorem C34_supersonic_outflow :
  forall d dir qbnd q rho u p, 0 < rho -> 0 < p -> is_state d qbnd rho u p -> sqrt (dot d dir dir) * sound rho p <= dot d u dir ->
  same d (calcBoundaryFlux d dir qbnd q) (calcEulerFlux d dir q).
Proof. exact bnd_outflow. Qed.
Print Assumptions C34_supersonic_outflow.
(** supersonic inflow: the interior flux linearised back to the boundary state, f(q) - f'(qbnd)(q - qbnd) *)
Theorem C34_supersonic_inflow :
  forall d dir qbnd q rho u p, 0 < rho -> 0 < p -> is_state d qbnd rho u p -> 0 < dot d dir dir ->
  dot d u dir <= - (sqrt (dot d dir dir) * sound rho p) -> forall k, (k < d + 2)%nat ->
  is_derive (fun s => calcEulerFlux d dir (axpy qbnd s (fun i => q i - qbnd i)) k) 0
    (calcEulerFlux d dir q k - calcBoundaryFlux d dir qbnd q k).
Proof.
  intros d dir qbnd q rho u p Hr Hp SB Hd C k Hk. rewrite (bnd_inflow d dir qbnd q rho u p Hr Hp SB Hd C k Hk).
  replace (calcEulerFlux d dir q k - (calcEulerFlux d dir q k - jac_dir d dir u (enthalpy d rho u p) (fun i => q i - qbnd i) k)) with (jac_dir d dir u (enthalpy d rho u p) (fun i => q i - qbnd i) k) by ring.
  exact (euler_derive d dir qbnd _ rho u p Hr SB k Hk).
Qed.
Print Assumptions C34_supersonic_inflow.
(** entropy-constrained flux: w.f = psi + requested entropy flux; control flux: w.f = psi - v |n| entropy *)
Theorem C34_entropy_constrained :
  forall d dir qbnd q e, physical d q ->
  dot (d + 2) (calcEntropyVars d false q) (calcBoundaryFluxEC d dir qbnd q e) = dot d (mom q) dir + e.
Proof. exact bndEC. Qed.
Print Assumptions C34_entropy_constrained.
Theorem C34_control_flux :
  forall d dir q v, physical d q ->
  dot (d + 2) (calcEntropyVars d false q) (calcControlFlux d dir q v) = dot d (mom q) dir - v * sqrt (dot d dir dir) * entropy d false q.
Proof. exact control_entropy. Qed.
Print Assumptions C34_control_flux.
(** far field: either set of interior variables; second variant consistent and upwinded on the boundary velocity *)
Theorem C34_far_field_versions_agree :
  forall d dir qbnd q, physical d q ->
  same d (calcFarFieldFlux d true dir qbnd (calcEntropyVars d false q)) (calcFarFieldFlux d false dir qbnd q).
Proof. exact farfield_ent. Qed.
Print Assumptions C34_far_field_versions_agree.
Theorem C34_far_field2_consistent :
  forall d dir qbnd q rho u p, 0 < rho -> is_state d qbnd rho u p -> is_state d q rho u p ->
  euler_flux d dir rho u p (calcFarFieldFlux2 d dir qbnd q).
Proof. exact farfield2_consistent. Qed.
Print Assumptions C34_far_field2_consistent.
Theorem C34_far_field2_upwind :
  forall d dir qbnd q, 0 < qbnd 0%nat -> let U := dot d dir (mom qbnd) / qbnd 0%nat in
  (0 <= dot d dir (mom qbnd) -> same d (calcFarFieldFlux2 d dir qbnd q) (mk d (U * q 0%nat) (fun i => U * q (S i) + dir i * pressure d q) (U * (q (S d) + pressure d q)))) /\
  (dot d dir (mom qbnd) <= 0 -> same d (calcFarFieldFlux2 d dir qbnd q) (mk d (U * qbnd 0%nat) (fun i => U * qbnd (S i) + dir i * pressure d q) (U * (qbnd (S d) + pressure d qbnd)))).
Proof. intros d dir qbnd q H. cbv zeta. split; intros K; [exact (farfield2_outflow d dir qbnd q H K)|exact (farfield2_inflow d dir qbnd q H K)]. Qed.
Print Assumptions C34_far_field2_upwind.

(** walls *)
Theorem C35_projection :
  forall d dir q, 0 < dot d dir dir -> let r := projectStateOntoWall d dir q in
  r 0%nat = q 0%nat /\ r (S d) = q (S d) /\ dot d dir (mom r) = 0 /\
  (forall t, dot d dir t = 0 -> dot d t (mom r) = dot d t (mom q)) /\ same d (projectStateOntoWall d dir r) r.
Proof. intros d dir q H. destruct (wall_props d dir q H) as (A & B & C & D & E & _). repeat split; assumption. Qed.
Print Assumptions C35_projection.
(** since the energy is kept, the kinetic energy of the removed normal motion reappears as pressure *)
Theorem C35_projection_raises_pressure :
  forall d dir q rho u p, 0 < rho -> is_state d q rho u p -> 0 < dot d dir dir ->
  pressure d (projectStateOntoWall d dir q) = p + 2/5 * (1/2 * rho * (dot d dir u * dot d dir u / dot d dir dir)).
Proof.
  intros d dir q rho u p Hr H Hd. destruct (wall_props d dir q Hd) as (A & B & _ & _ & _ & F). unfold pressure. rewrite A, B, F.
  rewrite (dot_comm d dir (mom q)), (state_mom d q rho u p dir H), (state_mom2 d q rho u p H), (dot_comm d u dir). destruct H as (-> & _ & ->). unfold gami. field. split; lra.
Qed.
Print Assumptions C35_projection_raises_pressure.
Theorem C35_slip_wall_flux :
  forall d dir q rho u p, 0 < rho -> is_state d q rho u p ->
  same d (calcSlipWallFlux d false dir q) (mk d 0 (fun i => p * dir i) 0).
Proof. exact slip_prim. Qed.
Print Assumptions C35_slip_wall_flux.
Theorem C35_slip_wall_versions_agree :
  forall d dir q, physical d q -> same d (calcSlipWallFlux d true dir (calcEntropyVars d false q)) (calcSlipWallFlux d false dir q).
Proof. exact slip_agree. Qed.
Print Assumptions C35_slip_wall_versions_agree.
(** the wall neither creates nor destroys entropy *)
Theorem C35_slip_wall_entropy :
  forall d dir q, physical d q -> dot (d + 2) (calcEntropyVars d false q) (calcSlipWallFlux d false dir q) = dot d (mom q) dir.
Proof. exact slip_entropy. Qed.
Print Assumptions C35_slip_wall_entropy.

(** free stream: unit density, pressure 1/gamma = 5/7 (so unit sound speed), velocity of length |Mach| *)
Theorem C36_free_stream_1d :
  forall mach aoa iroll ipitch, is_state 1 (getFreeStreamQ 1 mach aoa iroll ipitch) 1 (fun _ => mach) (5/7).
Proof. exact fs_1d. Qed.
Print Assumptions C36_free_stream_1d.
Theorem C36_free_stream :
  forall d mach aoa iroll ipitch, (2 <= d)%nat -> (iroll < d)%nat -> (ipitch < d)%nat -> iroll <> ipitch ->
  let u := fun i => if Nat.eqb i iroll then mach * cos aoa else if Nat.eqb i ipitch then mach * sin aoa else 0 in
  is_state d (getFreeStreamQ d mach aoa iroll ipitch) 1 u (5/7) /\ dot d u u = mach * mach /\ sound 1 (5/7) = 1.
Proof.
  intros d M aoa ir ip A B C D. cbv zeta. destruct (fs_nd d M aoa ir ip A B C D) as (X & Y). split; [exact X|]. split; [exact Y|].
  unfold sound. replace (7 / 5 * (5 / 7) / 1) with 1 by field. apply sqrt_1.
Qed.
Print Assumptions C36_free_stream.
(** with the roll and pitch axes equal (nothing checks this) the Mach number is not the requested one *)
Theorem C36_equal_axes_refuted :
  exists u p, is_state 2 (getFreeStreamQ 2 1 0 0 0) 1 u p /\ dot 2 u u = 0 /\ p = 32/35.
Proof.
  exists (fun _ => 0), (32/35). unfold is_state, getFreeStreamQ, dot, gamma, gami. cbn. rewrite sin_0. repeat split; try lra. intros i Hi. destruct i as [|[|i]]; cbn; try lra; lia.
Qed.
Print Assumptions C36_equal_axes_refuted.
