(** Proofs about the Ismail-Roe flux family (euler_fluxes.hpp:364-576). *)
From Coq Require Import Reals Arith Lra Lia Psatz.
From Verif Require Import Num Vec Euler EulerSpec EulerProofs LogAvgProofs.
Local Open Scope R_scope.

(** the parameter vector of a state *)
Definition z_of (d : nat) (z : vec) (rho : R) (u : vec) (p : R) : Prop :=
  z 0%nat = sqrt (rho / p) /\ (forall i, (i < d)%nat -> z (S i) = sqrt (rho / p) * u i) /\ z (S d) = sqrt (rho * p).
Lemma zcons_of d q rho u p : 0 < rho -> 0 < p -> is_state d q rho u p -> z_of d (zcons d q) rho u p.
Proof.
  intros Hr Hp H. assert (Hr' : rho <> 0) by lra. unfold zcons. rewrite (state_pressure d q rho u p Hr' H).
  pose proof (fun i => state_vel d q rho u p i Hr' H) as V.
  repeat split.
  - rewrite mk_0. destruct H as (-> & _). reflexivity.
  - intros i Hi. rewrite mk_S by exact Hi. unfold Rdiv at 1. rewrite Rmult_assoc. change (q (S i) * / q 0%nat) with (q (S i) / q 0%nat).
    rewrite V by exact Hi. destruct H as (-> & _). reflexivity.
  - rewrite mk_E. destruct H as (-> & _). reflexivity.
Qed.
Lemma sqrt_parts rho p : 0 < rho -> 0 < p ->
  0 < sqrt (rho / p) /\ 0 < sqrt (rho * p) /\ sqrt (rho / p) * sqrt (rho * p) = rho /\ sqrt (rho / p) * sqrt (rho / p) = rho / p /\
  sqrt (rho * p) / sqrt (rho / p) = p.
Proof.
  intros Hr Hp. assert (A : 0 < rho / p) by (apply Rdiv_lt_0_compat; assumption). assert (B : 0 < rho * p) by nra.
  pose proof (sqrt_lt_R0 _ A). pose proof (sqrt_lt_R0 _ B).
  assert (P : sqrt (rho / p) * sqrt (rho * p) = rho).
  { rewrite <- sqrt_mult by lra. replace (rho / p * (rho * p)) with (rho * rho) by (field; lra). apply sqrt_square. lra. }
  assert (Q : sqrt (rho / p) * sqrt (rho / p) = rho / p) by (apply sqrt_sqrt; lra).
  repeat split; try assumption.
  replace (sqrt (rho * p) / sqrt (rho / p)) with ((sqrt (rho / p) * sqrt (rho * p)) / (sqrt (rho / p) * sqrt (rho / p))) by (field; lra).
  rewrite P, Q. field. lra.
Qed.
Lemma zent_of d w rho u p : 0 < rho -> 0 < p -> ent_of d w rho u p -> z_of d (zent d w) rho u p.
Proof.
  intros Hr Hp (W0 & W1 & W2). pose proof (sqrt_parts rho p Hr Hp) as (A & B & AB & AA & BA).
  assert (HV : rsum d (fun i => w (S i) * w (S i)) = rho * rho / (p * p) * dot d u u).
  { unfold dot. rewrite <- rsum_scal. apply rsum_ext. intros i Hi. rewrite W1 by exact Hi. field. lra. }
  assert (HS : gamma + gami * (1/2 * rsum d (fun i => w (S i) * w (S i)) / w (S d) - w 0%nat) = thermo rho p).
  { rewrite HV, W0, W2. unfold gamma, gami. field. lra. }
  assert (HQ : Rpower (- exp (- thermo rho p) / w (S d)) (1 / gami) = rho).
  { rewrite <- (rho_recover rho p) at 2 by assumption. f_equal. rewrite W2. field. lra. }
  assert (N : - w (S d) = rho / p) by (rewrite W2; field; lra).
  unfold zent. cbv zeta. rewrite HS, HQ, N. repeat split.
  - intros i Hi. rewrite mk_S by exact Hi. rewrite W1 by exact Hi. rewrite W2. field. lra.
  - rewrite mk_E. rewrite <- AB at 1. field. lra.
Qed.
Lemma z_same d z z' rho u p : z_of d z rho u p -> z_of d z' rho u p -> same d z z'.
Proof. intros (A0 & A1 & A2) (B0 & B1 & B2). apply same_intro; [lra| |lra]. intros i Hi. rewrite A1, B1 by exact Hi. reflexivity. Qed.
Lemma z_pos d z rho u p : 0 < rho -> 0 < p -> z_of d z rho u p -> 0 < z 0%nat /\ 0 < z (S d).
Proof. intros Hr Hp (-> & _ & ->). pose proof (sqrt_parts rho p Hr Hp). tauto. Qed.

(** ** the flux as a function of the two parameter vectors *)
Lemma ir_rho_same d z z' y y' : same d z z' -> same d y y' -> ir_rho d z y = ir_rho d z' y'.
Proof. intros A B. unfold ir_rho. rewrite (same_0 d z z' A), (same_0 d y y' B), (same_E d z z' A), (same_E d y y' B). reflexivity. Qed.
Lemma ir_p1_same d z z' y y' : same d z z' -> same d y y' -> ir_p1 d z y = ir_p1 d z' y'.
Proof. intros A B. unfold ir_p1. rewrite (same_0 d z z' A), (same_0 d y y' B), (same_E d z z' A), (same_E d y y' B). reflexivity. Qed.
Lemma ir_u_same d z z' y y' i : same d z z' -> same d y y' -> (i < d)%nat -> ir_u z y i = ir_u z' y' i.
Proof. intros A B Hi. unfold ir_u. rewrite (same_0 d z z' A), (same_0 d y y' B), (same_S d z z' i A Hi), (same_S d y y' i B Hi). reflexivity. Qed.
Lemma ir_h_same d z z' y y' : same d z z' -> same d y y' -> ir_h d z y = ir_h d z' y'.
Proof.
  intros A B. unfold ir_h. cbv zeta. rewrite (ir_rho_same d z z' y y' A B), (same_0 d z z' A), (same_0 d y y' B), (same_E d z z' A), (same_E d y y' B).
  f_equal. apply rsum_ext. intros i Hi. rewrite (ir_u_same d z z' y y' i A B Hi). reflexivity.
Qed.
Lemma ir_dir_same d dir z z' y y' U U' : same d z z' -> same d y y' -> U = U' -> same d (ir_flux_dir d dir z y U) (ir_flux_dir d dir z' y' U').
Proof.
  intros A B <-. unfold ir_flux_dir. cbv zeta. rewrite (ir_rho_same d z z' y y' A B), (ir_h_same d z z' y y' A B), (ir_p1_same d z z' y y' A B).
  apply same_intro; [reflexivity| |rewrite !mk_E; reflexivity]. intros i Hi. rewrite !mk_S by exact Hi. rewrite (ir_u_same d z z' y y' i A B Hi). reflexivity.
Qed.
Lemma ir_di_same d di z z' y y' : (di < d)%nat -> same d z z' -> same d y y' -> same d (ir_flux_di d di z y) (ir_flux_di d di z' y').
Proof.
  intros Hd A B. unfold ir_flux_di. cbv zeta. rewrite (ir_rho_same d z z' y y' A B), (ir_h_same d z z' y y' A B), (ir_p1_same d z z' y y' A B), (ir_u_same d z z' y y' di A B Hd).
  apply same_intro; [reflexivity| |rewrite !mk_E; reflexivity]. intros i Hi. rewrite !mk_S by exact Hi. rewrite (ir_u_same d z z' y y' i A B Hi). reflexivity.
Qed.
Definition ir_Un (d : nat) (dir zL zR : vec) : R := dot d (ir_u zL zR) dir.
Lemma face_zflux d dir qL qR : same d (calcIsmailRoeFaceFlux d dir qL qR) (ir_flux_dir d dir (zcons d qL) (zcons d qR) (ir_Un d dir (zcons d qL) (zcons d qR))).
Proof.
  unfold calcIsmailRoeFaceFlux. cbv zeta. apply ir_dir_same; try (intros i _; reflexivity).
  apply rsum_ext. intros i Hi. unfold ir_u. unfold zcons at 5 6. cbv zeta. rewrite !mk_S by exact Hi. unfold zcons. cbv zeta. rewrite !mk_0. unfold Rdiv. ring.
Qed.
Lemma face_ent_zflux d dir wL wR : same d (calcIsmailRoeFaceFluxUsingEntVars d dir wL wR) (ir_flux_dir d dir (zent d wL) (zent d wR) (ir_Un d dir (zent d wL) (zent d wR))).
Proof.
  unfold calcIsmailRoeFaceFluxUsingEntVars. cbv zeta. apply ir_dir_same; try (intros i _; reflexivity).
  apply rsum_ext. intros i Hi. unfold ir_u, Rdiv. ring.
Qed.
Lemma dot_unit d di v : (di < d)%nat -> dot d v (unitv di) = v di.
Proof.
  intros H. unfold dot, unitv. rewrite <- (rsum_delta d v di H). apply rsum_ext. intros i Hi. destruct (Nat.eqb i di); ring.
Qed.
Lemma di_zflux d di zL zR : (di < d)%nat -> same d (ir_flux_di d di zL zR) (ir_flux_dir d (unitv di) zL zR (ir_Un d (unitv di) zL zR)).
Proof.
  intros H. unfold ir_flux_di, ir_flux_dir, ir_Un. cbv zeta. rewrite dot_unit by exact H.
  apply same_intro; [reflexivity| |rewrite !mk_E; reflexivity]. intros i Hi. rewrite !mk_S by exact Hi. unfold unitv. destruct (Nat.eqb i di); ring.
Qed.
(** the face flux is the normal combination of the coordinate fluxes *)
Lemma dir_combination d dir zL zR : forall k, (k < d + 2)%nat ->
  ir_flux_dir d dir zL zR (ir_Un d dir zL zR) k = rsum d (fun i => dir i * ir_flux_di d i zL zR k).
Proof.
  assert (S0 : forall c, rsum d (fun i => dir i * (c * ir_u zL zR i)) = c * ir_Un d dir zL zR).
  { intros c. unfold ir_Un, dot. rewrite <- rsum_scal. apply rsum_ext. intros; ring. }
  apply same_intro; unfold ir_flux_dir, ir_flux_di; cbv zeta.
  - rewrite mk_0. rewrite <- S0. apply rsum_ext. intros; reflexivity.
  - intros j Hj. rewrite mk_S by exact Hj.
    rewrite (rsum_ext d _ (fun i => dir i * (ir_u zL zR j * ir_rho d zL zR * ir_u zL zR i) + (if Nat.eqb i j then dir i * ir_p1 d zL zR else 0))).
    2:{ intros i Hi. rewrite mk_S by exact Hj. rewrite (Nat.eqb_sym j i). destruct (Nat.eqb i j); ring. }
    rewrite rsum_plus, S0, (rsum_delta d (fun i => dir i * ir_p1 d zL zR) j Hj). ring.
  - rewrite mk_E. rewrite <- S0. apply rsum_ext. intros. rewrite mk_E. ring.
Qed.

(** ** symmetry *)
Lemma zflux_sym d dir zL zR : 0 < zL 0%nat -> 0 < zR 0%nat -> 0 < zL (S d) -> 0 < zR (S d) ->
  same d (ir_flux_dir d dir zL zR (ir_Un d dir zL zR)) (ir_flux_dir d dir zR zL (ir_Un d dir zR zL)).
Proof.
  intros L0 R0 LE RE.
  assert (U : forall i, ir_u zL zR i = ir_u zR zL i) by (intros; unfold ir_u; rewrite (Rplus_comm (zL (S i))), (Rplus_comm (zL 0%nat)); reflexivity).
  assert (RH : ir_rho d zL zR = ir_rho d zR zL) by (unfold ir_rho; rewrite (logavg_sym (zL (S d))) by assumption; rewrite (Rplus_comm (zL 0%nat)); reflexivity).
  assert (P1 : ir_p1 d zL zR = ir_p1 d zR zL) by (unfold ir_p1; rewrite (Rplus_comm (zL (S d))), (Rplus_comm (zL 0%nat)); reflexivity).
  assert (HH : ir_h d zL zR = ir_h d zR zL).
  { unfold ir_h. cbv zeta. rewrite RH, (logavg_sym (zL (S d))), (logavg_sym (zL 0%nat)) by assumption. f_equal.
    - rewrite (Rplus_comm (zL (S d))), (Rplus_comm (zL 0%nat)). reflexivity.
    - apply rsum_ext. intros i Hi. rewrite U. reflexivity. }
  assert (UN : ir_Un d dir zL zR = ir_Un d dir zR zL) by (apply rsum_ext; intros; rewrite U; reflexivity).
  unfold ir_flux_dir. cbv zeta. rewrite RH, HH, P1, UN. apply same_intro; [reflexivity| |rewrite !mk_E; reflexivity].
  intros i Hi. rewrite !mk_S by exact Hi. rewrite U. reflexivity.
Qed.

(** ** consistency *)
Lemma zflux_consistent d dir zL zR rho u p : 0 < rho -> 0 < p -> z_of d zL rho u p -> z_of d zR rho u p ->
  euler_flux d dir rho u p (ir_flux_dir d dir zL zR (ir_Un d dir zL zR)).
Proof.
  intros Hr Hp HL HR. pose proof (sqrt_parts rho p Hr Hp) as (A & B & AB & AA & BA). pose proof (z_same d zL zR rho u p HL HR) as S.
  destruct HL as (L0 & L1 & L2), HR as (R0 & R1 & R2).
  assert (U : forall i, (i < d)%nat -> ir_u zL zR i = u i). { intros i Hi. unfold ir_u. rewrite L0, R0, L1, R1 by exact Hi. field. lra. }
  assert (RH : ir_rho d zL zR = rho). { unfold ir_rho. rewrite L0, R0, L2, R2, logavg_same by exact B. replace (1 / 2 * (sqrt (rho / p) + sqrt (rho / p)) * sqrt (rho * p)) with (sqrt (rho / p) * sqrt (rho * p)) by field. exact AB. }
  assert (P1 : ir_p1 d zL zR = p). { unfold ir_p1. rewrite L0, R0, L2, R2. replace ((sqrt (rho * p) + sqrt (rho * p)) / (sqrt (rho / p) + sqrt (rho / p))) with (sqrt (rho * p) / sqrt (rho / p)) by (field; lra). exact BA. }
  assert (HH : ir_h d zL zR = 7/2 * p / rho + 1/2 * dot d u u).
  { unfold ir_h. cbv zeta. rewrite RH, L0, R0, L2, R2, !logavg_same by assumption. f_equal.
    - replace (gami * (sqrt (rho * p) + sqrt (rho * p)) / (sqrt (rho / p) + sqrt (rho / p))) with (gami * (sqrt (rho * p) / sqrt (rho / p))) by (field; lra).
      replace ((gamma + 1) * sqrt (rho * p) / sqrt (rho / p)) with ((gamma + 1) * (sqrt (rho * p) / sqrt (rho / p))) by (field; lra).
      rewrite BA. unfold gamma, gami. field. lra.
    - unfold dot. rewrite <- rsum_scal. apply rsum_ext. intros i Hi. rewrite (U i Hi). ring. }
  assert (UN : ir_Un d dir zL zR = dot d u dir) by (apply rsum_ext; intros i Hi; rewrite (U i Hi); reflexivity).
  unfold ir_flux_dir. cbv zeta. rewrite RH, HH, P1, UN. split; [reflexivity|]. split.
  - intros i Hi. rewrite mk_S by exact Hi. rewrite (U i Hi). ring.
  - rewrite mk_E. field. lra.
Qed.

(** ** Tadmor's condition *)
Lemma z_ln d z rho u p : 0 < rho -> 0 < p -> z_of d z rho u p ->
  ln (z 0%nat) = (ln rho - ln p) / 2 /\ ln (z (S d)) = (ln rho + ln p) / 2 /\ rho / p = z 0%nat * z 0%nat /\ rho = z 0%nat * z (S d).
Proof.
  intros Hr Hp H. destruct (z_pos d z rho u p Hr Hp H) as (P0 & PE). destruct H as (E0 & _ & EE).
  pose proof (sqrt_parts rho p Hr Hp) as (A & B & AB & AA & BA).
  assert (X : ln (z 0%nat) + ln (z 0%nat) = ln rho - ln p). { rewrite <- ln_mult by assumption. rewrite E0, AA. apply ln_div; assumption. }
  assert (Y : ln (z (S d)) + ln (z 0%nat) = ln rho). { rewrite <- ln_mult by assumption. rewrite E0, EE, Rmult_comm, AB. reflexivity. }
  repeat split; try lra. rewrite E0, AA. reflexivity. rewrite E0, EE, AB. reflexivity.
Qed.
Lemma ent_z d w z rho u p : 0 < rho -> 0 < p -> ent_of d w rho u p -> z_of d z rho u p ->
  w 0%nat = 7/2 + ln (z (S d)) + 6 * ln (z 0%nat) - 1/2 * dot d (mom z) (mom z) /\
  (forall i, (i < d)%nat -> w (S i) = z 0%nat * z (S i)) /\ w (S d) = - (z 0%nat * z 0%nat).
Proof.
  intros Hr Hp (W0 & W1 & W2) Z. pose proof (z_ln d z rho u p Hr Hp Z) as (N0 & NE & Q & _). destruct Z as (E0 & E1 & EE).
  assert (ZZ : dot d (mom z) (mom z) = z 0%nat * z 0%nat * dot d u u).
  { unfold dot. rewrite <- rsum_scal. apply rsum_ext. intros i Hi. unfold mom. rewrite E1 by exact Hi. rewrite E0. ring. }
  rewrite W0, W2, N0, NE, ZZ, <- Q. unfold thermo. repeat split.
  - field. lra.
  - intros i Hi. rewrite W1 by exact Hi. rewrite E1 by exact Hi. rewrite <- E0, <- Rmult_assoc, <- Q. field. lra.
  - field. lra.
Qed.
Lemma mom_dot d dir (zL zR wL wR : vec) a G P e : zL 0%nat + zR 0%nat <> 0 ->
  (forall i, (i < d)%nat -> wL (S i) = zL 0%nat * zL (S i)) -> (forall i, (i < d)%nat -> wR (S i) = zR 0%nat * zR (S i)) ->
  dot d (mom (fun i => wL i - wR i)) (mom (mk d a (fun i => ir_u zL zR i * G + P * dir i) e)) =
  G / (zL 0%nat + zR 0%nat) * (zL 0%nat * (dot d (mom zL) (mom zL) + dot d (mom zL) (mom zR)) - zR 0%nat * (dot d (mom zL) (mom zR) + dot d (mom zR) (mom zR))) +
  P * (zL 0%nat * dot d (mom zL) dir - zR 0%nat * dot d (mom zR) dir).
Proof.
  intros N A1 B1. unfold dot. rewrite <- !rsum_plus, <- !rsum_scal, <- !rsum_minus, <- !rsum_scal, <- rsum_plus. apply rsum_ext. intros i Hi.
  unfold mom at 1 2. rewrite mk_S by exact Hi. rewrite A1, B1 by exact Hi. unfold ir_u, mom. field. exact N.
Qed.
(** the two-point identity with its exact defect *)
Lemma tadmor_z d dir zL zR wL wR : 0 < zL 0%nat -> 0 < zR 0%nat -> 0 < zL (S d) -> 0 < zR (S d) ->
  (wL 0%nat = 7/2 + ln (zL (S d)) + 6 * ln (zL 0%nat) - 1/2 * dot d (mom zL) (mom zL) /\
   (forall i, (i < d)%nat -> wL (S i) = zL 0%nat * zL (S i)) /\ wL (S d) = - (zL 0%nat * zL 0%nat)) ->
  (wR 0%nat = 7/2 + ln (zR (S d)) + 6 * ln (zR 0%nat) - 1/2 * dot d (mom zR) (mom zR) /\
   (forall i, (i < d)%nat -> wR (S i) = zR 0%nat * zR (S i)) /\ wR (S d) = - (zR 0%nat * zR 0%nat)) ->
  dot (d + 2) (fun i => wL i - wR i) (ir_flux_dir d dir zL zR (ir_Un d dir zL zR)) -
    (zL (S d) * dot d (mom zL) dir - zR (S d) * dot d (mom zR) dir) =
  1/2 * (dot d (mom zL) dir + dot d (mom zR) dir) *
  ((logavg (zL (S d)) (zR (S d)) * (ln (zL (S d)) - ln (zR (S d))) - (zL (S d) - zR (S d))) +
   6 * (logavg (zL (S d)) (zR (S d)) / logavg (zL 0%nat) (zR 0%nat)) * (logavg (zL 0%nat) (zR 0%nat) * (ln (zL 0%nat) - ln (zR 0%nat)) - (zL 0%nat - zR 0%nat))).
Proof.
  intros L0 R0 LE RE (A0 & A1 & A2) (B0 & B1 & B2).
  set (L5 := logavg (zL (S d)) (zR (S d))). set (L1 := logavg (zL 0%nat) (zR 0%nat)).
  assert (P5 : 0 < L5). { unfold L5. pose proof (logavg_between _ _ LE RE). assert (0 < Rmin (zL (S d)) (zR (S d))) by (apply Rmin_pos; assumption). lra. }
  assert (P1 : 0 < L1). { unfold L1. pose proof (logavg_between _ _ L0 R0). assert (0 < Rmin (zL 0%nat) (zR 0%nat)) by (apply Rmin_pos; assumption). lra. }
  set (m := zL 0%nat + zR 0%nat). assert (Pm : 0 < m) by (unfold m; lra).
  set (nL := dot d (mom zL) dir). set (nR := dot d (mom zR) dir).
  set (LL := dot d (mom zL) (mom zL)) in *. set (RR := dot d (mom zR) (mom zR)) in *. set (LR := dot d (mom zL) (mom zR)).
  assert (UN : ir_Un d dir zL zR = (nL + nR) / m).
  { unfold ir_Un, nL, nR, dot. rewrite <- rsum_plus, <- rsum_div. apply rsum_ext. intros i Hi. unfold ir_u, mom, m. field. unfold m in Pm. lra. }
  assert (RH : ir_rho d zL zR = 1/2 * m * L5) by reflexivity.
  assert (UU : rsum d (fun i => 1 / 2 * ir_u zL zR i * ir_u zL zR i) = 1/2 * (LL + 2 * LR + RR) / (m * m)).
  { unfold LL, LR, RR, dot. rewrite <- rsum_scal, <- !rsum_plus, <- rsum_scal, <- rsum_div. apply rsum_ext. intros i Hi. unfold ir_u, mom, m. field. unfold m in Pm. lra. }
  assert (HH : ir_h d zL zR = (6 * L5 / L1 + (zL (S d) + zR (S d)) / m) / (m * L5) + 1/2 * (LL + 2 * LR + RR) / (m * m)).
  { unfold ir_h. cbv zeta. rewrite UU, RH. fold L5 L1 m. f_equal. unfold gamma, gami. field. repeat split; lra. }
  unfold ir_flux_dir. cbv zeta. rewrite UN, RH, HH. rewrite dot_state, mk_0, mk_E.
  rewrite (mom_dot d dir zL zR wL wR _ _ _ _ ltac:(fold m; lra) A1 B1). fold m LL LR RR nL nR. unfold ir_p1. fold m.
  rewrite A0, B0, A2, B2.  unfold m in *. field. repeat split; lra.
Qed.
Lemma psi_z d z q rho u p dir : 0 < rho -> 0 < p -> is_state d q rho u p -> z_of d z rho u p -> dot d (mom q) dir = z (S d) * dot d (mom z) dir.
Proof.
  intros Hr Hp H Z. pose proof (z_ln d z rho u p Hr Hp Z) as (_ & _ & _ & Q). destruct Z as (E0 & E1 & EE).
  rewrite (state_mom d q rho u p dir H), Q. unfold dot. rewrite <- !rsum_scal. apply rsum_ext. intros i Hi. unfold mom. rewrite (E1 i Hi), <- E0. ring.
Qed.
Lemma znormal d z rho u p dir : z_of d z rho u p -> dot d (mom z) dir = sqrt (rho / p) * dot d u dir.
Proof. intros (_ & E1 & _). unfold dot. rewrite <- rsum_scal. apply rsum_ext. intros i Hi. unfold mom. rewrite E1 by exact Hi. ring. Qed.
Lemma tadmor_general d dir qL qR zL zR wL wR f rhoL uL pL rhoR uR pR : 0 < rhoL -> 0 < pL -> 0 < rhoR -> 0 < pR ->
  is_state d qL rhoL uL pL -> is_state d qR rhoR uR pR -> z_of d zL rhoL uL pL -> z_of d zR rhoR uR pR -> ent_of d wL rhoL uL pL -> ent_of d wR rhoR uR pR ->
  same d f (ir_flux_dir d dir zL zR (ir_Un d dir zL zR)) ->
  exists e1 e5, 0 <= e1 <= 1 / 10 ^ 16 /\ 0 <= e5 <= 1 / 10 ^ 16 /\
  (1 / 1000 <= ((zL 0%nat - zR 0%nat) / (zL 0%nat + zR 0%nat)) * ((zL 0%nat - zR 0%nat) / (zL 0%nat + zR 0%nat)) -> e1 = 0) /\
  (1 / 1000 <= ((zL (S d) - zR (S d)) / (zL (S d) + zR (S d))) * ((zL (S d) - zR (S d)) / (zL (S d) + zR (S d))) -> e5 = 0) /\
  dot (d + 2) (fun i => wL i - wR i) f - (dot d (mom qL) dir - dot d (mom qR) dir) =
  1/2 * (sqrt (rhoL / pL) * dot d uL dir + sqrt (rhoR / pR) * dot d uR dir) *
   (e5 * (zL (S d) - zR (S d)) + 6 * (logavg (zL (S d)) (zR (S d)) / logavg (zL 0%nat) (zR 0%nat)) * (e1 * (zL 0%nat - zR 0%nat))).
Proof.
  intros HrL HpL HrR HpR SL SR ZL ZR WL WR F.
  destruct (z_pos d zL _ _ _ HrL HpL ZL) as (L0 & LE). destruct (z_pos d zR _ _ _ HrR HpR ZR) as (R0 & RE).
  destruct (logavg_defect _ _ L0 R0) as (e1 & B1 & E1 & X1). destruct (logavg_defect _ _ LE RE) as (e5 & B5 & E5 & X5).
  exists e1, e5. split; [exact B1|]. split; [exact B5|]. split; [exact X1|]. split; [exact X5|].
  rewrite (psi_z d zL qL _ _ _ dir HrL HpL SL ZL), (psi_z d zR qR _ _ _ dir HrR HpR SR ZR).
  rewrite (dot_ext (d + 2) _ (fun i => wL i - wR i) f (ir_flux_dir d dir zL zR (ir_Un d dir zL zR))); [|intros i Hi; reflexivity|exact F].
  rewrite (tadmor_z d dir zL zR wL wR L0 R0 LE RE (ent_z d wL zL _ _ _ HrL HpL WL ZL) (ent_z d wR zR _ _ _ HrR HpR WR ZR)), E1, E5.
  rewrite (znormal d zL _ _ _ dir ZL), (znormal d zR _ _ _ dir ZR). ring.
Qed.

(** ** packaged statements *)
Lemma tadmor_bound d dir qL qR f rhoL uL pL rhoR uR pR : 0 < rhoL -> 0 < pL -> 0 < rhoR -> 0 < pR ->
  is_state d qL rhoL uL pL -> is_state d qR rhoR uR pR ->
  same d f (ir_flux_dir d dir (zcons d qL) (zcons d qR) (ir_Un d dir (zcons d qL) (zcons d qR))) ->
  let aL := sqrt (rhoL / pL) in let aR := sqrt (rhoR / pR) in let bL := sqrt (rhoL * pL) in let bR := sqrt (rhoR * pR) in
  let defect := dot (d + 2) (fun i => calcEntropyVars d false qL i - calcEntropyVars d false qR i) f - (dot d (mom qL) dir - dot d (mom qR) dir) in
  Rabs defect <= 1 / 10 ^ 16 * (1/2 * Rabs (aL * dot d uL dir + aR * dot d uR dir) * (Rabs (bL - bR) + 6 * (Rmax bL bR / Rmin aL aR) * Rabs (aL - aR))) /\
  ((aL = aR \/ 1 / 1000 <= spread aL aR) -> (bL = bR \/ 1 / 1000 <= spread bL bR) -> defect = 0).
Proof.
  intros HrL HpL HrR HpR SL SR F. cbv zeta.
  pose proof (zcons_of d qL _ _ _ HrL HpL SL) as ZL. pose proof (zcons_of d qR _ _ _ HrR HpR SR) as ZR.
  destruct (tadmor_general d dir qL qR (zcons d qL) (zcons d qR) _ _ f _ _ _ _ _ _ HrL HpL HrR HpR SL SR ZL ZR (entvars_prim d qL _ _ _ HrL HpL SL) (entvars_prim d qR _ _ _ HrR HpR SR) F)
    as (e1 & e5 & B1 & B5 & X1 & X5 & E).
  destruct (z_pos d _ _ _ _ HrL HpL ZL) as (L0 & LE). destruct (z_pos d _ _ _ _ HrR HpR ZR) as (R0 & RE).
  destruct ZL as (ZL0 & _ & ZLE), ZR as (ZR0 & _ & ZRE). rewrite ZL0, ZR0, ZLE, ZRE in *. rewrite E. clear E.
  set (aL := sqrt (rhoL / pL)) in *. set (aR := sqrt (rhoR / pR)) in *. set (bL := sqrt (rhoL * pL)) in *. set (bR := sqrt (rhoR * pR)) in *.
  set (N := aL * dot d uL dir + aR * dot d uR dir). set (eps := 1 / 10 ^ 16) in *. split.
  - pose proof (logavg_between aL aR L0 R0) as (LA & _). pose proof (logavg_between bL bR LE RE) as (LBl & LB).
    assert (Pm : 0 < Rmin aL aR) by (apply Rmin_pos; assumption). assert (PM : 0 < Rmin bL bR) by (apply Rmin_pos; assumption).
    set (q := logavg bL bR / logavg aL aR). assert (Q : 0 <= q <= Rmax bL bR / Rmin aL aR).
    { unfold q. split; [apply Rlt_le, Rdiv_lt_0_compat; lra|]. unfold Rdiv. apply Rmult_le_compat; [lra|apply Rlt_le, Rinv_0_lt_compat; lra|lra|apply Rinv_le_contravar; lra]. }
    rewrite Rabs_mult. replace (Rabs (1 / 2 * N)) with (1/2 * Rabs N) by (rewrite Rabs_mult, (Rabs_pos_eq (1/2)) by lra; reflexivity).
    replace (eps * (1 / 2 * Rabs N * (Rabs (bL - bR) + 6 * (Rmax bL bR / Rmin aL aR) * Rabs (aL - aR)))) with
      ((1 / 2 * Rabs N) * (eps * Rabs (bL - bR) + 6 * (Rmax bL bR / Rmin aL aR) * (eps * Rabs (aL - aR)))) by ring.
    apply Rmult_le_compat_l; [pose proof (Rabs_pos N); lra|]. eapply Rle_trans; [apply Rabs_triang|].
    rewrite !Rabs_mult. rewrite (Rabs_pos_eq e5), (Rabs_pos_eq e1), (Rabs_pos_eq 6), (Rabs_pos_eq q) by lra.
    apply Rplus_le_compat; [apply Rmult_le_compat_r; [apply Rabs_pos|lra]|].
    pose proof (Rabs_pos (aL - aR)). apply Rmult_le_compat; [nra|nra|nra|]. apply Rmult_le_compat_r; lra.
  - intros HA HB. assert (A0 : e1 * (aL - aR) = 0). { destruct HA as [->|HA]; [ring|]. rewrite (X1 HA). ring. }
    assert (B0 : e5 * (bL - bR) = 0). { destruct HB as [->|HB]; [ring|]. rewrite (X5 HB). ring. }
    rewrite A0, B0. ring.
Qed.
Lemma dot_unit_mom d di q : (di < d)%nat -> dot d (mom q) (unitv di) = q (S di).
Proof. intros. rewrite dot_unit by assumption. reflexivity. Qed.
Lemma face_ent_agree d dir qL qR : physical d qL -> physical d qR ->
  same d (calcIsmailRoeFaceFluxUsingEntVars d dir (calcEntropyVars d false qL) (calcEntropyVars d false qR)) (calcIsmailRoeFaceFlux d dir qL qR).
Proof.
  intros (rL & uL & pL & HrL & HpL & SL) (rR & uR & pR & HrR & HpR & SR).
  pose proof (z_same d _ _ _ _ _ (zent_of d _ _ _ _ HrL HpL (entvars_prim d qL _ _ _ HrL HpL SL)) (zcons_of d qL _ _ _ HrL HpL SL)) as A.
  pose proof (z_same d _ _ _ _ _ (zent_of d _ _ _ _ HrR HpR (entvars_prim d qR _ _ _ HrR HpR SR)) (zcons_of d qR _ _ _ HrR HpR SR)) as B.
  eapply same_trans; [apply face_ent_zflux|]. eapply same_trans; [|apply same_sym, face_zflux].
  apply ir_dir_same; [exact A|exact B|]. unfold ir_Un. apply dot_ext; [|apply veq_refl]. intros i Hi. exact (ir_u_same d _ _ _ _ i A B Hi).
Qed.
Lemma di_ent_agree d di qL qR : (di < d)%nat -> physical d qL -> physical d qR ->
  same d (calcIsmailRoeFluxUsingEntVars d di (calcEntropyVars d false qL) (calcEntropyVars d false qR)) (calcIsmailRoeFlux d di qL qR).
Proof.
  intros Hd (rL & uL & pL & HrL & HpL & SL) (rR & uR & pR & HrR & HpR & SR).
  pose proof (z_same d _ _ _ _ _ (zent_of d _ _ _ _ HrL HpL (entvars_prim d qL _ _ _ HrL HpL SL)) (zcons_of d qL _ _ _ HrL HpL SL)) as A.
  pose proof (z_same d _ _ _ _ _ (zent_of d _ _ _ _ HrR HpR (entvars_prim d qR _ _ _ HrR HpR SR)) (zcons_of d qR _ _ _ HrR HpR SR)) as B.
  apply ir_di_same; assumption.
Qed.
Lemma face_combination d dir qL qR k : (k < d + 2)%nat ->
  calcIsmailRoeFaceFlux d dir qL qR k = rsum d (fun i => dir i * calcIsmailRoeFlux d i qL qR k).
Proof. intros Hk. rewrite (face_zflux d dir qL qR k Hk). exact (dir_combination d dir _ _ k Hk). Qed.
Lemma face_sym d dir qL qR : physical d qL -> physical d qR -> same d (calcIsmailRoeFaceFlux d dir qL qR) (calcIsmailRoeFaceFlux d dir qR qL).
Proof.
  intros (rL & uL & pL & HrL & HpL & SL) (rR & uR & pR & HrR & HpR & SR).
  destruct (z_pos d _ _ _ _ HrL HpL (zcons_of d qL _ _ _ HrL HpL SL)) as (L0 & LE). destruct (z_pos d _ _ _ _ HrR HpR (zcons_of d qR _ _ _ HrR HpR SR)) as (R0 & RE).
  eapply same_trans; [apply face_zflux|]. eapply same_trans; [|apply same_sym, face_zflux]. apply zflux_sym; assumption.
Qed.
Lemma di_sym d di qL qR : (di < d)%nat -> physical d qL -> physical d qR -> same d (calcIsmailRoeFlux d di qL qR) (calcIsmailRoeFlux d di qR qL).
Proof.
  intros Hd (rL & uL & pL & HrL & HpL & SL) (rR & uR & pR & HrR & HpR & SR).
  destruct (z_pos d _ _ _ _ HrL HpL (zcons_of d qL _ _ _ HrL HpL SL)) as (L0 & LE). destruct (z_pos d _ _ _ _ HrR HpR (zcons_of d qR _ _ _ HrR HpR SR)) as (R0 & RE).
  unfold calcIsmailRoeFlux. eapply same_trans; [apply di_zflux, Hd|]. eapply same_trans; [|apply same_sym, di_zflux, Hd]. apply zflux_sym; assumption.
Qed.
Lemma euler_flux_transport d dir rho u p f g : same d f g -> euler_flux d dir rho u p g -> euler_flux d dir rho u p f.
Proof. intros S (A & B & C). repeat split; [rewrite (same_0 d _ _ S); exact A| |rewrite (same_E d _ _ S); exact C]. intros i Hi. rewrite (same_S d _ _ i S Hi). exact (B i Hi). Qed.
Lemma face_consistent d dir qL qR rho u p : 0 < rho -> 0 < p -> is_state d qL rho u p -> is_state d qR rho u p -> euler_flux d dir rho u p (calcIsmailRoeFaceFlux d dir qL qR).
Proof. intros Hr Hp SL SR. eapply euler_flux_transport; [apply face_zflux|]. apply zflux_consistent; auto using zcons_of. Qed.
Lemma di_consistent d di qL qR rho u p : (di < d)%nat -> 0 < rho -> 0 < p -> is_state d qL rho u p -> is_state d qR rho u p -> euler_flux d (unitv di) rho u p (calcIsmailRoeFlux d di qL qR).
Proof. intros Hd Hr Hp SL SR. eapply euler_flux_transport; [apply di_zflux, Hd|]. apply zflux_consistent; auto using zcons_of. Qed.
Lemma face_tadmor d dir qL qR rhoL uL pL rhoR uR pR : 0 < rhoL -> 0 < pL -> 0 < rhoR -> 0 < pR ->
  is_state d qL rhoL uL pL -> is_state d qR rhoR uR pR ->
  let aL := sqrt (rhoL / pL) in let aR := sqrt (rhoR / pR) in let bL := sqrt (rhoL * pL) in let bR := sqrt (rhoR * pR) in
  let wL := calcEntropyVars d false qL in let wR := calcEntropyVars d false qR in
  let defect := dot (d + 2) (fun i => wL i - wR i) (calcIsmailRoeFaceFlux d dir qL qR) - (dot d (mom qL) dir - dot d (mom qR) dir) in
  Rabs defect <= 1 / 10 ^ 16 * (1/2 * Rabs (aL * dot d uL dir + aR * dot d uR dir) * (Rabs (bL - bR) + 6 * (Rmax bL bR / Rmin aL aR) * Rabs (aL - aR))) /\
  ((aL = aR \/ 1 / 1000 <= spread aL aR) -> (bL = bR \/ 1 / 1000 <= spread bL bR) -> defect = 0).
Proof. intros. apply tadmor_bound; auto. apply face_zflux. Qed.
Lemma di_tadmor d di qL qR rhoL uL pL rhoR uR pR : (di < d)%nat -> 0 < rhoL -> 0 < pL -> 0 < rhoR -> 0 < pR ->
  is_state d qL rhoL uL pL -> is_state d qR rhoR uR pR ->
  let aL := sqrt (rhoL / pL) in let aR := sqrt (rhoR / pR) in let bL := sqrt (rhoL * pL) in let bR := sqrt (rhoR * pR) in
  let wL := calcEntropyVars d false qL in let wR := calcEntropyVars d false qR in
  let defect := dot (d + 2) (fun i => wL i - wR i) (calcIsmailRoeFlux d di qL qR) - (qL (S di) - qR (S di)) in
  Rabs defect <= 1 / 10 ^ 16 * (1/2 * Rabs (aL * uL di + aR * uR di) * (Rabs (bL - bR) + 6 * (Rmax bL bR / Rmin aL aR) * Rabs (aL - aR))) /\
  ((aL = aR \/ 1 / 1000 <= spread aL aR) -> (bL = bR \/ 1 / 1000 <= spread bL bR) -> defect = 0).
Proof.
  intros Hd HrL HpL HrR HpR SL SR. pose proof (tadmor_bound d (unitv di) qL qR (calcIsmailRoeFlux d di qL qR) _ _ _ _ _ _ HrL HpL HrR HpR SL SR (di_zflux d di _ _ Hd)) as T.
  cbv zeta in *. rewrite !dot_unit_mom, !dot_unit in T by exact Hd. exact T.
Qed.
