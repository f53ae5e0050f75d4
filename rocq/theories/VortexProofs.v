(** The vortex state in closed form, and that it is a steady Euler flow. *)
From Coq Require Import Reals Arith Lra Lia Psatz FunctionalExtensionality.
From Coquelicot Require Import Coquelicot.
From Verif Require Import Num Vec EulerSpec Euler MmsSpec MmsProofs Vortex.
Local Open Scope R_scope.

Definition r2 (x : vec) : R := x 0%nat * x 0%nat + x 1%nat * x 1%nat.
(** the region covered: right half plane outside the vacuum core *)
Definition region (x : vec) : Prop := 1 / 10 ^ 15 < x 0%nat /\ 1 / 21 < r2 x.
Definition vm (x : vec) : R := 21/20 - 1 / (20 * r2 x).
Definition o_rho (x : vec) : R := 2 * Rpower (vm x) (5/2).
Definition o_T (x : vec) : R := 5/14 * vm x.
Definition o_u (i : nat) (x : vec) : R :=
  match i with 0%nat => - sqrt (1/8) * x 1%nat / r2 x | 1%nat => sqrt (1/8) * x 0%nat / r2 x | _ => 0 end.

Lemma vm_pos x : 1 / 21 < r2 x -> 0 < vm x.
Proof.
  intros H2. unfold vm. assert (1 / (20 * r2 x) < 21/20); [|lra]. apply Rmult_lt_reg_r with (20 * r2 x); [lra|]. unfold Rdiv. rewrite Rmult_assoc, Rinv_l; lra.
Qed.
Lemma region_pos x : region x -> 0 < x 0%nat /\ 0 < r2 x /\ 0 < vm x.
Proof.
  intros [H1 H2]. assert (0 < 1 / 10 ^ 15) by (apply Rdiv_lt_0_compat; [lra|apply pow_lt; lra]). split; [lra|]. split; [lra|].
  unfold vm. assert (1 / (20 * r2 x) < 21/20); [|lra]. apply Rmult_lt_reg_r with (20 * r2 x); [lra|]. unfold Rdiv. rewrite Rmult_assoc, Rinv_l; lra.
Qed.
Lemma Rpower_pos a b : 0 < Rpower a b. Proof. apply exp_pos. Qed.
Lemma atan_sincos a b : 0 < a -> sin (atan (b / a)) = b / sqrt (a * a + b * b) /\ cos (atan (b / a)) = a / sqrt (a * a + b * b).
Proof.
  intros Ha. assert (HS : 0 < a * a + b * b) by nra. assert (HS2 : 0 < sqrt (a * a + b * b)) by (apply sqrt_lt_R0; assumption).
  assert (E : sqrt (1 + (b / a) ^ 2) = sqrt (a * a + b * b) / a).
  { apply sqrt_lem_1.
    - nra.
    - apply Rlt_le, Rdiv_lt_0_compat; assumption.
    - replace (sqrt (a * a + b * b) / a * (sqrt (a * a + b * b) / a)) with ((sqrt (a * a + b * b) * sqrt (a * a + b * b)) / (a * a)) by (field; lra).
      rewrite sqrt_sqrt by lra. field. lra. }
  assert (C : cos (atan (b / a)) = a / sqrt (a * a + b * b)).
  { rewrite cos_atan. replace ((b / a)²) with ((b / a) ^ 2) by (unfold Rsqr; ring). rewrite E. field. split; lra. }
  split; [|exact C].
  assert (HC : 0 < cos (atan (b / a))) by (rewrite C; apply Rdiv_lt_0_compat; assumption).
  assert (T : tan (atan (b / a)) = b / a) by apply tan_atan. unfold tan in T.
  replace (sin (atan (b / a))) with (sin (atan (b / a)) / cos (atan (b / a)) * cos (atan (b / a))) by (field; lra).
  rewrite T, C. field. split; lra.
Qed.

Definition theta_of (x : vec) : R := if Rltb (1 / 10 ^ 15) (x 0%nat) then atan (x 1%nat / x 0%nat) else PI / 2.
(** in polar form, on both sides of the y axis *)
Lemma vortex_polar x : 1 / 21 < r2 x ->
  calcIsentropicVortexState x 0%nat = o_rho x /\
  calcIsentropicVortexState x 1%nat = - o_rho x * (sqrt (1/8) / sqrt (r2 x)) * sin (theta_of x) /\
  calcIsentropicVortexState x 2%nat = o_rho x * (sqrt (1/8) / sqrt (r2 x)) * cos (theta_of x) /\
  calcIsentropicVortexState x 3%nat = o_rho x * o_T x / (2/5) + 1/2 * o_rho x * ((sqrt (1/8) / sqrt (r2 x)) * (sqrt (1/8) / sqrt (r2 x))).
Proof.
  intros Hx. assert (R2 : 0 < r2 x) by lra. pose proof (vm_pos x Hx) as M.
  assert (PR : 0 < o_rho x) by (unfold o_rho; pose proof (Rpower_pos (vm x) (5/2)); lra).
  unfold calcIsentropicVortexState. cbv zeta. fold (r2 x). fold (theta_of x).
  assert (S : 0 < sqrt (r2 x)) by (apply sqrt_lt_R0; assumption).
  assert (SS : sqrt (r2 x) * sqrt (r2 x) = r2 x) by (apply sqrt_sqrt; lra).
  assert (E1 : 1 + 1/2 * gami * (1/2) * (1/2) * (1 - 1 / sqrt (r2 x) * (1 / sqrt (r2 x))) = vm x).
  { replace (1 / sqrt (r2 x) * (1 / sqrt (r2 x))) with (1 / (sqrt (r2 x) * sqrt (r2 x))) by (field; lra). rewrite SS. unfold vm, gami. field. lra. }
  rewrite E1. replace (1 / gami) with (5/2) by (unfold gami; lra). fold (o_rho x).
  assert (E2 : Rpower (2 / o_rho x) gami = / vm x).
  { unfold o_rho. replace (2 / (2 * Rpower (vm x) (5/2))) with (/ Rpower (vm x) (5/2)) by (field; apply Rgt_not_eq, Rpower_pos).
    rewrite <- Rpower_Ropp, Rpower_mult. replace (- (5/2) * gami) with (- (1)) by (unfold gami; lra). rewrite Rpower_Ropp, Rpower_1; auto. }
  rewrite E2.
  assert (E3 : 2 / gami * (/ vm x * (1 + 1/2 * gami * (1/2) * (1/2)) - 1) = 1 / (4 * vm x * r2 x)).
  { replace (1 + 1/2 * gami * (1/2) * (1/2)) with (21/20) by (unfold gami; lra). replace (2 / gami) with 5 by (unfold gami; lra).
    apply Rmult_eq_reg_r with (4 * vm x * r2 x); [|apply Rgt_not_eq; nra]. 
    replace (5 * (/ vm x * (21/20) - 1) * (4 * vm x * r2 x)) with (20 * (21/20 - vm x) * r2 x) by (field; lra).
    unfold vm at 1. field. split; lra. }
  rewrite E3. set (Ma := sqrt (1 / (4 * vm x * r2 x))).
  assert (P4 : 0 < 1 / (4 * vm x * r2 x)) by (apply Rdiv_lt_0_compat; [lra|]; nra).
  assert (MM : Ma * Ma = 1 / (4 * vm x * r2 x)) by (apply sqrt_sqrt; lra).
  assert (E4 : (1 + 1/2 * gami * (1/2) * (1/2)) / (1 + 1/2 * gami * Ma * Ma) = vm x).
  { replace (1 + 1/2 * gami * Ma * Ma) with (1 + 1/5 * (Ma * Ma)) by (unfold gami; field). rewrite MM.
    replace (1 + 1/2 * gami * (1/2) * (1/2)) with (21/20) by (unfold gami; lra).
    assert (Q : vm x * (1 + 1/5 * (1 / (4 * vm x * r2 x))) = 21/20). { replace (vm x * (1 + 1/5 * (1 / (4 * vm x * r2 x)))) with (vm x + 1 / (20 * r2 x)) by (field; split; lra). unfold vm. ring. }
    rewrite <- Q at 1. field. split; [lra|]. split; [lra|]. nra. }
  rewrite E4. replace (gamma / gami) with (5/2 + 1) by (unfold gamma, gami; lra). rewrite Rpower_plus, (Rpower_1 (vm x)) by assumption.
  assert (E5 : 1 / gamma * (Rpower (vm x) (5/2) * vm x) = o_rho x * o_T x) by (unfold o_rho, o_T, gamma; field).
  rewrite E5.
  assert (E6 : gamma * (o_rho x * o_T x) / o_rho x = vm x / 2) by (unfold o_T, gamma; field; lra).
  rewrite E6.
  assert (AM : sqrt (vm x / 2) * Ma = sqrt (1/8) / sqrt (r2 x)).
  { unfold Ma. rewrite <- sqrt_mult by lra. rewrite <- sqrt_div_alt by assumption. f_equal. field. split; lra. }
  split; [reflexivity|]. rewrite <- AM. unfold gami. repeat split; field.
Qed.
Lemma vortex_state x : region x -> is_state 2 (calcIsentropicVortexState x) (o_rho x) (fun i => o_u i x) (o_rho x * o_T x) /\ 0 < o_rho x /\ 0 < o_T x.
Proof.
  intros Hx. pose proof (region_pos x Hx) as (X0 & R2 & M). destruct Hx as [Hx1 Hx2].
  assert (PR : 0 < o_rho x) by (unfold o_rho; pose proof (Rpower_pos (vm x) (5/2)); lra).
  assert (PT : 0 < o_T x) by (unfold o_T; lra). split; [|split; assumption].
  assert (S : 0 < sqrt (r2 x)) by (apply sqrt_lt_R0; assumption).
  assert (SS : sqrt (r2 x) * sqrt (r2 x) = r2 x) by (apply sqrt_sqrt; lra).
  destruct (vortex_polar x Hx2) as (E0 & E1 & E2 & E3).
  assert (TH : theta_of x = atan (x 1%nat / x 0%nat)) by (unfold theta_of; now rewrite (proj2 (Rltb_true (1 / 10 ^ 15) (x 0%nat)) Hx1)).
  destruct (atan_sincos (x 0%nat) (x 1%nat) X0) as [SN CN]. fold (r2 x) in SN, CN. rewrite TH, SN in E1. rewrite TH, CN in E2.
  split; [exact E0|]. split.
  - intros i Hi. destruct i as [|[|i]]; [| |lia]; unfold o_u.
    + rewrite E1, <- SS. rewrite sqrt_square by lra. field. lra.
    + rewrite E2, <- SS. rewrite sqrt_square by lra. field. lra.
  - rewrite E3. unfold dot, o_u. cbn [rsum].
    replace (sqrt (1/8) / sqrt (r2 x) * (sqrt (1/8) / sqrt (r2 x))) with (sqrt (1/8) * sqrt (1/8) / (sqrt (r2 x) * sqrt (r2 x))) by (field; lra).
    rewrite SS, sqrt_sqrt by lra.
    replace (0 + - sqrt (1/8) * x 1%nat / r2 x * (- sqrt (1/8) * x 1%nat / r2 x) + sqrt (1/8) * x 0%nat / r2 x * (sqrt (1/8) * x 0%nat / r2 x))
      with (sqrt (1/8) * sqrt (1/8) * r2 x / (r2 x * r2 x)) by (unfold r2; field; unfold r2 in R2; lra).
    rewrite sqrt_sqrt by lra. field. lra.
Qed.

Definition o_gm (j : nat) (x : vec) : R := x j / (10 * r2 x * r2 x).
Definition o_gr (j : nat) (x : vec) : R := 5/2 * o_rho x / vm x * o_gm j x.
Definition o_gT (j : nat) (x : vec) : R := 5/14 * o_gm j x.
Definition o_gu (i j : nat) (x : vec) : R :=
  let c := sqrt (1/8) in
  match i, j with
  | 0%nat, 0%nat => 2 * c * x 0%nat * x 1%nat / (r2 x * r2 x)
  | 0%nat, _ => - c / r2 x + 2 * c * x 1%nat * x 1%nat / (r2 x * r2 x)
  | _, 0%nat => c / r2 x - 2 * c * x 0%nat * x 0%nat / (r2 x * r2 x)
  | _, _ => - 2 * c * x 0%nat * x 1%nat / (r2 x * r2 x)
  end.
Lemma vm_ok j x : (j < 2)%nat -> region x -> is_partial vm j x (o_gm j x).
Proof.
  intros Hj Hx. pose proof (region_pos x Hx) as (_ & R2 & _). unfold vm, o_gm, r2 in *. two j; partial;
    try (field; lra); (apply Rgt_not_eq; lra).
Qed.
Lemma o_r_ok j x : (j < 2)%nat -> region x -> is_partial o_rho j x (o_gr j x).
Proof.
  intros Hj Hx. pose proof (region_pos x Hx) as (_ & R2 & M). pose proof (vm_ok j x Hj Hx) as V. unfold is_partial in *.
  unfold o_rho, Rpower. eapply D_eq.
  { apply D_scal. apply (is_derive_comp exp (fun t => 5/2 * ln (vm (with_coord x j t)))).
    - cbv beta. rewrite with_same'. apply is_derive_exp.
    - apply D_scal. apply (is_derive_comp ln (fun t => vm (with_coord x j t))); [|exact V]. rewrite with_same'. apply is_derive_ln, M. }
  unfold scal; simpl; unfold mult; simpl. unfold o_gr, o_rho, Rpower. field. lra.
Qed.
Lemma o_T_ok j x : (j < 2)%nat -> region x -> is_partial o_T j x (o_gT j x).
Proof. intros Hj Hx. unfold is_partial, o_T, o_gT. apply D_scal. now apply vm_ok. Qed.
Lemma o_u_ok i j x : (i < 2)%nat -> (j < 2)%nat -> region x -> is_partial (o_u i) j x (o_gu i j x).
Proof.
  intros Hi Hj Hx. pose proof (region_pos x Hx) as (_ & R2 & _). unfold o_u, o_gu, r2 in *. cbv zeta.
  generalize (sqrt (1/8)). intros c. two i; two j; partial; try (field; lra); (apply Rgt_not_eq; lra).
Qed.
Lemma o_alg x k : region x -> (k < 4)%nat -> 0 = rsum 2 (fun j => dinv 2 o_rho o_T o_u o_gr o_gT o_gu j x k).
Proof.
  intros Hx Hk. pose proof (region_pos x Hx) as (_ & R2 & M). unfold dinv, o_T, o_gr, o_gT, o_u, o_gu, o_gm. cbv zeta.
  assert (C : sqrt (1/8) * sqrt (1/8) = 1/8) by (apply sqrt_sqrt; lra).
  assert (C2 : sqrt (1/8) ^ 2 = 1/8) by (simpl; lra).
  clear C. assert (S2 : (4 * sqrt (1/8)) ^ 2 = 2) by (rewrite Rpow_mult_distr, C2; lra).
  replace (sqrt (1/8)) with ((4 * sqrt (1/8)) / 4) by field. clear C2. generalize dependent (4 * sqrt (1/8)). intros c C2. generalize (o_rho x). intros rho. revert M. generalize (vm x). intros m M. unfold r2 in *.
  destruct k as [|[|[|[|k]]]]; [| | | |exfalso; lia]; cbn [rsum Nat.eqb Nat.leb Nat.sub]; clear Hk Hx; revert R2;
  generalize (x 0%nat) (x 1%nat); intros a b R2; clear x;
  field [C2]; split; lra.
Qed.
