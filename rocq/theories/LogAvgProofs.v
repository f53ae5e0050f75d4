(** Proofs about logavg (euler_fluxes.hpp:345-362). *)
From Coq Require Import Reals Lra Lia Psatz.
From Coquelicot Require Import Coquelicot.
From Verif Require Import Num Vec Euler EulerSpec EulerProofs.
Local Open Scope R_scope.

Definition ser (u : R) : R := 1 + u * (1/3 + u * (1/5 + u * (1/7 + u / 9))).
Definition gap (f : R) : R := (ln (1 + f) - ln (1 - f)) / 2 - f * ser (f * f).

Lemma gap_derive f : -1 < f < 1 -> is_derive gap f (f ^ 10 / (1 - f * f)).
Proof. intros H. unfold gap, ser. auto_derive; [repeat split; lra|]. field. split; [|split]; nra. Qed.
Lemma mono (h h' : R -> R) a b : a <= b -> (forall x, a <= x <= b -> is_derive h x (h' x)) -> (forall x, a <= x <= b -> 0 <= h' x) -> h a <= h b.
Proof.
  intros Hab D P. destruct (MVT_gen h a b h') as (c & Hc & E).
  - intros x Hx. apply D. rewrite Rmin_left, Rmax_right in Hx by exact Hab. lra.
  - intros x Hx. rewrite Rmin_left, Rmax_right in Hx by exact Hab.
    apply continuity_pt_filterlim, (ex_derive_continuous h x). eexists. apply D. lra.
  - rewrite Rmin_left, Rmax_right in Hc by exact Hab. specialize (P c Hc). nra.
Qed.
Lemma gap_0 : gap 0 = 0.
Proof. unfold gap, ser. replace (1 + 0) with 1 by ring. replace (1 - 0) with 1 by ring. rewrite ln_1. field. Qed.
Lemma gap_nonneg f : 0 <= f < 1 -> 0 <= gap f.
Proof.
  intros H. rewrite <- gap_0. apply (mono gap (fun x => x ^ 10 / (1 - x * x))); [lra| |].
  - intros x Hx. apply gap_derive. lra.
  - intros x Hx. apply Rmult_le_pos; [apply pow_le; lra|]. apply Rlt_le, Rinv_0_lt_compat. nra.
Qed.
Lemma gap_upper f c : 0 <= f < 1 -> f * f <= c -> c < 1 -> gap f <= f ^ 11 / (11 * (1 - c)).
Proof.
  intros H Hc Hc1.
  assert (K : (fun x => x ^ 11 / (11 * (1 - c)) - gap x) 0 <= (fun x => x ^ 11 / (11 * (1 - c)) - gap x) f).
  { apply (mono (fun x => x ^ 11 / (11 * (1 - c)) - gap x) (fun x => x ^ 10 / (1 - c) - x ^ 10 / (1 - x * x))); [lra| |].
    - intros x Hx. apply (is_derive_minus (fun x => x ^ 11 / (11 * (1 - c))) gap).
      + auto_derive; [trivial|]. field. lra.
      + apply gap_derive. lra.
    - intros x Hx. assert (x * x <= c) by nra. assert (0 <= x ^ 10) by (apply pow_le; lra).
      assert (/ (1 - x * x) <= / (1 - c)) by (apply Rinv_le_contravar; nra). unfold Rdiv. nra. }
  cbv beta in K. rewrite gap_0 in K. replace (0 ^ 11) with 0 in K by ring. unfold Rdiv in K at 1. rewrite Rmult_0_l in K. lra.
Qed.

(** the logarithmic mean *)
Definition fof (a b : R) : R := (a / b - 1) / (a / b + 1).
Lemma fof_eq a b : 0 < a -> 0 < b -> fof a b = (a - b) / (a + b).
Proof. intros. unfold fof. field. split; [lra|]. lra. Qed.
Lemma fof_bound a b : 0 < a -> 0 < b -> -1 < fof a b < 1.
Proof.
  intros. rewrite fof_eq by assumption. split.
  - apply (Rmult_lt_reg_r (a + b)); [lra|]. unfold Rdiv. rewrite Rmult_assoc, Rinv_l by lra. lra.
  - apply (Rmult_lt_reg_r (a + b)); [lra|]. unfold Rdiv. rewrite Rmult_assoc, Rinv_l by lra. lra.
Qed.
Lemma fof_anti a b : 0 < a -> 0 < b -> fof b a = - fof a b.
Proof. intros. rewrite !fof_eq by assumption. field. lra. Qed.
Lemma fof_ln a b : 0 < a -> 0 < b -> ln (1 + fof a b) - ln (1 - fof a b) = ln a - ln b.
Proof.
  intros. rewrite !fof_eq by assumption.
  replace (1 + (a - b) / (a + b)) with (2 * a / (a + b)) by (field; lra).
  replace (1 - (a - b) / (a + b)) with (2 * b / (a + b)) by (field; lra).
  rewrite !ln_div by lra. rewrite !ln_mult by lra. ring.
Qed.
Lemma fof_pos a b : 0 < b -> b <= a -> 0 <= fof a b.
Proof. intros. rewrite fof_eq by lra. apply Rmult_le_pos; [lra|]. apply Rlt_le, Rinv_0_lt_compat. lra. Qed.
Lemma fof_zero a b : 0 < a -> 0 < b -> fof a b = 0 -> a = b.
Proof. intros Ha Hb. rewrite fof_eq by assumption. intros E. apply Rmult_integral in E. destruct E as [E|E]; [lra|]. pose proof (Rinv_0_lt_compat (a + b) ltac:(lra)). lra. Qed.
Lemma fof_lt a b : 0 < b -> b < a -> 0 < fof a b.
Proof. intros. destruct (fof_pos a b ltac:(lra) ltac:(lra)) as [|E]; [lra|]. symmetry in E. apply fof_zero in E; lra. Qed.

(** the factor F the code divides by *)
Definition facF (a b : R) : R := let f := fof a b in if Rltb (f * f) (1/1000) then ser (f * f) else (ln (a / b) / 2) / f.
Lemma logavg_F a b : logavg a b = (a + b) / (2 * facF a b). Proof. reflexivity. Qed.
Lemma facF_sym a b : 0 < a -> 0 < b -> facF a b = facF b a.
Proof.
  intros Ha Hb. unfold facF. cbv zeta. rewrite (fof_anti a b) by assumption.
  replace (- fof a b * - fof a b) with (fof a b * fof a b) by ring. destruct (Rltb _ _) eqn:E; [reflexivity|].
  apply Rltb_false in E. rewrite !ln_div by assumption. field. intros Z. rewrite Z in E. lra.
Qed.
Lemma logavg_sym a b : 0 < a -> 0 < b -> logavg a b = logavg b a.
Proof. intros. rewrite !logavg_F, facF_sym, (Rplus_comm a b) by assumption. reflexivity. Qed.
Lemma logavg_same a : 0 < a -> logavg a a = a.
Proof.
  intros Ha. rewrite logavg_F. assert (fof a a = 0). { rewrite fof_eq by assumption. unfold Rminus. rewrite Rplus_opp_r. unfold Rdiv. ring. }
  unfold facF. rewrite H. cbv zeta. destruct (Rltb_spec (0 * 0) (1/1000)) as [|K]; [|lra]. unfold ser. field.
Qed.

(** F f = atanh f - (gap in the series branch) *)
Lemma ser_pos u : 0 <= u -> 1 <= ser u.
Proof. intros. unfold ser. assert (0 <= u * (1 / 7 + u / 9)) by nra. assert (0 <= u * (1/5 + u * (1 / 7 + u / 9))) by nra.
  assert (0 <= u * (1 / 3 + u * (1/5 + u * (1 / 7 + u / 9)))) by nra. lra. Qed.
Lemma ser_atanh a b : 0 < b -> b <= a -> (ln a - ln b) / 2 = fof a b * ser (fof a b * fof a b) + gap (fof a b).
Proof. intros. rewrite <- fof_ln by lra. unfold gap. ring. Qed.
Lemma facF_ge_1 a b : 0 < b -> b <= a -> 1 <= facF a b.
Proof.
  intros Hb Hab. unfold facF. cbv zeta. destruct (Rltb_spec (fof a b * fof a b) (1/1000)) as [n|n].
  - apply ser_pos. nra.
  - assert (Hf : 0 < fof a b). { destruct (fof_pos a b Hb Hab) as [|E]; [assumption|]. rewrite <- E in n. lra. }
    pose proof (fof_bound a b ltac:(lra) Hb). pose proof (gap_nonneg (fof a b) ltac:(lra)).
    rewrite ln_div by lra. rewrite (ser_atanh a b) by lra. pose proof (ser_pos (fof a b * fof a b) ltac:(nra)).
    apply (Rmult_le_reg_r (fof a b)); [lra|]. unfold Rdiv. rewrite (Rmult_assoc _ (/ fof a b)), Rinv_l by lra. nra.
Qed.
Lemma facF_upper a b : 0 < b -> b < a -> facF a b <= (ln (a / b) / 2) / fof a b.
Proof.
  intros Hb Hab. unfold facF. cbv zeta. destruct (Rltb_spec (fof a b * fof a b) (1/1000)); [|lra].
  pose proof (fof_lt a b Hb Hab) as Hf. pose proof (fof_bound a b ltac:(lra) Hb). pose proof (gap_nonneg (fof a b) ltac:(lra)).
  rewrite ln_div by lra. rewrite (ser_atanh a b) by lra.
  apply (Rmult_le_reg_r (fof a b)); [lra|]. unfold Rdiv. rewrite (Rmult_assoc _ (/ fof a b)), Rinv_l by lra. nra.
Qed.
Lemma logmean_formula a b : 0 < b -> b < a -> (a - b) / (ln a - ln b) = (a + b) / (2 * ((ln (a / b) / 2) / fof a b)).
Proof.
  intros Hb Hab. pose proof (ln_increasing b a Hb Hab). rewrite ln_div, fof_eq by lra. field. repeat split; lra.
Qed.
Lemma logavg_between_lt a b : 0 < b -> b < a -> b <= logavg a b <= a.
Proof.
  intros Hb Hab. rewrite logavg_F. pose proof (facF_ge_1 a b Hb ltac:(lra)) as F1. pose proof (facF_upper a b Hb Hab) as FU.
  assert (FU' : (ln (a / b) / 2) / fof a b <= (a + b) / (2 * b)).
  { rewrite fof_eq by lra. pose proof (ln_le (a / b) ltac:(apply Rdiv_lt_0_compat; lra)).
    apply (Rmult_le_reg_r ((a - b) / (a + b))). { apply Rdiv_lt_0_compat; lra. }
    replace (ln (a / b) / 2 / ((a - b) / (a + b)) * ((a - b) / (a + b))) with (ln (a / b) / 2) by (field; split; lra).
    replace ((a + b) / (2 * b) * ((a - b) / (a + b))) with ((a / b - 1) / 2) by (field; lra). lra. }
  split; apply (Rmult_le_reg_r (2 * facF a b)); try lra; unfold Rdiv at 1; try rewrite Rmult_assoc, Rinv_l by lra.
  - assert (2 * b * facF a b <= a + b); [|lra]. replace (a + b) with (2 * b * ((a + b) / (2 * b))) by (field; lra). apply Rmult_le_compat_l; lra.
  - nra.
Qed.
Lemma logavg_between a b : 0 < a -> 0 < b -> Rmin a b <= logavg a b <= Rmax a b.
Proof.
  intros Ha Hb. destruct (Rtotal_order a b) as [H|[->|H]].
  - rewrite logavg_sym by assumption. rewrite Rmin_left, Rmax_right by lra. apply logavg_between_lt; assumption.
  - rewrite logavg_same, Rmin_left, Rmax_left by lra. lra.
  - rewrite Rmin_right, Rmax_left by lra. apply logavg_between_lt; assumption.
Qed.
Lemma logavg_exact a b : 0 < a -> 0 < b -> 1 / 1000 <= ((a - b) / (a + b)) * ((a - b) / (a + b)) -> logavg a b = (a - b) / (ln a - ln b).
Proof.
  intros Ha Hb H.
  assert (N : a <> b). { intros ->. replace (b - b) with 0 in H by ring. unfold Rdiv in H. lra. }
  assert (G : forall x y, 0 < y -> y < x -> 1 / 1000 <= ((x - y) / (x + y)) * ((x - y) / (x + y)) -> logavg x y = (x - y) / (ln x - ln y)).
  { intros x y Hy Hxy K. rewrite logmean_formula by assumption. rewrite logavg_F. unfold facF. cbv zeta.
    destruct (Rltb_spec (fof x y * fof x y) (1/1000)) as [L|]; [|reflexivity]. rewrite fof_eq in L by lra. lra. }
  destruct (Rtotal_order a b) as [L|[->|L]]; [|contradiction|].
  - rewrite logavg_sym by assumption. rewrite G; try assumption.
    + pose proof (ln_increasing a b Ha L). field. split; lra.
    + replace ((b - a) / (b + a) * ((b - a) / (b + a))) with ((a - b) / (a + b) * ((a - b) / (a + b))) by (field; lra). exact H.
  - apply G; assumption.
Qed.
(** everywhere: log mean <= logavg <= (1 + 1e-16) log mean *)
Lemma logavg_error_lt a b : 0 < b -> b < a ->
  (a - b) / (ln a - ln b) <= logavg a b <= (a - b) / (ln a - ln b) * (1 + 1 / 10 ^ 16).
Proof.
  intros Hb Hab. pose proof (facF_ge_1 a b Hb ltac:(lra)) as F1. pose proof (facF_upper a b Hb Hab) as FU.
  rewrite logmean_formula, logavg_F by assumption. set (T := ln (a / b) / 2 / fof a b) in *.
  assert (HT : T <= facF a b * (1 + 1 / 10 ^ 16)).
  { unfold facF in *. cbv zeta in *. destruct (Rltb_spec (fof a b * fof a b) (1/1000)) as [L|L]; [|fold T; fold T in F1; assert (0 < 1 / 10^16) by (apply Rdiv_lt_0_compat; [lra|apply pow_lt; lra]); nra].
    pose proof (fof_lt a b Hb Hab) as Hf. pose proof (fof_bound a b ltac:(lra) Hb) as Bf.
    pose proof (gap_upper (fof a b) (1/1000) ltac:(lra) ltac:(lra) ltac:(lra)) as GU.
    unfold T. rewrite ln_div by lra. rewrite (ser_atanh a b) by lra. set (f := fof a b) in *. set (S := ser (f * f)) in *.
    replace ((f * S + gap f) / f) with (S + gap f / f) by (field; lra).
    assert (gap f / f <= 1 / 10 ^ 16); [|assert (0 < 1 / 10^16) by (apply Rdiv_lt_0_compat; [lra|apply pow_lt; lra]); nra].
    apply (Rmult_le_reg_r f); [lra|]. unfold Rdiv at 1. rewrite Rmult_assoc, Rinv_l, Rmult_1_r by lra.
    apply (Rle_trans _ _ _ GU). replace (f ^ 11) with ((f * f) ^ 5 * f) by ring.
    assert (P : (f * f) ^ 5 <= (1 / 1000) ^ 5) by (apply pow_incr; split; [nra|lra]).
    assert (0 <= (f * f) ^ 5) by (apply pow_le; nra).
    replace ((f * f) ^ 5 * f / (11 * (1 - 1 / 1000))) with ((f * f) ^ 5 * (1000 / 10989) * f) by (field).
    apply Rmult_le_compat_r; [lra|]. apply (Rle_trans _ ((1 / 1000) ^ 5 * (1000 / 10989))); [nra|]. lra. }
  assert (T1 : 0 < T) by lra. split.
  - unfold Rdiv. apply Rmult_le_compat_l; [lra|]. apply Rinv_le_contravar; lra.
  - apply (Rmult_le_reg_r (2 * facF a b * T)). { nra. }
    replace ((a + b) / (2 * facF a b) * (2 * facF a b * T)) with ((a + b) * T) by (field; lra).
    replace ((a + b) / (2 * T) * (1 + 1 / 10 ^ 16) * (2 * facF a b * T)) with ((a + b) * (facF a b * (1 + 1 / 10 ^ 16))) by (field; lra).
    apply Rmult_le_compat_l; lra.
Qed.
Lemma logavg_error a b : 0 < a -> 0 < b -> a <> b ->
  (a - b) / (ln a - ln b) <= logavg a b <= (a - b) / (ln a - ln b) * (1 + 1 / 10 ^ 16).
Proof.
  intros Ha Hb N. destruct (Rtotal_order a b) as [L|[->|L]]; [|contradiction|].
  - rewrite logavg_sym by assumption. pose proof (ln_increasing a b Ha L).
    replace ((a - b) / (ln a - ln b)) with ((b - a) / (ln b - ln a)) by (field; split; lra). apply logavg_error_lt; assumption.
  - apply logavg_error_lt; assumption.
Qed.
(** in the form used by the entropy-conservation proof: logavg (ln a - ln b) - (a - b) = e (a - b), 0 <= e <= 1e-16 *)
Lemma logavg_defect a b : 0 < a -> 0 < b -> exists e, 0 <= e <= 1 / 10 ^ 16 /\
  logavg a b * (ln a - ln b) = (1 + e) * (a - b) /\
  (1 / 1000 <= ((a - b) / (a + b)) * ((a - b) / (a + b)) -> e = 0).
Proof.
  intros Ha Hb. destruct (Req_dec a b) as [->|N].
  - exists 0. repeat split; try lra; ring.
  - assert (NL : ln a - ln b <> 0). { intros E. apply N. apply ln_inv; lra. }
    assert (ND : a - b <> 0) by lra.
    exists (logavg a b * (ln a - ln b) / (a - b) - 1). pose proof (logavg_error a b Ha Hb N) as (L & U).
    set (m := (a - b) / (ln a - ln b)) in *.
    assert (Hm : 0 < m). { unfold m. destruct (Rtotal_order a b) as [K|[->|K]]; [|contradiction|].
      - pose proof (ln_increasing a b Ha K). replace ((a - b) / (ln a - ln b)) with ((b - a) / (ln b - ln a)) by (field; split; lra). apply Rdiv_lt_0_compat; lra.
      - pose proof (ln_increasing b a Hb K). apply Rdiv_lt_0_compat; lra. }
    assert (E : logavg a b * (ln a - ln b) / (a - b) = logavg a b / m). { unfold m. field. split; assumption. }
    split; [|split].
    + rewrite E. split.
      * assert (1 <= logavg a b / m); [|lra]. apply (Rmult_le_reg_r m); [exact Hm|]. unfold Rdiv. rewrite Rmult_assoc, Rinv_l by lra. lra.
      * assert (logavg a b / m <= 1 + 1 / 10 ^ 16); [|lra]. apply (Rmult_le_reg_r m); [exact Hm|]. unfold Rdiv at 1. rewrite Rmult_assoc, Rinv_l by lra. lra.
    + field. exact ND.
    + intros K. rewrite E, (logavg_exact a b Ha Hb K). fold m. field. lra.
Qed.
