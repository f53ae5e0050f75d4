(** Conversions, entropy and its derivative: C28, C29, and the algebra of dq/dw. *)
From Coq Require Import Reals Arith Lra Lia Psatz Bool.
From Verif Require Import Num Vec Euler EulerSpec.
Local Open Scope R_scope.

(** ** reading [mk] *)
Lemma mk_0 d a m e : mk d a m e 0%nat = a. Proof. reflexivity. Qed.
Lemma mk_S d a m e i : (i < d)%nat -> mk d a m e (S i) = m i.
Proof. intros H. unfold mk. destruct (Nat.ltb_spec i d); [reflexivity|lia]. Qed.
Lemma mk_E d a m e : mk d a m e (S d) = e.
Proof. unfold mk. rewrite Nat.ltb_irrefl. reflexivity. Qed.
Lemma same_intro d (a b : vec) : a 0%nat = b 0%nat -> (forall i, (i < d)%nat -> a (S i) = b (S i)) -> a (S d) = b (S d) -> same d a b.
Proof. intros H0 H1 H2 i Hi. destruct i as [|i]; [exact H0|]. destruct (Nat.eq_dec i d) as [->|]; [exact H2|apply H1; lia]. Qed.
Lemma same_E d a b : same d a b -> a (S d) = b (S d). Proof. intros H. apply H. lia. Qed.
Lemma same_S d a b i : same d a b -> (i < d)%nat -> a (S i) = b (S i). Proof. intros H Hi. apply H. lia. Qed.
Lemma same_0 d a b : same d a b -> a 0%nat = b 0%nat. Proof. intros H. apply H. lia. Qed.
Lemma same_sym d a b : same d a b -> same d b a. Proof. intros H i Hi. symmetry. apply H, Hi. Qed.
Lemma same_trans d a b c : same d a b -> same d b c -> same d a c. Proof. intros H K i Hi. rewrite H, K by exact Hi. reflexivity. Qed.

(** sum over all d+2 entries *)
Lemma rsum_state d f : rsum (d + 2) f = f 0%nat + rsum d (fun i => f (S i)) + f (S d).
Proof. replace (d + 2)%nat with (S (S d)) by lia. rewrite rsum_S, rsum_shift. ring. Qed.
Lemma dot_state d a b : dot (d + 2) a b = a 0%nat * b 0%nat + dot d (mom a) (mom b) + a (S d) * b (S d).
Proof. unfold dot. rewrite rsum_state. reflexivity. Qed.

(** ** states in primitive variables *)
Lemma state_mom d q rho u p v : is_state d q rho u p -> dot d (mom q) v = rho * dot d u v.
Proof. intros (_ & H & _). unfold dot. rewrite <- rsum_scal. apply rsum_ext. intros i Hi. unfold mom. rewrite H by exact Hi. ring. Qed.
Lemma state_mom2 d q rho u p : is_state d q rho u p -> dot d (mom q) (mom q) = rho * rho * dot d u u.
Proof. intros H. rewrite (state_mom d q rho u p _ H), dot_comm, (state_mom d q rho u p _ H). ring. Qed.
Lemma state_pressure d q rho u p : rho <> 0 -> is_state d q rho u p -> pressure d q = p.
Proof. intros Hr H. unfold pressure. rewrite (state_mom2 d q rho u p H). destruct H as (-> & _ & ->). unfold gami. field. exact Hr. Qed.
Lemma state_vel d q rho u p i : rho <> 0 -> is_state d q rho u p -> (i < d)%nat -> q (S i) / q 0%nat = u i.
Proof. intros Hr (-> & H & _) Hi. rewrite H by exact Hi. field. exact Hr. Qed.
Lemma state_vel2 d q rho u p : rho <> 0 -> is_state d q rho u p ->
  rsum d (fun i => q (S i) / q 0%nat * (q (S i) / q 0%nat)) = dot d u u.
Proof. intros Hr H. apply rsum_ext. intros i Hi. rewrite (state_vel d q rho u p i Hr H Hi). reflexivity. Qed.

(** positive density suffices to write a state in primitive variables *)
Lemma to_prim d q : q 0%nat <> 0 -> is_state d q (q 0%nat) (fun i => q (S i) / q 0%nat) (pressure d q).
Proof.
  intros Hr. repeat split.
  - intros i Hi. field. exact Hr.
  - unfold pressure, gami. replace (dot d (mom q) (mom q)) with (q 0%nat * q 0%nat * dot d (fun i => q (S i) / q 0%nat) (fun i => q (S i) / q 0%nat)).
    + field. exact Hr.
    + unfold dot. rewrite <- rsum_scal. apply rsum_ext. intros i Hi. unfold mom. field. exact Hr.
Qed.
Lemma physical_iff d q : physical d q <-> 0 < q 0%nat /\ 0 < pressure d q.
Proof.
  split.
  - intros (rho & u & p & Hr & Hp & H). rewrite (state_pressure d q rho u p) by (lra || exact H). destruct H as (-> & _). lra.
  - intros [Hr Hp]. exists (q 0%nat), (fun i => q (S i) / q 0%nat), (pressure d q). repeat split; try lra; apply to_prim; lra.
Qed.
Lemma is_state_same d q q' rho u p : same d q q' -> is_state d q rho u p -> is_state d q' rho u p.
Proof.
  intros S (H0 & H1 & H2). repeat split.
  - rewrite <- (same_0 _ _ _ S). exact H0.
  - intros i Hi. rewrite <- (same_S _ _ _ _ S Hi). apply H1, Hi.
  - rewrite <- (same_E _ _ _ S). exact H2.
Qed.
Lemma state_unique d q q' rho u p : is_state d q rho u p -> is_state d q' rho u p -> same d q q'.
Proof.
  intros (A0 & A1 & A2) (B0 & B1 & B2). apply same_intro; [lra| |lra]. intros i Hi. rewrite A1, B1 by exact Hi. reflexivity.
Qed.

(** ** logarithms *)
Lemma ln_div a b : 0 < a -> 0 < b -> ln (a / b) = ln a - ln b.
Proof. intros Ha Hb. unfold Rdiv. rewrite ln_mult by (auto with real). rewrite ln_Rinv by exact Hb. lra. Qed.
Lemma ln_Rpower a b : ln (Rpower a b) = b * ln a.
Proof. unfold Rpower. apply ln_exp. Qed.
Lemma Rpower_pos a b : 0 < Rpower a b. Proof. apply exp_pos. Qed.
Lemma thermo_eq rho p : 0 < rho -> 0 < p -> ln (p / Rpower rho gamma) = thermo rho p.
Proof. intros Hr Hp. rewrite ln_div by (auto using Rpower_pos). rewrite ln_Rpower. reflexivity. Qed.

(** ** entropy variables of a state *)
Definition ent_of (d : nat) (w : vec) (rho : R) (u : vec) (p : R) : Prop :=
  w 0%nat = (7/5 - thermo rho p) / (2/5) - 1/2 * dot d u u * rho / p /\
  (forall i, (i < d)%nat -> w (S i) = rho * u i / p) /\ w (S d) = - rho / p.
Lemma entvars_prim d q rho u p : 0 < rho -> 0 < p -> is_state d q rho u p -> ent_of d (calcEntropyVars d false q) rho u p.
Proof.
  intros Hr Hp H. assert (Hr' : rho <> 0) by lra. unfold calcEntropyVars. rewrite (state_pressure d q rho u p Hr' H).
  repeat split.
  - rewrite mk_0. unfold dot at 1. rewrite (state_vel2 d q rho u p Hr' H). destruct H as (-> & _).
    rewrite thermo_eq by assumption. unfold gamma, gami. field. lra.
  - intros i Hi. rewrite mk_S by exact Hi. destruct H as (_ & H & _). rewrite H by exact Hi. field. lra.
  - rewrite mk_E. destruct H as (-> & _). field. lra.
Qed.

(** density recovered from the entropy variables *)
Lemma rho_recover rho p : 0 < rho -> 0 < p -> Rpower (exp (- thermo rho p) * p / rho) (1 / gami) = rho.
Proof.
  intros Hr Hp. unfold Rpower.
  replace (exp (- thermo rho p) * p / rho) with (exp (- thermo rho p + ln p - ln rho)).
  - rewrite ln_exp. unfold thermo, gami. replace (1 / (2 / 5) * (- (ln p - 7 / 5 * ln rho) + ln p - ln rho)) with (ln rho) by field.
    apply exp_ln, Hr.
  - unfold Rminus. rewrite !exp_plus, (exp_Ropp (ln rho)), !exp_ln by assumption. reflexivity.
Qed.
Lemma cons_prim d w rho u p : 0 < rho -> 0 < p -> ent_of d w rho u p -> is_state d (calcConservativeVars d true w) rho u p.
Proof.
  intros Hr Hp (W0 & W1 & W2).
  assert (Hu : forall i, (i < d)%nat -> - w (S i) / w (S d) = u i).
  { intros i Hi. rewrite W1, W2 by exact Hi. field. lra. }
  assert (HV : rsum d (fun i => - w (S i) / w (S d) * (- w (S i) / w (S d))) = dot d u u).
  { apply rsum_ext. intros i Hi. rewrite Hu by exact Hi. reflexivity. }
  assert (HS : gamma + gami * (1/2 * dot d u u * w (S d) - w 0%nat) = thermo rho p).
  { rewrite W0, W2. unfold gamma, gami. field. lra. }
  assert (HQ : Rpower (- exp (- thermo rho p) / w (S d)) (1 / gami) = rho).
  { rewrite <- (rho_recover rho p) at 2 by assumption. f_equal. rewrite W2. field. lra. }
  unfold calcConservativeVars. cbv zeta. rewrite HV, HS, HQ. repeat split.
  - intros i Hi. rewrite mk_S by exact Hi. rewrite Hu by exact Hi. reflexivity.
  - rewrite mk_E, W2. unfold gami. field. lra.
Qed.

(** every entropy-variable vector with negative last entry comes from a physical state *)
Lemma ent_to_prim d w : w (S d) < 0 -> exists rho u p, 0 < rho /\ 0 < p /\ ent_of d w rho u p.
Proof.
  intros Hw. set (u := fun i => - w (S i) / w (S d)).
  set (s := gamma + gami * (1/2 * dot d u u * w (S d) - w 0%nat)).
  set (rho := Rpower (- exp (- s) / w (S d)) (1 / gami)). set (p := - rho / w (S d)).
  assert (Hr : 0 < rho) by apply Rpower_pos.
  assert (Hi : 0 < - / w (S d)). { pose proof (Rinv_lt_0_compat _ Hw). lra. }
  assert (Hp : 0 < p). { unfold p, Rdiv. nra. }
  exists rho, u, p. repeat split; try assumption.
  - assert (E : thermo rho p = s).
    { unfold thermo, p. unfold Rdiv at 1. rewrite Ropp_mult_distr_l_reverse, Ropp_mult_distr_r.
      rewrite ln_mult by assumption. unfold rho at 1 2. rewrite !ln_Rpower.
      replace (- exp (- s) / w (S d)) with (exp (- s) * - / w (S d)) by (field; lra).
      rewrite ln_mult, ln_exp by (try apply exp_pos; assumption). unfold gami. field. }
    rewrite E. unfold s, p, gamma, gami. field. split; lra.
  - intros i Hi'. unfold u, p. field. split; lra.
  - unfold p. field. split; lra.
Qed.
Lemma ent_unique d w w' rho u p : ent_of d w rho u p -> ent_of d w' rho u p -> same d w w'.
Proof. intros (A0 & A1 & A2) (B0 & B1 & B2). apply same_intro; [lra| |lra]. intros i Hi. rewrite A1, B1 by exact Hi. reflexivity. Qed.

Lemma cons_of_ent d q : physical d q -> same d (calcConservativeVars d true (calcEntropyVars d false q)) q.
Proof.
  intros (rho & u & p & Hr & Hp & H). eapply state_unique; [|exact H]. apply cons_prim; auto. apply entvars_prim; auto.
Qed.
Lemma ent_of_cons d w : w (S d) < 0 ->
  physical d (calcConservativeVars d true w) /\ same d (calcEntropyVars d false (calcConservativeVars d true w)) w.
Proof.
  intros Hw. destruct (ent_to_prim d w Hw) as (rho & u & p & Hr & Hp & H).
  pose proof (cons_prim d w rho u p Hr Hp H) as S. split; [exists rho, u, p; auto|].
  eapply ent_unique; [|exact H]. apply entvars_prim; auto.
Qed.
Lemma ent_last_neg d q : physical d q -> calcEntropyVars d false q (S d) < 0.
Proof.
  intros (rho & u & p & Hr & Hp & H). destruct (entvars_prim d q rho u p Hr Hp H) as (_ & _ & ->).
  assert (0 < rho / p) by (apply Rdiv_lt_0_compat; assumption). unfold Rdiv in *. lra.
Qed.

(** ** entropy function *)
Lemma entropy_prim d q rho u p : 0 < rho -> 0 < p -> is_state d q rho u p -> entropy d false q = math_entropy rho p.
Proof.
  intros Hr Hp H. unfold entropy. rewrite (state_pressure d q rho u p) by (lra || exact H).
  destruct H as (-> & _). rewrite thermo_eq by assumption. unfold math_entropy, gami. reflexivity.
Qed.
Lemma entropy_ent_prim d w rho u p : 0 < rho -> 0 < p -> ent_of d w rho u p -> entropy d true w = math_entropy rho p.
Proof.
  intros Hr Hp (W0 & W1 & W2). unfold entropy. cbv zeta.
  assert (V : dot d (mom w) (mom w) = rho * rho / (p * p) * dot d u u).
  { unfold dot. rewrite <- rsum_scal. apply rsum_ext. intros i Hi. unfold mom. rewrite W1 by exact Hi. field. lra. }
  assert (E : - gamma + gami * (w 0%nat - 1/2 * dot d (mom w) (mom w) / w (S d)) = - thermo rho p).
  { rewrite V, W0, W2. unfold gamma, gami. field. lra. }
  rewrite E. replace (- exp (- thermo rho p) / w (S d)) with (exp (- thermo rho p) * p / rho) by (rewrite W2; field; lra).
  rewrite rho_recover by assumption. unfold math_entropy, gami. field.
Qed.
Lemma entropy_variables_agree d q : physical d q -> entropy d true (calcEntropyVars d false q) = entropy d false q.
Proof.
  intros (rho & u & p & Hr & Hp & H). rewrite (entropy_prim d q rho u p Hr Hp H). apply (entropy_ent_prim d _ rho u p Hr Hp). apply entvars_prim; auto.
Qed.
Lemma pressure_same d a b : same d a b -> pressure d a = pressure d b.
Proof.
  intros H. unfold pressure. rewrite (same_0 _ _ _ H), (same_E _ _ _ H). do 3 f_equal. f_equal.
  apply dot_ext; intros i Hi; apply H; lia.
Qed.
Lemma spectral_agree d dir q : physical d q ->
  calcSpectralRadius d true dir (calcEntropyVars d false q) = calcSpectralRadius d false dir q.
Proof.
  intros H. pose proof (cons_of_ent d q H) as S. unfold calcSpectralRadius. cbv zeta.
  rewrite (pressure_same _ _ _ S), (same_0 _ _ _ S).
  change (calcConservativeVars d false q) with q. set (c := calcConservativeVars d true (calcEntropyVars d false q)) in *.
  do 2 f_equal. f_equal. apply dot_ext; [|apply veq_refl]. intros i Hi. apply S. lia.
Qed.
Lemma spectral_prim d dir q rho u p : 0 < rho -> 0 < p -> is_state d q rho u p ->
  calcSpectralRadius d false dir q = Rabs (dot d u dir) + sqrt (7/5 * p / rho) * sqrt (dot d dir dir).
Proof.
  intros Hr Hp H. unfold calcSpectralRadius. cbn [calcConservativeVars].
  rewrite (state_pressure d q rho u p) by (lra || exact H). rewrite (state_mom d q rho u p dir H). destruct H as (-> & _).
  replace (rho * dot d u dir / rho) with (dot d u dir) by (field; lra). reflexivity.
Qed.

(** ** relative entropy: the first-order remainder of the entropy in closed form *)
Lemma ent_dot d w rho0 u0 p0 q rho u p : 0 < rho0 -> 0 < p0 -> ent_of d w rho0 u0 p0 -> is_state d q rho u p ->
  dot (d + 2) w q = rho * (7/5 - thermo rho0 p0) / (2/5) - 1/2 * (rho0 * rho / p0) * dot d (vsub u u0) (vsub u u0) - rho0 * p / (p0 * (2/5)).
Proof.
  intros Hr Hp (W0 & W1 & W2) (Q0 & Q1 & Q2). rewrite dot_state, W0, W2, Q0, Q2.
  assert (E : dot d (mom w) (mom q) = rho0 * rho / p0 * dot d u0 u).
  { unfold dot. rewrite <- rsum_scal. apply rsum_ext. intros i Hi. unfold mom. rewrite W1, Q1 by exact Hi. field. lra. }
  rewrite E.
  assert (F : dot d (vsub u u0) (vsub u u0) = dot d u u - 2 * dot d u0 u + dot d u0 u0).
  { unfold dot, vsub. rewrite <- rsum_scal, <- rsum_minus, <- rsum_plus. apply rsum_ext. intros; ring. }
  rewrite F. field. lra.
Qed.
Definition relative_entropy (d : nat) (rho u p rho0 u0 p0 : _) : R :=
  let x := p * rho0 / (p0 * rho) in let z := rho0 / rho in
  rho * (x - 1 - ln x) / (2/5) + rho * (z - 1 - ln z) + 1/2 * (rho0 * rho / p0) * dot d (vsub u u0) (vsub u u0).
Lemma affine_closed d q q0 rho u p rho0 u0 p0 : 0 < rho -> 0 < p -> 0 < rho0 -> 0 < p0 ->
  is_state d q rho u p -> is_state d q0 rho0 u0 p0 ->
  entropy_affine d q q0 = relative_entropy d rho u p rho0 u0 p0.
Proof.
  intros Hr Hp Hr0 Hp0 H H0. unfold entropy_affine.
  rewrite (entropy_prim d q rho u p) by assumption. rewrite (entropy_prim d q0 rho0 u0 p0) by assumption.
  pose proof (entvars_prim d q0 rho0 u0 p0 Hr0 Hp0 H0) as W.
  assert (E : rsum (d + 2) (fun i => calcEntropyVars d false q0 i * (q i - q0 i)) =
              dot (d+2) (calcEntropyVars d false q0) q - dot (d+2) (calcEntropyVars d false q0) q0).
  { unfold dot. rewrite <- rsum_minus. apply rsum_ext. intros; ring. }
  rewrite E, (ent_dot d _ rho0 u0 p0 q rho u p Hr0 Hp0 W H), (ent_dot d _ rho0 u0 p0 q0 rho0 u0 p0 Hr0 Hp0 W H0).
  assert (Z : dot d (vsub u0 u0) (vsub u0 u0) = 0).
  { unfold dot, vsub. rewrite (rsum_ext d _ (fun _ => 0)); [apply rsum_0|]. intros; ring. }
  rewrite Z. unfold relative_entropy, math_entropy, thermo. cbv zeta.
  rewrite !ln_div, !ln_mult by (try apply Rmult_lt_0_compat; assumption). field. lra.
Qed.

(** ** x - 1 - ln x *)
Lemma ln_le x : 0 < x -> ln x <= x - 1.
Proof.
  intros Hx. destruct (Req_dec x 1) as [->|Hn]; [rewrite ln_1; lra|].
  assert (K : exp (ln x) = x) by (apply exp_ln, Hx). pose proof (exp_ineq1 (ln x)) as Hi.
  assert (ln x <> 0). { intros E. rewrite E, exp_0 in K. congruence. }
  specialize (Hi H). lra.
Qed.
Lemma ln_lt x : 0 < x -> x <> 1 -> ln x < x - 1.
Proof.
  intros Hx Hn. assert (K : exp (ln x) = x) by (apply exp_ln, Hx). pose proof (exp_ineq1 (ln x)) as Hi.
  assert (ln x <> 0). { intros E. rewrite E, exp_0 in K. congruence. }
  specialize (Hi H). lra.
Qed.
Lemma relative_nonneg d rho u p rho0 u0 p0 : 0 < rho -> 0 < p -> 0 < rho0 -> 0 < p0 -> 0 <= relative_entropy d rho u p rho0 u0 p0.
Proof.
  intros Hr Hp Hr0 Hp0. unfold relative_entropy. cbv zeta.
  set (x := p * rho0 / (p0 * rho)). set (z := rho0 / rho).
  assert (Hx : 0 < x) by (unfold x; apply Rdiv_lt_0_compat; apply Rmult_lt_0_compat; assumption).
  assert (Hz : 0 < z) by (unfold z; apply Rdiv_lt_0_compat; assumption).
  pose proof (ln_le x Hx). pose proof (ln_le z Hz). pose proof (dot_pos d (vsub u u0)).
  assert (0 < rho0 * rho / p0) by (apply Rdiv_lt_0_compat; [apply Rmult_lt_0_compat|]; assumption).
  assert (0 <= rho * (x - 1 - ln x)) by nra. assert (0 <= rho * (z - 1 - ln z)) by nra.
  unfold Rdiv at 1. nra.
Qed.
Lemma relative_zero d rho u p rho0 u0 p0 : 0 < rho -> 0 < p -> 0 < rho0 -> 0 < p0 -> relative_entropy d rho u p rho0 u0 p0 = 0 ->
  rho = rho0 /\ p = p0 /\ veq d u u0.
Proof.
  intros Hr Hp Hr0 Hp0. unfold relative_entropy. cbv zeta.
  set (x := p * rho0 / (p0 * rho)). set (z := rho0 / rho). intros E.
  assert (Hx : 0 < x) by (unfold x; apply Rdiv_lt_0_compat; apply Rmult_lt_0_compat; assumption).
  assert (Hz : 0 < z) by (unfold z; apply Rdiv_lt_0_compat; assumption).
  pose proof (ln_le x Hx) as Lx. pose proof (ln_le z Hz) as Lz. pose proof (dot_pos d (vsub u u0)) as Hd.
  assert (Hk : 0 < rho0 * rho / p0) by (apply Rdiv_lt_0_compat; [apply Rmult_lt_0_compat|]; assumption).
  assert (A : 0 <= rho * (x - 1 - ln x)) by nra. assert (B : 0 <= rho * (z - 1 - ln z)) by nra.
  assert (C : 0 <= rho0 * rho / p0 * dot d (vsub u u0) (vsub u u0)) by nra.
  assert (A0 : rho * (x - 1 - ln x) = 0) by (unfold Rdiv at 1 in E; nra).
  assert (B0 : rho * (z - 1 - ln z) = 0) by (unfold Rdiv at 1 in E; nra).
  assert (C0 : rho0 * rho / p0 * dot d (vsub u u0) (vsub u u0) = 0) by (unfold Rdiv at 1 in E; nra).
  assert (x = 1). { destruct (Req_dec x 1) as [|Hn]; [assumption|]. pose proof (ln_lt x Hx Hn). nra. }
  assert (z = 1). { destruct (Req_dec z 1) as [|Hn]; [assumption|]. pose proof (ln_lt z Hz Hn). nra. }
  assert (Er : rho = rho0). { unfold z in *. apply (f_equal (fun t => t * rho)) in H0. unfold Rdiv in H0. rewrite Rmult_assoc, Rinv_l in H0 by lra. lra. }
  split; [exact Er|]. split.
  - unfold x in H. apply (f_equal (fun t => t * (p0 * rho))) in H. unfold Rdiv in H. rewrite Rmult_assoc, Rinv_l in H by nra. nra.
  - assert (D0 : dot d (vsub u u0) (vsub u u0) = 0) by nra.
    intros i Hi. pose proof (rsum_nonneg_zero d _ (fun j _ => Rle_0_sqr (vsub u u0 j)) D0 i Hi) as Hz'. unfold vsub, Rsqr in Hz'. nra.
Qed.

Lemma affine_nonneg d q q0 : physical d q -> physical d q0 -> 0 <= entropy_affine d q q0.
Proof.
  intros (r & u & p & Hr & Hp & H) (r0 & u0 & p0 & Hr0 & Hp0 & H0). rewrite (affine_closed d q q0 r u p r0 u0 p0) by assumption.
  apply relative_nonneg; assumption.
Qed.
Lemma affine_zero d q q0 : physical d q -> physical d q0 -> entropy_affine d q q0 = 0 -> same d q q0.
Proof.
  intros (r & u & p & Hr & Hp & H) (r0 & u0 & p0 & Hr0 & Hp0 & H0). rewrite (affine_closed d q q0 r u p r0 u0 p0) by assumption.
  intros E. destruct (relative_zero d r u p r0 u0 p0 Hr Hp Hr0 Hp0 E) as (-> & -> & V).
  eapply state_unique; [exact H|]. destruct H0 as (A & B & C). repeat split; try assumption.
  - intros i Hi. rewrite B, V by exact Hi. reflexivity.
  - rewrite C, (dot_ext d u u0 u u0 V V). reflexivity.
Qed.
(** convexity, in first-order and in Jensen form *)
Lemma entropy_first_order d q q0 : physical d q -> physical d q0 ->
  entropy d false q0 + rsum (d + 2) (fun i => calcEntropyVars d false q0 i * (q i - q0 i)) <= entropy d false q.
Proof. intros H H0. pose proof (affine_nonneg d q q0 H H0) as K. unfold entropy_affine in K. lra. Qed.

(** the physical states form a convex set: pressure is concave *)
Lemma physical_convex d a b t : physical d a -> physical d b -> 0 <= t <= 1 -> physical d (fun i => (1 - t) * a i + t * b i).
Proof.
  intros (ra & ua & pa & Hra & Hpa & Ha) (rb & ub & pb & Hrb & Hpb & Hb) Ht. apply physical_iff.
  assert (Hr : 0 < (1 - t) * ra + t * rb) by nra.
  assert (E0 : a 0%nat = ra) by apply Ha. assert (F0 : b 0%nat = rb) by apply Hb.
  rewrite E0, F0. split; [exact Hr|]. set (r := (1 - t) * ra + t * rb) in *.
  assert (M : dot d (mom (fun i => (1 - t) * a i + t * b i)) (mom (fun i => (1 - t) * a i + t * b i)) =
          (1-t)^2 * ra^2 * dot d ua ua + 2 * (1-t) * t * ra * rb * dot d ua ub + t^2 * rb^2 * dot d ub ub).
  { unfold dot. rewrite <- !rsum_scal, <- !rsum_plus. apply rsum_ext. intros i Hi. unfold mom.
    destruct Ha as (_ & Ha & _). destruct Hb as (_ & Hb & _). rewrite Ha, Hb by exact Hi. ring. }
  unfold pressure. rewrite M. cbv beta. rewrite E0, F0.
  destruct Ha as (_ & _ & Ea). destruct Hb as (_ & _ & Eb). rewrite Ea, Eb. fold r.
  (* (1-t)Ea + tEb - |m|^2/(2r) = ((1-t)pa + t pb)/gami + t(1-t) ra rb |ua-ub|^2/(2r) *)
  assert (D : dot d (vsub ua ub) (vsub ua ub) = dot d ua ua - 2 * dot d ua ub + dot d ub ub).
  { unfold dot, vsub. rewrite <- rsum_scal, <- rsum_minus, <- rsum_plus. apply rsum_ext. intros; ring. }
  pose proof (dot_pos d (vsub ua ub)) as P. 
  match goal with |- 0 < gami * ?X => assert (E : X = ((1-t)*pa + t*pb) / (2/5) + t * (1-t) * ra * rb * dot d (vsub ua ub) (vsub ua ub) / (2 * r)) end.
  { rewrite D. unfold r. field. fold r. lra. }
  rewrite E. assert (0 < (1-t)*pa + t*pb) by nra.
  assert (0 <= t * (1 - t) * ra * rb * dot d (vsub ua ub) (vsub ua ub) / (2 * r)).
  { unfold Rdiv. apply Rmult_le_pos; [repeat apply Rmult_le_pos; lra|]. left. apply Rinv_0_lt_compat. lra. }
  unfold gami. lra.
Qed.
