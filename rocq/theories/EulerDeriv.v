(** Derivatives: entropy variables are the entropy gradient, calcdQdWProduct is dq/dw, dpressdq is dp/dq; and
    dq/dw is symmetric positive definite. *)
From Coq Require Import Reals Arith Lra Lia Psatz Bool.
From Coquelicot Require Import Coquelicot.
From Verif Require Import Num Vec Euler EulerSpec EulerProofs.
Local Open Scope R_scope.

Lemma dot_line d a b s : dot d (mom (axpy a s b)) (mom (axpy a s b)) =
  dot d (mom a) (mom a) + 2 * s * dot d (mom a) (mom b) + s * s * dot d (mom b) (mom b).
Proof. unfold dot. rewrite <- !rsum_scal, <- !rsum_plus. apply rsum_ext. intros i Hi. unfold mom, axpy. ring. Qed.

(** pressure along a line *)
Lemma pressure_line d q v s : pressure d (axpy q s v) =
  gami * ((q (S d) + s * v (S d)) - 1/2 * (dot d (mom q) (mom q) + 2 * s * dot d (mom q) (mom v) + s * s * dot d (mom v) (mom v)) / (q 0%nat + s * v 0%nat)).
Proof. unfold pressure. rewrite dot_line. reflexivity. Qed.

Lemma pressure_derive d q v : q 0%nat <> 0 ->
  is_derive (fun s => pressure d (axpy q s v)) 0 (dot (d + 2) (dpressdq d q) v).
Proof.
  intros Hr. apply (is_derive_ext (fun s => gami * ((q (S d) + s * v (S d)) - 1/2 * (dot d (mom q) (mom q) + 2 * s * dot d (mom q) (mom v) + s * s * dot d (mom v) (mom v)) / (q 0%nat + s * v 0%nat)))).
  { intros s. symmetry. apply pressure_line. }
  assert (P : rsum d (fun i => q (S i) / q 0%nat * (q (S i) / q 0%nat)) = dot d (mom q) (mom q) / (q 0%nat * q 0%nat)).
  { unfold dot. rewrite <- rsum_div. apply rsum_ext. intros i Hi. unfold mom. field. exact Hr. }
  assert (Q : dot d (mom (dpressdq d q)) (mom v) = - gami * dot d (mom q) (mom v) / q 0%nat).
  { unfold dot. rewrite <- rsum_scal, <- rsum_div. apply rsum_ext. intros i Hi. unfold mom at 1, dpressdq. rewrite mk_S by exact Hi. unfold mom. field. exact Hr. }
  rewrite dot_state, Q. unfold dpressdq. cbv zeta. rewrite mk_0, mk_E, P.
  auto_derive; [rewrite Rmult_0_l, Rplus_0_r; exact Hr|]. rewrite Rmult_0_l, Rplus_0_r. field. exact Hr.
Qed.

(** chain rules used below, for arbitrary differentiable functions of s *)
Lemma ent_chain (Rf Pf : R -> R) r p dr dp : 0 < r -> 0 < p -> Rf 0 = r -> Pf 0 = p ->
  is_derive Rf 0 dr -> is_derive Pf 0 dp ->
  is_derive (fun s => - Rf s * ln (Pf s / Rpower (Rf s) gamma) / gami) 0
    (- dr * (ln p - gamma * ln r) / gami - r * (dp / p - gamma * dr / r) / gami).
Proof.
  intros Hr Hp R0 P0 DR DP.
  assert (ER : ex_derive Rf 0) by (eexists; exact DR). assert (EP : ex_derive Pf 0) by (eexists; exact DP).
  apply is_derive_unique in DR. apply is_derive_unique in DP. unfold Rpower.
  auto_derive.
  - rewrite R0, P0. repeat split; auto.
    + pose proof (exp_pos (gamma * ln r)). lra.
    + apply Rmult_lt_0_compat; [exact Hp|]. apply Rinv_0_lt_compat, exp_pos.
  - rewrite R0, P0. replace (Derive (fun x => Rf x) 0) with dr by (symmetry; exact DR).
    replace (Derive (fun x => Pf x) 0) with dp by (symmetry; exact DP).
    change (p * / exp (gamma * ln r)) with (p / exp (gamma * ln r)). rewrite ln_div, ln_exp by (auto using exp_pos).
    pose proof (exp_pos (gamma * ln r)) as He. set (e := exp (gamma * ln r)) in *.
    unfold gamma, gami. field. split; [lra|]. split; lra.
Qed.
Lemma rho_chain (Sf Ef : R -> R) rho e s0 ds de : e < 0 -> Ef 0 = e -> Sf 0 = s0 ->
  Rpower (- exp (- s0) / e) (1 / gami) = rho ->
  is_derive Sf 0 ds -> is_derive Ef 0 de ->
  is_derive (fun s => Rpower (- exp (- Sf s) / Ef s) (1 / gami)) 0 (rho / gami * (- ds - de / e)).
Proof.
  intros He E0 S0 R0 DS DE.
  assert (ES : ex_derive Sf 0) by (eexists; exact DS). assert (EE : ex_derive Ef 0) by (eexists; exact DE).
  apply is_derive_unique in DS. apply is_derive_unique in DE. unfold Rpower in *.
  auto_derive.
  - rewrite S0, E0. repeat split; auto; try lra.
    pose proof (exp_pos (- s0)). pose proof (Rinv_lt_0_compat e He). nra.
  - rewrite S0, E0. replace (Derive (fun x => Sf x) 0) with ds by (symmetry; exact DS).
    replace (Derive (fun x => Ef x) 0) with de by (symmetry; exact DE).
    change (- exp (- s0) * / e) with (- exp (- s0) / e). rewrite Rmult_comm in R0. 
    match goal with |- context [exp (?a * ln ?b)] => replace (exp (a * ln b)) with rho by (rewrite <- R0; f_equal; unfold gami; field) end.
    pose proof (exp_pos (- s0)) as Hx. set (x := exp (- s0)) in *. unfold gami. field. split; lra.
Qed.

(** entropy gradient *)
Lemma entropy_derive d q v : physical d q ->
  is_derive (fun s => entropy d false (axpy q s v)) 0 (dot (d + 2) (calcEntropyVars d false q) v).
Proof.
  intros Hph. pose proof Hph as (rho & u & p & Hr & Hp & H).
  assert (Hr' : rho <> 0) by lra. assert (Hp' : p <> 0) by lra.
  pose proof (entvars_prim d q rho u p Hr Hp H) as (W0 & W1 & W2).
  assert (DP : is_derive (fun s => pressure d (axpy q s v)) 0 (dot (d + 2) (dpressdq d q) v)).
  { apply pressure_derive. destruct H as (-> & _). exact Hr'. }
  assert (E : dot d (mom (calcEntropyVars d false q)) (mom v) = rho / p * dot d u (mom v)).
  { unfold dot. rewrite <- rsum_scal. apply rsum_ext. intros i Hi. unfold mom at 1. rewrite W1 by exact Hi. field. exact Hp'. }
  assert (F : dot d (mom (dpressdq d q)) (mom v) = - gami * dot d u (mom v)).
  { unfold dot. rewrite <- rsum_scal. apply rsum_ext. intros i Hi. unfold mom at 1, dpressdq. cbv zeta. rewrite mk_S by exact Hi.
    rewrite (state_vel d q rho u p i Hr' H Hi). ring. }
  assert (P0 : pressure d (axpy q 0 v) = p).
  { rewrite <- (state_pressure d q rho u p Hr' H). apply pressure_same. intros i _. unfold axpy. ring. }
  assert (R0 : axpy q 0 v 0%nat = rho). { unfold axpy. destruct H as (-> & _). ring. }
  assert (DR : is_derive (fun s => axpy q s v 0%nat) 0 (v 0%nat)). { unfold axpy. auto_derive; [exact I|ring]. }
  pose proof (ent_chain _ _ rho p _ _ Hr Hp R0 P0 DR DP) as K.
  match type of K with is_derive _ _ ?a => match goal with |- is_derive _ _ ?b => replace b with a; [exact K|] end end.
  rewrite !dot_state, E, F, W0, W2. unfold dpressdq. cbv zeta. rewrite mk_0, mk_E, (state_vel2 d q rho u p Hr' H).
  unfold thermo, gamma, gami. field. split; assumption.
Qed.

(** ** dq/dw *)
Lemma cons_line_v2 d w v s : w (S d) + s * v (S d) <> 0 ->
  rsum d (fun i => - axpy w s v (S i) / axpy w s v (S d) * (- axpy w s v (S i) / axpy w s v (S d))) =
  (dot d (mom w) (mom w) + 2 * s * dot d (mom w) (mom v) + s * s * dot d (mom v) (mom v)) / ((w (S d) + s * v (S d)) * (w (S d) + s * v (S d))).
Proof.
  intros Hn. rewrite <- dot_line. unfold dot. rewrite <- rsum_div. apply rsum_ext. intros i Hi. unfold mom, axpy. field. exact Hn.
Qed.

Lemma dqdw_derive d w v i : w (S d) < 0 -> (i < d + 2)%nat ->
  is_derive (fun s => calcConservativeVars d true (axpy w s v) i) 0 (calcdQdWProduct d (calcConservativeVars d true w) v i).
Proof.
  intros Hw Hi. destruct (ent_to_prim d w Hw) as (rho & u & p & Hr & Hp & W).
  pose proof (cons_prim d w rho u p Hr Hp W) as Q.
  assert (Hr' : rho <> 0) by lra. assert (Hp' : p <> 0) by lra.
  pose proof (state_pressure d _ rho u p Hr' Q) as PP.
  pose proof W as (W0 & W1 & W2).
  assert (A : dot d (mom w) (mom w) = rho * rho / (p * p) * dot d u u).
  { unfold dot. rewrite <- rsum_scal. apply rsum_ext. intros k Hk. unfold mom. rewrite W1 by exact Hk. field. exact Hp'. }
  assert (B : dot d (mom w) (mom v) = rho / p * dot d u (mom v)).
  { unfold dot. rewrite <- rsum_scal. apply rsum_ext. intros k Hk. unfold mom at 1. rewrite W1 by exact Hk. field. exact Hp'. }
  assert (SQ : rsum (d + 2) (fun k => calcConservativeVars d true w k * v k) =
     rho * v 0%nat + rho * dot d u (mom v) + (p / (2/5) + 1/2 * rho * dot d u u) * v (S d)).
  { fold (dot (d + 2) (calcConservativeVars d true w) v). rewrite dot_state. rewrite (state_mom d _ rho u p _ Q). destruct Q as (-> & _ & ->). reflexivity. }
  remember (dot d u u) as UU eqn:EUU. remember (dot d u (mom v)) as UV eqn:EUV. remember (dot d (mom v) (mom v)) as C eqn:EC.
  assert (NE : locally 0 (fun s => w (S d) + s * v (S d) < 0)).
  { assert (K : continuous (fun s => w (S d) + s * v (S d)) 0).
    { apply (continuous_plus (fun _ => w (S d)) (fun s => s * v (S d))); [apply continuous_const|].
      apply (continuous_mult (fun s => s) (fun _ => v (S d))); [apply continuous_id|apply continuous_const]. }
    apply (K (fun y => y < 0)). apply open_lt. rewrite Rmult_0_l, Rplus_0_r. exact Hw. }
  set (Ef := fun s => w (S d) + s * v (S d)).
  set (V2 := fun s => (dot d (mom w) (mom w) + 2 * s * dot d (mom w) (mom v) + s * s * C) / (Ef s * Ef s)).
  set (Sf := fun s => gamma + gami * (1/2 * V2 s * Ef s - (w 0%nat + s * v 0%nat))).
  set (Rf := fun s => Rpower (- exp (- Sf s) / Ef s) (1 / gami)).
  assert (E0 : Ef 0 = - rho / p) by (unfold Ef; rewrite W2; ring).
  assert (En : - rho / p < 0) by (rewrite <- W2; exact Hw).
  assert (V0 : V2 0 = UU). { unfold V2. rewrite E0, A, B. field. split; assumption. }
  assert (S0 : Sf 0 = thermo rho p). { unfold Sf. rewrite V0, E0, W0. unfold gamma, gami. field. assumption. }
  assert (RE : Rpower (- exp (- thermo rho p) / (- rho / p)) (1 / gami) = rho).
  { rewrite <- (rho_recover rho p) at 3 by assumption. f_equal. field. split; assumption. }
  assert (R0 : Rf 0 = rho). { unfold Rf. rewrite S0, E0. exact RE. }
  assert (DE : is_derive Ef 0 (v (S d))). { unfold Ef. auto_derive; [exact I|ring]. }
  assert (DV : is_derive V2 0 (2 * p / rho * UV + 2 * p / rho * UU * v (S d))).
  { unfold V2, Ef. rewrite A, B, W2. auto_derive.
    - rewrite Rmult_0_l, Rplus_0_r. assert (0 < (- rho / p) * (- rho / p)) by nra. repeat split; lra.
    - field. repeat split; try lra. }
  assert (DS : is_derive Sf 0 (gami * (1/2 * ((2 * p / rho * UV + 2 * p / rho * UU * v (S d)) * (- rho / p) + UU * v (S d)) - v 0%nat))).
  { unfold Sf. apply (is_derive_ext (fun s => gamma + gami * (1/2 * (V2 s * Ef s) - (w 0%nat + s * v 0%nat)))).
    { intros t. f_equal. f_equal. f_equal. ring. }
    assert (X1 : ex_derive V2 0) by (eexists; exact DV). assert (X2 : ex_derive Ef 0) by (eexists; exact DE).
    apply is_derive_unique in DV. apply is_derive_unique in DE.
    clearbody V2 Ef. auto_derive; [repeat split; assumption|].
    replace (Derive (fun x => V2 x) 0) with (2 * p / rho * UV + 2 * p / rho * UU * v (S d)) by (symmetry; exact DV).
    replace (Derive (fun x => Ef x) 0) with (v (S d)) by (symmetry; exact DE). rewrite V0, E0. ring. }
  pose proof (rho_chain Sf Ef rho (- rho / p) (thermo rho p) _ _ En E0 S0 RE DS DE) as DR. fold Rf in DR.
  assert (DRv : is_derive Rf 0 (rho * v 0%nat + rho * UV + (p / (2/5) + 1/2 * rho * UU) * v (S d))).
  { match type of DR with is_derive _ _ ?a => match goal with |- is_derive _ _ ?b => replace b with a; [exact DR|] end end.
    unfold gami. field. split; assumption. }
  assert (XR : ex_derive Rf 0) by (eexists; exact DRv). assert (XE : ex_derive Ef 0) by (eexists; exact DE).
  assert (XV : ex_derive V2 0) by (eexists; exact DV).
  assert (UR : Derive Rf 0 = _) by (apply is_derive_unique; exact DRv).
  assert (UE : Derive Ef 0 = _) by (apply is_derive_unique; exact DE).
  assert (UV2 : Derive V2 0 = _) by (apply is_derive_unique; exact DV).
  unfold calcdQdWProduct. cbv zeta. rewrite PP.
  (* the three kinds of rows *)
  destruct i as [|j]; [|destruct (Nat.eq_dec j d) as [->|Hj]].
  - rewrite mk_0, SQ. apply (is_derive_ext_loc Rf); [|exact DRv].
    apply (filter_imp (fun s => w (S d) + s * v (S d) < 0)); [|exact NE]. intros s Hs.
    unfold calcConservativeVars. cbv zeta. rewrite mk_0. rewrite cons_line_v2, <- EC by lra. reflexivity.
  - rewrite mk_E.
    apply (is_derive_ext_loc (fun s => - Rf s / Ef s / gami + 1/2 * Rf s * V2 s)).
    { apply (filter_imp (fun s => w (S d) + s * v (S d) < 0)); [|exact NE]. intros s Hs.
      unfold calcConservativeVars. cbv zeta. rewrite mk_E. rewrite cons_line_v2, <- EC by lra. reflexivity. }
    assert (SH : rsum d (fun k => calcConservativeVars d true w (S k) * ((calcConservativeVars d true w (S d) + p) * (1 / calcConservativeVars d true w 0%nat)) * v (S k))
      = rho * UV * ((calcConservativeVars d true w (S d) + p) * (1 / calcConservativeVars d true w 0%nat))).
    { rewrite EUV. unfold dot. rewrite <- rsum_scal, <- rsum_scal_r. apply rsum_ext. intros k Hk.
      destruct Q as (_ & Q & _). rewrite Q by exact Hk. unfold mom. ring. }
    rewrite SH. destruct Q as (-> & _ & ->). rewrite <- EUU.
    clearbody Rf Ef V2. auto_derive; [rewrite E0; repeat split; auto; lra|].
    replace (Derive (fun x => Rf x) 0) with (Derive Rf 0) by reflexivity.
    replace (Derive (fun x => Ef x) 0) with (Derive Ef 0) by reflexivity.
    replace (Derive (fun x => V2 x) 0) with (Derive V2 0) by reflexivity.
    rewrite UR, UE, UV2, R0, E0, V0. unfold gamma, gami. field. split; assumption.
  - assert (Hjd : (j < d)%nat) by lia. rewrite mk_S by exact Hjd.
    apply (is_derive_ext_loc (fun s => Rf s * (- (w (S j) + s * v (S j)) / Ef s))).
    { apply (filter_imp (fun s => w (S d) + s * v (S d) < 0)); [|exact NE]. intros s Hs.
      unfold calcConservativeVars. cbv zeta. rewrite mk_S by exact Hjd. rewrite cons_line_v2, <- EC by lra. reflexivity. }
    assert (SJ : forall c, rsum (d + 2) (fun k => c * calcConservativeVars d true w k * v k) = c * (rho * v 0%nat + rho * UV + (p / (2/5) + 1/2 * rho * UU) * v (S d))).
    { intros c. rewrite <- SQ, <- rsum_scal. apply rsum_ext. intros; ring. }
    rewrite SJ. destruct Q as (-> & Q1 & _). rewrite Q1 by exact Hjd. rewrite W1 by exact Hjd.
    clearbody Rf Ef. auto_derive; [rewrite E0; repeat split; auto; lra|].
    replace (Derive (fun x => Rf x) 0) with (Derive Rf 0) by reflexivity.
    replace (Derive (fun x => Ef x) 0) with (Derive Ef 0) by reflexivity.
    rewrite UR, UE, R0, E0. field. split; assumption.
Qed.

(** ** symmetry and positive definiteness of dq/dw *)
Lemma dqdw_rows d q rho u p v : 0 < rho -> 0 < p -> is_state d q rho u p ->
  let A := calcdQdWProduct d q v in let h := 7/2 * p / rho + 1/2 * dot d u u in
  A 0%nat = dot (d + 2) q v /\ (forall i, (i < d)%nat -> A (S i) = u i * dot (d + 2) q v + p * v (S i) + p * u i * v (S d)) /\ A (S d) = (p / (2/5) + 1/2 * rho * dot d u u) * v 0%nat + h * (rho * dot d u (mom v)) + (rho * h * h - 7/2 * p * p / rho) * v (S d).
Proof.
  intros Hr Hp H. assert (Hr' : rho <> 0) by lra. cbv zeta. unfold calcdQdWProduct. cbv zeta.
  rewrite (state_pressure d q rho u p Hr' H). split; [reflexivity|]. split.
  - intros i Hi. rewrite mk_S by exact Hi. change (q (S i) * (1 / q 0%nat)) with (q (S i) * (1 / q 0%nat)).
    replace (q (S i) * (1 / q 0%nat)) with (u i) by (rewrite <- (state_vel d q rho u p i Hr' H Hi); unfold Rdiv; ring).
    f_equal. f_equal. unfold dot. rewrite <- rsum_scal. apply rsum_ext. intros; ring.
  - rewrite mk_E.
    assert (SH : forall c, rsum d (fun k => q (S k) * c * v (S k)) = c * (rho * dot d u (mom v))).
    { intros c. rewrite <- (state_mom d q rho u p _ H). unfold dot. rewrite <- rsum_scal. apply rsum_ext. intros; unfold mom; ring. }
    rewrite SH. destruct H as (-> & _ & ->). unfold gamma, gami. field. exact Hr'.
Qed.
Lemma dqdw_quadratic d q rho u p v w : 0 < rho -> 0 < p -> is_state d q rho u p ->
  dot (d + 2) w (calcdQdWProduct d q v) =
  1 / rho * dot (d + 2) q v * dot (d + 2) q w +
  p * dot d (fun i => v (S i) + v (S d) * u i) (fun i => w (S i) + w (S d) * u i) + p * p / (rho * (2/5)) * v (S d) * w (S d).
Proof.
  intros Hr Hp H. assert (Hr' : rho <> 0) by lra.
  destruct (dqdw_rows d q rho u p v Hr Hp H) as (A0 & A1 & AE).
  assert (X : dot d (fun i => v (S i) + v (S d) * u i) (fun i => w (S i) + w (S d) * u i) =
     dot d (mom v) (mom w) + w (S d) * dot d u (mom v) + v (S d) * dot d u (mom w) + v (S d) * w (S d) * dot d u u).
  { unfold dot. rewrite <- !rsum_scal, <- !rsum_plus. apply rsum_ext. intros; unfold mom; ring. }
  rewrite (dot_state d w), A0, AE, X.
  assert (Y : dot d (mom w) (mom (calcdQdWProduct d q v)) =
     dot (d + 2) q v * dot d u (mom w) + p * dot d (mom v) (mom w) + p * v (S d) * dot d u (mom w)).
  { unfold dot at 1 3 4 5. rewrite <- !rsum_scal, <- !rsum_plus. apply rsum_ext. intros i Hi. unfold mom at 2. rewrite A1 by exact Hi. unfold mom. ring. }
  rewrite Y, !(dot_state d q), !(state_mom d q rho u p _ H). destruct H as (-> & _ & ->). field. exact Hr'.
Qed.
Lemma dqdw_symmetric d q v w : physical d q -> dot (d + 2) w (calcdQdWProduct d q v) = dot (d + 2) v (calcdQdWProduct d q w).
Proof.
  intros (rho & u & p & Hr & Hp & H). rewrite !(dqdw_quadratic d q rho u p) by assumption.
  rewrite (dot_comm d (fun i => v (S i) + v (S d) * u i)). ring.
Qed.
Lemma dqdw_nonneg d q v : physical d q -> 0 <= dot (d + 2) v (calcdQdWProduct d q v).
Proof.
  intros (rho & u & p & Hr & Hp & H). rewrite (dqdw_quadratic d q rho u p) by assumption.
  assert (0 < / rho) by (apply Rinv_0_lt_compat; exact Hr).
  assert (0 < / (rho * (2/5))) by (apply Rinv_0_lt_compat; nra).
  pose proof (dot_pos d (fun i => v (S i) + v (S d) * u i)). pose proof (Rle_0_sqr (dot (d+2) q v)). pose proof (Rle_0_sqr (v (S d))). unfold Rsqr in *.
  assert (0 <= 1 / rho * dot (d + 2) q v * dot (d + 2) q v) by (unfold Rdiv; nra).
  assert (0 <= p * p / (rho * (2 / 5)) * v (S d) * v (S d)). { unfold Rdiv. assert (0 < p * p * / (rho * (2/5))) by (apply Rmult_lt_0_compat; nra). unfold Rdiv in *. nra. }
  nra.
Qed.
Lemma dqdw_definite d q v : physical d q -> dot (d + 2) v (calcdQdWProduct d q v) = 0 -> same d v (fun _ => 0).
Proof.
  intros (rho & u & p & Hr & Hp & H). rewrite (dqdw_quadratic d q rho u p) by assumption. intros E.
  assert (Ir : 0 < / rho) by (apply Rinv_0_lt_compat; exact Hr).
  assert (I2 : 0 < p * p * / (rho * (2/5))). { apply Rmult_lt_0_compat; [nra|]. apply Rinv_0_lt_compat. nra. }
  pose proof (dot_pos d (fun i => v (S i) + v (S d) * u i)) as HX. set (X := dot d _ _) in *.
  pose proof (Rle_0_sqr (dot (d+2) q v)) as HA. pose proof (Rle_0_sqr (v (S d))) as HB. unfold Rsqr in *.
  assert (Z1 : 0 <= 1 / rho * dot (d + 2) q v * dot (d + 2) q v) by (unfold Rdiv; nra).
  assert (Z2 : 0 <= p * p / (rho * (2 / 5)) * v (S d) * v (S d)). { unfold Rdiv in *. nra. }
  assert (Z3 : 0 <= p * X) by nra.
  assert (VE : v (S d) = 0).
  { assert (K : p * p / (rho * (2 / 5)) * v (S d) * v (S d) = 0) by lra. unfold Rdiv in *. rewrite Rmult_assoc in K.
    apply Rmult_integral in K. destruct K as [K|K]; [lra|]. apply Rmult_integral in K. tauto. }
  assert (X0 : X = 0). { assert (K : p * X = 0) by lra. apply Rmult_integral in K. destruct K as [K|K]; [lra|exact K]. }
  assert (VM : forall i, (i < d)%nat -> v (S i) = 0).
  { intros i Hi. unfold X, dot in X0. pose proof (rsum_nonneg_zero d _ (fun j _ => Rle_0_sqr (v (S j) + v (S d) * u j)) X0 i Hi) as K.
    unfold Rsqr in K. rewrite VE in K. apply Rmult_integral in K. lra. }
  assert (Q0 : dot (d+2) q v = 0).
  { assert (K : 1 / rho * dot (d + 2) q v * dot (d + 2) q v = 0) by lra. unfold Rdiv in *. rewrite Rmult_assoc in K.
    apply Rmult_integral in K. destruct K as [K|K]; [lra|]. apply Rmult_integral in K. tauto. }
  rewrite dot_state, VE in Q0. assert (M0 : dot d (mom q) (mom v) = 0).
  { unfold dot. rewrite (rsum_ext d _ (fun _ => 0)); [apply rsum_0|]. intros i Hi. unfold mom. rewrite VM by exact Hi. ring. }
  rewrite M0 in Q0. destruct H as (E0 & _). rewrite E0 in Q0.
  apply same_intro; [|exact VM|exact VE]. apply (Rmult_eq_reg_l rho); lra.
Qed.
