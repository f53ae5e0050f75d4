(** Proofs about the dissipative, Roe, boundary and wall fluxes. *)
From Coq Require Import Reals Arith Lra Lia Psatz.
From Coquelicot Require Import Coquelicot.
From Verif Require Import Num Vec Euler EulerSpec EulerProofs EulerDeriv LogAvgProofs IsmailRoeProofs.
Local Open Scope R_scope.

(** ** Euler flux *)
Lemma euler_flux_prim d dir q rho u p : 0 < rho -> is_state d q rho u p -> euler_flux d dir rho u p (calcEulerFlux d dir q).
Proof.
  intros Hr H. assert (Hr' : rho <> 0) by lra. unfold calcEulerFlux. cbv zeta.
  rewrite (state_pressure d q rho u p Hr' H), (state_mom d q rho u p dir H). destruct H as (H0 & H1 & HE). split; [reflexivity|]. split.
  - intros i Hi. rewrite mk_S by exact Hi. rewrite (H1 i Hi), H0. field. exact Hr'.
  - rewrite mk_E, HE, H0. field. exact Hr'.
Qed.
Lemma euler_flux_unique d dir rho u p f g : euler_flux d dir rho u p f -> euler_flux d dir rho u p g -> same d f g.
Proof. intros (A0 & A1 & A2) (B0 & B1 & B2). apply same_intro; [lra| |lra]. intros i Hi. rewrite (A1 i Hi), (B1 i Hi). reflexivity. Qed.
Lemma euler_same d dir q q' : physical d q -> same d q q' -> same d (calcEulerFlux d dir q) (calcEulerFlux d dir q').
Proof.
  intros (rho & u & p & Hr & Hp & H) S. apply (euler_flux_unique d dir rho u p); apply euler_flux_prim; auto.
  eapply is_state_same; eauto.
Qed.

(** ** interface dissipation *)
Lemma physical_mid d a b : physical d a -> physical d b -> physical d (fun i => 1/2 * (a i + b i)).
Proof.
  intros A B. pose proof (physical_convex d a b (1/2) A B ltac:(lra)) as (rho & u & p & Hr & Hp & H). exists rho, u, p. split; [exact Hr|]. split; [exact Hp|].
  eapply is_state_same; [|exact H]. intros i _. field.
Qed.
Lemma spectral_nonneg d e dir q : 0 <= calcSpectralRadius d e dir q.
Proof.
  unfold calcSpectralRadius. cbv zeta. pose proof (Rabs_pos (dot d (mom (calcConservativeVars d e q)) dir / calcConservativeVars d e q 0%nat)).
  set (x := sqrt (gamma * _ / _)). assert (0 <= x) by apply sqrt_pos. pose proof (sqrt_pos (dot d dir dir)). nra.
Qed.
Lemma spectral_pos d dir q : physical d q -> 0 < dot d dir dir -> 0 < calcSpectralRadius d false dir q.
Proof.
  intros (rho & u & p & Hr & Hp & H) Hd. rewrite (spectral_prim d dir q rho u p Hr Hp H).
  pose proof (Rabs_pos (dot d u dir)). pose proof (sqrt_lt_R0 _ Hd). assert (0 < sqrt (7/5 * p / rho)). { apply sqrt_lt_R0. apply Rdiv_lt_0_compat; lra. } nra.
Qed.
Lemma diss_dot d dir c qL qR (wL wR f : vec) : physical d qL -> physical d qR -> 0 <= c ->
  dot (d + 2) (fun i => wL i - wR i) f <= dot (d + 2) (fun i => wL i - wR i) (add_dissipation d dir c qL qR wL wR f) /\
  (0 < c -> 0 < dot d dir dir ->
   dot (d + 2) (fun i => wL i - wR i) f = dot (d + 2) (fun i => wL i - wR i) (add_dissipation d dir c qL qR wL wR f) -> same d wL wR).
Proof.
  intros HL HR Hc. pose proof (physical_mid d qL qR HL HR) as HM. unfold add_dissipation. cbv zeta.
  set (qa := fun i => 1/2 * (qL i + qR i)) in *. set (v := fun i => wL i - wR i). set (lam := c * calcSpectralRadius d false dir qa).
  assert (E : dot (d + 2) v (fun i => f i + lam * calcdQdWProduct d qa v i) = dot (d + 2) v f + lam * dot (d + 2) v (calcdQdWProduct d qa v)).
  { unfold dot. rewrite <- rsum_scal, <- rsum_plus. apply rsum_ext. intros; ring. }
  rewrite E. pose proof (dqdw_nonneg d qa v HM) as N. assert (L : 0 <= lam) by (unfold lam; pose proof (spectral_nonneg d false dir qa); nra).
  split; [nra|]. intros Hc' Hd Z. assert (LP : 0 < lam) by (unfold lam; pose proof (spectral_pos d dir qa HM Hd); nra).
  assert (Q : dot (d + 2) v (calcdQdWProduct d qa v) = 0) by nra.
  pose proof (dqdw_definite d qa v HM Q) as S. intros i Hi. specialize (S i Hi). unfold v in S. lra.
Qed.
Lemma add_diss_equal d dir c qL qR wL wR f : same d wL wR -> same d (add_dissipation d dir c qL qR wL wR f) f.
Proof.
  intros S. unfold add_dissipation. cbv zeta. set (A := calcdQdWProduct _ _ _).
  assert (Z : same d A (fun _ => 0)).
  { set (v := fun i => wL i - wR i) in A. assert (V : forall i, (i < d + 2)%nat -> v i = 0) by (intros i Hi; unfold v; rewrite (S i Hi); ring).
    assert (V0 : v 0%nat = 0) by (apply V; lia). assert (VE : v (Datatypes.S d) = 0) by (apply V; lia).
    assert (VM : forall i, (i < d)%nat -> v (Datatypes.S i) = 0) by (intros; apply V; lia).
    unfold A, calcdQdWProduct. cbv zeta. apply same_intro.
    - rewrite mk_0. rewrite (rsum_ext _ _ (fun _ => 0)); [apply rsum_0|]. intros i Hi. rewrite (V i Hi). ring.
    - intros j Hj. rewrite mk_S by exact Hj. rewrite (rsum_ext _ _ (fun _ => 0)), rsum_0, (VM j Hj), VE; [ring|]. intros i Hi. rewrite (V i Hi). ring.
    - rewrite mk_E, V0, VE. rewrite (rsum_ext _ _ (fun _ => 0)), rsum_0; [ring|]. intros i Hi. rewrite (VM i Hi). ring. }
  intros i Hi. rewrite (Z i Hi). ring.
Qed.
Lemma lps_nonneg d adj q v : physical d q -> 0 <= dot (d + 2) v (applyLPSScaling d adj q v).
Proof.
  intros H. unfold applyLPSScaling. cbv zeta. set (s := rsum d _ / INR d).
  assert (Hs : 0 <= s). { unfold s. destruct d; [cbn; unfold Rdiv; rewrite Rmult_0_l; lra|]. apply Rmult_le_pos; [apply rsum_nonneg; intros; apply spectral_nonneg|]. apply Rlt_le, Rinv_0_lt_compat, lt_0_INR. lia. }
  assert (E : dot (d + 2) v (fun i => calcdQdWProduct d q v i * s) = s * dot (d + 2) v (calcdQdWProduct d q v)).
  { unfold dot. rewrite <- rsum_scal. apply rsum_ext. intros; ring. }
  rewrite E. pose proof (dqdw_nonneg d q v H). nra.
Qed.
Lemma dqdw_same d q q' v : same d q q' -> same d (calcdQdWProduct d q v) (calcdQdWProduct d q' v).
Proof.
  intros S. unfold calcdQdWProduct. cbv zeta. rewrite (pressure_same d q q' S), (same_0 d q q' S), (same_E d q q' S).
  apply same_intro.
  - apply rsum_ext. intros i Hi. rewrite (S i Hi). reflexivity.
  - intros j Hj. rewrite !mk_S by exact Hj. rewrite (same_S d q q' j S Hj). f_equal. f_equal. apply rsum_ext. intros i Hi. rewrite (S i Hi). reflexivity.
  - rewrite !mk_E. f_equal. f_equal. apply rsum_ext. intros i Hi. rewrite (same_S d q q' i S Hi). reflexivity.
Qed.
Lemma spectral_same d dir q q' : same d q q' -> calcSpectralRadius d false dir q = calcSpectralRadius d false dir q'.
Proof.
  intros S. unfold calcSpectralRadius, calcConservativeVars. cbv zeta. rewrite (pressure_same d q q' S), (same_0 d q q' S).
  rewrite (dot_ext d (mom q) (mom q') dir dir); [reflexivity| |apply veq_refl]. intros i Hi. exact (same_S d q q' i S Hi).
Qed.
Lemma lps_ent d adj q v : physical d q -> same d (applyLPSScalingUsingEntVars d adj (calcEntropyVars d false q) v) (applyLPSScaling d adj q v).
Proof.
  intros H. pose proof (cons_of_ent d q H) as S. intros i Hi. unfold applyLPSScalingUsingEntVars, applyLPSScaling. cbv zeta.
  rewrite (dqdw_same d _ q v S i Hi). f_equal. f_equal. apply rsum_ext. intros j _. apply spectral_same, S.
Qed.
Lemma same_refl d a : same d a a. Proof. intros i _; reflexivity. Qed.
Lemma add_diss_same d dir c qL qL' qR qR' wL wR f f' : same d qL qL' -> same d qR qR' -> same d f f' ->
  same d (add_dissipation d dir c qL qR wL wR f) (add_dissipation d dir c qL' qR' wL wR f').
Proof.
  intros A B F. unfold add_dissipation. cbv zeta.
  assert (M : same d (fun i => 1/2 * (qL i + qR i)) (fun i => 1/2 * (qL' i + qR' i))) by (intros i Hi; rewrite (A i Hi), (B i Hi); reflexivity).
  intros i Hi. rewrite (F i Hi), (spectral_same d dir _ _ M), (dqdw_same d _ _ _ M i Hi). reflexivity.
Qed.

(** ** the common upwinding operator of the Roe and boundary fluxes *)
Definition upw (d : nat) (dir u : vec) (H a dA l1 l2 l3 : R) (dq : vec) : vec :=
  let phi := 1/2 * dot d u u in
  let Un := dot d dir u in
  let tmp1 := 1/2 * (l1 + l2) - l3 in
  let E1 := tmp1 * gami / (a * a) in
  let E2 := tmp1 / (dA * dA) in
  let E34 := 1/2 * (l1 - l2) / (dA * a) in
  let Edq := phi * dq 0%nat + dq (S d) - dot d u (mom dq) in
  let Fdq := - Un * dq 0%nat + dot d dir (mom dq) in
  mk d (l3 * dq 0%nat + E1 * Edq + E34 * Fdq)
     (fun i => l3 * dq (S i) + Edq * (E1 * u i + gami * E34 * dir i) + Fdq * (E2 * dir i + E34 * u i))
     (l3 * dq (S d) + Edq * (E1 * H + gami * E34 * Un) + Fdq * (E2 * Un + E34 * H)).
Lemma upw_waves d dir u H a l1 l2 l3 c1 c2 t dq : 0 < a -> 0 < dot d dir dir -> a * a = gami * (H - 1/2 * dot d u u) ->
  waves d (unit_of d dir) u H a c1 c2 t dq -> scaled_waves d (unit_of d dir) u H a c1 c2 l1 l2 l3 t (upw d dir u H a (sqrt (dot d dir dir)) l1 l2 l3 dq).
Proof.
  intros Ha Hd HA ((T1 & T2) & W0 & W1 & WE). set (dA := sqrt (dot d dir dir)) in *.
  assert (Pd : 0 < dA) by (apply sqrt_lt_R0; exact Hd). assert (DD : dot d dir dir = dA * dA) by (symmetry; apply sqrt_sqrt; lra).
  assert (NU : dot d (unit_of d dir) u = dot d dir u / dA). { unfold dot. rewrite <- rsum_div. apply rsum_ext. intros; unfold unit_of; fold dA. field. lra. }
  assert (UD : dot d u (mom dq) = c1 * (dot d u u + a * (dot d dir u / dA)) + c2 * (dot d u u - a * (dot d dir u / dA)) + rsum d (fun i => u i * t (S i))).
  { rewrite <- NU. unfold dot. rewrite <- !rsum_scal, <- rsum_plus, <- rsum_minus, <- !rsum_scal, <- !rsum_plus. apply rsum_ext. intros i Hi. unfold mom. rewrite (W1 i Hi). ring. }
  assert (DDq : dot d dir (mom dq) = c1 * (dot d dir u + a * dA) + c2 * (dot d dir u - a * dA) + dA * rsum d (fun i => unit_of d dir i * t (S i))).
  { replace (a * dA) with (a / dA * dot d dir dir) by (rewrite DD; field; lra). unfold dot. rewrite <- !rsum_scal, <- rsum_plus, <- rsum_minus, <- !rsum_scal, <- !rsum_plus. apply rsum_ext. intros i Hi.
    unfold mom. rewrite (W1 i Hi). unfold unit_of. fold dA. field. lra. }
  set (ut := rsum d (fun i => u i * t (S i))) in *. set (nt := rsum d (fun i => unit_of d dir i * t (S i))) in *.
  rewrite NU in T2. rewrite NU in WE.
  assert (nt' : nt = dot d dir u / dA * t 0%nat) by lra. assert (ut' : ut = 1/2 * dot d u u * t 0%nat + t (S d)) by lra.
  assert (HH : H = a * a / gami + 1/2 * dot d u u). { rewrite HA. unfold gami. field. }
  unfold upw. cbv zeta. rewrite UD, DDq, nt', ut', W0, WE. unfold scaled_waves. rewrite NU. rewrite HH. unfold gami. split; [|split].
  - rewrite mk_0. field. split; lra.
  - intros i Hi. rewrite mk_S by exact Hi. rewrite (W1 i Hi). unfold unit_of. fold dA. field. split; lra.
  - rewrite mk_E. field. split; lra.
Qed.
(** every perturbation splits *)
Lemma waves_exist d dir u H a dq : 0 < a -> 0 < dot d dir dir -> a * a = gami * (H - 1/2 * dot d u u) -> exists c1 c2 t, waves d (unit_of d dir) u H a c1 c2 t dq.
Proof.
  intros Ha Hd HA. set (dA := sqrt (dot d dir dir)). assert (Pd : 0 < dA) by (apply sqrt_lt_R0; exact Hd). assert (DD : dot d dir dir = dA * dA) by (symmetry; apply sqrt_sqrt; lra).
  set (n := unit_of d dir).
  assert (NN : dot d n n = 1). { replace 1 with (dot d dir dir / (dA * dA)) by (rewrite DD; field; lra). unfold dot. rewrite <- rsum_div. apply rsum_ext. intros; unfold n, unit_of; fold dA. field. lra. }
  set (E := 1/2 * dot d u u * dq 0%nat + dq (S d) - rsum d (fun i => u i * dq (S i))).
  set (F := rsum d (fun i => n i * dq (S i)) - dot d n u * dq 0%nat).
  set (c1 := 1/2 * (gami * E / (a * a) + F / a)). set (c2 := 1/2 * (gami * E / (a * a) - F / a)).
  set (tS := fun i => dq (S i) - c1 * (u i + a * n i) - c2 * (u i - a * n i)).
  exists c1, c2, (mk d (dq 0%nat - c1 - c2) tS (dq (S d) - c1 * (H + a * dot d n u) - c2 * (H - a * dot d n u))).
  assert (HH : H = a * a / gami + 1/2 * dot d u u). { rewrite HA. unfold gami. field. }
  repeat split.
  - rewrite mk_0, mk_E.
    assert (X : rsum d (fun i => u i * mk d (dq 0%nat - c1 - c2) tS (dq (S d) - c1 * (H + a * dot d n u) - c2 * (H - a * dot d n u)) (S i)) =
       rsum d (fun i => u i * dq (S i)) - c1 * (dot d u u + a * dot d n u) - c2 * (dot d u u - a * dot d n u)).
    { unfold dot at 3 4 5 6. rewrite <- !rsum_scal, <- rsum_plus, <- rsum_minus, <- !rsum_scal, <- !rsum_minus. apply rsum_ext. intros i Hi. rewrite mk_S by exact Hi. unfold tS. ring. }
    rewrite X. rewrite HH. unfold c1, c2. replace (rsum d (fun i => u i * dq (S i))) with (1/2 * dot d u u * dq 0%nat + dq (S d) - E) by (unfold E; ring).
    unfold gami. field. lra.
  - rewrite mk_0.
    assert (X : rsum d (fun i => n i * mk d (dq 0%nat - c1 - c2) tS (dq (S d) - c1 * (H + a * dot d n u) - c2 * (H - a * dot d n u)) (S i)) =
       rsum d (fun i => n i * dq (S i)) - c1 * (dot d n u + a * 1) - c2 * (dot d n u - a * 1)).
    { rewrite <- NN. unfold dot at 3 4 5 6. rewrite <- !rsum_scal, <- rsum_plus, <- rsum_minus, <- !rsum_scal, <- !rsum_minus. apply rsum_ext. intros i Hi. rewrite mk_S by exact Hi. unfold tS. ring. }
    rewrite X. unfold c1, c2. replace (rsum d (fun i => n i * dq (S i))) with (F + dot d n u * dq 0%nat) by (unfold F; ring). field. lra.
  - rewrite mk_0. ring.
  - intros i Hi. rewrite mk_S by exact Hi. unfold tS. ring.
  - rewrite mk_E. ring.
Qed.
