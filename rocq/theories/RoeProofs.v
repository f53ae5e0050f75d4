(** Proofs about the Roe flux (euler_fluxes.hpp:253-338) and the boundary fluxes (:682-985, :1215-1250). *)
From Coq Require Import Reals Arith Lra Lia Psatz.
From Coquelicot Require Import Coquelicot.
From Verif Require Import Num Vec Euler EulerSpec EulerProofs EulerDeriv LogAvgProofs IsmailRoeProofs FluxProofs.
Local Open Scope R_scope.

(** Roe averages in terms of density, velocity, pressure *)
Lemma roe_u_prim d qL qR rL uL pL rR uR pR i : 0 < rL -> 0 < rR -> is_state d qL rL uL pL -> is_state d qR rR uR pR -> (i < d)%nat ->
  roe_u qL qR i = (sqrt rL * uL i + sqrt rR * uR i) / (sqrt rL + sqrt rR).
Proof.
  intros HL HR (L0 & L1 & _) (R0 & R1 & _) Hi. unfold roe_u. cbv zeta. rewrite L0, R0, (L1 i Hi), (R1 i Hi).
  pose proof (sqrt_lt_R0 _ HL). pose proof (sqrt_lt_R0 _ HR). field. repeat split; lra.
Qed.
Lemma roe_H_prim d qL qR rL uL pL rR uR pR : 0 < rL -> 0 < rR -> is_state d qL rL uL pL -> is_state d qR rR uR pR ->
  roe_H d qL qR = (sqrt rL * enthalpy d rL uL pL + sqrt rR * enthalpy d rR uR pR) / (sqrt rL + sqrt rR).
Proof.
  intros HL HR SL SR. unfold roe_H. cbv zeta. rewrite (state_mom2 d qL rL uL pL SL), (state_mom2 d qR rR uR pR SR).
  destruct SL as (L0 & _ & LE), SR as (R0 & _ & RE). rewrite L0, R0, LE, RE.
  pose proof (sqrt_lt_R0 _ HL). pose proof (sqrt_lt_R0 _ HR). unfold enthalpy, gamma, gami. field. repeat split; lra.
Qed.
Lemma avg_vel2 d a b (x y : vec) : 0 < a -> 0 < b -> (forall v : vec, (forall i, (i < d)%nat -> v i = (a * x i + b * y i) / (a + b)) ->
  dot d v v <= (a * dot d x x + b * dot d y y) / (a + b)).
Proof.
  intros Ha Hb v Hv. unfold dot. rewrite <- !rsum_scal, <- rsum_plus, <- rsum_div. apply rsum_le. intros i Hi. rewrite (Hv i Hi).
  apply Rminus_le_0. replace ((a * (x i * x i) + b * (y i * y i)) / (a + b) - (a * x i + b * y i) / (a + b) * ((a * x i + b * y i) / (a + b)))
    with (a * b * ((x i - y i) * (x i - y i)) / ((a + b) * (a + b))) by (field; lra).
  apply Rmult_le_pos; [|apply Rlt_le, Rinv_0_lt_compat; nra]. apply Rmult_le_pos; [nra|]. apply Rle_0_sqr.
Qed.
Lemma roe_sound_pos d qL qR : physical d qL -> physical d qR -> 0 < roe_H d qL qR - 1/2 * dot d (roe_u qL qR) (roe_u qL qR).
Proof.
  intros (rL & uL & pL & HrL & HpL & SL) (rR & uR & pR & HrR & HpR & SR).
  rewrite (roe_H_prim d qL qR rL uL pL rR uR pR HrL HrR SL SR). pose proof (sqrt_lt_R0 _ HrL) as A. pose proof (sqrt_lt_R0 _ HrR) as B.
  pose proof (avg_vel2 d _ _ uL uR A B (roe_u qL qR) (fun i Hi => roe_u_prim d qL qR rL uL pL rR uR pR i HrL HrR SL SR Hi)) as C.
  set (a := sqrt rL) in *. set (b := sqrt rR) in *. unfold enthalpy.
  replace ((a * (7 / 2 * pL / rL + 1 / 2 * dot d uL uL) + b * (7 / 2 * pR / rR + 1 / 2 * dot d uR uR)) / (a + b))
    with (7/2 * ((a * (pL / rL) + b * (pR / rR)) / (a + b)) + 1/2 * ((a * dot d uL uL + b * dot d uR uR) / (a + b))) by (field; lra).
  assert (0 < (a * (pL / rL) + b * (pR / rR)) / (a + b)).
  { apply Rdiv_lt_0_compat; [|lra]. assert (0 < pL / rL) by (apply Rdiv_lt_0_compat; assumption). assert (0 < pR / rR) by (apply Rdiv_lt_0_compat; assumption). nra. }
  lra.
Qed.
Definition roe_a (d : nat) (qL qR : vec) : R := sqrt (gami * (roe_H d qL qR - 1/2 * dot d (roe_u qL qR) (roe_u qL qR))).
Lemma roe_a_pos d qL qR : physical d qL -> physical d qR -> 0 < roe_a d qL qR /\
  roe_a d qL qR * roe_a d qL qR = gami * (roe_H d qL qR - 1/2 * dot d (roe_u qL qR) (roe_u qL qR)).
Proof.
  intros HL HR. pose proof (roe_sound_pos d qL qR HL HR). unfold roe_a. split; [apply sqrt_lt_R0|apply sqrt_sqrt]; unfold gami; lra.
Qed.
Definition efix (l rhoA : R) : R := 1/2 * Rmax (Rabs l) (25 / 1000 * rhoA).
Lemma roe_split d dir qL qR :
  let u := roe_u qL qR in let a := roe_a d qL qR in let dA := sqrt (dot d dir dir) in let Un := dot d dir u in
  let rhoA := Rabs Un + dA * a in
  forall k, (k < d + 2)%nat -> calcRoeFaceFlux d dir qL qR k = 1/2 * (calcEulerFlux d dir qL k + calcEulerFlux d dir qR k) +
    upw d dir u (roe_H d qL qR) a dA (efix (Un + dA * a) rhoA) (efix (Un - dA * a) rhoA) (efix Un rhoA) (fun i => qL i - qR i) k.
Proof.
  cbv zeta. apply same_intro; unfold calcRoeFaceFlux, upw; cbv zeta; fold (roe_a d qL qR) (efix (dot d dir (roe_u qL qR) + sqrt (dot d dir dir) * roe_a d qL qR) (Rabs (dot d dir (roe_u qL qR)) + sqrt (dot d dir dir) * roe_a d qL qR))
   (efix (dot d dir (roe_u qL qR) - sqrt (dot d dir dir) * roe_a d qL qR) (Rabs (dot d dir (roe_u qL qR)) + sqrt (dot d dir dir) * roe_a d qL qR))
   (efix (dot d dir (roe_u qL qR)) (Rabs (dot d dir (roe_u qL qR)) + sqrt (dot d dir dir) * roe_a d qL qR)).
  - rewrite !mk_0. ring.
  - intros i Hi. rewrite !mk_S by exact Hi. ring.
  - rewrite !mk_E. ring.
Qed.
Lemma upw_zero d dir u H a dA l1 l2 l3 dq : same d dq (fun _ => 0) -> same d (upw d dir u H a dA l1 l2 l3 dq) (fun _ => 0).
Proof.
  intros Z. unfold upw. cbv zeta. rewrite (same_0 d _ _ Z), (same_E d _ _ Z).
  rewrite (dot_ext d u u (mom dq) (fun _ => 0) (veq_refl d u) (fun i Hi => same_S d _ _ i Z Hi)), (dot_ext d dir dir (mom dq) (fun _ => 0) (veq_refl d dir) (fun i Hi => same_S d _ _ i Z Hi)).
  assert (D0 : forall v, dot d v (fun _ => 0) = 0). { intros v. unfold dot. rewrite (rsum_ext _ _ (fun _ => 0)); [apply rsum_0|]. intros; ring. }
  rewrite !D0. apply same_intro; [rewrite mk_0; ring| |rewrite mk_E; ring]. intros i Hi. rewrite mk_S by exact Hi. rewrite (same_S d _ _ i Z Hi). ring.
Qed.
Lemma roe_consistent d dir qL qR rho u p : 0 < rho -> is_state d qL rho u p -> is_state d qR rho u p -> euler_flux d dir rho u p (calcRoeFaceFlux d dir qL qR).
Proof.
  intros Hr SL SR. pose proof (euler_flux_prim d dir qL rho u p Hr SL) as (A0 & A1 & AE). pose proof (euler_flux_prim d dir qR rho u p Hr SR) as (B0 & B1 & BE).
  pose proof (state_unique d qL qR rho u p SL SR) as S.
  assert (Z : same d (fun i => qL i - qR i) (fun _ => 0)) by (intros i Hi; rewrite (S i Hi); ring).
  assert (K : forall k, (k < d + 2)%nat -> calcRoeFaceFlux d dir qL qR k = 1/2 * (calcEulerFlux d dir qL k + calcEulerFlux d dir qR k)).
  { intros k Hk. rewrite (roe_split d dir qL qR k Hk). rewrite (upw_zero d dir _ _ _ _ _ _ _ _ Z k Hk). ring. }
  split; [rewrite K by lia; rewrite A0, B0; field|]. split.
  - intros i Hi. rewrite K by lia. rewrite (A1 i Hi), (B1 i Hi). field.
  - rewrite K by lia. rewrite AE, BE. field.
Qed.
(** ** conservation *)
Lemma roe_u_sym qL qR i : roe_u qR qL i = roe_u qL qR i.
Proof. unfold roe_u. cbv zeta. rewrite (Rplus_comm (sqrt (qR 0%nat)) (sqrt (qL 0%nat))). ring. Qed.
Lemma roe_H_sym d qL qR : roe_H d qR qL = roe_H d qL qR.
Proof. unfold roe_H. cbv zeta. rewrite (Rplus_comm (sqrt (qR 0%nat)) (sqrt (qL 0%nat))). ring. Qed.
Lemma dot_opp_l d a b : dot d (fun i => - a i) b = - dot d a b.
Proof. unfold dot. rewrite <- rsum_opp. apply rsum_ext. intros; ring. Qed.
Lemma dot_opp_r d a b : dot d a (fun i => - b i) = - dot d a b.
Proof. unfold dot. rewrite <- rsum_opp. apply rsum_ext. intros; ring. Qed.
Lemma euler_opp d dir q : same d (calcEulerFlux d (fun i => - dir i) q) (fun k => - calcEulerFlux d dir q k).
Proof.
  unfold calcEulerFlux. cbv zeta. rewrite dot_opp_r. apply same_intro; [rewrite !mk_0; ring| |rewrite !mk_E; unfold Rdiv; ring].
  intros i Hi. rewrite !mk_S by exact Hi. unfold Rdiv. ring.
Qed.
Lemma upw_opp d dir (u v : vec) H a dA l1 l2 l3 dq dr : (forall i, u i = v i) -> (forall i, dr i = - dq i) ->
  same d (upw d (fun i => - dir i) v H a dA l2 l1 l3 dr) (fun k => - upw d dir u H a dA l1 l2 l3 dq k).
Proof.
  intros Hu Hr. unfold upw. cbv zeta. rewrite (dot_ext d v u v u), dot_opp_l, (dot_ext d dir dir v u), dot_opp_l, !Hr; try (intros i _; rewrite ?Hu; reflexivity).
  rewrite (dot_ext d v u (mom dr) (fun i => - mom dq i)), (dot_ext d dir dir (mom dr) (fun i => - mom dq i)), !dot_opp_r; try (intros i _; unfold mom; rewrite ?Hu, ?Hr; reflexivity).
  apply same_intro; [rewrite !mk_0; unfold Rdiv; ring| |rewrite !mk_E; unfold Rdiv; ring].
  intros i Hi. rewrite !mk_S by exact Hi. rewrite Hr, Hu. unfold Rdiv. ring.
Qed.
Lemma upw_l_ext d dir u H a dA l1 l2 l3 m1 m2 m3 dq k : l1 = m1 -> l2 = m2 -> l3 = m3 -> upw d dir u H a dA l1 l2 l3 dq k = upw d dir u H a dA m1 m2 m3 dq k.
Proof. intros -> -> ->. reflexivity. Qed.
Lemma roe_conservative d dir qL qR : same d (calcRoeFaceFlux d (fun i => - dir i) qR qL) (fun k => - calcRoeFaceFlux d dir qL qR k).
Proof.
  intros k Hk. rewrite (roe_split d (fun i => - dir i) qR qL k Hk), (roe_split d dir qL qR k Hk), (euler_opp d dir qL k Hk), (euler_opp d dir qR k Hk).
  assert (UU : forall v w : vec, (forall i, v i = w i) -> dot d v v = dot d w w) by (intros v w E; apply dot_ext; intros i _; apply E).
  assert (DD : dot d (fun i => - dir i) (fun i => - dir i) = dot d dir dir) by (rewrite dot_opp_l, dot_opp_r; ring).
  assert (UN : dot d (fun i => - dir i) (roe_u qR qL) = - dot d dir (roe_u qL qR)).
  { rewrite dot_opp_l. f_equal. apply dot_ext; [apply veq_refl|]. intros i _. apply roe_u_sym. }
  assert (AA : roe_a d qR qL = roe_a d qL qR). { unfold roe_a. rewrite roe_H_sym, (UU _ _ (roe_u_sym qL qR)). reflexivity. }
  rewrite DD, UN, AA, roe_H_sym, Rabs_Ropp. set (Un := dot d dir (roe_u qL qR)). set (c := sqrt (dot d dir dir) * roe_a d qL qR).
  rewrite (upw_l_ext _ _ _ _ _ _ _ _ _ (efix (Un - c) (Rabs Un + c)) (efix (Un + c) (Rabs Un + c)) (efix Un (Rabs Un + c))).
  - rewrite (upw_opp d dir (roe_u qL qR) (roe_u qR qL) _ _ _ (efix (Un + c) (Rabs Un + c)) (efix (Un - c) (Rabs Un + c)) _ (fun i => qL i - qR i) (fun i => qR i - qL i) (fun i => eq_sym (roe_u_sym qL qR i)) (fun i => eq_sym (Ropp_minus_distr (qL i) (qR i))) k Hk). ring.
  - unfold efix. rewrite <- (Rabs_Ropp (Un - c)). do 3 f_equal. ring.
  - unfold efix. rewrite <- (Rabs_Ropp (Un + c)). do 3 f_equal. ring.
  - unfold efix. rewrite Rabs_Ropp. reflexivity.
Qed.
(** ** Roe's property and supersonic faces *)
Lemma roe_property d dir qL qR : physical d qL -> physical d qR ->
  let u := roe_u qL qR in let Un := dot d dir u in let dq := fun i => qL i - qR i in
  let Edq := 1/2 * dot d u u * dq 0%nat + dq (S d) - dot d u (mom dq) in
  let Fdq := - Un * dq 0%nat + dot d dir (mom dq) in
  same d (mk d (Un * dq 0%nat + Fdq) (fun i => Un * dq (S i) + Fdq * u i + gami * Edq * dir i) (Un * dq (S d) + Fdq * roe_H d qL qR + gami * Edq * Un))
    (fun k => calcEulerFlux d dir qL k - calcEulerFlux d dir qR k).
Proof.
  intros (rL & uL & pL & HrL & HpL & SL) (rR & uR & pR & HrR & HpR & SR). cbv zeta.
  pose proof (roe_u_prim d qL qR rL uL pL rR uR pR) as RU. pose proof (roe_H_prim d qL qR rL uL pL rR uR pR HrL HrR SL SR) as RH.
  pose proof (sqrt_lt_R0 _ HrL) as A. pose proof (sqrt_lt_R0 _ HrR) as B.
  assert (AA : rL = sqrt rL * sqrt rL) by (symmetry; apply sqrt_sqrt; lra). assert (BB : rR = sqrt rR * sqrt rR) by (symmetry; apply sqrt_sqrt; lra).
  set (a := sqrt rL) in *. set (b := sqrt rR) in *.
  set (UL := dot d uL dir). set (UR := dot d uR dir). set (LL := dot d uL uL). set (RR := dot d uR uR). set (LR := dot d uL uR).
  assert (UN : dot d dir (roe_u qL qR) = (a * UL + b * UR) / (a + b)).
  { unfold UL, UR, dot. rewrite <- !rsum_scal, <- rsum_plus, <- rsum_div. apply rsum_ext. intros i Hi. rewrite (RU i HrL HrR SL SR Hi). field. lra. }
  assert (UU : dot d (roe_u qL qR) (roe_u qL qR) = (a * a * LL + 2 * a * b * LR + b * b * RR) / ((a + b) * (a + b))).
  { unfold LL, LR, RR, dot. rewrite <- !rsum_scal, <- !rsum_plus, <- rsum_div. apply rsum_ext. intros i Hi. rewrite (RU i HrL HrR SL SR Hi). field. lra. }
  assert (UM : dot d (roe_u qL qR) (mom (fun i => qL i - qR i)) = (a * (rL * LL - rR * LR) + b * (rL * LR - rR * RR)) / (a + b)).
  { unfold LL, LR, RR, dot. rewrite <- !rsum_scal, <- !rsum_minus, <- !rsum_scal, <- rsum_plus, <- rsum_div. apply rsum_ext. intros i Hi. rewrite (RU i HrL HrR SL SR Hi).
    unfold mom. destruct SL as (_ & L1 & _), SR as (_ & R1 & _). rewrite (L1 i Hi), (R1 i Hi). field. lra. }
  assert (DM : dot d dir (mom (fun i => qL i - qR i)) = rL * UL - rR * UR).
  { unfold UL, UR, dot. rewrite <- !rsum_scal, <- rsum_minus. apply rsum_ext. intros i Hi. unfold mom. destruct SL as (_ & L1 & _), SR as (_ & R1 & _). rewrite (L1 i Hi), (R1 i Hi). ring. }
  pose proof (euler_flux_prim d dir qL rL uL pL HrL SL) as (F0 & F1 & FE). pose proof (euler_flux_prim d dir qR rR uR pR HrR SR) as (G0 & G1 & GE).
  fold UL LL in F0, F1, FE. fold UR RR in G0, G1, GE.
  rewrite UN, UU, UM, DM, RH. unfold enthalpy. fold LL RR. destruct SL as (L0 & L1 & LE), SR as (R0 & R1 & RE). fold LL in LE. fold RR in RE.
  apply same_intro.
  - rewrite mk_0, F0, G0, L0, R0. ring.
  - intros i Hi. rewrite mk_S by exact Hi. rewrite (F1 i Hi), (G1 i Hi), (RU i HrL HrR ltac:(repeat split; assumption) ltac:(repeat split; assumption) Hi), (L1 i Hi), (R1 i Hi), L0, R0, LE, RE.
    rewrite AA, BB. unfold gami. field. lra.
  - rewrite mk_E, FE, GE, L0, R0, LE, RE. rewrite AA, BB. unfold gami. field. repeat split; lra.
Qed.
Lemma roe_supersonic d dir qL qR : physical d qL -> physical d qR -> 0 < dot d dir dir ->
  let Un := dot d dir (roe_u qL qR) in let c := sqrt (dot d dir dir) * roe_a d qL qR in
  25 / 1000 * (Un + c) <= Un - c ->
  same d (calcRoeFaceFlux d dir qL qR) (calcEulerFlux d dir qL).
Proof.
  intros HL HR Hd. cbv zeta. destruct (roe_a_pos d qL qR HL HR) as (Pa & _). pose proof (sqrt_lt_R0 _ Hd) as PdA.
  pose proof (roe_property d dir qL qR HL HR) as RP. cbv zeta in RP.
  set (Un := dot d dir (roe_u qL qR)) in *. set (dA := sqrt (dot d dir dir)) in *. set (a := roe_a d qL qR) in *. intros SS.
  assert (Pc : 0 < dA * a) by nra. assert (PU : 0 < Un) by lra.
  intros k Hk. rewrite (roe_split d dir qL qR k Hk). fold Un dA a.
  rewrite (upw_l_ext _ _ _ _ _ _ _ _ _ (1/2 * (Un + dA * a)) (1/2 * (Un - dA * a)) (1/2 * Un)).
  2,3,4: unfold efix; rewrite !Rabs_pos_eq by lra; rewrite Rmax_left by lra; reflexivity.
  assert (X : same d (upw d dir (roe_u qL qR) (roe_H d qL qR) a dA (1/2 * (Un + dA * a)) (1/2 * (Un - dA * a)) (1/2 * Un) (fun i => qL i - qR i))
     (fun k => 1/2 * (calcEulerFlux d dir qL k - calcEulerFlux d dir qR k))).
  { apply (same_trans d _ (fun k => 1/2 * mk d (Un * (qL 0%nat - qR 0%nat) + (- Un * (qL 0%nat - qR 0%nat) + dot d dir (mom (fun i => qL i - qR i))))
      (fun i => Un * (qL (S i) - qR (S i)) + (- Un * (qL 0%nat - qR 0%nat) + dot d dir (mom (fun i => qL i - qR i))) * roe_u qL qR i +
        gami * (1 / 2 * dot d (roe_u qL qR) (roe_u qL qR) * (qL 0%nat - qR 0%nat) + (qL (S d) - qR (S d)) - dot d (roe_u qL qR) (mom (fun i => qL i - qR i))) * dir i)
      (Un * (qL (S d) - qR (S d)) + (- Un * (qL 0%nat - qR 0%nat) + dot d dir (mom (fun i => qL i - qR i))) * roe_H d qL qR +
        gami * (1 / 2 * dot d (roe_u qL qR) (roe_u qL qR) * (qL 0%nat - qR 0%nat) + (qL (S d) - qR (S d)) - dot d (roe_u qL qR) (mom (fun i => qL i - qR i))) * Un) k)).
    - unfold upw. cbv zeta. fold Un. apply same_intro; [rewrite !mk_0; field; split; lra| |rewrite !mk_E; field; split; lra].
      intros i Hi. rewrite !mk_S by exact Hi. field. split; lra.
    - intros j Hj. rewrite (RP j Hj). reflexivity. }
  rewrite (X k Hk). field.
Qed.
