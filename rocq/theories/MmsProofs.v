(** The manufactured sources are divergences: product rule for the flux, then algebra. *)
From Coq Require Import Reals Arith Lra Lia Psatz FunctionalExtensionality.
From Coquelicot Require Import Coquelicot.
From Verif Require Import Num Vec EulerSpec Euler MmsSpec Mms.
Local Open Scope R_scope.

Lemma is_derive_sum n (f : nat -> R -> R) (l : nat -> R) x : (forall i, (i < n)%nat -> is_derive (f i) x (l i)) ->
  is_derive (fun t => rsum n (fun i => f i t)) x (rsum n l).
Proof.
  induction n as [|n IH]; intros H; simpl; [apply (is_derive_const 0)|].
  apply (is_derive_plus (fun t => rsum n (fun i => f i t)) (f n) x (rsum n l) (l n)); [apply IH; intros; apply H; lia|apply H; lia].
Qed.
Lemma D_mult f g x a b : is_derive f x a -> is_derive g x b -> is_derive (fun t => f t * g t) x (a * g x + f x * b).
Proof. intros Hf Hg. apply (is_derive_mult f g x a b Hf Hg). intros; apply Rmult_comm. Qed.
Lemma D_plus f g x a b : is_derive f x a -> is_derive g x b -> is_derive (fun t : R => f t + g t) x (a + b).
Proof. intros Hf Hg. apply (is_derive_plus f g x a b Hf Hg). Qed.
Lemma D_minus f g x a b : is_derive f x a -> is_derive g x b -> is_derive (fun t : R => f t - g t) x (a - b).
Proof. intros Hf Hg. apply (is_derive_minus f g x a b Hf Hg). Qed.
Lemma D_scal k f x a : is_derive f x a -> is_derive (fun t : R => k * f t) x (k * a).
Proof. intros Hf. apply (is_derive_scal f x k a Hf). Qed.
Lemma D_const (c x : R) : is_derive (fun _ : R => c) x 0. Proof. apply (is_derive_const c). Qed.
Lemma D_eq (f : R -> R) (x a b : R) : is_derive f x a -> a = b -> is_derive f x b. Proof. now intros H <-. Qed.

Lemma with_same x j : forall i, with_coord x j (x j) i = x i.
Proof. intros i. unfold with_coord. destruct (Nat.eqb_spec i j); congruence. Qed.
Lemma with_same' x j : with_coord x j (x j) = x.
Proof. apply functional_extensionality_dep. apply with_same. Qed.

Section Flux.
Variables (D : vec -> Prop) (d : nat) (mu kappa : R) (rho T : vec -> R) (u : nat -> vec -> R).
Variables (gr gT ggT : nat -> vec -> R) (gu : nat -> nat -> vec -> R) (ggu : nat -> nat -> nat -> vec -> R).
Hypothesis Hr : forall j x, (j < d)%nat -> D x -> is_partial rho j x (gr j x).
Hypothesis HT : forall j x, (j < d)%nat -> D x -> is_partial T j x (gT j x).
Hypothesis Hu : forall i j x, (i < d)%nat -> (j < d)%nat -> D x -> is_partial (u i) j x (gu i j x).
(** d (gu i l) / d x_j, and d^2 T / d x_j^2 *)
Hypothesis Hgu : forall i l j x, (i < d)%nat -> (l < d)%nat -> (j < d)%nat -> D x -> is_partial (gu i l) j x (ggu i l j x).
Hypothesis HgT : forall j x, (j < d)%nat -> D x -> is_partial (gT j) j x (ggT j x).

(** the divergence terms by the product rule *)
Definition dinv (j : nat) (x : vec) (k : nat) : R :=
  if Nat.eqb k 0 then gr j x * u j x + rho x * gu j j x
  else if Nat.leb k d then
    gr j x * u (k - 1)%nat x * u j x + rho x * gu (k - 1)%nat j x * u j x + rho x * u (k - 1)%nat x * gu j j x
    + (if Nat.eqb (k - 1) j then gr j x * T x + rho x * gT j x else 0)
  else (7/2 * (gr j x * T x + rho x * gT j x) + 1/2 * gr j x * rsum d (fun i => u i x * u i x)
        + rho x * rsum d (fun i => u i x * gu i j x)) * u j x
       + (7/2 * rho x * T x + 1/2 * rho x * rsum d (fun i => u i x * u i x)) * gu j j x.
Definition dstress (i j : nat) (x : vec) : R :=
  mu * (ggu i j j x + ggu j i j x - (if Nat.eqb i j then 2/3 * rsum d (fun l => ggu l l j x) else 0)).
Definition dvisc (j : nat) (x : vec) (k : nat) : R :=
  if Nat.eqb k 0 then 0
  else if Nat.leb k d then dstress (k - 1) j x
  else rsum d (fun i => dstress i j x * u i x + stress d mu (fun a b => gu a b x) i j * gu i j x) + kappa * ggT j x.

Lemma dinv_ok j x k : D x -> (j < d)%nat -> (k < d + 2)%nat ->
  is_partial (fun y => inviscid_flux d (rho y) (fun i => u i y) (T y) j k) j x (dinv j x k).
Proof.
  intros HD Hj Hk. unfold is_partial, inviscid_flux, dinv.
  assert (R0 : is_derive (fun t => rho (with_coord x j t)) (x j) (gr j x)) by (apply Hr; assumption).
  assert (T0 : is_derive (fun t => T (with_coord x j t)) (x j) (gT j x)) by (apply HT; assumption).
  assert (U0 : forall i, (i < d)%nat -> is_derive (fun t => u i (with_coord x j t)) (x j) (gu i j x)) by (intros; apply Hu; assumption).
  destruct (Nat.eqb_spec k 0) as [->|Hk0].
  - eapply D_eq; [apply D_mult; [apply R0|apply U0, Hj]|]. cbv beta; rewrite ?with_same'. ring.
  - destruct (Nat.leb_spec k d) as [Hkd|Hkd].
    + destruct (Nat.eqb (k - 1) j).
      * eapply D_eq. { apply D_plus. apply D_mult. apply D_mult. apply R0. apply U0; lia. apply U0, Hj. apply D_mult; [apply R0|apply T0]. }
        cbv beta; rewrite ?with_same'. ring.
      * eapply D_eq. { apply D_plus. apply D_mult. apply D_mult. apply R0. apply U0; lia. apply U0, Hj. apply D_const. }
        cbv beta; rewrite ?with_same'. ring.
    + assert (S0 : is_derive (fun t => rsum d (fun i => u i (with_coord x j t) * u i (with_coord x j t))) (x j) (2 * rsum d (fun i => u i x * gu i j x))).
      { eapply D_eq. { apply (is_derive_sum d (fun i t => u i (with_coord x j t) * u i (with_coord x j t)) (fun i => 2 * (u i x * gu i j x))).
          intros i Hi. eapply D_eq. apply D_mult; apply U0, Hi. cbv beta; rewrite ?with_same'. ring. } apply rsum_scal. }
      unfold dot. eapply D_eq. { apply D_mult; [|apply U0, Hj]. apply D_plus; [apply D_plus|].
        - unfold Rdiv. apply D_mult; [apply D_mult; [apply R0|apply T0]|apply D_const].
        - apply D_mult; [apply D_scal, R0|apply S0].
        - apply D_mult; [apply R0|apply T0]. }
      cbv beta; rewrite ?with_same'. field.
Qed.
Lemma dstress_ok i j x : D x -> (i < d)%nat -> (j < d)%nat ->
  is_partial (fun y => stress d mu (fun a b => gu a b y) i j) j x (dstress i j x).
Proof.
  intros HD Hi Hj. unfold is_partial, stress, dstress. apply D_scal. apply D_minus. apply D_plus; apply Hgu; assumption.
  destruct (Nat.eqb i j); [|apply D_const]. apply D_scal. apply (is_derive_sum d (fun l t => gu l l (with_coord x j t)) (fun l => ggu l l j x)).
  intros l Hl. now apply Hgu.
Qed.
Lemma dvisc_ok j x k : D x -> (j < d)%nat -> (k < d + 2)%nat ->
  is_partial (fun y => viscous_flux d mu kappa (fun i => u i y) (fun i l => gu i l y) (fun l => gT l y) j k) j x (dvisc j x k).
Proof.
  intros HD Hj Hk. unfold is_partial, viscous_flux, dvisc.
  destruct (Nat.eqb_spec k 0) as [->|Hk0]; [apply D_const|]. destruct (Nat.leb_spec k d) as [Hkd|Hkd].
  - apply dstress_ok; (assumption || lia).
  - apply D_plus; [|apply D_scal, HgT; assumption].
    apply (is_derive_sum d (fun i t => stress d mu (fun a b => gu a b (with_coord x j t)) i j * u i (with_coord x j t))
             (fun i => dstress i j x * u i x + stress d mu (fun a b => gu a b x) i j * gu i j x)).
    intros i Hi. eapply D_eq. apply D_mult; [apply dstress_ok; assumption|apply Hu; assumption]. cbv beta; rewrite ?with_same'. reflexivity.
Qed.

Lemma source_ok K (src : vec -> vec) : (K <= d + 2)%nat -> (forall x k, (k < K)%nat -> D x -> src x k = rsum d (fun j => dinv j x k - dvisc j x k)) ->
  is_source D d K mu kappa rho u T src.
Proof.
  intros HK H. exists gu, gT. split; [assumption|]. split; [assumption|]. intros x k Hk HD.
  exists (fun j => dinv j x k - dvisc j x k). split; [|now apply H].
  intros j Hj. unfold is_partial. apply D_minus; [apply dinv_ok; (assumption || lia)|apply dvisc_ok; (assumption || lia)].
Qed.

(** without viscosity no second derivatives are needed *)
Lemma source_ok_inviscid K (src : vec -> vec) : (K <= d + 2)%nat -> mu = 0 -> kappa = 0 -> (forall x k, (k < K)%nat -> D x -> src x k = rsum d (fun j => dinv j x k)) ->
  is_source D d K mu kappa rho u T src.
Proof.
  intros HK M Ka H. exists gu, gT. split; [assumption|]. split; [assumption|]. intros x k Hk HD.
  exists (fun j => dinv j x k). split; [|now apply H].
  intros j Hj. unfold is_partial. eapply D_eq. { apply (D_minus _ _ (x j) (dinv j x k) 0); [apply dinv_ok; (assumption || lia)|].
    apply (is_derive_ext (fun _ => 0)); [|apply D_const]. intros t. match goal with |- ?a = ?b => change (@eq R a b) end. unfold viscous_flux, stress. subst mu kappa.
    destruct (Nat.eqb k 0); [reflexivity|]. destruct (Nat.leb k d); [ring|]. rewrite (rsum_ext _ _ (fun _ => 0)); [rewrite rsum_0; ring|]. intros; ring. }
  ring.
Qed.
End Flux.

Ltac partial := unfold is_partial, with_coord; cbn [Nat.eqb]; auto_derive; [try exact I; try (repeat split; fail)|].

(** ** the inviscid 3-D solution the source term belongs to *)
Definition i_rho (x : vec) : R := 1 + 1/10 * (sin (PI * x 0%nat)) ^ 2 * sin (PI * x 1%nat).
Definition i_u (i : nat) (x : vec) : R :=
  match i with
  | 0%nat => 2/5 * x 1%nat * (1 - x 1%nat) + 1/10 * sin (2 * PI * x 1%nat) * (sin (PI * x 0%nat)) ^ 2
  | 1%nat => - (1/10) * (sin (2 * PI * x 0%nat)) ^ 2 * sin (PI * x 1%nat)
  | _ => 0
  end.
Definition i_T (x : vec) : R :=
  1 + 1/10 * (x 0%nat ^ 4 - 2 * x 0%nat ^ 3 + x 0%nat ^ 2 + x 1%nat ^ 4 - 2 * x 1%nat ^ 3 + x 1%nat ^ 2).
Definition i_gr (j : nat) (x : vec) : R :=
  match j with
  | 0%nat => 1/10 * (2 * PI * sin (PI * x 0%nat) * cos (PI * x 0%nat)) * sin (PI * x 1%nat)
  | 1%nat => 1/10 * (sin (PI * x 0%nat)) ^ 2 * (PI * cos (PI * x 1%nat))
  | _ => 0
  end.
Definition i_gT (j : nat) (x : vec) : R :=
  match j with
  | 0%nat => 1/10 * (4 * x 0%nat ^ 3 - 6 * x 0%nat ^ 2 + 2 * x 0%nat)
  | 1%nat => 1/10 * (4 * x 1%nat ^ 3 - 6 * x 1%nat ^ 2 + 2 * x 1%nat)
  | _ => 0
  end.
Definition i_gu (i j : nat) (x : vec) : R :=
  match i, j with
  | 0%nat, 0%nat => 1/10 * sin (2 * PI * x 1%nat) * (2 * PI * sin (PI * x 0%nat) * cos (PI * x 0%nat))
  | 0%nat, 1%nat => 2/5 * (1 - 2 * x 1%nat) + 1/10 * (2 * PI * cos (2 * PI * x 1%nat)) * (sin (PI * x 0%nat)) ^ 2
  | 1%nat, 0%nat => - (1/10) * (4 * PI * sin (2 * PI * x 0%nat) * cos (2 * PI * x 0%nat)) * sin (PI * x 1%nat)
  | 1%nat, 1%nat => - (1/10) * (sin (2 * PI * x 0%nat)) ^ 2 * (PI * cos (PI * x 1%nat))
  | _, _ => 0
  end.
Lemma i_r_ok j x : (j < 3)%nat -> is_partial i_rho j x (i_gr j x).
Proof. intros H. unfold i_rho, i_gr. destruct j as [|[|[|]]]; try lia; partial; ring. Qed.
Lemma i_T_ok j x : (j < 3)%nat -> is_partial i_T j x (i_gT j x).
Proof. intros H. unfold i_T, i_gT. destruct j as [|[|[|]]]; try lia; partial; ring. Qed.
Lemma i_u_ok i j x : (i < 3)%nat -> (j < 3)%nat -> is_partial (i_u i) j x (i_gu i j x).
Proof. intros Hi H. unfold i_u, i_gu. destruct i as [|[|[|]]]; try lia; destruct j as [|[|[|]]]; try lia; partial; ring. Qed.

Ltac split_k k := destruct k as [|[|[|[|[|k]]]]]; try (exfalso; lia).
Lemma i_alg x k : (k < 5)%nat -> inviscid_src3 x k = rsum 3 (fun j => dinv 3 i_rho i_T i_u i_gr i_gT i_gu j x k).
Proof.
  intros Hk. unfold inviscid_src3, dinv. cbv zeta.
  assert (E : gamma - 1 = 2/5) by (unfold gamma; lra).
  rewrite E. unfold i_rho, i_T, i_u, i_gr, i_gT, i_gu. 
  replace (PI * (0 + x 0%nat) / 1) with (PI * x 0%nat) by field.
  replace (PI * (0 + x 1%nat) / 1) with (PI * x 1%nat) by field.
  replace (2 * PI * (0 + x 0%nat) / 1) with (2 * PI * x 0%nat) by field.
  replace (2 * PI * (0 + x 1%nat) / 1) with (2 * PI * x 1%nat) by field.
  set (s0 := sin (PI * x 0%nat)). set (c0 := cos (PI * x 0%nat)). set (s1 := sin (PI * x 1%nat)). set (c1 := cos (PI * x 1%nat)).
  set (S0 := sin (2 * PI * x 0%nat)). set (C0 := cos (2 * PI * x 0%nat)). set (S1 := sin (2 * PI * x 1%nat)). set (C1 := cos (2 * PI * x 1%nat)).
  clearbody s0 c0 s1 c1 S0 C0 S1 C1. generalize (x 0%nat) (x 1%nat) PI. intros a b p.
  split_k k; clear; cbn [rsum Nat.eqb Nat.leb Nat.sub]; field.
Qed.

(** ** the viscous 2-D solution *)
Definition v_rho (x : vec) : R := 1 + 1/20 * (sin (PI * x 0%nat)) ^ 2 * sin (PI * x 1%nat).
Definition v_u (i : nat) (x : vec) : R :=
  match i with
  | 0%nat => 2 * x 1%nat * (1 - x 1%nat) + 1/20 * sin (2 * PI * x 1%nat) * (sin (PI * x 0%nat)) ^ 2
  | 1%nat => - (1/20) * (sin (2 * PI * x 0%nat)) ^ 2 * sin (PI * x 1%nat)
  | _ => 0
  end.
Definition v_T (x : vec) : R :=
  1 + 1/20 * (x 0%nat ^ 4 - 2 * x 0%nat ^ 3 + x 0%nat ^ 2 + x 1%nat ^ 4 - 2 * x 1%nat ^ 3 + x 1%nat ^ 2).
Definition v_gr (j : nat) (x : vec) : R :=
  match j with
  | 0%nat => 1/20 * (2 * PI * sin (PI * x 0%nat) * cos (PI * x 0%nat)) * sin (PI * x 1%nat)
  | _ => 1/20 * (sin (PI * x 0%nat)) ^ 2 * (PI * cos (PI * x 1%nat))
  end.
Definition v_gT (j : nat) (x : vec) : R := 1/20 * (4 * x j ^ 3 - 6 * x j ^ 2 + 2 * x j).
Definition v_ggT (j : nat) (x : vec) : R := 1/20 * (12 * x j ^ 2 - 12 * x j + 2).
Definition v_gu (i j : nat) (x : vec) : R :=
  match i, j with
  | 0%nat, 0%nat => 1/20 * sin (2 * PI * x 1%nat) * (2 * PI * sin (PI * x 0%nat) * cos (PI * x 0%nat))
  | 0%nat, _ => 2 * (1 - 2 * x 1%nat) + 1/20 * (2 * PI * cos (2 * PI * x 1%nat)) * (sin (PI * x 0%nat)) ^ 2
  | _, 0%nat => - (1/20) * (4 * PI * sin (2 * PI * x 0%nat) * cos (2 * PI * x 0%nat)) * sin (PI * x 1%nat)
  | _, _ => - (1/20) * (sin (2 * PI * x 0%nat)) ^ 2 * (PI * cos (PI * x 1%nat))
  end.
Definition v_ggu (i l j : nat) (x : vec) : R :=
  match i, l, j with
  | 0%nat, 0%nat, 0%nat => 1/20 * sin (2 * PI * x 1%nat) * (2 * PI * PI * (cos (PI * x 0%nat) ^ 2 - sin (PI * x 0%nat) ^ 2))
  | 0%nat, 0%nat, _ | 0%nat, _, 0%nat => 1/20 * (2 * PI * cos (2 * PI * x 1%nat)) * (2 * PI * sin (PI * x 0%nat) * cos (PI * x 0%nat))
  | 0%nat, _, _ => - 4 - 1/20 * (4 * PI * PI * sin (2 * PI * x 1%nat)) * (sin (PI * x 0%nat)) ^ 2
  | _, 0%nat, 0%nat => - (1/20) * (8 * PI * PI * (cos (2 * PI * x 0%nat) ^ 2 - sin (2 * PI * x 0%nat) ^ 2)) * sin (PI * x 1%nat)
  | _, 0%nat, _ | _, _, 0%nat => - (1/20) * (4 * PI * sin (2 * PI * x 0%nat) * cos (2 * PI * x 0%nat)) * (PI * cos (PI * x 1%nat))
  | _, _, _ => 1/20 * (sin (2 * PI * x 0%nat)) ^ 2 * (PI * PI * sin (PI * x 1%nat))
  end.
Ltac two j := destruct j as [|[|]]; try (exfalso; lia).
Lemma v_r_ok j x : (j < 2)%nat -> is_partial v_rho j x (v_gr j x).
Proof. intros H. unfold v_rho, v_gr. two j; partial; ring. Qed.
Lemma v_T_ok j x : (j < 2)%nat -> is_partial v_T j x (v_gT j x).
Proof. intros H. unfold v_T, v_gT. two j; partial; ring. Qed.
Lemma v_gT_ok j x : (j < 2)%nat -> is_partial (v_gT j) j x (v_ggT j x).
Proof. intros H. unfold v_gT, v_ggT. two j; partial; ring. Qed.
Lemma v_u_ok i j x : (i < 2)%nat -> (j < 2)%nat -> is_partial (v_u i) j x (v_gu i j x).
Proof. intros Hi H. unfold v_u, v_gu. two i; two j; partial; ring. Qed.
Lemma v_gu_ok i l j x : (i < 2)%nat -> (l < 2)%nat -> (j < 2)%nat -> is_partial (v_gu i l) j x (v_ggu i l j x).
Proof. intros Hi Hl H. unfold v_gu, v_ggu. two i; two l; two j; partial; ring. Qed.

Lemma sin_cos_2 a : sin (2 * PI * a) = 2 * sin (PI * a) * cos (PI * a) /\ cos (2 * PI * a) = 1 - 2 * sin (PI * a) ^ 2 /\ cos (PI * a) ^ 2 = 1 - sin (PI * a) ^ 2.
Proof.
  replace (2 * PI * a) with (2 * (PI * a)) by ring. split; [apply sin_2a|]. split.
  - rewrite cos_2a_sin. ring.
  - pose proof (sin2_cos2 (PI * a)) as H. unfold Rsqr in H. nra.
Qed.
Lemma v_alg mu Pr x k : Pr <> 0 -> (k < 4)%nat ->
  viscous_src2 mu Pr x k = rsum 2 (fun j => dinv 2 v_rho v_T v_u v_gr v_gT v_gu j x k
    - dvisc 2 mu (mu * (7/5) / (2/5) / Pr) v_u v_ggT v_gu v_ggu j x k).
Proof.
  intros HP Hk. unfold viscous_src2, dinv, dvisc, dstress, stress. cbv zeta.
  replace (mu * gamma / (Pr * gami)) with (mu * (7/5) / (2/5) / Pr) by (unfold gamma, gami; field; assumption).
  generalize (mu * (7/5) / (2/5) / Pr). intros kappa.
  assert (E : gamma - 1 = 2/5) by (unfold gamma; lra). rewrite E.
  unfold v_rho, v_T, v_u, v_gr, v_gT, v_gu, v_ggu, v_ggT.
  replace (sin (PI * (4 * x 0%nat - x 1%nat))) with (sin (2 * (2 * PI * x 0%nat) - PI * x 1%nat)) by (f_equal; ring).
  replace (sin (PI * (4 * x 0%nat + x 1%nat))) with (sin (2 * (2 * PI * x 0%nat) + PI * x 1%nat)) by (f_equal; ring).
  replace (sin (PI * (2 * x 0%nat - 2 * x 1%nat))) with (sin (2 * PI * x 0%nat - 2 * PI * x 1%nat)) by (f_equal; ring).
  replace (sin (PI * (2 * x 0%nat + 2 * x 1%nat))) with (sin (2 * PI * x 0%nat + 2 * PI * x 1%nat)) by (f_equal; ring).
  replace (cos (PI * (2 * x 0%nat - x 1%nat))) with (cos (2 * PI * x 0%nat - PI * x 1%nat)) by (f_equal; ring).
  replace (cos (PI * (2 * x 0%nat + x 1%nat))) with (cos (2 * PI * x 0%nat + PI * x 1%nat)) by (f_equal; ring).
  rewrite ?sin_minus, ?sin_plus, ?cos_minus, ?cos_plus, ?sin_2a, ?(cos_2a_sin (2 * PI * x 0%nat)).
  destruct (sin_cos_2 (x 0%nat)) as (S0 & C0 & Q0). destruct (sin_cos_2 (x 1%nat)) as (S1 & C1 & Q1).
  rewrite ?S0, ?S1, ?C0, ?C1. revert Q0 Q1.
  generalize (sin (PI * x 0%nat)) (cos (PI * x 0%nat)) (sin (PI * x 1%nat)) (cos (PI * x 1%nat)). intros s0 c0 s1 c1 Q0 Q1.
  clear S0 C0 S1 C1 HP E.
  destruct k as [|[|[|[|k]]]]; [| | | |exfalso; lia]; clear Hk; cbn [rsum Nat.eqb Nat.leb Nat.sub];
  generalize (x 0%nat) (x 1%nat) PI; intros a b p; clear x.
  - field [Q0 Q1].
  - field [Q0 Q1].
  - field [Q0 Q1].
  - field [Q0 Q1].
Qed.

(** ** the viscous 3-D solution with the third coordinate in the density *)
Definition w_s (x : vec) : R :=
  (x 0%nat ^ 3 / 3 - x 0%nat ^ 2 / 2) + (x 1%nat ^ 3 / 3 - x 1%nat ^ 2 / 2) + (x 2%nat ^ 3 / 3 - x 2%nat ^ 2 / 2).
Definition w_rho (x : vec) : R := 1 + 1/10 * sin (2 * PI * x 0%nat) * sin (2 * PI * x 1%nat) * sin (2 * PI * x 2%nat).
Definition w_u (i : nat) (x : vec) : R := 1/2 * w_s x.
Definition w_T (x : vec) : R := 1.
Definition w_gr (j : nat) (x : vec) : R :=
  match j with
  | 0%nat => 1/10 * (2 * PI * cos (2 * PI * x 0%nat)) * sin (2 * PI * x 1%nat) * sin (2 * PI * x 2%nat)
  | 1%nat => 1/10 * sin (2 * PI * x 0%nat) * (2 * PI * cos (2 * PI * x 1%nat)) * sin (2 * PI * x 2%nat)
  | _ => 1/10 * sin (2 * PI * x 0%nat) * sin (2 * PI * x 1%nat) * (2 * PI * cos (2 * PI * x 2%nat))
  end.
Definition w_gT (j : nat) (x : vec) : R := 0.
Definition w_gu (i j : nat) (x : vec) : R := 1/2 * (x j ^ 2 - x j).
Definition w_ggu (i l j : nat) (x : vec) : R := if Nat.eqb l j then 1/2 * (2 * x j - 1) else 0.
Ltac three j := destruct j as [|[|[|]]]; try (exfalso; lia).
Lemma w_r_ok j x : (j < 3)%nat -> is_partial w_rho j x (w_gr j x).
Proof. intros H. unfold w_rho, w_gr. three j; partial; ring. Qed.
Lemma w_T_ok j x : is_partial w_T j x (w_gT j x).
Proof. unfold is_partial, w_T, w_gT. apply D_const. Qed.
Lemma w_gT_ok j x : is_partial (w_gT j) j x 0.
Proof. unfold is_partial, w_T, w_gT. apply D_const. Qed.
Lemma w_u_ok i j x : (i < 3)%nat -> (j < 3)%nat -> is_partial (w_u i) j x (w_gu i j x).
Proof. intros Hi H. unfold w_u, w_gu, w_s. three j; partial; field. Qed.
Lemma w_gu_ok i l j x : (i < 3)%nat -> (l < 3)%nat -> (j < 3)%nat -> is_partial (w_gu i l) j x (w_ggu i l j x).
Proof. intros Hi Hl H. unfold w_gu, w_ggu. three l; three j; partial; field. Qed.

Lemma w_alg mu Pr kappa x k : (k < 4)%nat ->
  viscous_src3 mu Pr x k = rsum 3 (fun j => dinv 3 w_rho w_T w_u w_gr w_gT w_gu j x k
    - dvisc 3 mu kappa w_u (fun _ _ => 0) w_gu w_ggu j x k).
Proof.
  intros Hk. unfold viscous_src3, dinv, dvisc, dstress, stress. cbv zeta.
  unfold w_rho, w_T, w_u, w_gr, w_gT, w_gu, w_ggu, w_s.
  replace (2 * PI * 1) with (2 * PI) by ring.
  generalize (sin (2 * PI * x 0%nat)) (cos (2 * PI * x 0%nat)) (sin (2 * PI * x 1%nat)) (cos (2 * PI * x 1%nat)) (sin (2 * PI * x 2%nat)) (cos (2 * PI * x 2%nat)).
  intros s0 c0 s1 c1 s2 c2.
  destruct k as [|[|[|[|k]]]]; [| | | |exfalso; lia]; clear Hk; cbn [rsum Nat.eqb Nat.leb Nat.sub];
  generalize (x 0%nat) (x 1%nat) (x 2%nat) PI; intros a b c p; clear x; field.
Qed.

(** ** derivatives are unique, so a field set has one source *)
Lemma partial_unique f j x a b : is_partial f j x a -> is_partial f j x b -> a = b.
Proof. intros H1 H2. apply is_derive_unique in H1. apply is_derive_unique in H2. congruence. Qed.

(** at (1/2,1/2,1/2) the energy source of the code differs from the divergence *)
Definition w_point : vec := fun _ => 1/2.
Lemma w_energy mu Pr kappa :
  viscous_src3 mu Pr w_point 4%nat <> rsum 3 (fun j => dinv 3 w_rho w_T w_u w_gr w_gT w_gu j w_point 4%nat
    - dvisc 3 mu kappa w_u (fun _ _ => 0) w_gu w_ggu j w_point 4%nat).
Proof.
  unfold viscous_src3, dinv, dvisc, dstress, stress. cbv zeta.
  unfold w_rho, w_T, w_u, w_gr, w_gT, w_gu, w_ggu, w_s, w_point.
  replace (2 * PI * 1) with (2 * PI) by ring. replace (2 * PI * (1/2)) with PI by field. rewrite sin_PI, cos_PI.
  assert (E : gamma - 1 = 2/5) by (unfold gamma; lra). rewrite E.
  cbn [rsum Nat.eqb Nat.leb Nat.sub]. intros H. lra.
Qed.
Lemma w_not_source mu Pr kappa : ~ is_source everywhere 3 5 mu kappa w_rho w_u w_T (viscous_src3 mu Pr).
Proof.
  intros (gu & gT & Hu & HT & H). destruct (H w_point 4%nat ltac:(lia) I) as (dF & HD & HS).
  apply (w_energy mu Pr kappa). rewrite HS. apply rsum_ext. intros j Hj.
  assert (GU : forall i l x, (i < 3)%nat -> (l < 3)%nat -> gu i l x = w_gu i l x)
    by (intros i l x Hi Hl; apply (partial_unique (w_u i) l x); [apply Hu; auto; exact I|apply w_u_ok; assumption]).
  assert (GT : forall l x, (l < 3)%nat -> gT l x = w_gT l x)
    by (intros l x Hl; apply (partial_unique w_T l x); [apply HT; auto; exact I|apply w_T_ok]).
  refine (partial_unique _ j w_point _ _ (HD j Hj) _). unfold is_partial.
  apply (is_derive_ext (fun t => inviscid_flux 3 (w_rho (with_coord w_point j t)) (fun i => w_u i (with_coord w_point j t)) (w_T (with_coord w_point j t)) j 4%nat
     - viscous_flux 3 mu kappa (fun i => w_u i (with_coord w_point j t)) (fun i l => w_gu i l (with_coord w_point j t)) (fun l => w_gT l (with_coord w_point j t)) j 4%nat)).
  - intros t. match goal with |- ?a = ?b => change (@eq R a b) end. f_equal.
    unfold viscous_flux, stress. cbn [Nat.eqb Nat.leb rsum]. rewrite !GT, !GU by (assumption || lia). reflexivity.
  - apply D_minus.
    + apply (dinv_ok everywhere 3 w_rho w_T w_u w_gr w_gT w_gu); try (exact I); try assumption; try lia; intros; [apply w_r_ok|apply w_T_ok|apply w_u_ok]; assumption.
    + apply (dvisc_ok everywhere 3 mu kappa w_u w_gT (fun _ _ => 0) w_gu w_ggu); try (exact I); try assumption; try lia; intros; [apply w_u_ok|apply w_gu_ok|apply w_gT_ok]; assumption.
Qed.

(** ** the code's 3-D inviscid exact solution does not go with its source *)
Lemma i_not_source rho u T : carries everywhere 3 inviscid_exact3 rho u T -> ~ is_source everywhere 3 1 0 0 rho u T inviscid_src3.
Proof.
  intros HC (gu & gT & _ & _ & H). set (x0 := fun i : nat => match i with 0%nat => 1 | _ => 1/2 end : R).
  destruct (H x0 0%nat ltac:(lia) I) as (dF & HD & HS).
  assert (M : forall y j, (j < 3)%nat -> rho y * u j y = inviscid_exact3 y (S j)) by (intros y j Hj; destruct (HC y I) as (_ & E & _); symmetry; apply E, Hj).
  assert (D : forall j, (j < 3)%nat -> is_derive (fun t => inviscid_exact3 (with_coord x0 j t) (S j)) (x0 j) (dF j)).
  { intros j Hj. apply (is_derive_ext (fun t => inviscid_flux 3 (rho (with_coord x0 j t)) (fun i => u i (with_coord x0 j t)) (T (with_coord x0 j t)) j 0%nat
       - viscous_flux 3 0 0 (fun i => u i (with_coord x0 j t)) (fun i l => gu i l (with_coord x0 j t)) (fun l => gT l (with_coord x0 j t)) j 0%nat)); [|apply HD, Hj].
    intros t. match goal with |- ?a = ?b => change (@eq R a b) end. unfold inviscid_flux, viscous_flux. cbn [Nat.eqb]. rewrite M by assumption. ring. }
  assert (S1 : sin (PI * (1/2 + 0) / 1) = 1) by (replace (PI * (1/2 + 0) / 1) with (PI / 2) by field; apply sin_PI2).
  assert (C1 : cos (PI * (1/2 + 0) / 1) = 0) by (replace (PI * (1/2 + 0) / 1) with (PI / 2) by field; apply cos_PI2).
  assert (S2 : sin (2 * PI * (1/2 + 0) / 1) = 0) by (replace (2 * PI * (1/2 + 0) / 1) with PI by field; apply sin_PI).
  assert (P1 : forall a b, a = 1 -> b = 1 -> PI * (a * (b * 1)) = PI) by (intros a b -> ->; ring).
  assert (U : (1 + 0) * / 1 = 1) by field.
  assert (D0 : dF 0%nat = - (2/100) * PI).
  { specialize (D 0%nat ltac:(lia)). apply is_derive_unique in D. rewrite <- D. apply is_derive_unique.
    unfold inviscid_exact3, with_coord, x0. cbn [Nat.eqb]. auto_derive; [exact I|].
    rewrite S1, S2, P1, cos_PI, sin_PI by exact U. field. }
  assert (D1 : dF 1%nat = 0).
  { specialize (D 1%nat ltac:(lia)). apply is_derive_unique in D. rewrite <- D. apply is_derive_unique.
    unfold inviscid_exact3, with_coord, x0. cbn [Nat.eqb]. auto_derive; [exact I|].
    replace (2 * PI * ((1 + 0) / 1 * ((1 + 0) / 1 * 1))) with (2 * PI) by field. rewrite sin_2PI. ring. }
  assert (D2 : dF 2%nat = 0).
  { specialize (D 2%nat ltac:(lia)). apply is_derive_unique in D. rewrite <- D. apply is_derive_unique.
    unfold inviscid_exact3, with_coord, x0. cbn [Nat.eqb]. auto_derive; [exact I|]. ring. }
  assert (E : inviscid_src3 x0 0%nat = 0). { unfold inviscid_src3, x0.
    replace (PI * (0 + 1) / 1) with PI by field. replace (2 * PI * (0 + 1) / 1) with (2 * PI) by field. rewrite sin_PI, sin_2PI. field. }
  rewrite E in HS. cbn [rsum] in HS. rewrite D0, D1, D2 in HS. generalize PI_RGT_0; lra.
Qed.
