(** Specification and lemmas for the electromagnetic material coefficients. *)
From Coq Require Import Reals ZArith String List Bool Lra Lia Psatz.
From Coquelicot Require Import Coquelicot.
From Verif Require Import Vec Coef CoefMix CoefProofs EmCoef MmsProofs.
Import ListNotations.
Local Open Scope R_scope.

(** ---- specification ---- *)
(** a polynomial from its coefficients, lowest degree first *)
Fixpoint poly (k : list R) (x : R) : R := match k with [] => 0 | a :: r => a + x * poly r x end.
(** linear interpolation in temperature between two polynomials in the flux density *)
Definition interp (T0 : R) (k0 : list R) (T1 : R) (k1 : list R) (T B : R) : R :=
  poly k0 B + (T - T0) / (T1 - T0) * (poly k1 B - poly k0 B).
(** which coefficient a component gives to an attribute *)
Definition gives {A} (one many : ecomponent -> built A) (c : ecomponent) (a : Z) (x : A) : Prop :=
  match eattr c with
  | Some y => if Z.eqb y (-1) then (exists l, eattrs c = Some l /\ In a l) /\ many c = Built x else a = y /\ one c = Built x
  | None => (exists l, eattrs c = Some l /\ In a l) /\ many c = Built x
  end.
(** the two lines of the demagnetisation curve: recoil line through (0, Br) and the knee (Hk, Bk); irreversible part
    through the knee and (Hci, 0); as fields H over the flux density B *)
Definition recoil (hk bk br b : R) : R := hk * (b - br) / (bk - br).
Definition irrev (hk hci bk b : R) : R := hci + (hk - hci) * b / bk.

(** ---- polynomials ---- *)
Lemma ploop_poly k : forall i B acc, ploop i k B acc = acc + B ^ i * poly k B.
Proof.
  induction k as [|a r IH]; intros i B acc; cbn [ploop poly]; [ring|]. rewrite IH. cbn [pow]. ring.
Qed.
Fixpoint dsum (i : nat) (k : list R) (B : R) : R := match k with [] => 0 | a :: r => INR i * a * B ^ (i - 1) + dsum (S i) r B end.
Fixpoint ddsum (i : nat) (k : list R) (B : R) : R :=
  match k with [] => 0 | a :: r => (INR i - 1) * INR i * a * B ^ (i - 2) + ddsum (S i) r B end.

Lemma pow_derive i (x : R) : is_derive (fun t => t ^ i) x (INR i * x ^ (i - 1)).
Proof. destruct i as [|i]; [apply (D_eq (fun t => t ^ 0) x 0); [exact (D_const 1 x)|cbn; req; ring]|]. replace (S i - 1)%nat with i by lia.
  apply (D_eq _ x (INR (S i) * x ^ i)); [|reflexivity]. apply is_derive_Reals. exact (derivable_pt_lim_pow x (S i)). Qed.

Lemma dsum_derive k : forall i B, is_derive (fun t => t ^ i * poly k t) B (dsum i k B).
Proof.
  induction k as [|a r IH]; intros i B; cbn [poly dsum].
  - eapply is_derive_ext; [|exact (D_const 0 B)]. intros t; cbv beta. req; ring.
  - eapply is_derive_ext; [|eapply D_eq; [exact (D_plus _ _ B _ _ (D_scal a _ B _ (pow_derive i B)) (IH (S i) B))|]].
    + intros t; cbv beta. req. cbn [pow]. ring.
    + req. ring.
Qed.
Lemma ddsum_derive k : forall i B, is_derive (dsum i k) B (ddsum i k B).
Proof.
  induction k as [|a r IH]; intros i B; cbn [dsum ddsum].
  - exact (D_const 0 B).
  - eapply D_eq; [exact (D_plus _ _ B _ _ (D_scal (INR i * a) _ B _ (pow_derive (i - 1) B)) (IH (S i) B))|].
    req. destruct i as [|i]; [cbn; ring|]. replace (S i - 1)%nat with i by lia. replace (S i - 2)%nat with (i - 1)%nat by lia.
    rewrite S_INR. ring.
Qed.
Lemma cpow_pos B n : cpow B (Z.of_nat n) = Some (B ^ n).
Proof. unfold cpow. destruct (Z.ltb_spec (Z.of_nat n) 0); [lia|]. rewrite <- pow_powerRZ. reflexivity. Qed.
Lemma cpow_some B e : B <> 0 -> cpow B e = Some (powerRZ B e).
Proof. intros HB. unfold cpow. destruct (Z.ltb e 0); [|reflexivity]. destruct (Req_EM_T B 0); [contradiction|reflexivity]. Qed.
Lemma dploop_dsum k : forall i B acc, B <> 0 -> dploop i k B (Some acc) = Some (acc + dsum i k B).
Proof.
  induction k as [|a r IH]; intros i B acc HB; cbn [dploop dsum]; [f_equal; ring|].
  rewrite cpow_some by exact HB. rewrite IH by exact HB. f_equal.
  destruct i as [|i]; [cbn [INR]; ring|]. replace (Z.of_nat (S i) - 1)%Z with (Z.of_nat i) by lia.
  rewrite <- pow_powerRZ. replace (S i - 1)%nat with i by lia. ring.
Qed.
Lemma ddploop_ddsum k : forall i B acc, B <> 0 -> ddploop i k B (Some acc) = Some (acc + ddsum i k B).
Proof.
  induction k as [|a r IH]; intros i B acc HB; cbn [ddploop ddsum]; [f_equal; ring|].
  rewrite cpow_some by exact HB. rewrite IH by exact HB. f_equal.
  destruct i as [|[|i]]; [cbn [INR]; ring|cbn [INR]; ring|]. replace (Z.of_nat (S (S i)) - 2)%Z with (Z.of_nat i) by lia.
  rewrite <- pow_powerRZ. replace (S (S i) - 2)%nat with i by lia. ring.
Qed.
Lemma dploop_none k : forall i B, dploop i k B None = None.
Proof. induction k as [|a r IH]; intros; cbn; [reflexivity|apply IH]. Qed.
Lemma ddploop_none k : forall i B, ddploop i k B None = None.
Proof. induction k as [|a r IH]; intros; cbn; [reflexivity|apply IH]. Qed.
Lemma cpow_zero e : (e < 0)%Z -> cpow 0 e = None.
Proof. intros He. unfold cpow. destruct (Z.ltb_spec e 0); [|lia]. destruct (Req_EM_T 0 0); [reflexivity|lra]. Qed.
Lemma dploop_at_0 k x : k <> [] -> dploop 0 k 0 (Some x) = None.
Proof. destruct k as [|a r]; [congruence|]. intros _. cbn [dploop]. rewrite cpow_zero by lia. apply dploop_none. Qed.
Lemma ddploop_at_0 k x : k <> [] -> ddploop 0 k 0 (Some x) = None.
Proof. destruct k as [|a r]; [congruence|]. intros _. cbn [ddploop]. rewrite cpow_zero by lia. apply ddploop_none. Qed.

Lemma odiv_some a b : b <> 0 -> odiv a b = Some (a / b).
Proof. intros H; unfold odiv; destruct (Req_EM_T b 0); [contradiction|reflexivity]. Qed.
Lemma odiv_zero a b : b = 0 -> odiv a b = None.
Proof. intros ->; unfold odiv; destruct (Req_EM_T 0 0); [reflexivity|lra]. Qed.

Lemma poly_derive k B : is_derive (poly k) B (dsum 0 k B).
Proof. eapply is_derive_ext; [|exact (dsum_derive k 0 B)]. intros t; cbv beta. req. cbn [pow]. ring. Qed.
Lemma interp_dB T0 k0 T1 k1 T B : is_derive (interp T0 k0 T1 k1 T) B (dsum 0 k0 B + (T - T0) / (T1 - T0) * (dsum 0 k1 B - dsum 0 k0 B)).
Proof. exact (D_plus _ _ B _ _ (poly_derive k0 B) (D_scal ((T - T0) / (T1 - T0)) _ B _ (D_minus _ _ B _ _ (poly_derive k1 B) (poly_derive k0 B)))). Qed.
Lemma interp_dT T0 k0 T1 k1 T B : is_derive (fun T => interp T0 k0 T1 k1 T B) T ((poly k1 B - poly k0 B) / (T1 - T0)).
Proof. unfold interp. auto_derive; [trivial|]. req. unfold Rdiv. ring. Qed.

(** ---- registration ---- *)
Lemma reg_all_spec {A} (b : built A) l : forall t t', reg_all t l b = Built t' -> unique_keys t ->
  unique_keys t' /\ forall a x, In (a, x) t' <-> In (a, x) t \/ (In a l /\ b = Built x).
Proof.
  induction l as [|a0 r IH]; cbn [reg_all]; intros t t' H Hu.
  - injection H as <-. split; [exact Hu|]. cbn. tauto.
  - destruct b as [y| | |]; try discriminate. cbn [bind] in H. unfold addCoefficient in H.
    destruct (mfind a0 t) eqn:E; [discriminate|].
    assert (Hu1 : unique_keys (t ++ [(a0, y)])).
    { apply (add_calls_ok [(a0, y)] t Hu). exists (t ++ [(a0, y)]). cbn. unfold addCoefficient. rewrite E. reflexivity. }
    destruct (IH _ _ H Hu1) as [Hu' Hin]. split; [exact Hu'|]. intros a x. rewrite Hin, in_app_iff. cbn. split.
    + intros [[H1|[H1|[]]]|[H1 H2]]; [auto| |auto]. injection H1 as H1 H2. subst a x. right; split; [left|]; reflexivity.
    + intros [H1|[[H1|H1] H2]]; [auto| |auto]. injection H2 as <-. subst a0. left; right; left; reflexivity.
Qed.
Lemma reg_spec {A} (one many : ecomponent -> built A) c t t' : reg one many t c = Built t' -> unique_keys t ->
  unique_keys t' /\ forall a x, In (a, x) t' <-> In (a, x) t \/ gives one many c a x.
Proof.
  unfold reg, gives. intros H Hu.
  assert (K : forall (w : bool) (b : built A), w = true -> match eattrs c with Some l => reg_all t l b | None => Undefined end = Built t' ->
     unique_keys t' /\ forall a x, In (a, x) t' <-> In (a, x) t \/ ((exists l, eattrs c = Some l /\ In a l) /\ b = Built x)).
  { intros _ b _ K. destruct (eattrs c) as [l|] eqn:E; [|discriminate]. destruct (reg_all_spec _ _ _ _ K Hu) as [H1 H2].
    split; [exact H1|]. intros a x. rewrite H2. split.
    - intros [H3|[H3 H4]]; [auto|]. right. split; [exists l; auto|exact H4].
    - intros [H3|[(l' & H5 & H3) H4]]; [auto|]. injection H5 as H5. subst l'. auto. }
  destruct (eattr c) as [y|].
  - destruct (Z.eqb y (-1)) eqn:Ey.
    + apply (K true); [reflexivity|exact H].
    + destruct (reg_all_spec _ _ _ _ H Hu) as [H1 H2]. split; [exact H1|]. intros a x. rewrite H2. cbn [In].
      split; [intros [H3|[[H3|[]] H4]]; auto|intros [H3|[H3 H4]]; auto].
  - apply (K true); [reflexivity|exact H].
Qed.
Lemma reg_components_spec {A} (one many : ecomponent -> built A) cs : forall t t', reg_components one many cs t = Built t' -> unique_keys t ->
  unique_keys t' /\ forall a x, In (a, x) t' <-> In (a, x) t \/ exists c, In c cs /\ gives one many c a x.
Proof.
  induction cs as [|c r IH]; cbn [reg_components]; intros t t' H Hu.
  - injection H as <-. split; [exact Hu|]. intros a x. split; [auto|intros [H|(c & [] & _)]; exact H].
  - destruct (reg one many t c) as [t1| | |] eqn:E; try discriminate. cbn [bind] in H.
    destruct (reg_spec _ _ _ _ _ E Hu) as [H1 H2]. destruct (IH _ _ H H1) as [H3 H4]. split; [exact H3|].
    intros a x. rewrite H4, H2. cbn. split.
    + intros [[H5|H5]|(c' & H5 & H6)]; [auto| |]; right; [exists c|exists c']; tauto.
    + intros [H5|(c' & [<-|H5] & H6)]; [auto|auto|]. right. exists c'. tauto.
Qed.
(** a component with a single "attr" makes the constructor throw when [one] always does, unless an earlier component stops it *)
Lemma reg_components_throw {A} (many : ecomponent -> built A) cs t :
  (exists c y, In c cs /\ eattr c = Some y /\ y <> (-1)%Z) -> forall t', reg_components (fun _ => Threw) many cs t <> Built t'.
Proof.
  revert t; induction cs as [|c r IH]; intros t (c0 & y & Hin & He & Hy) t'; [destruct Hin|].
  cbn [reg_components]. destruct Hin as [<-|Hin].
  - unfold reg. rewrite He. destruct (Z.eqb_spec y (-1)); [contradiction|]. cbn. discriminate.
  - destruct (reg (fun _ => Threw) many t c) as [t1| | |]; cbn; try discriminate. apply IH. exists c0, y. auto.
Qed.

(** ---- demagnetisation constraint ---- *)
Lemma C_lines p B T : Bk p T <> 0 -> Bk p T <> Br p T ->
  C_eval p B T = recoil (Hk p T) (Bk p T) (Br p T) B - irrev (Hk p T) (Hci p T) (Bk p T) B.
Proof. intros H1 H2. unfold C_eval, recoil, irrev. field. split; [exact H1|lra]. Qed.

Lemma C_dB_derive p B T : is_derive (fun B => C_eval p B T) B (C_dB p B T) /\ is_derive (fun B => C_dB p B T) B (C_dBB B T).
Proof.
  split; [|exact (D_const (C_dB p B T) B)].
  unfold C_eval, C_dB. set (s := Hk p T / (Bk p T - Br p T) - (Hk p T - Hci p T) / Bk p T). auto_derive; [trivial|]. req. ring.
Qed.
Section DemagD.
Variable p : demag.
Lemma Bk_d T : is_derive (Bk p) T (aBk p).
Proof. unfold Bk. auto_derive; trivial. req; ring. Qed.
Lemma Hk_d T : is_derive (Hk p) T (aHk p).
Proof. unfold Hk. auto_derive; trivial. req; ring. Qed.
Lemma Br_d T : is_derive (Br p) T (Br0 p * aBr p / 100).
Proof. unfold Br. auto_derive; trivial. req; field. Qed.
Lemma Hci_d T : is_derive (Hci p) T (Hci0 p * aHci p / 100).
Proof. unfold Hci. auto_derive; trivial. req; field. Qed.
End DemagD.
Lemma D_div f g x a b : is_derive f x a -> is_derive g x b -> g x <> 0 -> is_derive (fun t : R => f t / g t) x ((a * g x - f x * b) / g x ^ 2).
Proof. intros Hf Hg H. exact (is_derive_div f g x a b Hf Hg H). Qed.

Lemma C_dT_derive p B T : Bk p T <> 0 -> Bk p T <> Br p T -> Br0 p <> 0 -> is_derive (fun T => C_eval p B T) T (C_dT p B T).
Proof.
  intros H1 H2 H3. assert (H2' : Bk p T - Br p T <> 0) by lra. unfold C_eval.
  pose proof (Bk_d p T) as d1. pose proof (Hk_d p T) as d2. pose proof (Br_d p T) as d3. pose proof (Hci_d p T) as d4.
  pose proof (D_minus _ _ T _ _ d1 d3) as d5. pose proof (D_div _ _ T _ _ d2 d5 H2') as d6.
  pose proof (D_div _ _ T _ _ (D_minus _ _ T _ _ d2 d4) d1 H1) as d7.
  pose proof (D_mult _ _ T _ _ (D_minus _ _ T _ _ d6 d7) (D_const B T)) as d8.
  pose proof (D_div _ _ T _ _ (D_mult _ _ T _ _ d3 d2) d5 H2') as d9.
  eapply D_eq; [exact (D_minus _ _ T _ _ d8 (D_plus _ _ T _ _ d4 d9))|].
  req. cbv beta. unfold C_dT. cbv zeta. field. repeat split; assumption.
Qed.
Lemma C_dBT_derive p B T : Bk p T <> 0 -> Bk p T <> Br p T ->
  is_derive (fun T => C_dB p B T) T (C_dBT p B T).
Proof.
  intros H1 H2. assert (H2' : Bk p T - Br p T <> 0) by lra. unfold C_dB.
  pose proof (Bk_d p T) as d1. pose proof (Hk_d p T) as d2. pose proof (Br_d p T) as d3. pose proof (Hci_d p T) as d4.
  pose proof (D_minus _ _ T _ _ d1 d3) as d5. pose proof (D_div _ _ T _ _ d2 d5 H2') as d6.
  pose proof (D_div _ _ T _ _ (D_minus _ _ T _ _ d2 d4) d1 H1) as d7.
  eapply D_eq; [exact (D_minus _ _ T _ _ d6 d7)|].
  req. cbv beta. unfold C_dBT. cbv zeta. field. repeat split; assumption.
Qed.
Lemma C_dTB_derive p B T : is_derive (fun B => C_dT p B T) B (C_dBT p B T).
Proof.
  apply (is_derive_ext (fun t => C_dBT p B T * t + C_dT p 0 T)).
  - intros t. cbv beta. req. unfold C_dT, C_dBT. cbv zeta. unfold Rdiv. ring.
  - set (k := C_dBT p B T). set (z := C_dT p 0 T). auto_derive; [trivial|]. req. ring.
Qed.
Lemma C_dTT_derive p B T : Bk p T <> 0 -> Bk p T <> Br p T -> Br0 p <> 0 -> is_derive (fun T => C_dT p B T) T (C_dTT p B T).
Proof.
  intros H1 H2 H3. assert (H2' : Bk p T - Br p T <> 0) by lra. unfold C_dT. cbv zeta.
  pose proof (Bk_d p T) as d1. pose proof (Hk_d p T) as d2. pose proof (Br_d p T) as d3. pose proof (Hci_d p T) as d4.
  pose proof (D_minus _ _ T _ _ d1 d3) as d5.
  assert (d5' : is_derive (fun t => (Bk p t - Br p t) ^ 2) T (2 * (Bk p T - Br p T) * (aBk p - Br0 p * aBr p / 100))).
  { eapply is_derive_ext; [|eapply D_eq; [exact (D_mult _ _ T _ _ d5 d5)|]]; [intros t; cbv beta; req; ring|req; cbv beta; ring]. }
  assert (d1' : is_derive (fun t => Bk p t ^ 2) T (2 * Bk p T * aBk p)).
  { eapply is_derive_ext; [|eapply D_eq; [exact (D_mult _ _ T _ _ d1 d1)|]]; [intros t; cbv beta; req; ring|req; cbv beta; ring]. }
  assert (H2q : (Bk p T - Br p T) ^ 2 <> 0) by (apply pow_nonzero; exact H2').
  assert (H1q : Bk p T ^ 2 <> 0) by (apply pow_nonzero; exact H1).
  assert (H2h : 100 * (Bk p T - Br p T) <> 0) by lra.
  set (S1 := aBk p - Br0 p * aBr p / 100) in *.
  pose proof (D_div _ _ T _ _ (D_const (aHk p) T) d5 H2') as e1.
  pose proof (D_div _ _ T _ _ (D_const (aHk p - Hci0 p * aHci p / 100) T) d1 H1) as e2.
  pose proof (D_div _ _ T _ _ (D_scal S1 _ T _ d2) d5' H2q) as e3.
  pose proof (D_div _ _ T _ _ (D_scal (aBk p) _ T _ (D_minus _ _ T _ _ d2 d4)) d1' H1q) as e4.
  pose proof (D_scal B _ T _ (D_plus _ _ T _ _ (D_minus _ _ T _ _ (D_minus _ _ T _ _ e1 e2) e3) e4)) as e5.
  pose proof (D_div _ _ T _ _ (D_scal (Br0 p * aBr p) _ T _ d2) (D_scal 100 _ T _ d5) H2h) as e6.
  pose proof (D_div _ _ T _ _ d3 (D_const (Br0 p) T) H3) as e7. cbv beta in e7.
  pose proof (D_div _ _ T _ _ (D_scal (Br0 p * aHk p) _ T _ e7) d5 H2') as e8.
  pose proof (D_mult _ _ T _ _ (D_mult _ _ T _ _ (D_scal (Br0 p) _ T _ e7) (D_const S1 T)) d2) as e9'.
  pose proof (D_div _ _ T _ _ e9' d5' H2q) as e9.
  pose proof (D_plus _ _ T _ _ (D_minus _ _ T _ _ (D_minus _ _ T _ _ (D_minus _ _ T _ _ e5 (D_const (Hci0 p * aHci p / 100) T)) e6) e8) e9) as e.
  eapply is_derive_ext; [|eapply D_eq; [exact e|]].
  - intros t; cbv beta. req. reflexivity.
  - req. cbv beta. unfold C_dTT. cbv zeta. fold S1. unfold S1. field. repeat split; assumption.
Qed.

(** ---- options ---- *)
(** the value the options give to a key, else the one of the material library *)
Definition resolved (o : jobj) (libsub : option jobj) (key : string) (v : jval) : Prop :=
  sfind key o = Some v \/ (sfind key o = None /\ exists m, libsub = Some m /\ sfind key m = Some v).
Lemma param_resolved o s k v : param o s k = Built v <-> resolved o s k v.
Proof.
  unfold param, resolved. destruct (sfind k o) as [x|].
  - split; [intros [= ->]; auto|intros [[= ->]|[[=] _]]; reflexivity].
  - destruct s as [m|].
    + destruct (sfind k m) as [y|] eqn:E; split.
      * intros [= ->]. right. split; [reflexivity|]. exists m. auto.
      * intros [[=]|[_ (m' & [= <-] & H)]]. congruence.
      * discriminate.
      * intros [[=]|[_ (m' & [= <-] & H)]]. congruence.
    + split; [discriminate|intros [[=]|[_ (m' & [=] & _)]]].
Qed.
Lemma num_resolved o s k v : get_num (param o s k) = Built v <-> resolved o s k (VNum v).
Proof. rewrite <- param_resolved. destruct (param o s k) as [[x|x|x]| | |]; cbn; split; congruence. Qed.
Lemma vec_resolved o s k v : get_vec (param o s k) = Built v <-> resolved o s k (VVec v).
Proof. rewrite <- param_resolved. destruct (param o s k) as [[x|x|x]| | |]; cbn; split; congruence. Qed.
Lemma bind_built {A B} (x : built A) (f : A -> built B) y : bind x f = Built y <-> exists a, x = Built a /\ f a = Built y.
Proof. destruct x; cbn; split; try discriminate; [eauto|intros (? & [= <-] & H); exact H| | |]; intros (? & [=] & _). Qed.

Lemma mfind_some {A} (t : list (Z * A)) a x : unique_keys t -> (mfind a t = Some x <-> In (a, x) t).
Proof.
  intros Hu. split; [|apply in_mfind; exact Hu].
  clear Hu. induction t as [|[k v] r IH]; cbn; [discriminate|]. destruct (Z.eqb_spec a k); [intros [= <-]; left; congruence|auto].
Qed.

(** ---- interp ---- *)
Lemma interp_DB T0 k0 T1 k1 T B : Derive (interp T0 k0 T1 k1 T) B = dsum 0 k0 B + (T - T0) / (T1 - T0) * (dsum 0 k1 B - dsum 0 k0 B).
Proof. exact (is_derive_unique _ _ _ (interp_dB T0 k0 T1 k1 T B)). Qed.
Lemma interp_DT T0 k0 T1 k1 T B : Derive (fun T => interp T0 k0 T1 k1 T B) T = (poly k1 B - poly k0 B) / (T1 - T0).
Proof. exact (is_derive_unique _ _ _ (interp_dT T0 k0 T1 k1 T B)). Qed.
Lemma interp_dBB T0 k0 T1 k1 T B : is_derive (Derive (interp T0 k0 T1 k1 T)) B (ddsum 0 k0 B + (T - T0) / (T1 - T0) * (ddsum 0 k1 B - ddsum 0 k0 B)).
Proof.
  eapply is_derive_ext; [intros t; symmetry; apply interp_DB|].
  exact (D_plus _ _ B _ _ (ddsum_derive k0 0 B) (D_scal ((T - T0) / (T1 - T0)) _ B _ (D_minus _ _ B _ _ (ddsum_derive k1 0 B) (ddsum_derive k0 0 B)))).
Qed.
Lemma interp_dBT T0 k0 T1 k1 T B : is_derive (fun T => Derive (interp T0 k0 T1 k1 T) B) T ((dsum 0 k1 B - dsum 0 k0 B) / (T1 - T0)).
Proof.
  eapply is_derive_ext; [intros t; symmetry; apply interp_DB|]. auto_derive; [trivial|]. req. unfold Rdiv; ring.
Qed.
Lemma interp_dTB T0 k0 T1 k1 T B : is_derive (fun B => Derive (fun T => interp T0 k0 T1 k1 T B) T) B ((dsum 0 k1 B - dsum 0 k0 B) / (T1 - T0)).
Proof.
  eapply is_derive_ext; [intros t; symmetry; apply interp_DT|].
  eapply is_derive_ext; [|eapply D_eq; [exact (D_scal (/ (T1 - T0)) _ B _ (D_minus _ _ B _ _ (poly_derive k1 B) (poly_derive k0 B)))|]].
  - intros t; cbv beta. req. unfold Rdiv; ring.
  - req. unfold Rdiv; ring.
Qed.
Lemma interp_dTT T0 k0 T1 k1 T B : is_derive (Derive (fun T => interp T0 k0 T1 k1 T B)) T 0.
Proof. eapply is_derive_ext; [intros t; symmetry; apply interp_DT|]. exact (D_const _ T). Qed.

(** ---- conductivity and remnant flux ---- *)
Lemma s_derive a t g T : 1 + a * (T - t) <> 0 -> is_derive (s_eval a t g) T (s_d a t g T) /\ is_derive (s_d a t g) T (s_dd a t g T).
Proof.
  intros H. split; unfold s_eval, s_d, s_dd; auto_derive; [exact H| | |].
  - req. field. exact H.
  - rewrite ?Rmult_1_r. repeat apply Rmult_integral_contrapositive_currified; try exact H; exact R1_neq_R0.
  - req. field. exact H.
Qed.
Lemma r_derive r T : is_derive (r_eval r) T (r_d r T) /\ is_derive (r_d r) T (r_dd r T).
Proof. split; [|exact (D_const (r_d r T) T)]. unfold r_eval, r_d. auto_derive; [trivial|]. req. field. Qed.

(** ---- reluctivity ---- *)
Definition has_derivatives (s : spline) (b : R) : Prop := is_derive (sv s) b (sd s b) /\ is_derive (sd s) b (sdd s b).
Lemma below_loc (b m : R) : b < m -> locally b (fun t => t < m).
Proof. intros H. apply (locally_interval _ b m_infty m); cbn; auto. Qed.
Lemma above_loc (b m : R) : m < b -> locally b (fun t => m < t).
Proof. intros H. apply (locally_interval _ b m p_infty); cbn; auto. Qed.
Lemma L_below s m b : b < m -> has_derivatives s b -> is_derive (L_eval s m) b (L_d s m b) /\ is_derive (L_d s m) b (L_dd s m b).
Proof.
  intros Hb [d1 d2]. assert (de : is_derive (fun t => exp (sv s t)) b (exp (sv s b) * sd s b)).
  { eapply D_eq; [exact (is_derive_comp exp (sv s) b _ _ (is_derive_exp (sv s b)) d1)|]. req. unfold scal; cbn. unfold mult; cbn. ring. }
  split.
  - eapply is_derive_ext_loc; [|eapply D_eq; [exact de|]].
    + eapply filter_imp; [|exact (below_loc b m Hb)]. intros t Ht. cbv beta in *. unfold L_eval. destruct (Rle_dec t m); [reflexivity|lra].
    + unfold L_d. destruct (Rle_dec b m); [reflexivity|lra].
  - eapply is_derive_ext_loc; [|eapply D_eq; [exact (D_mult _ _ b _ _ de d2)|]].
    + eapply filter_imp; [|exact (below_loc b m Hb)]. intros t Ht. cbv beta in *. unfold L_d. destruct (Rle_dec t m); [reflexivity|lra].
    + unfold L_dd. destruct (Rle_dec b m); [req; ring|lra].
Qed.
Lemma L_above s m b : m < b -> is_derive (L_eval s m) b (L_d s m b) /\ is_derive (L_d s m) b (L_dd s m b).
Proof.
  intros Hb. split.
  - eapply is_derive_ext_loc; [|eapply D_eq; [exact (D_const nu0 b)|]].
    + eapply filter_imp; [|exact (above_loc b m Hb)]. intros t Ht. cbv beta in *. unfold L_eval. destruct (Rle_dec t m); [lra|reflexivity].
    + unfold L_d. destruct (Rle_dec b m); [lra|reflexivity].
  - eapply is_derive_ext_loc; [|eapply D_eq; [exact (D_const 0 b)|]].
    + eapply filter_imp; [|exact (above_loc b m Hb)]. intros t Ht. cbv beta in *. unfold L_d. destruct (Rle_dec t m); [lra|reflexivity].
    + unfold L_dd. destruct (Rle_dec b m); [lra|reflexivity].
Qed.
Lemma L_jump s m : continuous (L_eval s m) m -> exp (sv s m) = nu0.
Proof.
  intros Hc. destruct (Req_dec (exp (sv s m)) nu0) as [E|E]; [exact E|exfalso].
  set (e := Rabs (exp (sv s m) - nu0)). assert (He : 0 < e) by (apply Rabs_pos_lt; lra).
  assert (Hm : L_eval s m m = exp (sv s m)) by (unfold L_eval; destruct (Rle_dec m m); [reflexivity|lra]).
  destruct (proj1 (continuity_pt_locally (L_eval s m) m) (proj2 (continuity_pt_filterlim _ _) Hc) (mkposreal e He)) as [d Hd].
  assert (H := Hd (m + d / 2)). cbn in H. pose proof (cond_pos d).
  assert (B : ball m d (m + d / 2)). { unfold ball; cbn. unfold AbsRing_ball, abs, minus, plus, opp; cbn. rewrite Rabs_pos_eq; lra. }
  specialize (H B). rewrite Hm in H. unfold L_eval in H. destruct (Rle_dec (m + d / 2) m); [lra|].
  rewrite Rabs_minus_sym in H. unfold e in H. lra.
Qed.

Definition H_of (s : spline) (b_max h_max b : R) : R := if Rle_dec b b_max then sv s (b / b_max) else h_max + nu0 * (b - b_max).
Lemma nu0_pos : 0 < nu0.
Proof. unfold nu0, mu_0. apply Rdiv_lt_0_compat; [lra|]. pose proof PI_RGT_0. nra. Qed.
Lemma H_value s m h b : tiny < b -> H_eval s m h b * b = H_of s m h b.
Proof.
  intros Hb. assert (0 < b). { unfold tiny in Hb. assert (0 < 1 / 10 ^ 14) by (apply Rdiv_lt_0_compat; [lra|apply pow_lt; lra]). lra. }
  unfold H_eval, H_of. destruct (Rle_dec b tiny); [lra|]. destruct (Rle_dec b m); field; lra.
Qed.
Lemma scaled_derive s m b : is_derive (sv s) (b / m) (sd s (b / m)) -> is_derive (fun t => sv s (t / m)) b (sd s (b / m) / m).
Proof.
  intros d. assert (dl : is_derive (fun t : R => t / m) b (/ m)) by (auto_derive; [trivial|req; unfold Rdiv; ring]).
  eapply D_eq; [exact (is_derive_comp (sv s) (fun t => t / m) b _ _ d dl)|]. req. unfold scal; cbn. unfold mult; cbn. unfold Rdiv. ring.
Qed.
Lemma H_below s m h b : 0 < m -> tiny < b < m -> is_derive (sv s) (b / m) (sd s (b / m)) ->
  exists a, H_d s m h b = Some a /\ is_derive (H_eval s m h) b a.
Proof.
  intros Hm [Hb1 Hb2] d. assert (0 < b). { unfold tiny in Hb1. assert (0 < 1 / 10 ^ 14) by (apply Rdiv_lt_0_compat; [lra|apply pow_lt; lra]). lra. }
  unfold H_d. destruct (Rle_dec b m); [|lra]. rewrite !odiv_some by nra. eexists; split; [reflexivity|].
  eapply is_derive_ext_loc; [|eapply D_eq; [exact (D_div _ _ b _ _ (scaled_derive s m b d) (is_derive_id b) ltac:(lra))|]].
  - eapply filter_imp; [|exact (filter_and _ _ (above_loc b tiny Hb1) (below_loc b m Hb2))]. intros t [Ht1 Ht2]. cbv beta in *.
    unfold H_eval. destruct (Rle_dec t tiny); [lra|]. destruct (Rle_dec t m); [reflexivity|lra].
  - req. unfold one; cbn. field. lra.
Qed.
Lemma H_above s m h b : 0 < m -> tiny < m -> m < b ->
  exists a, H_d s m h b = Some a /\ is_derive (H_eval s m h) b a.
Proof.
  intros Hm Ht Hb. unfold H_d. destruct (Rle_dec b m); [lra|]. eexists; split; [reflexivity|].
  assert (D : is_derive (fun t : R => (h - nu0 * m) / t + nu0) b (- (h - nu0 * m) / b ^ 2)).
  { auto_derive; [lra|]. req. field. lra. }
  eapply is_derive_ext_loc; [|exact D].
  eapply filter_imp; [|exact (above_loc b m Hb)]. intros t Ht1. cbv beta in *. unfold H_eval.
  destruct (Rle_dec t tiny); [lra|]. destruct (Rle_dec t m); [lra|reflexivity].
Qed.
Lemma paste_cont (f g : R -> R) m : continuous f m -> continuous g m -> f m = g m ->
  continuous (fun t => if Rle_dec t m then f t else g t) m.
Proof.
  intros Hf Hg E. apply continuity_pt_filterlim, continuity_pt_locally. intros eps.
  destruct (proj1 (continuity_pt_locally f m) (proj2 (continuity_pt_filterlim _ _) Hf) eps) as [d1 H1].
  destruct (proj1 (continuity_pt_locally g m) (proj2 (continuity_pt_filterlim _ _) Hg) eps) as [d2 H2].
  assert (Hd : 0 < Rmin d1 d2) by (apply Rmin_pos; [apply (cond_pos d1)|apply (cond_pos d2)]).
  exists (mkposreal _ Hd). intros t Ht. destruct (Rle_dec m m); [|lra].
  destruct (Rle_dec t m).
  - apply H1. eapply ball_le; [|exact Ht]. cbn. apply Rmin_l.
  - rewrite E. apply H2. eapply ball_le; [|exact Ht]. cbn. apply Rmin_r.
Qed.
Lemma H_cont s m h : 0 < m -> tiny < m -> sv s 1 = h -> continuous (sv s) 1 -> continuous (H_eval s m h) m.
Proof.
  intros Hm Ht Hs Hc.
  apply (continuous_ext_loc (H_eval s m h) (fun t => if Rle_dec t m then sv s (t / m) / t else (h - nu0 * m) / t + nu0)).
  - eapply filter_imp; [|exact (above_loc m tiny Ht)]. intros t H1. cbv beta in *. unfold H_eval. destruct (Rle_dec t tiny); [lra|reflexivity].
  - apply (paste_cont (fun t => sv s (t / m) / t) (fun t => (h - nu0 * m) / t + nu0)).
    + apply (continuous_mult (fun t => sv s (t / m)) (fun t => / t)).
      * apply (continuous_comp (fun t => t / m) (sv s)).
        -- apply (ex_derive_continuous (fun t => t / m)). auto_derive. trivial.
        -- replace (m / m) with 1 by (field; lra). exact Hc.
      * apply (ex_derive_continuous (fun t => / t)). auto_derive. lra.
    + apply (ex_derive_continuous (fun t => (h - nu0 * m) / t + nu0)). auto_derive. lra.
    + replace (m / m) with 1 by (field; lra). rewrite Hs. field. lra.
Qed.

(** the attributes a component names: "attr", or "attrs" when there is no "attr" *)
Definition names (c : ecomponent) (a : Z) : Prop :=
  (eattr c = Some a /\ a <> (-1)%Z) \/ ((eattr c = None \/ eattr c = Some (-1)%Z) /\ exists l, eattrs c = Some l /\ In a l).
Lemma table_both {A} (b : ecomponent -> built A) cs t : reg_components b b cs [] = Built t ->
  unique_keys t /\ forall a x, mfind a t = Some x <-> exists c, In c cs /\ names c a /\ b c = Built x.
Proof.
  intros H. destruct (reg_components_spec _ _ _ _ _ H (NoDup_nil _)) as [Hu Hin]. split; [exact Hu|].
  intros a x. rewrite mfind_some by exact Hu. rewrite Hin. split.
  - intros [[]|(c & Hc & Hg)]. exists c. split; [exact Hc|]. unfold gives, names in *. destruct (eattr c) as [y|].
    + destruct (Z.eqb y (-1)) eqn:E.
      * apply Z.eqb_eq in E. subst y. tauto.
      * apply Z.eqb_neq in E. destruct Hg as [Hy Hg]. subst y. auto.
    + tauto.
  - intros (c & Hc & Hn & Hb). right. exists c. split; [exact Hc|]. unfold gives, names in *. destruct Hn as [[-> Hn]|[[-> | ->] Hn]].
    + destruct (Z.eqb_spec a (-1)); [contradiction|auto].
    + auto.
    + cbn. auto.
Qed.
Lemma map_unique {A B} (g : A -> B) (t : list (Z * A)) : unique_keys t -> unique_keys (map (fun p => (fst p, g (snd p))) t).
Proof. unfold unique_keys. rewrite map_map. cbn. exact (fun H => H). Qed.
Lemma map_mfind {A B} (g : A -> B) (t : list (Z * A)) a : mfind a (map (fun p => (fst p, g (snd p))) t) = match mfind a t with Some x => Some (g x) | None => None end.
Proof. induction t as [|[k v] r IH]; cbn; [reflexivity|]. destruct (Z.eqb a k); [reflexivity|exact IH]. Qed.
Lemma unnamed {A} (b : ecomponent -> built A) cs t a : reg_components b b cs [] = Built t -> (forall c, In c cs -> ~ names c a) -> mfind a t = None.
Proof.
  intros H Hn. destruct (table_both b cs t H) as [_ Ht]. destruct (mfind a t) as [x|] eqn:E; [|reflexivity].
  apply Ht in E. destruct E as (c & Hc & Hna & _). exfalso. exact (Hn c Hc Hna).
Qed.
