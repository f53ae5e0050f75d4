(** Jacobi polynomials with beta = 0 and a natural alpha: recurrences, orthonormality. *)
From Coq Require Import Reals Lra Lia List Arith.
From Coquelicot Require Import Coquelicot.
From Verif Require Import OrthoPoly.
Import ListNotations.
Open Scope R_scope.

(** continuity combinators on R *)
Lemma cc_plus (f g : R -> R) (x : R) : continuous f x -> continuous g x -> continuous (fun x => f x + g x) x.
Proof. intros. now apply (continuous_plus (V:=R_NormedModule) f g). Qed.
Lemma cc_minus (f g : R -> R) (x : R) : continuous f x -> continuous g x -> continuous (fun x => f x - g x) x.
Proof. intros. now apply (continuous_minus (V:=R_NormedModule) f g). Qed.
Lemma cc_opp (f : R -> R) (x : R) : continuous f x -> continuous (fun x => - f x) x.
Proof. intros. now apply (continuous_opp (V:=R_NormedModule) f). Qed.
Lemma cc_mult (f g : R -> R) (x : R) : continuous f x -> continuous g x -> continuous (fun x => f x * g x) x.
Proof. intros. now apply (continuous_mult f g). Qed.
Lemma cc_const (c x : R) : continuous (fun _ : R => c) x.
Proof. apply continuous_const. Qed.
Lemma cc_id (x : R) : continuous (fun x : R => x) x.
Proof. apply continuous_id. Qed.
Lemma cc_pow (f : R -> R) (n : nat) (x : R) : continuous f x -> continuous (fun x => f x ^ n) x.
Proof. intros H. induction n; simpl; [apply cc_const|]. now apply (cc_mult f). Qed.
Ltac cc1 :=
  lazymatch goal with
  | |- continuous (fun _ => ?c) _ => apply cc_const
  | |- continuous (fun x => x) _ => apply cc_id
  | |- continuous (fun x => @?f x + @?g x) _ => apply (cc_plus f g)
  | |- continuous (fun x => @?f x - @?g x) _ => apply (cc_minus f g)
  | |- continuous (fun x => @?f x * @?g x) _ => apply (cc_mult f g)
  | |- continuous (fun x => - @?f x) _ => apply (cc_opp f)
  | |- continuous (fun x => @?f x ^ ?n) _ => apply (cc_pow f n)
  | |- _ => assumption
  end.
Ltac cc := unfold Rdiv; repeat cc1.

Section Classical.
Variable a : nat.
Notation al := (INR a).

(** classical Jacobi polynomials P_n^{(a,0)}: pair (P_n, P_{n+1}) and derivatives *)
Definition nextP (n : nat) (x p0 p1 : R) : R :=
  let N := INR n + 2 in
  ((2*N+al-1) * ((2*N+al)*(2*N+al-2)*x + al*al) * p1 - 2*(N+al-1)*(N-1)*(2*N+al) * p0)
  / (2*N*(N+al)*(2*N+al-2)).
Definition nextD (n : nat) (x d0 p1 d1 : R) : R :=
  let N := INR n + 2 in
  ((2*N+al-1) * ((2*N+al)*(2*N+al-2)) * p1 + (2*N+al-1) * ((2*N+al)*(2*N+al-2)*x + al*al) * d1
   - 2*(N+al-1)*(N-1)*(2*N+al) * d0) / (2*N*(N+al)*(2*N+al-2)).
Fixpoint PP (n : nat) (x : R) : R * R :=
  match n with
  | O => (1, ((al+2)*x+al)/2)
  | S n' => let r := PP n' x in (snd r, nextP n' x (fst r) (snd r))
  end.
Definition P (n : nat) (x : R) : R := fst (PP n x).
Fixpoint DD (n : nat) (x : R) : R * R :=
  match n with
  | O => (0, (al+2)/2)
  | S n' => let r := DD n' x in (snd r, nextD n' x (fst r) (P (S n') x) (snd r))
  end.
Definition D (n : nat) (x : R) : R := fst (DD n x).

Lemma P_SS n x : P (S (S n)) x = nextP n x (P n x) (P (S n) x).
Proof. reflexivity. Qed.
Lemma D_SS n x : D (S (S n)) x = nextD n x (D n x) (P (S n) x) (D (S n) x).
Proof. reflexivity. Qed.
Lemma al_pos : 0 <= al. Proof. apply pos_INR. Qed.

Lemma two_ind (Q : nat -> Prop) : Q O -> Q 1%nat -> (forall n, Q n -> Q (S n) -> Q (S (S n))) -> forall n, Q n.
Proof. intros H0 H1 HS n. assert (Q n /\ Q (S n)) as [? _]; [|assumption]. induction n; split; try tauto. apply HS; tauto. Qed.

Lemma P_derive n x : is_derive (P n) x (D n x).
Proof.
  induction n as [| |n IH0 IH1] using two_ind.
  - change (is_derive (fun _ => 1) x 0). auto_derive; [easy|ring].
  - change (is_derive (fun x => ((al+2)*x+al)/2) x ((al+2)/2)). auto_derive; [easy|field].
  - pose proof al_pos. pose proof (pos_INR n).
    apply (is_derive_ext (fun x => nextP n x (P n x) (P (S n) x))); [reflexivity|].
    rewrite D_SS. unfold nextP, nextD.
    auto_derive.
    + repeat split; try (eexists; eassumption).
    + assert (E0 : Derive (fun x0 : R => P n x0) x = D n x) by (apply is_derive_unique; exact IH0).
      assert (E1 : Derive (fun x0 : R => P (S n) x0) x = D (S n) x) by (apply is_derive_unique; exact IH1).
      rewrite ?E0, ?E1.
      unfold Rdiv; ring.
Qed.

(** both first-order relations; N = n+1 *)
Lemma P_rel n x :
  let N := INR n + 1 in
  (2*N+al)*(1-x*x)*D (S n) x = N*(al-(2*N+al)*x)*P (S n) x + 2*N*(N+al)*P n x /\
  (2*N+al)*(1-x*x)*D n x = (N+al)*((2*N+al)*x+al)*P n x - 2*N*(N+al)*P (S n) x.
Proof.
  pose proof al_pos as Ha. induction n as [|n [IH1 IH2]].
  - cbn. split; field.
  - pose proof (pos_INR n) as Hn. rewrite S_INR. set (m := INR n) in *.
    assert (E : P (S (S n)) x = nextP n x (P n x) (P (S n) x)) by reflexivity.
    assert (F : D (S (S n)) x = nextD n x (D n x) (P (S n) x) (D (S n) x)) by reflexivity.
    unfold nextP, nextD in E, F. fold m in E, F. cbv zeta in *.
    assert (IH1' : (1-x*x)*D (S n) x = ((m+1)*(al-(2*(m+1)+al)*x)*P (S n) x + 2*(m+1)*((m+1)+al)*P n x)/(2*(m+1)+al)).
    { rewrite <- IH1. field. lra. }
    assert (IH2' : (1-x*x)*D n x = (((m+1)+al)*((2*(m+1)+al)*x+al)*P n x - 2*(m+1)*((m+1)+al)*P (S n) x)/(2*(m+1)+al)).
    { rewrite <- IH2. field. lra. }
    set (p0 := P n x) in *. set (p1 := P (S n) x) in *. set (d0 := D n x) in *. set (d1 := D (S n) x) in *.
    split.
    + rewrite F, E.
      replace ((2 * (m + 1 + 1) + al) * (1 - x * x) *
        (((2 * (m + 2) + al - 1) * ((2 * (m + 2) + al) * (2 * (m + 2) + al - 2)) * p1 +
        (2 * (m + 2) + al - 1) * ((2 * (m + 2) + al) * (2 * (m + 2) + al - 2) * x + al * al) * d1 -
        2 * (m + 2 + al - 1) * (m + 2 - 1) * (2 * (m + 2) + al) * d0) / (2 * (m + 2) * (m + 2 + al) * (2 * (m + 2) + al - 2))))
      with ((2 * (m + 1 + 1) + al) *
        (((2 * (m + 2) + al - 1) * ((2 * (m + 2) + al) * (2 * (m + 2) + al - 2)) * p1 * (1-x*x) +
        (2 * (m + 2) + al - 1) * ((2 * (m + 2) + al) * (2 * (m + 2) + al - 2) * x + al * al) * ((1-x*x)*d1) -
        2 * (m + 2 + al - 1) * (m + 2 - 1) * (2 * (m + 2) + al) * ((1-x*x)*d0)) / (2 * (m + 2) * (m + 2 + al) * (2 * (m + 2) + al - 2))))
      by (unfold Rdiv; ring).
      rewrite IH1', IH2'. field. repeat split; lra.
    + transitivity ((2 * (m + 1 + 1) + al) * ((1-x*x)*d1)); [ring|]. rewrite IH1', E. field. repeat split; lra.
Qed.

Lemma P_cont n x : continuous (P n) x.
Proof. apply (ex_derive_continuous (P n)). exists (D n x). apply P_derive. Qed.

Definition w (x : R) : R := (1 - x) ^ a.
Lemma w_cont x : continuous w x.
Proof. apply (ex_derive_continuous w). unfold w. auto_derive. easy. Qed.

Definition Lam (f : R -> R) : R := RInt (fun x => w x * f x) (-1) 1.

Lemma ex_RInt_cont (f : R -> R) u v : (forall x, continuous f x) -> ex_RInt f u v.
Proof. intros H. apply (ex_RInt_continuous f). intros z _. apply H. Qed.
Lemma wf_ex f : (forall x, continuous f x) -> ex_RInt (fun x => w x * f x) (-1) 1.
Proof. intros H. apply ex_RInt_cont. intros x. apply (continuous_mult (fun x => w x) f); [apply w_cont|apply H]. Qed.

Lemma Lam_ext f g : (forall x, f x = g x) -> Lam f = Lam g.
Proof. intros H. apply RInt_ext. intros x _. now rewrite H. Qed.
Lemma Lam_lin u v f g : (forall x, continuous f x) -> (forall x, continuous g x) ->
  Lam (fun x => u * f x + v * g x) = u * Lam f + v * Lam g.
Proof.
  intros Hf Hg. unfold Lam.
  transitivity (RInt (fun x => plus (scal u (w x * f x)) (scal v (w x * g x))) (-1) 1).
  { apply RInt_ext. intros x _. unfold plus, scal; simpl; unfold mult; simpl. ring. }
  etransitivity; [apply (RInt_plus (V:=R_CompleteNormedModule) (fun x => scal u (w x * f x)) (fun x => scal v (w x * g x)));
    apply (ex_RInt_scal (V:=R_NormedModule)); now apply wf_ex|].
  unfold plus; simpl. f_equal; (etransitivity; [apply (RInt_scal (V:=R_CompleteNormedModule)); now apply wf_ex|reflexivity]).
Qed.
Lemma cont_mul f g : (forall x : R, continuous f x) -> (forall x : R, continuous g x) ->
  forall x : R, continuous (fun x => f x * g x) x.
Proof. intros Hf Hg x. apply (continuous_mult f g); auto. Qed.

(** the antiderivative *)
Definition K (n : nat) (x : R) : R :=
  let N := INR n + 1 in
  (N*(al-(2*N+al)*x)*P (S n) x + 2*N*(N+al)*P n x) / (2*N+al).
Definition K' (n : nat) (x : R) : R :=
  let N := INR n + 1 in
  (N*(-(2*N+al))*P (S n) x + N*(al-(2*N+al)*x)*D (S n) x + 2*N*(N+al)*D n x) / (2*N+al).
Definition w' (x : R) : R := - INR a * (1 - x) ^ (pred a).

Lemma K_derive n x : is_derive (K n) x (K' n x).
Proof.
  unfold K, K'. pose proof al_pos. pose proof (pos_INR n).
  auto_derive.
  - repeat split; eexists; apply P_derive.
  - assert (E0 : Derive (fun x0 : R => P n x0) x = D n x) by (apply is_derive_unique; apply P_derive).
    assert (E1 : Derive (fun x0 : R => P (S n) x0) x = D (S n) x) by (apply is_derive_unique; apply P_derive).
    rewrite ?E0, ?E1. field. lra.
Qed.
Lemma w_derive x : is_derive w x (w' x).
Proof. unfold w, w'. auto_derive; [easy|]. change (1 + - x) with (1 - x). ring. Qed.

Lemma K_mul n x : (1 - x*x) * D (S n) x = K n x.
Proof.
  pose proof al_pos. pose proof (pos_INR n). unfold K. destruct (P_rel n x) as [E _]. cbv zeta in *.
  rewrite <- E. field. lra.
Qed.
Lemma w'_mul x : (1 - x) * w' x = - INR a * w x.
Proof.
  unfold w', w. destruct a; [simpl; ring|]. simpl pred. rewrite <- tech_pow_Rmult. ring.
Qed.

Lemma D_cont n x : continuous (D n) x.
Proof.
  induction n as [| |n IH0 IH1] using two_ind.
  - apply continuous_const.
  - apply continuous_const.
  - apply (continuous_ext (fun x => nextD n x (D n x) (P (S n) x) (D (S n) x))); [intros; reflexivity|].
    unfold nextD. cbv zeta. pose proof (P_cont (S n) x). cc.
Qed.

Lemma G_eq n x : -1 < x < 1 ->
  w' x * K n x + w x * K' n x = - ((INR n + 1) * (INR n + 1 + al + 1)) * (w x * P (S n) x).
Proof.
  intros Hx. pose proof al_pos. pose proof (pos_INR n).
  assert (X : 1 - x * x <> 0) by nra. assert (X1 : 1 - x <> 0) by lra. assert (X2 : 1 + x <> 0) by lra.
  assert (W : w' x = - INR a * w x / (1 - x)). { rewrite <- w'_mul. field. assumption. }
  assert (D1 : D (S n) x = K n x / (1 - x*x)). { rewrite <- K_mul. field. assumption. }
  assert (D0 : D n x = ((INR n + 1+al)*((2*(INR n + 1)+al)*x+al)*P n x - 2*(INR n + 1)*(INR n + 1+al)*P (S n) x) / ((2*(INR n + 1)+al) * (1 - x*x))).
  { destruct (P_rel n x) as [_ E]. cbv zeta in E. rewrite <- E. field. split; [assumption|lra]. }
  unfold K'. cbv zeta. rewrite W, D1, D0. unfold K. cbv zeta. field. repeat split; lra.
Qed.

Lemma Lam_P_S n : Lam (P (S n)) = 0.
Proof.
  pose proof al_pos. pose proof (pos_INR n).
  assert (E : RInt (fun x => w' x * K n x + w x * K' n x) (-1) 1 = 0).
  { assert (I : is_RInt (fun x => w' x * K n x + w x * K' n x) (-1) 1
               (minus ((fun x => w x * K n x) 1) ((fun x => w x * K n x) (-1)))).
    { apply (is_RInt_derive (fun x => w x * K n x)).
      - intros x _. apply (is_derive_mult w (K n) x (w' x) (K' n x)); [apply w_derive|apply K_derive|intros; apply Rmult_comm].
      - intros x _. unfold w', w, K, K'. cbv zeta. pose proof (P_cont n x). pose proof (P_cont (S n) x).
        pose proof (D_cont n x). pose proof (D_cont (S n) x). cc. }
    rewrite (is_RInt_unique _ _ _ _ I). unfold minus, plus, opp; simpl.
    assert (K1 : K n (-1) = 0). { rewrite <- K_mul. ring. }
    assert (K2 : K n 1 = 0). { rewrite <- K_mul. ring. }
    rewrite K1, K2. ring. }
  rewrite (RInt_ext _ (fun x => scal (- ((INR n + 1) * (INR n + 1 + al + 1))) (w x * P (S n) x))) in E.
  2:{ intros x Hx. rewrite Rmin_left, Rmax_right in Hx by lra. now rewrite G_eq. }
  assert (E2 : - ((INR n + 1) * (INR n + 1 + al + 1)) * Lam (P (S n)) = 0).
  { rewrite <- E. symmetry. apply (RInt_scal (V:=R_CompleteNormedModule) (fun x => w x * P (S n) x)). apply wf_ex, P_cont. }
  clear E. rename E2 into E.
  apply Rmult_integral in E. destruct E as [E|E]; [|exact E]. nra.
Qed.

Lemma Lam_P_0 : Lam (P 0) = 2 ^ (a + 1) / (al + 1).
Proof.
  pose proof al_pos. unfold Lam.
  assert (E : is_RInt (fun x => w x * P 0 x) (-1) 1
     (minus ((fun x => - (1-x)^(a+1) / (al+1)) 1) ((fun x => - (1-x)^(a+1) / (al+1)) (-1)))).
  { apply (is_RInt_derive (fun x => - (1-x)^(a+1) / (al+1))).
    - intros x _. auto_derive; [easy|]. unfold w, P; simpl. rewrite plus_INR. simpl.
      replace (pred (a+1)) with a by lia. change (1 + - x) with (1 - x). field. lra.
    - intros x _. apply (continuous_mult w (P 0)); [apply w_cont|apply P_cont]. }
  rewrite (is_RInt_unique _ _ _ _ E). unfold minus, plus, opp; simpl.
  replace (1 - 1) with 0 by ring. replace (1 - -1) with 2 by ring. rewrite (pow_ne_zero (a+1)) by lia. unfold Rdiv. ring.
Qed.

(** x P_n expressed in the basis *)
Definition ua (n : nat) : R := 2*(INR n+1)*(INR n+1+al)/((2*INR n+1+al)*(2*INR n+2+al)).
Definition wa (n : nat) : R := 2*INR n*(INR n+al)/((2*INR n+1+al)*(2*INR n+al)).
Definition va (n : nat) : R := - al*al/((2*INR n+al)*(2*INR n+2+al)).
Lemma xP_S n x : x * P (S n) x = ua (S n) * P (S (S n)) x + va (S n) * P (S n) x + wa (S n) * P n x.
Proof.
  pose proof al_pos. pose proof (pos_INR n). rewrite P_SS. unfold nextP, ua, va, wa. rewrite S_INR. cbv zeta.
  field. repeat split; lra.
Qed.
Lemma xP_0 x : x * P 0 x = ua 0 * P 1 x + (- al/(al+2)) * P 0 x.
Proof. pose proof al_pos. unfold ua, P; simpl. field. repeat split; lra. Qed.

Notation "'Q' m n" := (Lam (fun x => P m x * P n x)) (at level 10, m at level 9, n at level 9).
Lemma PPc m n x : continuous (fun x => P m x * P n x) x.
Proof. apply cont_mul; intros; apply P_cont. Qed.

Lemma Lam3 c1 c2 c3 f g h : (forall x, continuous f x) -> (forall x, continuous g x) -> (forall x, continuous h x) ->
  Lam (fun x => c1 * f x + c2 * g x + c3 * h x) = c1 * Lam f + c2 * Lam g + c3 * Lam h.
Proof.
  intros Hf Hg Hh.
  rewrite (Lam_ext _ (fun x => 1 * (fun x => c1 * f x + c2 * g x) x + c3 * h x)) by (intros; ring).
  rewrite Lam_lin, Lam_lin; auto; [ring|].
  intros x. specialize (Hf x). specialize (Hg x). cc.
Qed.

Lemma XQ_S m n : Lam (fun x => x * P (S m) x * P n x) = ua (S m) * Q (S (S m)) n + va (S m) * Q (S m) n + wa (S m) * Q m n.
Proof. rewrite <- Lam3 by (intros; apply PPc). apply Lam_ext. intros x. rewrite xP_S. ring. Qed.
Lemma XQ_0 n : Lam (fun x => x * P 0 x * P n x) = ua 0 * Q 1%nat n + (-al/(al+2)) * Q 0%nat n.
Proof.
  rewrite <- Lam_lin by (intros; apply PPc). apply Lam_ext. intros x. rewrite xP_0. ring.
Qed.
Lemma Q_sym m n : Q m n = Q n m.
Proof. apply Lam_ext. intros; ring. Qed.
Lemma XQ_sym m n : Lam (fun x => x * P m x * P n x) = Lam (fun x => x * P n x * P m x).
Proof. apply Lam_ext. intros; ring. Qed.
Lemma ua_pos n : 0 < ua n.
Proof. pose proof al_pos. pose proof (pos_INR n). unfold ua. apply Rdiv_lt_0_compat; nra. Qed.

Lemma Q_orth m : forall n, (m < n)%nat -> Q m n = 0.
Proof.
  induction m as [| |m IH0 IH1] using two_ind; intros n H.
  - destruct n; [lia|]. rewrite (Lam_ext _ (P (S n))) by (intros; unfold P at 1; simpl; ring). apply Lam_P_S.
  - assert (Z : forall k, (0 < k)%nat -> Q 0%nat k = 0).
    { intros k Hk. destruct k; [lia|]. rewrite (Lam_ext _ (P (S k))) by (intros; unfold P at 1; simpl; ring). apply Lam_P_S. }
    destruct n as [|n]; [lia|].
    pose proof (XQ_0 (S n)) as E. rewrite XQ_sym, XQ_S in E.
    rewrite (Q_sym (S (S n)) 0), (Q_sym (S n) 0), (Q_sym n 0) in E.
    rewrite !Z in E by lia. pose proof (ua_pos 0). 
    replace (Q 1%nat (S n)) with (ua 0 * Q 1%nat (S n) / ua 0) by (field; lra).
    replace (ua 0 * Q 1%nat (S n)) with 0 by lra. field. lra.
  - destruct n as [|n]; [lia|].
    pose proof (XQ_S m (S n)) as E. rewrite XQ_sym, XQ_S in E.
    rewrite (Q_sym (S (S n)) (S m)), (Q_sym (S n) (S m)), (Q_sym n (S m)) in E.
    rewrite !IH1 in E by lia. rewrite IH0 in E by lia. pose proof (ua_pos (S m)).
    replace (Q (S (S m)) (S n)) with (ua (S m) * Q (S (S m)) (S n) / ua (S m)) by (field; lra).
    replace (ua (S m) * Q (S (S m)) (S n)) with 0 by lra. field. lra.
Qed.

Lemma Q_norm m : Q m m = 2 ^ (a + 1) / (2 * INR m + al + 1).
Proof.
  pose proof al_pos.
  induction m as [|m IH].
  - rewrite (Lam_ext _ (P 0)) by (intros; unfold P; simpl; ring). rewrite Lam_P_0. simpl INR. field. lra.
  - pose proof (pos_INR m).
    assert (E : ua m * Q (S m) (S m) = wa (S m) * Q m m).
    { pose proof (XQ_S m m) as E. rewrite (Q_sym (S (S m)) m), (Q_sym (S m) m), !Q_orth in E by lia.
      rewrite XQ_sym in E. destruct m.
      - rewrite XQ_0, (Q_orth 0 1) in E by lia. lra.
      - rewrite XQ_S, (Q_orth (S m) (S (S m))), (Q_orth m (S (S m))) in E by lia. lra. }
    rewrite IH in E. pose proof (ua_pos m).
    replace (Q (S m) (S m)) with (ua m * Q (S m) (S m) / ua m) by (field; lra). rewrite E.
    unfold ua, wa. rewrite S_INR. field. repeat split; lra.
Qed.
End Classical.
