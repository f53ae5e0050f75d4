(** The code's normalised recurrence, orthonormality, triangle and tetrahedron bases. *)
From Coq Require Import Reals Lra Lia List Arith.
From Coquelicot Require Import Coquelicot.
From Verif Require Import OrthoPoly OrthoPolySpec OrthoPolyProofs.
Import ListNotations.
Open Scope R_scope.

Section Code.
Variable tg : R -> R.
Hypothesis Htg : is_gamma_function tg.
Variable a : nat.
Notation al := (INR a).
Definition s (n : nat) : R := sqrt (2 * INR n + al + 1).
Definition cc0 : R := sqrt (2 ^ (a + 1)).
Definition Aco (n : nat) : R := 2 * INR n * (INR n + al) / ((2 * INR n + al) * (s (n - 1) * s n)).

Lemma s_pos n : 0 < s n.
Proof. apply sqrt_lt_R0. pose proof (pos_INR n). pose proof (pos_INR a). lra. Qed.
Lemma s_sq n : s n * s n = 2 * INR n + al + 1.
Proof. apply sqrt_sqrt. pose proof (pos_INR n). pose proof (pos_INR a). lra. Qed.
Lemma pow2_pos : 0 < 2 ^ (a+1). Proof. apply pow_lt. lra. Qed.
Lemma cc0_pos : 0 < cc0. Proof. apply sqrt_lt_R0, pow2_pos. Qed.

Lemma gamma0_eq : gamma0 tg al 0 = 2 ^ (a + 1) / (al + 1).
Proof.
  unfold gamma0. pose proof (pos_INR a).
  replace (al + 0 + 1) with (INR (a + 1)) by (rewrite plus_INR; simpl; ring).
  rewrite Rpower_pow by lra. replace (INR (a+1)) with (al + 1) by (rewrite plus_INR; simpl; ring).
  rewrite (Htg a). assert (T1 : tg (0 + 1) = 1) by (generalize (Htg O); simpl; intros ->; ring). rewrite T1.
  pose proof (INR_fact_neq_0 a). field. split; (assumption || lra).
Qed.
Lemma poly_0_eq : poly_0 tg al 0 = s 0 / cc0.
Proof.
  pose proof (pos_INR a). pose proof pow2_pos.
  unfold poly_0. rewrite gamma0_eq. unfold s, cc0. simpl (INR 0). replace (2 * 0 + al + 1) with (al + 1) by ring.
  rewrite sqrt_div_alt by lra.
  assert (0 < sqrt (2^(a+1))) by (now apply sqrt_lt_R0). assert (0 < sqrt (al + 1)) by (apply sqrt_lt_R0; lra).
  field. lra.
Qed.
Lemma poly_1_eq x : poly_1 tg al 0 x = P a 1 x * (s 1 / cc0).
Proof.
  pose proof (pos_INR a). pose proof pow2_pos.
  unfold poly_1, gamma1. rewrite gamma0_eq.
  replace ((al + 1) * (0 + 1) * (2 ^ (a + 1) / (al + 1)) / (al + 0 + 3)) with (2 ^ (a + 1) / (al + 3)) by (field; lra).
  rewrite sqrt_div_alt by lra. unfold s, cc0, P; simpl. replace (2 * 1 + al + 1) with (al + 3) by ring.
  assert (0 < sqrt (2^(a+1))) by (now apply sqrt_lt_R0). assert (0 < sqrt (al + 3)) by (apply sqrt_lt_R0; lra).
  field. lra.
Qed.
Lemma A_gen n u v : (1 <= n)%nat -> u = 2 * INR n + al -> v = INR n * (INR n + al) * (INR n + al) * INR n / ((u - 1) * (u + 1)) ->
  2 / u * sqrt v = Aco n.
Proof.
  intros Hn -> ->. pose proof (pos_INR a). assert (1 <= INR n) by (apply (le_INR 1); lia).
  unfold Aco.
  replace (INR n * (INR n + al) * (INR n + al) * INR n) with ((INR n * (INR n + al)) * (INR n * (INR n + al))) by ring.
  rewrite sqrt_div_alt by nra. rewrite sqrt_square by nra.
  unfold s. rewrite minus_INR by lia. simpl (INR 1).
  replace (2 * (INR n - 1) + al + 1) with (2 * INR n + al - 1) by ring.
  rewrite sqrt_mult by lra.
  assert (0 < sqrt (2 * INR n + al - 1)) by (apply sqrt_lt_R0; lra).
  assert (0 < sqrt (2 * INR n + al + 1)) by (apply sqrt_lt_R0; lra).
  field. repeat split; lra.
Qed.
Lemma aold_eq : aold_init al 0 = Aco 1.
Proof.
  unfold aold_init. pose proof (pos_INR a). apply (A_gen 1); [lia|simpl; ring|].
  simpl. field. repeat split; lra.
Qed.
Lemma anew_eq i : anew_of al 0 i = Aco (i + 2).
Proof.
  unfold anew_of, h1_of. pose proof (pos_INR a). pose proof (pos_INR i).
  apply (A_gen (i+2)); [lia| |]; rewrite plus_INR; simpl (INR 2); [ring|].
  f_equal; [ring|f_equal; ring].
Qed.
Lemma loop_eq x n : forall i,
  jacobi_loop al 0 x n i (Aco (i+1)) (P a i x * (s i / cc0)) (P a (S i) x * (s (S i) / cc0))
  = P a (i + 1 + n) x * (s (i + 1 + n) / cc0).
Proof.
  pose proof (pos_INR a). pose proof cc0_pos.
  induction n as [|n IH]; intros i.
  - simpl. now rewrite Nat.add_0_r, Nat.add_1_r.
  - cbn [jacobi_loop]. rewrite anew_eq.
    replace (i + 2)%nat with (S i + 1)%nat by lia.
    replace (i + 1 + S n)%nat with (S i + 1 + n)%nat by lia. rewrite <- IH.
    f_equal.
    assert (E : P a (S (S i)) x = nextP a i x (P a i x) (P a (S i) x)) by reflexivity.
    rewrite E. unfold nextP, bnew_of, h1_of, Aco.
    replace (S i + 1)%nat with (S (S i)) by lia. replace (i + 1)%nat with (S i) by lia.
    replace (S (S i) - 1)%nat with (S i) by lia. replace (S i - 1)%nat with i by lia.
    pose proof (pos_INR i). pose proof (s_pos i). pose proof (s_pos (S i)). pose proof (s_pos (S (S i))).
    pose proof (s_sq (S i)) as Q1. rewrite !S_INR in *. 
    set (p0 := P a i x). set (p1 := P a (S i) x). set (m := INR i) in *.
    set (s0 := s i) in *. set (s1 := s (S i)) in *. set (s2 := s (S (S i))) in *. set (c := cc0) in *.
    assert (Q2 : s1 * s1 = 2 * m + al + 3) by lra. clear Q1.
    cbv zeta.
    match goal with |- ?L = _ =>
      transitivity (((2*m+al+4) * (s2 / c)) * ((x + al*al/((2*m+2+al)*(2*m+4+al))) * p1 * (s1*s1)
         - 2*(m+1)*(m+1+al)/(2*m+2+al) * p0) / (2*(m+2)*(m+2+al))) end.
    + field. repeat split; lra.
    + rewrite Q2. field. repeat split; lra.
Qed.

Lemma jacobi_eq n x : jacobiPoly tg x al 0 n = P a n x * (s n / cc0).
Proof.
  destruct n as [|[|n]].
  - unfold jacobiPoly. rewrite poly_0_eq. unfold P; simpl. ring.
  - apply poly_1_eq.
  - cbn [jacobiPoly]. rewrite aold_eq, poly_1_eq, poly_0_eq.
    pose proof (loop_eq x (S n) 0) as E. change (0+1+S n)%nat with (S (S n)) in E. change (0+1)%nat with 1%nat in E.
    rewrite <- E. f_equal. unfold P; simpl; ring.
Qed.

Lemma jacobi_cont n x : continuous (fun x => jacobiPoly tg x al 0 n) x.
Proof.
  apply (continuous_ext (fun x => P a n x * (s n / cc0))); [intros; symmetry; apply jacobi_eq|].
  pose proof (P_cont a n x). cc.
Qed.

Lemma jacobi_orthonormal m n :
  is_RInt (fun x => (1 - x) ^ a * (jacobiPoly tg x al 0 m * jacobiPoly tg x al 0 n)) (-1) 1 (delta m n).
Proof.
  pose proof (pos_INR a). pose proof pow2_pos. pose proof cc0_pos.
  assert (E : RInt (fun x => (1 - x) ^ a * (jacobiPoly tg x al 0 m * jacobiPoly tg x al 0 n)) (-1) 1 = delta m n).
  { transitivity (Lam a (fun x => (s m * s n / (cc0*cc0)) * (P a m x * P a n x) + 0 * (fun _ => 0) x)).
    - apply RInt_ext. intros x _. unfold w. rewrite !jacobi_eq. match goal with |- ?l = ?r => change (@eq R l r) end. field. lra.
    - rewrite Lam_lin by (intros; first [apply PPc|apply cc_const]).
      assert (C : cc0 * cc0 = 2^(a+1)) by (apply sqrt_sqrt; lra).
      unfold delta. destruct (Nat.eqb_spec m n) as [->|Hne].
      + rewrite Q_norm, s_sq, C. pose proof (pos_INR n). match goal with |- ?l = ?r => change (@eq R l r) end. field. lra.
      + replace (Lam a (fun x => P a m x * P a n x)) with 0; [match goal with |- ?l = ?r => change (@eq R l r) end; ring|].
        destruct (Nat.lt_ge_cases m n); [symmetry; now apply Q_orth|].
        rewrite Q_sym. symmetry; apply Q_orth. lia. }
  rewrite <- E. apply (RInt_correct (V:=R_CompleteNormedModule)).
  apply ex_RInt_cont. intros x. pose proof (jacobi_cont m x). pose proof (jacobi_cont n x). cc.
Qed.

(** degree *)
Lemma peval_scal c u x : peval (map (Rmult u) c) x = u * peval c x.
Proof. induction c as [|c0 c IH]; simpl; [ring|]. rewrite IH. ring. Qed.
Fixpoint padd (c d : list R) : list R :=
  match c, d with
  | [], _ => d
  | _, [] => c
  | c0 :: c', d0 :: d' => (c0 + d0) :: padd c' d'
  end.
Lemma padd_eval c : forall d x, peval (padd c d) x = peval c x + peval d x.
Proof. induction c as [|c0 c IH]; intros [|d0 d] x; simpl; try ring. rewrite IH. ring. Qed.
Lemma padd_len c : forall d, length (padd c d) = Nat.max (length c) (length d).
Proof. induction c as [|c0 c IH]; intros [|d0 d]; simpl; try reflexivity. now rewrite IH. Qed.
Lemma padd_nth c : forall d n, nth n (padd c d) 0 = nth n c 0 + nth n d 0.
Proof.
  induction c as [|c0 c IH]; intros [|d0 d] [|n]; simpl; try ring. apply IH.
Qed.

Lemma P_degree n : exists c, length c = (n + 1)%nat /\ 0 < nth n c 0 /\ forall x, P a n x = peval c x.
Proof.
  pose proof (pos_INR a).
  induction n as [| |n IH0 IH1] using two_ind.
  - exists [1]. simpl. repeat split; [lra|]. intros; unfold P; simpl. ring.
  - exists [al/2; (al+2)/2]. simpl. repeat split; [lra|]. intros; unfold P; simpl. field.
  - destruct IH0 as (c0 & L0 & N0 & E0). destruct IH1 as (c1 & L1 & N1 & E1). pose proof (pos_INR n).
    set (N := INR n + 2). set (den := 2*N*(N+al)*(2*N+al-2)).
    assert (Hden : 0 < den) by (unfold den, N; repeat apply Rmult_lt_0_compat; lra).
    exists (padd (0 :: map (Rmult ((2*N+al-1)*((2*N+al)*(2*N+al-2))/den)) c1)
             (padd (map (Rmult ((2*N+al-1)*(al*al)/den)) c1) (map (Rmult (-(2*(N+al-1)*(N-1)*(2*N+al))/den)) c0))).
    split; [|split].
    + rewrite !padd_len. cbn [length]. rewrite !map_length, L0, L1. lia.
    + rewrite !padd_nth. cbn [nth].
      rewrite (nth_overflow (map (Rmult ((2*N+al-1)*(al*al)/den)) c1)) by (rewrite map_length; lia).
      rewrite (nth_overflow (map _ c0)) by (rewrite map_length; lia).
      replace 0 with (((2*N+al-1)*((2*N+al)*(2*N+al-2))/den) * 0) at 2 by ring. rewrite (map_nth (Rmult _)).
      assert (0 < (2*N+al-1)*((2*N+al)*(2*N+al-2))/den).
      { apply Rdiv_lt_0_compat; [unfold N; repeat apply Rmult_lt_0_compat; lra|assumption]. }
      nra.
    + intros x. rewrite (P_SS a), !padd_eval. cbn [peval fold_right].
      change (fold_right (fun c2 acc => c2 + x * acc) 0) with (fun c => peval c x). cbv beta.
      rewrite !peval_scal, <- E0, <- E1. unfold nextP. fold N. unfold den, N. field. repeat split; lra.
Qed.
Lemma jacobi_degree n : poly_degree (fun x => jacobiPoly tg x al 0 n) n.
Proof.
  destruct (P_degree n) as (c & L & Np & E). exists (map (Rmult (s n / cc0)) c).
  assert (0 < s n / cc0) by (apply Rdiv_lt_0_compat; [apply s_pos|apply cc0_pos]).
  split; [now rewrite map_length|split].
  - replace 0 with (s n / cc0 * 0) at 2 by ring. rewrite (map_nth (Rmult _)). nra.
  - intros x. rewrite peval_scal, <- E, jacobi_eq. ring.
Qed.
End Code.

(** Legendre *)
Lemma legendre_P n x : P 0 n x = legendre n x.
Proof.
  assert (E : PP 0 n x = legendre_pair n x); [|unfold P, legendre; now rewrite E].
  induction n as [|n IH].
  - simpl. f_equal. field.
  - cbn [PP legendre_pair]. rewrite IH. cbv zeta. f_equal. unfold nextP. rewrite plus_INR. simpl (INR 1). simpl (INR 0).
    pose proof (pos_INR n). cbv zeta. field. split; lra.
Qed.
Lemma jacobi_legendre tg n x : is_gamma_function tg ->
  jacobiPoly tg x 0 0 n = sqrt ((2 * INR n + 1) / 2) * legendre n x.
Proof.
  intros H. replace 0 with (INR 0) at 1 by reflexivity. rewrite jacobi_eq by assumption. rewrite legendre_P.
  unfold s, cc0. simpl (2 ^ _). simpl (INR 0). rewrite sqrt_div_alt by lra.
  replace (2 * INR n + 0 + 1) with (2 * INR n + 1) by ring. replace (2*1) with 2 by ring. ring.
Qed.
Lemma legendre_ends n : legendre n 1 = 1 /\ legendre n (-1) = (-1) ^ n.
Proof.
  assert (E : legendre_pair n 1 = (1, 1) /\ legendre_pair n (-1) = ((-1)^n, (-1)^(S n))).
  { induction n as [|n [IH1 IH2]]; [split; simpl; f_equal; ring|].
    cbn [legendre_pair]. rewrite IH1, IH2. pose proof (pos_INR n). rewrite plus_INR. simpl (INR 1). cbn [fst snd].
    split; f_equal; try (field; lra).
    simpl pow. field. lra. }
  destruct E as [E1 E2]. unfold legendre. now rewrite E1, E2.
Qed.
