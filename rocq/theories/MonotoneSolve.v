(** Strongly monotone Lipschitz equations in finitely many unknowns, some of them held, have a solution. *)
From Coq Require Import Reals Lra Lia List Bool Arith FunctionalExtensionality.
From Coquelicot Require Import Coquelicot.
From Verif Require Import Vec EnergyOptionsProofs.
From Verif Require Form Props_JacOptions.
Local Open Scope R_scope.

(** ** Cauchy-Schwarz-like bounds, closed under sums and weights *)
Definition cs (K a X Y : R) : Prop := 0 <= X /\ 0 <= Y /\ a * a <= K * (X * Y).
Lemma sqr_le a b : 0 <= b -> a * a <= b * b -> a <= b.
Proof. intros B H. nra. Qed.
Lemma cs_add K a X Y b X' Y' : 0 <= K -> cs K a X Y -> cs K b X' Y' -> cs K (a + b) (X + X') (Y + Y').
Proof.
  intros HK (HX & HY & Ha) (HX' & HY' & Hb). split; [lra|]. split; [lra|].
  assert (P1 : 0 <= X * Y') by now apply Rmult_le_pos. assert (P2 : 0 <= X' * Y) by now apply Rmult_le_pos.
  assert (C : 2 * a * b <= K * (X * Y' + X' * Y)).
  { apply sqr_le; [apply Rmult_le_pos; lra|].
    assert (Q : (a * a) * (b * b) <= (K * (X * Y)) * (K * (X' * Y'))) by (apply Rmult_le_compat; try apply Rle_0_sqr; assumption).
    assert (Q2 : 0 <= K * K * ((X * Y' - X' * Y) * (X * Y' - X' * Y))) by (apply Rmult_le_pos; apply Rle_0_sqr). nra. }
  replace ((a + b) * (a + b)) with (a * a + b * b + 2 * a * b) by ring. replace (K * ((X + X') * (Y + Y'))) with (K * (X * Y) + K * (X' * Y') + K * (X * Y' + X' * Y)) by ring. lra.
Qed.
Lemma cs_scal K a X Y w : 0 <= w -> cs K a X Y -> cs K (w * a) (w * X) (w * Y).
Proof. intros W (HX & HY & Ha). split; [now apply Rmult_le_pos|]. split; [now apply Rmult_le_pos|]. assert (W2 : 0 <= w * w) by apply Rle_0_sqr. replace (w * a * (w * a)) with ((w * w) * (a * a)) by ring. replace (K * (w * X * (w * Y))) with ((w * w) * (K * (X * Y))) by ring. now apply Rmult_le_compat_l. Qed.
Lemma cs_0 K : cs K 0 0 0.
Proof. split; [lra|]. split; [lra|]. lra. Qed.
Lemma cs_rsum K n a X Y : 0 <= K -> (forall i, (i < n)%nat -> cs K (a i) (X i) (Y i)) -> cs K (rsum n a) (rsum n X) (rsum n Y).
Proof. intros HK. induction n as [|n IH]; intros H; [apply cs_0|]. cbn [rsum]. apply cs_add; [exact HK|apply IH; intros; apply H; lia|apply H; lia]. Qed.
Lemma cs_total {A} K (l : list A) a X Y : 0 <= K -> (forall i, In i l -> cs K (a i) (X i) (Y i)) -> cs K (total a l) (total X l) (total Y l).
Proof. intros HK. induction l as [|b l IH]; intros H; [apply cs_0|]. cbn [ThermalOptions.lsum]. apply cs_add; [exact HK|apply H; now left|apply IH; intros; apply H; now right]. Qed.
Lemma cs_le K K' a X Y : K <= K' -> cs K a X Y -> cs K' a X Y.
Proof. intros L (HX & HY & H). split; [exact HX|]. split; [exact HY|]. assert (P : 0 <= X * Y) by now apply Rmult_le_pos. nra. Qed.
Lemma cs_prod x y : cs 1 (x * y) (x * x) (y * y).
Proof. split; [apply Rle_0_sqr|]. split; [apply Rle_0_sqr|]. right. ring. Qed.

(** ** the abstract equation *)
Section Solve.
Variables (N : nat) (ess : list nat) (B : vec -> vec -> R) (F : vec -> vec) (load : vec) (k0 K : R).
Definition free (x : vec) : Prop := forall i, (i < N)%nat -> In i ess -> x i = 0.
Hypothesis Bsym : forall x y, B x y = B y x.
Hypothesis Badd : forall x y z, B (fun i => x i + y i) z = B x z + B y z.
Hypothesis Bscal : forall t x z, B (fun i => t * x i) z = t * B x z.
Hypothesis Bloc : forall x y z, veq N x y -> B x z = B y z.
Hypothesis Bcs : forall x y, cs 1 (B x y) (B x x) (B y y).
Hypothesis Bdef : forall x, free x -> B x x = 0 -> veq N x (fun _ => 0).
Hypothesis k0pos : 0 < k0.
Hypothesis Fmono : forall u w, k0 * B (vsub u w) (vsub u w) <= dot N (vsub u w) (F u) - dot N (vsub u w) (F w).
Hypothesis Flip : forall u w v, cs K (dot N v (F u) - dot N v (F w)) (B (vsub u w) (vsub u w)) (B v v).

Lemma Bpos x : 0 <= B x x. Proof. exact (proj1 (Bcs x x)). Qed.
Lemma Bzero z : B (fun _ => 0) z = 0.
Proof. transitivity (B (fun i => 0 * z i) z); [apply Bloc; intros i _; ring|rewrite Bscal; ring]. Qed.
Lemma Bsum n (c : vec) (f : nat -> vec) z : B (fun i => rsum n (fun j => c j * f j i)) z = rsum n (fun j => c j * B (f j) z).
Proof. induction n as [|n IH]; cbn [rsum]; [apply Bzero|]. rewrite Badd, Bscal, IH. reflexivity. Qed.
Definition unit_vec (j : nat) : vec := fun i => if Nat.eqb i j then 1 else 0.
Definition G (i j : nat) : R := B (unit_vec i) (unit_vec j).
Lemma expand x : veq N x (fun i => rsum N (fun j => x j * unit_vec j i)).
Proof.
  intros i Hi. rewrite (rsum_ext N _ (fun j => if Nat.eqb j i then x j else 0)); [now rewrite (rsum_delta N x)|].
  intros j _. unfold unit_vec. rewrite (Nat.eqb_sym i j). destruct (Nat.eqb j i); ring.
Qed.
Lemma B_left x z : B x z = rsum N (fun i => x i * B (unit_vec i) z).
Proof. rewrite <- Bsum. apply Bloc, expand. Qed.
Lemma B_matrix x y : B x y = dot N x (mv N G y).
Proof.
  rewrite B_left. unfold dot. apply rsum_ext. intros i _. f_equal. rewrite Bsym, B_left. unfold mv, G. apply rsum_ext. intros j _. rewrite (Bsym (unit_vec j)). ring.
Qed.
Lemma elim_held (A : nat -> nat -> R) x i : (i < N)%nat -> In i ess -> mv N (Form.elim_left ess A) x i = x i.
Proof.
  intros Hi E. apply Props_JacOptions.memb_in in E. unfold mv, Form.elim_left. rewrite (rsum_ext N _ (fun j => if Nat.eqb j i then x j else 0)).
  2:{ intros j _. rewrite E. cbn [orb]. rewrite (Nat.eqb_sym i). destruct (Nat.eqb j i); ring. }
  now rewrite (rsum_delta N x).
Qed.
Lemma elim_free (A : nat -> nat -> R) x i : free x -> (i < N)%nat -> Form.memb i ess = false -> mv N (Form.elim_left ess A) x i = mv N A x i.
Proof.
  intros Z Hi E. unfold mv, Form.elim_left. apply rsum_ext. intros j Hj. rewrite E. cbn [orb]. destruct (Form.memb j ess) eqn:E2; [|reflexivity].
  apply Props_JacOptions.memb_in in E2. rewrite (Z j Hj E2). ring.
Qed.
Lemma dot_free v a b : free v -> (forall i, (i < N)%nat -> Form.memb i ess = false -> a i = b i) -> dot N v a = dot N v b.
Proof.
  intros Z H. apply rsum_ext. intros i Hi. destruct (Form.memb i ess) eqn:E; [|now rewrite H].
  apply Props_JacOptions.memb_in in E. rewrite (Z i Hi E). ring.
Qed.
(** a right-hand side is represented by a free vector *)
Lemma represent r : exists z, free z /\ forall v, free v -> B v z = dot N v r.
Proof.
  destruct (injective_onto N (Form.elim_left ess G)) with (b := Form.zero_at ess r) as (z & Hz).
  { intros x Hx. assert (Fx : free x) by (intros i Hi E; rewrite <- (elim_held G x i Hi E); now apply Hx).
    apply Bdef; [exact Fx|]. rewrite B_matrix. rewrite (dot_free x _ (fun _ => 0) Fx); [unfold dot; rewrite (rsum_ext N _ (fun _ => 0)); [apply rsum_0|intros; ring]|].
    intros i Hi E. rewrite <- (elim_free G x i Fx Hi E). now apply Hx. }
  assert (Fz : free z).
  { intros i Hi E. rewrite <- (elim_held G z i Hi E), Hz by exact Hi. unfold Form.zero_at. apply Props_JacOptions.memb_in in E. now rewrite E. }
  exists z. split; [exact Fz|]. intros v Fv. rewrite B_matrix. apply dot_free; [exact Fv|]. intros i Hi E. rewrite <- (elim_free G z i Fz Hi E), Hz by exact Hi. unfold Form.zero_at. now rewrite E.
Qed.
Lemma choose (P : nat -> vec -> Prop) n : (forall j, (j < n)%nat -> exists x, P j x) -> exists X : nat -> vec, forall j, (j < n)%nat -> P j (X j).
Proof.
  induction n as [|n IH]; intros H; [exists (fun _ _ => 0); intros; lia|].
  destruct IH as (X & HX); [intros; apply H; lia|]. destruct (H n ltac:(lia)) as (x & Hx).
  exists (fun j => if Nat.eqb j n then x else X j). intros j Hj. destruct (Nat.eqb_spec j n) as [->|E]; [exact Hx|apply HX; lia].
Qed.
Lemma riesz : exists Z : vec -> vec, (forall r, free (Z r)) /\ (forall r v, free v -> B v (Z r) = dot N v r) /\ forall a b, Z (vsub a b) = vsub (Z a) (Z b).
Proof.
  destruct (choose (fun j z => free z /\ forall v, free v -> B v z = dot N v (unit_vec j)) N) as (X & HX); [intros j _; apply represent|].
  exists (fun r i => rsum N (fun j => r j * X j i)). split; [|split].
  - intros r i Hi E. rewrite (rsum_ext N _ (fun _ => 0)); [apply rsum_0|]. intros j Hj. rewrite (proj1 (HX j Hj) i Hi E). ring.
  - intros r v Fv. rewrite Bsym, Bsum. transitivity (rsum N (fun j => r j * dot N v (unit_vec j))).
    + apply rsum_ext. intros j Hj. rewrite Bsym. now rewrite (proj2 (HX j Hj) v Fv).
    + unfold dot. apply rsum_ext. intros j Hj. rewrite (rsum_ext N _ (fun i => if Nat.eqb i j then v i else 0)); [rewrite (rsum_delta N v) by exact Hj; ring|].
      intros i _. unfold unit_vec. destruct (Nat.eqb i j); ring.
  - intros a b. apply functional_extensionality. intros i. unfold vsub. rewrite <- rsum_minus. apply rsum_ext. intros; ring.
Qed.
(** ** the iteration u - t Z (F u - load) *)
Section Iterate.
Variables (Z : vec -> vec) (held : vec).
Hypothesis Zfree : forall r, free (Z r).
Hypothesis Zrep : forall r v, free v -> B v (Z r) = dot N v r.
Hypothesis Zsub : forall a b, Z (vsub a b) = vsub (Z a) (Z b).
Definition K1 : R := Rmax K (k0 * k0).
Definition tau : R := k0 / K1.
Definition rho : R := 1 - k0 * k0 / K1.
Lemma K1pos : 0 < K1. Proof. unfold K1. assert (0 < k0 * k0) by (apply Rmult_lt_0_compat; exact k0pos). assert (X := Rmax_r K (k0 * k0)). lra. Qed.
Lemma rho_bounds : 0 <= rho < 1.
Proof.
  unfold rho. assert (P := K1pos). assert (Q : 0 < k0 * k0) by (apply Rmult_lt_0_compat; exact k0pos). assert (X : k0 * k0 <= K1) by apply Rmax_r.
  assert (Y : k0 * k0 / K1 <= 1) by (apply (Rmult_le_reg_r K1); [exact P|]; unfold Rdiv; rewrite Rmult_assoc, Rinv_l by lra; lra).
  assert (Y2 : 0 < k0 * k0 / K1) by (apply Rdiv_lt_0_compat; assumption). lra.
Qed.
Fixpoint it (n : nat) : vec := match n with O => held | S m => fun i => it m i - tau * Z (vsub (F (it m)) load) i end.
Definition step (n : nat) : vec := vsub (it (S n)) (it n).
Lemma step_eq n i : step n i = - tau * Z (vsub (F (it n)) load) i.
Proof. unfold step, vsub at 1. cbn [it]. ring. Qed.
Lemma step_free n : free (step n).
Proof. intros i Hi E. unfold step, vsub. cbn [it]. rewrite (Zfree _ i Hi E). ring. Qed.
Lemma Bsub x y : B (vsub x y) (vsub x y) = B x x - 2 * B x y + B y y.
Proof.
  assert (E : forall a b z, B (vsub a b) z = B a z - B b z).
  { intros a b z. transitivity (B (fun i => a i + (fun j => (-1) * b j) i) z); [apply Bloc; intros i _; unfold vsub; ring|]. rewrite Badd, Bscal. ring. }
  rewrite E, (Bsym x), (Bsym y), !E, (Bsym y x). ring.
Qed.
Lemma contract n : B (step (S n)) (step (S n)) <= rho * B (step n) (step n).
Proof.
  set (d := step n). set (s := vsub (F (it (S n))) (F (it n))). set (z := Z s).
  assert (E : step (S n) = vsub d (fun i => tau * z i)).
  { assert (Es : s = vsub (vsub (F (it (S n))) load) (vsub (F (it n)) load)) by (apply functional_extensionality; intros i; unfold s, vsub; ring).
    apply functional_extensionality. intros i. unfold z, d. rewrite Es, Zsub. unfold vsub at 1. rewrite !step_eq. unfold vsub at 3. ring. }
  rewrite E, Bsub. assert (Sz : forall x, B x (fun i => tau * z i) = tau * B x z) by (intros x; rewrite Bsym, Bscal, Bsym; reflexivity).
  rewrite !Sz, (Bsym (fun i => tau * z i) z), Sz.
  assert (Ds : B d z = dot N d s) by (apply Zrep, step_free). assert (Zs : B z z = dot N z s) by (apply Zrep, Zfree).
  assert (Sp : forall v, dot N v s = dot N v (F (it (S n))) - dot N v (F (it n))) by (intros v; unfold dot; rewrite <- rsum_minus; apply rsum_ext; intros; unfold s, vsub; ring).
  assert (Mo := Fmono (it (S n)) (it n)). change (vsub (it (S n)) (it n)) with d in Mo. rewrite <- (Sp d), <- Ds in Mo.
  assert (L := Flip (it (S n)) (it n) z). change (vsub (it (S n)) (it n)) with d in L. rewrite <- (Sp z), <- Zs in L. destruct L as (L1 & L2 & L3).
  set (X := B d d) in *. set (Y := B z z) in *. assert (P := K1pos). assert (KK : K <= K1) by apply Rmax_l.
  assert (Y1 : Y <= K1 * X).
  { destruct (Req_EM_T Y 0) as [->|NY]; [apply Rmult_le_pos; lra|]. apply (Rmult_le_reg_r Y); [lra|]. eapply Rle_trans; [exact L3|]. replace (K1 * X * Y) with (K1 * (X * Y)) by ring.
    apply Rmult_le_compat_r; [now apply Rmult_le_pos|exact KK]. }
  assert (T : tau * K1 = k0) by (unfold tau; field; lra). assert (Tp : 0 < tau) by (apply Rdiv_lt_0_compat; assumption).
  assert (A1 : tau * (k0 * X) <= tau * B d z) by (apply Rmult_le_compat_l; lra).
  assert (A2 : tau * (tau * Y) <= tau * (tau * (K1 * X))) by (apply Rmult_le_compat_l; [lra|]; apply Rmult_le_compat_l; lra).
  replace (tau * (tau * (K1 * X))) with (tau * (k0 * X)) in A2 by (rewrite <- T at 1; ring).
  assert (R0 : rho * X = X - tau * (k0 * X)) by (unfold rho, tau; field; lra). rewrite R0. lra.
Qed.
Lemma steps_small n : B (step n) (step n) <= B (step 0) (step 0) * rho ^ n.
Proof.
  induction n as [|n IH]; [cbn; lra|]. eapply Rle_trans; [apply contract|]. cbn [pow]. destruct rho_bounds as [R0 _].
  replace (B (step 0) (step 0) * (rho * rho ^ n)) with (rho * (B (step 0) (step 0) * rho ^ n)) by ring. now apply Rmult_le_compat_l.
Qed.
Lemma component x i : (i < N)%nat -> free x -> x i * x i <= B x x * B (Z (unit_vec i)) (Z (unit_vec i)).
Proof.
  intros Hi Fx. assert (E : B x (Z (unit_vec i)) = x i).
  { rewrite (Zrep _ x Fx). unfold dot. rewrite (rsum_ext N _ (fun j => if Nat.eqb j i then x j else 0)); [now rewrite (rsum_delta N x)|]. intros j _. unfold unit_vec. destruct (Nat.eqb j i); ring. }
  destruct (Bcs x (Z (unit_vec i))) as (_ & _ & C). rewrite E in C. lra.
Qed.
Lemma it_sum i n : it n i = held i + rsum n (fun j => step j i).
Proof. induction n as [|n IH]; [cbn; ring|]. cbn [rsum]. rewrite <- Rplus_assoc, <- IH. unfold step, vsub. ring. Qed.
Lemma rsum_sum_n (f : nat -> R) n : rsum (S n) f = sum_n f n.
Proof. induction n as [|n IH]; [rewrite sum_O; cbn [rsum]; ring|]. rewrite sum_Sn, <- IH. reflexivity. Qed.
Lemma steps_abs i : (i < N)%nat -> ex_series (fun j => step j i).
Proof.
  intros Hi. set (C := B (Z (unit_vec i)) (Z (unit_vec i))). set (D := B (step 0) (step 0)).
  destruct rho_bounds as [R0 R1]. assert (CD : 0 <= D * C) by (apply Rmult_le_pos; apply Bpos).
  set (q := sqrt rho). assert (Q0 : 0 <= q) by apply sqrt_pos. assert (Q1 : q < 1) by (unfold q; rewrite <- sqrt_1; apply sqrt_lt_1; lra).
  apply (ex_series_le (fun j => step j i) (fun j => sqrt (D * C) * q ^ j)).
  - intros n. change (Rabs (step n i) <= sqrt (D * C) * q ^ n).
    assert (Qp : q ^ n * q ^ n = rho ^ n) by (rewrite <- Rpow_mult_distr; unfold q; rewrite sqrt_sqrt by exact R0; reflexivity).
    assert (P : 0 <= sqrt (D * C) * q ^ n) by (apply Rmult_le_pos; [apply sqrt_pos|now apply pow_le]).
    apply sqr_le; [exact P|]. replace (Rabs (step n i) * Rabs (step n i)) with (step n i * step n i) by (rewrite <- Rabs_mult; symmetry; apply Rabs_right, Rle_ge, Rle_0_sqr).
    replace (sqrt (D * C) * q ^ n * (sqrt (D * C) * q ^ n)) with ((sqrt (D * C) * sqrt (D * C)) * (q ^ n * q ^ n)) by ring.
    rewrite sqrt_sqrt, Qp by exact CD. eapply Rle_trans; [apply (component (step n) i Hi (step_free n))|]. fold C.
    replace (D * C * rho ^ n) with (D * rho ^ n * C) by ring. apply Rmult_le_compat_r; [apply Bpos|apply steps_small].
  - apply (ex_series_scal (sqrt (D * C)) (fun j => q ^ j)). apply ex_series_geom. rewrite Rabs_right; lra.
Qed.
Definition sol : vec := fun i => held i + Series (fun j => step j i).
Lemma it_lim i : (i < N)%nat -> is_lim_seq (fun n => it n i) (sol i).
Proof.
  intros Hi. apply is_lim_seq_incr_1. apply (is_lim_seq_ext (fun n => held i + sum_n (fun j => step j i) n)); [intros n; now rewrite it_sum, rsum_sum_n|].
  apply (is_lim_seq_plus' (fun _ => held i)); [apply is_lim_seq_const|]. exact (Series_correct _ (steps_abs i Hi)).
Qed.
Lemma sol_held i : (i < N)%nat -> In i ess -> sol i = held i.
Proof.
  intros Hi E. assert (L := it_lim i Hi). assert (C : forall n, it n i = held i).
  { intros n. rewrite it_sum. rewrite (rsum_ext n _ (fun _ => 0)); [rewrite rsum_0; ring|]. intros j _. exact (step_free j i Hi E). }
  assert (L2 : is_lim_seq (fun n => it n i) (held i)) by (apply (is_lim_seq_ext (fun _ => held i)); [intros; now rewrite C|apply is_lim_seq_const]).
  assert (X := is_lim_seq_unique _ _ L). rewrite (is_lim_seq_unique _ _ L2) in X. injection X. auto.
Qed.
Lemma lim_rsum n (f : nat -> nat -> R) (l : nat -> R) : (forall i, (i < n)%nat -> is_lim_seq (f i) (l i)) -> is_lim_seq (fun k => rsum n (fun i => f i k)) (rsum n l).
Proof.
  induction n as [|n IH]; intros H; [apply is_lim_seq_const|]. cbn [rsum]. apply (is_lim_seq_plus' (fun k => rsum n (fun i => f i k))); [apply IH; intros; apply H; lia|apply H; lia].
Qed.
Lemma gap_lim : is_lim_seq (fun n => B (vsub sol (it n)) (vsub sol (it n))) 0.
Proof.
  apply (is_lim_seq_ext (fun n => rsum N (fun i => (sol i - it n i) * rsum N (fun j => G i j * (sol j - it n j))))); [intros n; symmetry; apply B_matrix|].
  assert (D : forall i, (i < N)%nat -> is_lim_seq (fun n => sol i - it n i) 0).
  { intros i Hi. replace (Finite 0) with (Finite (sol i - sol i)) by (f_equal; ring). apply is_lim_seq_minus'; [apply is_lim_seq_const|now apply it_lim]. }
  replace (Finite 0) with (Finite (rsum N (fun i => 0 * rsum N (fun j => G i j * 0)))).
  2:{ f_equal. rewrite (rsum_ext N _ (fun _ => 0)); [apply rsum_0|intros; ring]. }
  apply (lim_rsum N (fun i n => (sol i - it n i) * rsum N (fun j => G i j * (sol j - it n j)))). intros i Hi. apply is_lim_seq_mult'; [now apply D|].
  apply (lim_rsum N (fun j n => G i j * (sol j - it n j))). intros j Hj. apply is_lim_seq_mult'; [apply is_lim_seq_const|now apply D].
Qed.
Lemma step_lim : is_lim_seq (fun n => B (step n) (step n)) 0.
Proof.
  apply (is_lim_seq_le_le (fun _ => 0) _ (fun n => B (step 0) (step 0) * rho ^ n)).
  - intros n. split; [apply Bpos|apply steps_small].
  - apply is_lim_seq_const.
  - replace (Finite 0) with (Finite (B (step 0) (step 0) * 0)) by (f_equal; ring). apply is_lim_seq_mult'; [apply is_lim_seq_const|].
    apply is_lim_seq_geom. destruct rho_bounds. rewrite Rabs_right; lra.
Qed.
Lemma sol_solves v : free v -> dot N v (F sol) = dot N v load.
Proof.
  intros Fv. set (r := dot N v (F sol) - dot N v load).
  assert (Tp : 0 < tau) by (apply Rdiv_lt_0_compat; [exact k0pos|exact K1pos]).
  assert (H : forall n, r * r <= 2 * (K * B v v) * B (vsub sol (it n)) (vsub sol (it n)) + 2 * (/ tau * / tau * B v v) * B (step n) (step n)).
  { intros n. set (a := dot N v (F sol) - dot N v (F (it n))). set (b := dot N v (vsub (F (it n)) load)).
    assert (E : r = a + b) by (unfold r, a, b, dot; rewrite <- !rsum_minus, <- rsum_plus; apply rsum_ext; intros; unfold vsub; ring).
    destruct (Flip sol (it n) v) as (_ & _ & A). fold a in A.
    assert (Eb : b = - / tau * B v (step n)).
    { unfold b. rewrite <- (Zrep _ v Fv). assert (S1 : veq N (step n) (fun i => - tau * Z (vsub (F (it n)) load) i)) by (intros i _; unfold step, vsub; cbn [it]; unfold vsub; ring).
      rewrite (Bsym v (step n)), (Bloc _ _ v S1), Bscal, (Bsym _ v). field. lra. }
    destruct (Bcs v (step n)) as (_ & _ & C). assert (Bb : b * b <= / tau * / tau * (B v v * B (step n) (step n))).
    { rewrite Eb. replace (- / tau * B v (step n) * (- / tau * B v (step n))) with (/ tau * / tau * (B v (step n) * B v (step n))) by ring. apply Rmult_le_compat_l; [apply Rle_0_sqr|lra]. }
    rewrite E. assert (S2 : 0 <= (a - b) * (a - b)) by apply Rle_0_sqr. nra. }
  assert (L : is_lim_seq (fun n => 2 * (K * B v v) * B (vsub sol (it n)) (vsub sol (it n)) + 2 * (/ tau * / tau * B v v) * B (step n) (step n)) 0).
  { replace (Finite 0) with (Finite (2 * (K * B v v) * 0 + 2 * (/ tau * / tau * B v v) * 0)) by (f_equal; ring).
    apply is_lim_seq_plus'; apply is_lim_seq_mult'; try apply is_lim_seq_const; [exact gap_lim|exact step_lim]. }
  assert (R2 : r * r <= 0).
  { assert (X := is_lim_seq_le (fun _ => r * r) _ (r * r) 0 H (is_lim_seq_const _) L). exact X. }
  assert (R0 : r = 0) by (apply Rsqr_0_uniq; unfold Rsqr; assert (Y : 0 <= r * r) by apply Rle_0_sqr; lra). unfold r in R0. lra.
Qed.
End Iterate.
Lemma solvable held : exists u, (forall i, (i < N)%nat -> In i ess -> u i = held i) /\ forall i, (i < N)%nat -> Form.memb i ess = false -> F u i = load i.
Proof.
  destruct riesz as (Z & Z1 & Z2 & Z3). exists (sol Z held). split; [intros i Hi E; now apply sol_held|].
  intros i Hi E. assert (Fu : free (unit_vec i)).
  { intros j Hj Ej. unfold unit_vec. destruct (Nat.eqb_spec j i) as [->|Nj]; [|reflexivity]. apply Props_JacOptions.memb_in in Ej. rewrite E in Ej. discriminate. }
  assert (H := sol_solves Z held Z1 Z2 Z3 (unit_vec i) Fu).
  assert (D : forall y : vec, dot N (unit_vec i) y = y i).
  { intros y. unfold dot. rewrite (rsum_ext N _ (fun j => if Nat.eqb j i then y j else 0)); [now rewrite (rsum_delta N y)|]. intros j _. unfold unit_vec. destruct (Nat.eqb j i); ring. }
  now rewrite !D in H.
Qed.
End Solve.
