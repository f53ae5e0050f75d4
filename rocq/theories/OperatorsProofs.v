From Coq Require Import Reals List Arith Bool Lia Lra FunctionalExtensionality.
From Verif Require Import Num Vec Operators.
Local Open Scope R_scope.

Definition usable (a : R) : Prop := zero_tol < Rabs a /\ (a = 1 \/ zero_tol < Rabs (a - 1)).
Lemma scaled_ok a (v : vec) : usable a ->
  (if Rltb zero_tol (Rabs (a - 1)) then vscal a v else v) = vscal a v.
Proof.
  intros [_ [->|H]].
  - destruct (Rltb _ _); [reflexivity|]. extensionality i. unfold vscal. ring.
  - apply Rltb_true in H. rewrite H. reflexivity.
Qed.
Lemma usable_b a : usable a -> Rltb zero_tol (Rabs a) = true.
Proof. intros [H _]. apply Rltb_true. exact H. Qed.

Lemma sum_mult_ok o work y x : usable (sa o) -> usable (sb o) ->
  forall i, snd (sum_mult o work y x) i = sa o * opA o x i + sb o * opB o x i.
Proof.
  intros Ha Hb i. unfold sum_mult. cbn [snd]. rewrite (usable_b _ Ha), (usable_b _ Hb), (scaled_ok _ _ Ha), (scaled_ok _ _ Hb).
  unfold vadd, vscal. ring.
Qed.
Lemma sum_mult_stale_a o work y x : Rabs (sa o) <= zero_tol -> usable (sb o) ->
  forall i, snd (sum_mult o work y x) i = work i + sb o * opB o x i.
Proof.
  intros Ha Hb i. unfold sum_mult. cbn [snd]. apply Rltb_false in Ha. rewrite Ha, (usable_b _ Hb), (scaled_ok _ _ Hb).
  unfold vadd, vscal. ring.
Qed.
Lemma sum_mult_stale_b o work y x : usable (sa o) -> Rabs (sb o) <= zero_tol ->
  forall i, snd (sum_mult o work y x) i = sa o * opA o x i + y i.
Proof.
  intros Ha Hb i. unfold sum_mult. cbn [snd]. apply Rltb_false in Hb. rewrite Hb, (usable_b _ Ha), (scaled_ok _ _ Ha).
  unfold vadd, vscal. ring.
Qed.

Lemma step_pos n x : 0 < getStepSize n x.
Proof.
  unfold getStepSize. destruct (Rltb_spec (1 / 10^6) (dot n x x)); [|lra].
  apply sqrt_lt_R0. apply Rdiv_lt_0_compat; lra.
Qed.
Lemma step_small n x : getStepSize n x <= 1 / 10^2.
Proof.
  unfold getStepSize. destruct (Rltb_spec (1 / 10^6) (dot n x x)); [|lra].
  rewrite <- (sqrt_square (1 / 10^2)) by lra. apply sqrt_le_1_alt.
  apply Rmult_le_reg_r with (dot n x x); [lra|]. unfold Rdiv. rewrite Rmult_assoc, Rinv_l by lra. lra.
Qed.
(** the perturbation eps*x has norm 1e-5 when |x|^2 > 1e-6, and at most 1e-10 otherwise *)
Lemma pert_norm n x : 1 / 10^6 < dot n x x -> dot n (vscal (getStepSize n x) x) (vscal (getStepSize n x) x) = 1 / 10^10.
Proof.
  intros H. rewrite dot_scal_l, dot_scal_r. unfold getStepSize. apply Rltb_true in H as E. rewrite E.
  rewrite <- Rmult_assoc, sqrt_sqrt; [field; lra|]. apply Rlt_le, Rdiv_lt_0_compat; lra.
Qed.

(** affine residual with Jacobian J *)
Lemma jf_affine n j y x J base : (forall s u v i, res j (axpy u s v) i = res j u i + s * J v i) ->
  usable (scale j) ->
  forall i, jf_mult n (jf_setState j base) y x i =
    scale j * J x i + match explicit_part j with Some B => B x i | None => 0 end.
Proof.
  intros HJ Hs i. unfold jf_mult, jf_setState. cbn [scale res explicit_part jf_state res_at_state].
  rewrite (usable_b _ Hs), (scaled_ok _ _ Hs).
  assert (E : vscal (scale j) (fun i => 1 / getStepSize n x * (res j (axpy base (getStepSize n x) x) i - res j base i)) i = scale j * J x i).
  { unfold vscal. rewrite HJ. assert (Hp := step_pos n x). field. lra. }
  destruct (explicit_part j) as [B|]; unfold vadd; rewrite E; ring.
Qed.
Lemma jf_stale n j y x : Rabs (scale j) <= zero_tol ->
  forall i, jf_mult n j y x i = y i + match explicit_part j with Some B => B x i | None => 0 end.
Proof.
  intros Hs i. unfold jf_mult. apply Rltb_false in Hs. rewrite Hs. destruct (explicit_part j); unfold vadd; ring.
Qed.

(** block Jacobi *)
Definition mono (off : nat -> nat) : Prop := forall i, (off i <= off (S i))%nat.
Lemma mono_le off : mono off -> forall i j, (i <= j)%nat -> (off i <= off j)%nat.
Proof. intros H i j Hij. induction Hij; [lia|]. specialize (H m). lia. Qed.
Lemma bj_loop_block off op x : mono off -> forall n i d, (i < n)%nat -> (d < off (S i) - off i)%nat ->
  bj_loop off op n x (off i + d)%nat = match op i with Some A => A (block off i x) d | None => block off i x d end.
Proof.
  intros Hm. induction n as [|n IH]; intros i d Hi Hd; [lia|]. cbn [bj_loop].
  destruct (Nat.eq_dec i n) as [->|Hne].
  - destruct (op n); unfold set_block;
    (destruct (Nat.leb_spec (off n) (off n + d)); [|lia]); (destruct (Nat.ltb_spec (off n + d) (off (S n))); [|lia]);
    cbn [andb]; replace (off n + d - off n)%nat with d by lia; reflexivity.
  - assert (Hle : (off (S i) <= off n)%nat) by (apply mono_le; [exact Hm|lia]).
    assert (E : forall v y, set_block off n v y (off i + d)%nat = y (off i + d)%nat).
    { intros v y. unfold set_block. destruct (Nat.leb_spec (off n) (off i + d)); [lia|reflexivity]. }
    destruct (op n); rewrite E; apply IH; lia.
Qed.
Lemma dot_blocks off u v : mono off -> forall n,
  rsum (off n - off 0)%nat (fun i => u (off 0 + i)%nat * v (off 0 + i)%nat) =
  rsum n (fun i => dot (off (S i) - off i) (block off i u) (block off i v)).
Proof.
  intros Hm. induction n as [|n IH]; [rewrite Nat.sub_diag; reflexivity|]. rewrite rsum_S, <- IH.
  assert (H0 := mono_le off Hm 0 n ltac:(lia)). assert (H1 := Hm n).
  replace (off (S n) - off 0)%nat with ((off n - off 0) + (off (S n) - off n))%nat by lia. rewrite rsum_app. f_equal.
  apply rsum_ext. intros d Hd. unfold block. replace (off 0 + (off n - off 0 + d))%nat with (off n + d)%nat by lia. reflexivity.
Qed.
Lemma bj_adjoint p x y : mono (offsets p) -> offsets p 0%nat = 0%nat ->
  (forall i, (i < nBlocks p)%nat ->
     match bop p i, bopT p i with
     | Some A, Some B => forall u v, dot (offsets p (S i) - offsets p i) (A u) v = dot (offsets p (S i) - offsets p i) u (B v)
     | None, None => True
     | _, _ => False
     end) ->
  dot (offsets p (nBlocks p)) (bj_mult p x) y = dot (offsets p (nBlocks p)) x (bj_multT p y).
Proof.
  intros Hm H0 Ha. set (N := nBlocks p) in *. set (off := offsets p) in *.
  assert (B := fun u v => dot_blocks off u v Hm N). rewrite H0 in B. cbn [Nat.add] in B. rewrite Nat.sub_0_r in B.
  unfold dot at 1 2. rewrite (B (bj_mult p x) y), (B x (bj_multT p y)).
  apply rsum_ext. intros i Hi. specialize (Ha i Hi).
  assert (E1 : veq (off (S i) - off i) (block off i (bj_mult p x)) (match bop p i with Some A => A (block off i x) | None => block off i x end)).
  { intros d Hd. unfold block at 1, bj_mult. fold off N. rewrite bj_loop_block by assumption. destruct (bop p i); reflexivity. }
  assert (E2 : veq (off (S i) - off i) (block off i (bj_multT p y)) (match bopT p i with Some A => A (block off i y) | None => block off i y end)).
  { intros d Hd. unfold block at 1, bj_multT. fold off N. rewrite bj_loop_block by assumption. destruct (bopT p i); reflexivity. }
  rewrite (dot_ext _ _ _ _ (block off i y) E1 ltac:(intros ? ?; reflexivity)).
  rewrite (dot_ext _ (block off i x) (block off i x) _ _ ltac:(intros ? ?; reflexivity) E2).
  destruct (bop p i), (bopT p i); try contradiction; [apply Ha|reflexivity].
Qed.

(** smooth residual: forward-difference error, componentwise *)
Lemma jf_error n j y x J base L i : explicit_part j = None -> scale j = 1 -> 0 <= L ->
  (forall s, Rabs (res j (axpy base s x) i - res j base i - s * J i) <= L / 2 * s^2 * dot n x x) ->
  1 / 10^6 < dot n x x ->
  Rabs (jf_mult n (jf_setState j base) y x i - J i) <= L / 2 * (1 / 10^5) * norm n x.
Proof.
  intros He Hs HL Hq Hx. unfold jf_mult, jf_setState. cbn [scale res explicit_part jf_state res_at_state]. rewrite He, Hs.
  assert (E0 : Rltb zero_tol (Rabs 1) = true) by (apply Rltb_true; rewrite Rabs_R1; unfold zero_tol; lra). rewrite E0.
  assert (E1 : Rltb zero_tol (Rabs (1 - 1)) = false) by (apply Rltb_false; rewrite Rminus_diag_eq, Rabs_R0 by reflexivity; unfold zero_tol; lra). rewrite E1.
  set (s := getStepSize n x). assert (Hp : 0 < s) by apply step_pos. specialize (Hq s).
  replace (1 / s * (res j (axpy base s x) i - res j base i) - J i) with ((res j (axpy base s x) i - res j base i - s * J i) * / s) by (field; lra).
  rewrite Rabs_mult, (Rabs_pos_eq (/ s)) by (apply Rlt_le, Rinv_0_lt_compat; exact Hp).
  apply Rmult_le_reg_r with s; [exact Hp|]. rewrite Rmult_assoc, Rinv_l, Rmult_1_r by lra.
  eapply Rle_trans; [exact Hq|]. right.
  assert (Es : s * norm n x = 1 / 10^5).
  { unfold s, getStepSize, norm. apply Rltb_true in Hx as Ex. rewrite Ex. rewrite <- sqrt_mult_alt; [|apply Rlt_le, Rdiv_lt_0_compat; lra].
    replace (1 / 10 ^ 10 / dot n x x * dot n x x) with ((1/10^5) * (1/10^5)) by (field; lra). apply sqrt_square. lra. }
  assert (En : dot n x x = norm n x * norm n x) by (unfold norm; rewrite sqrt_sqrt by lra; reflexivity).
  rewrite En, <- Es. ring.
Qed.
