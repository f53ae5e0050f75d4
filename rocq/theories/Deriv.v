(** Derivatives of sums, products, norms and composites along a real parameter (proof support only). *)
From Coq Require Import Reals Lra Lia.
From Coquelicot Require Import Coquelicot.
From Verif Require Import Vec.
Local Open Scope R_scope.

Lemma DV_mult (f g : R -> R) x a b : is_derive f x a -> is_derive g x b -> is_derive (fun t => f t * g t) x (a * g x + f x * b).
Proof. intros Hf Hg. apply (is_derive_mult f g x a b Hf Hg). intros; apply Rmult_comm. Qed.
Lemma DV_plus (f g : R -> R) x a b : is_derive f x a -> is_derive g x b -> is_derive (fun t : R => f t + g t) x (a + b).
Proof. intros Hf Hg. apply (is_derive_plus f g x a b Hf Hg). Qed.
Lemma DV_minus (f g : R -> R) x a b : is_derive f x a -> is_derive g x b -> is_derive (fun t : R => f t - g t) x (a - b).
Proof. intros Hf Hg. apply (is_derive_minus f g x a b Hf Hg). Qed.
Lemma DV_scal k (f : R -> R) x a : is_derive f x a -> is_derive (fun t : R => k * f t) x (k * a).
Proof. intros Hf. apply (is_derive_scal f x k a Hf). Qed.
Lemma DV_scal_r k (f : R -> R) x a : is_derive f x a -> is_derive (fun t : R => f t * k) x (a * k).
Proof. intros Hf. apply (is_derive_ext (fun t => k * f t)); [intros; apply Rmult_comm|]. rewrite Rmult_comm. now apply DV_scal. Qed.
Lemma DV_const (c x : R) : is_derive (fun _ : R => c) x 0. Proof. apply (is_derive_const c). Qed.
Lemma DV_id (x : R) : is_derive (fun t : R => t) x 1. Proof. apply (is_derive_id x). Qed.
Lemma DV_eq (f : R -> R) (x a b : R) : is_derive f x a -> a = b -> is_derive f x b. Proof. now intros H <-. Qed.
Lemma DV_ext (f g : R -> R) x d : (forall t, f t = g t) -> is_derive f x d -> is_derive g x d.
Proof. intros H D. apply (is_derive_ext f g x d); [intros t; apply H|exact D]. Qed.
Lemma DV_div (f g : R -> R) x a b : is_derive f x a -> is_derive g x b -> g x <> 0 ->
  is_derive (fun t : R => f t / g t) x ((a * g x - f x * b) / (g x * g x)).
Proof.
  intros Hf Hg H. apply (DV_eq _ x ((a * g x - f x * b) / g x ^ 2)); [exact (is_derive_div f g x a b Hf Hg H)|].
  assert (E : g x ^ 2 = g x * g x) by ring. rewrite E. reflexivity.
Qed.
Lemma DV_comp (f g : R -> R) x a b : is_derive f (g x) a -> is_derive g x b -> is_derive (fun t => f (g t)) x (a * b).
Proof. intros Hf Hg. apply (DV_eq _ x (b * a)); [exact (is_derive_comp f g x a b Hf Hg)|apply Rmult_comm]. Qed.
Lemma DV_sum n (f : nat -> R -> R) (l : nat -> R) x : (forall i, (i < n)%nat -> is_derive (f i) x (l i)) ->
  is_derive (fun s => rsum n (fun i => f i s)) x (rsum n l).
Proof.
  induction n as [|n IH]; intros Hf; cbn; [apply (DV_const 0)|].
  apply (DV_plus (fun s => rsum n (fun i => f i s)) (f n)); [apply IH; intros; apply Hf; lia|apply Hf; lia].
Qed.
Lemma DV_unique (f : R -> R) x a b : is_derive f x a -> is_derive f x b -> a = b.
Proof. intros A B. rewrite <- (is_derive_unique f x a A). now apply is_derive_unique. Qed.
Lemma DV_continuous (f : R -> R) x a : is_derive f x a -> continuous f x.
Proof. intros H. apply (ex_derive_continuous f x). now exists a. Qed.

(** a factor that vanishes only needs a continuous companion *)
Lemma DV_zero_mult (f g : R -> R) x l : continuous f x -> is_derive g x l -> g x = 0 -> is_derive (fun t => f t * g t) x (f x * l).
Proof.
  intros Cf Dg G0. apply is_derive_Reals. apply is_derive_Reals in Dg.
  intros eps He.
  assert (Cf' : continuity_pt f x) by (now apply continuity_pt_filterlim).
  set (e1 := Rmin 1 (eps / (2 * (Rabs l + 1)))).
  assert (L1 : 0 < Rabs l + 1) by (assert (Z := Rabs_pos l); lra).
  assert (He1 : 0 < e1) by (apply Rmin_glb_lt; [lra|apply Rdiv_lt_0_compat; lra]).
  destruct (Cf' e1 He1) as [d1 [Hd1 H1]].
  set (M := Rabs (f x) + 1). assert (HM : 0 < M) by (unfold M; assert (Z := Rabs_pos (f x)); lra).
  destruct (Dg (eps / (2 * M))) as [d2 H2]; [apply Rdiv_lt_0_compat; lra|].
  assert (Hd : 0 < Rmin d1 d2) by (apply Rmin_glb_lt; [lra|apply cond_pos]).
  exists (mkposreal _ Hd). intros h Hh Hhd. cbn in Hhd.
  assert (B1 : Rabs h < d1) by (eapply Rlt_le_trans; [exact Hhd|apply Rmin_l]).
  assert (B2 : Rabs h < d2) by (eapply Rlt_le_trans; [exact Hhd|apply Rmin_r]).
  specialize (H2 h Hh B2). rewrite G0, Rminus_0_r in H2. rewrite G0, Rmult_0_r, Rminus_0_r.
  assert (F1 : Rabs (f (x + h) - f x) < e1).
  { specialize (H1 (x + h)). cbn in H1. unfold R_dist, D_x, no_cond in H1. apply H1. split; [split; [exact Logic.I|lra]|].
    replace (x + h - x) with h by ring. exact B1. }
  assert (FM : Rabs (f (x + h)) <= M).
  { unfold M. replace (f (x + h)) with (f x + (f (x + h) - f x)) by ring. eapply Rle_trans; [apply Rabs_triang|].
    assert (e1 <= 1) by apply Rmin_l. lra. }
  replace (f (x + h) * g (x + h) / h - f x * l) with (f (x + h) * (g (x + h) / h - l) + (f (x + h) - f x) * l) by (field; exact Hh).
  eapply Rle_lt_trans; [apply Rabs_triang|]. rewrite !Rabs_mult.
  assert (T1 : Rabs (f (x + h)) * Rabs (g (x + h) / h - l) <= M * Rabs (g (x + h) / h - l)) by (apply Rmult_le_compat_r; [apply Rabs_pos|exact FM]).
  assert (T2 : M * Rabs (g (x + h) / h - l) < eps / 2).
  { apply (Rmult_lt_compat_l M) in H2; [|exact HM]. replace (M * (eps / (2 * M))) with (eps / 2) in H2 by (field; lra). exact H2. }
  assert (T3 : Rabs (f (x + h) - f x) * Rabs l <= eps / 2).
  { apply Rle_trans with (e1 * Rabs l); [apply Rmult_le_compat_r; [apply Rabs_pos|lra]|].
    apply Rle_trans with (eps / (2 * (Rabs l + 1)) * (Rabs l + 1)).
    - apply Rmult_le_compat; [lra|apply Rabs_pos|apply Rmin_r|lra].
    - right. field. lra. }
  lra.
Qed.

(** norms *)
Lemma DV_dot n (b c : R -> vec) (db dc : vec) x : (forall i, (i < n)%nat -> is_derive (fun t => b t i) x (db i)) ->
  (forall i, (i < n)%nat -> is_derive (fun t => c t i) x (dc i)) -> is_derive (fun t => dot n (b t) (c t)) x (dot n db (c x) + dot n (b x) dc).
Proof.
  intros Hb Hc. unfold dot. apply (DV_eq _ x (rsum n (fun i => db i * c x i + b x i * dc i))); [|apply rsum_plus].
  apply (DV_sum n (fun i t => b t i * c t i)). intros i Hi. apply (DV_mult (fun t => b t i) (fun t => c t i)); auto.
Qed.
Lemma norm_nonzero n b : norm n b <> 0 -> 0 < dot n b b /\ 0 < norm n b.
Proof.
  intros H. assert (P := norm_pos n b). assert (Q := dot_pos n b). assert (S := norm_sq n b). split; [|lra].
  destruct (Rle_lt_or_eq_dec _ _ Q) as [L|E]; [exact L|]. rewrite <- E in S. nra.
Qed.
Lemma DV_norm n (b : R -> vec) (db : vec) x : (forall i, (i < n)%nat -> is_derive (fun t => b t i) x (db i)) ->
  norm n (b x) <> 0 -> is_derive (fun t => norm n (b t)) x (dot n (b x) db / norm n (b x)).
Proof.
  intros Hb N. destruct (norm_nonzero _ _ N) as [P Q]. unfold norm at 1.
  apply (DV_eq _ x (/ (2 * sqrt (dot n (b x) (b x))) * (dot n db (b x) + dot n (b x) db))).
  - apply (DV_comp sqrt (fun t => dot n (b t) (b t))); [apply is_derive_Reals; apply derivable_pt_lim_sqrt; exact P|].
    now apply DV_dot.
  - rewrite (dot_comm n db). change (sqrt (dot n (b x) (b x))) with (norm n (b x)). field. lra.
Qed.
Lemma norm_continuous n (b : R -> vec) x : (forall i, (i < n)%nat -> continuous (fun t => b t i) x) -> continuous (fun t => norm n (b t)) x.
Proof.
  intros H. apply (continuous_comp (fun t => dot n (b t) (b t)) sqrt).
  - unfold dot. induction n as [|n IH]; [cbn; apply continuous_const|]. cbn [rsum].
    apply (continuous_plus (fun t => rsum n (fun i => b t i * b t i)) (fun t => b t n * b t n)).
    + apply IH. intros; apply H; lia.
    + apply (continuous_mult (fun t => b t n) (fun t => b t n)); apply H; lia.
  - apply continuity_pt_filterlim. apply continuity_pt_sqrt. apply dot_pos.
Qed.
(** Cauchy-Schwarz *)
Lemma cauchy n (a b : vec) : dot n a b <= norm n a * norm n b.
Proof.
  assert (Q : forall t, 0 <= dot n a a + 2 * t * dot n a b + t * t * dot n b b).
  { intros t. replace (dot n a a + 2 * t * dot n a b + t * t * dot n b b) with (dot n (axpy a t b) (axpy a t b)); [apply dot_pos|].
    rewrite dot_axpy_l, !dot_axpy_r, (dot_comm n b a). ring. }
  assert (A := norm_sq n a). assert (B := norm_sq n b). assert (Pa := norm_pos n a). assert (Pb := norm_pos n b).
  destruct (Req_EM_T (norm n b) 0) as [Z|Z].
  - assert (D0 : dot n a b = 0). { unfold dot. rewrite (rsum_ext n _ (fun _ => 0)); [apply rsum_0|]. intros i Hi. rewrite (norm_0 n b Z i Hi). ring. }
    rewrite D0, Z. lra.
  - assert (0 < norm n b) by lra. specialize (Q (- (dot n a b) / dot n b b)).
    assert (PB : 0 < dot n b b) by (rewrite <- B; nra).
    assert (E : dot n a a + 2 * (- dot n a b / dot n b b) * dot n a b + - dot n a b / dot n b b * (- dot n a b / dot n b b) * dot n b b
              = (dot n a a * dot n b b - dot n a b * dot n a b) / dot n b b) by (field; lra).
    rewrite E in Q. assert (0 <= dot n a a * dot n b b - dot n a b * dot n a b).
    { apply Rmult_le_reg_r with (/ dot n b b); [now apply Rinv_0_lt_compat|]. rewrite Rmult_0_l. exact Q. }
    rewrite <- A, <- B in H0. destruct (Rle_dec (dot n a b) (norm n a * norm n b)) as [L|L]; [exact L|]. exfalso.
    assert (0 <= norm n a * norm n b) by (apply Rmult_le_pos; lra). nra.
Qed.
(** linear combination of a finite family *)
Lemma rsum_rsum_factor n m (f g : nat -> R) : rsum n (fun i => rsum m (fun j => f i * g j)) = rsum n f * rsum m g.
Proof. rewrite <- rsum_scal_r. apply rsum_ext. intros i _. now rewrite rsum_scal. Qed.
