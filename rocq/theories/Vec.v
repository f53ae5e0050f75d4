(** Finite sums and vectors.  A vector of size n is a function nat -> R of which only the entries
    below n matter (mfem::Vector of size n). *)
From Coq Require Import Reals Lra Lia Psatz.
Local Open Scope R_scope.

Fixpoint rsum (n : nat) (f : nat -> R) : R :=
  match n with O => 0 | S k => rsum k f + f k end.

Definition vec := nat -> R.
Definition dot (n : nat) (u v : vec) : R := rsum n (fun i => u i * v i).
Definition norm (n : nat) (u : vec) : R := sqrt (dot n u u).
Definition vadd (u v : vec) : vec := fun i => u i + v i.
Definition vsub (u v : vec) : vec := fun i => u i - v i.
Definition vscal (a : R) (u : vec) : vec := fun i => a * u i.
(** mfem add(x, a, y, z): z = x + a*y *)
Definition axpy (x : vec) (a : R) (y : vec) : vec := fun i => x i + a * y i.
Definition veq (n : nat) (u v : vec) : Prop := forall i, (i < n)%nat -> u i = v i.
(** dense matrix-vector product *)
Definition mv (n : nat) (A : nat -> nat -> R) (x : vec) : vec := fun i => rsum n (fun j => A i j * x j).
Definition mvT (n : nat) (A : nat -> nat -> R) (x : vec) : vec := fun i => rsum n (fun j => A j i * x j).

Lemma rsum_ext n f g : (forall i, (i < n)%nat -> f i = g i) -> rsum n f = rsum n g.
Proof. induction n as [|n IH]; simpl; intros H; [reflexivity|]. rewrite IH, H by (try intros; try apply H; lia). reflexivity. Qed.
Lemma rsum_0 n : rsum n (fun _ => 0) = 0.
Proof. induction n; simpl; lra. Qed.
Lemma rsum_plus n f g : rsum n (fun i => f i + g i) = rsum n f + rsum n g.
Proof. induction n as [|n IH]; simpl; [lra|]. rewrite IH; lra. Qed.
Lemma rsum_minus n f g : rsum n (fun i => f i - g i) = rsum n f - rsum n g.
Proof. induction n as [|n IH]; simpl; [lra|]. rewrite IH; lra. Qed.
Lemma rsum_opp n f : rsum n (fun i => - f i) = - rsum n f.
Proof. induction n as [|n IH]; simpl; [lra|]. rewrite IH; lra. Qed.
Lemma rsum_scal n a f : rsum n (fun i => a * f i) = a * rsum n f.
Proof. induction n as [|n IH]; simpl; [lra|]. rewrite IH; lra. Qed.
Lemma rsum_scal_r n a f : rsum n (fun i => f i * a) = rsum n f * a.
Proof. induction n as [|n IH]; simpl; [lra|]. rewrite IH; lra. Qed.
Lemma rsum_div n a f : rsum n (fun i => f i / a) = rsum n f / a.
Proof. unfold Rdiv. apply rsum_scal_r. Qed.
Lemma rsum_nonneg n f : (forall i, (i < n)%nat -> 0 <= f i) -> 0 <= rsum n f.
Proof. induction n as [|n IH]; simpl; intros H; [lra|]. assert (0 <= f n) by (apply H; lia). assert (0 <= rsum n f) by (apply IH; intros; apply H; lia). lra. Qed.
Lemma rsum_le n f g : (forall i, (i < n)%nat -> f i <= g i) -> rsum n f <= rsum n g.
Proof. induction n as [|n IH]; simpl; intros H; [lra|]. assert (f n <= g n) by (apply H; lia). assert (rsum n f <= rsum n g) by (apply IH; intros; apply H; lia). lra. Qed.
Lemma rsum_nonneg_zero n f : (forall i, (i < n)%nat -> 0 <= f i) -> rsum n f = 0 -> forall i, (i < n)%nat -> f i = 0.
Proof.
  induction n as [|n IH]; simpl; intros H H0 i Hi; [lia|].
  assert (0 <= f n) by (apply H; lia). assert (0 <= rsum n f) by (apply rsum_nonneg; intros; apply H; lia).
  destruct (Nat.eq_dec i n) as [->|]; [lra|]. apply IH; [intros; apply H; lia|lra|lia].
Qed.
Lemma rsum_swap n m (f : nat -> nat -> R) :
  rsum n (fun i => rsum m (fun j => f i j)) = rsum m (fun j => rsum n (fun i => f i j)).
Proof. induction n as [|n IH]; simpl; [rewrite rsum_0; reflexivity|]. rewrite IH, rsum_plus. reflexivity. Qed.
Lemma rsum_S n f : rsum (S n) f = rsum n f + f n. Proof. reflexivity. Qed.
Lemma rsum_shift n f : rsum (S n) f = f 0%nat + rsum n (fun i => f (S i)).
Proof. induction n as [|n IH]; [simpl; lra|]. rewrite rsum_S, IH. simpl. lra. Qed.
Lemma rsum_const n a : rsum n (fun _ => a) = INR n * a.
Proof. induction n as [|n IH]; [simpl; lra|]. rewrite S_INR, rsum_S, IH. lra. Qed.
Lemma rsum_delta n (f : nat -> R) k : (k < n)%nat -> rsum n (fun i => if Nat.eqb i k then f i else 0) = f k.
Proof.
  induction n as [|n IH]; [lia|]. intros H. rewrite rsum_S. destruct (Nat.eqb_spec n k) as [->|Hn].
  - rewrite (rsum_ext k _ (fun _ => 0)); [rewrite rsum_0; lra|]. intros i Hi. destruct (Nat.eqb_spec i k); [lia|reflexivity].
  - rewrite IH by lia. lra.
Qed.
Lemma rsum_app n m f : rsum (n + m) f = rsum n f + rsum m (fun i => f (n + i)%nat).
Proof. induction m as [|m IH]; [rewrite Nat.add_0_r; simpl; lra|]. rewrite <- plus_n_Sm. rewrite !rsum_S, IH. lra. Qed.

Lemma dot_ext n u u' v v' : veq n u u' -> veq n v v' -> dot n u v = dot n u' v'.
Proof. intros H1 H2. apply rsum_ext. intros i Hi. rewrite H1, H2 by exact Hi. reflexivity. Qed.
Lemma dot_comm n u v : dot n u v = dot n v u.
Proof. apply rsum_ext; intros; ring. Qed.
Lemma dot_plus_l n u v w : dot n (vadd u v) w = dot n u w + dot n v w.
Proof. unfold dot. rewrite <- rsum_plus. apply rsum_ext; intros; unfold vadd; ring. Qed.
Lemma dot_plus_r n u v w : dot n w (vadd u v) = dot n w u + dot n w v.
Proof. rewrite dot_comm, dot_plus_l, (dot_comm n u), (dot_comm n v). reflexivity. Qed.
Lemma dot_scal_l n a u w : dot n (vscal a u) w = a * dot n u w.
Proof. unfold dot. rewrite <- rsum_scal. apply rsum_ext; intros; unfold vscal; ring. Qed.
Lemma dot_scal_r n a u w : dot n w (vscal a u) = a * dot n w u.
Proof. rewrite dot_comm, dot_scal_l, dot_comm. reflexivity. Qed.
Lemma dot_axpy_l n x a y w : dot n (axpy x a y) w = dot n x w + a * dot n y w.
Proof. unfold dot. rewrite <- rsum_scal, <- rsum_plus. apply rsum_ext; intros; unfold axpy; ring. Qed.
Lemma dot_axpy_r n x a y w : dot n w (axpy x a y) = dot n w x + a * dot n w y.
Proof. rewrite dot_comm, dot_axpy_l, (dot_comm n x), (dot_comm n y). reflexivity. Qed.
Lemma dot_pos n u : 0 <= dot n u u.
Proof. apply rsum_nonneg; intros. apply Rle_0_sqr. Qed.
Lemma norm_pos n u : 0 <= norm n u.
Proof. apply sqrt_pos. Qed.
Lemma norm_sq n u : norm n u * norm n u = dot n u u.
Proof. apply sqrt_sqrt, dot_pos. Qed.
Lemma norm_ext n u v : veq n u v -> norm n u = norm n v.
Proof. intros H. unfold norm. rewrite (dot_ext n u v u v H H). reflexivity. Qed.
Lemma norm_0 n u : norm n u = 0 -> veq n u (fun _ => 0).
Proof.
  intros H i Hi. pose proof (norm_sq n u) as E. rewrite H, Rmult_0_l in E. symmetry in E.
  pose proof (rsum_nonneg_zero n _ (fun j _ => Rle_0_sqr (u j)) E i Hi) as Hz. unfold Rsqr in Hz. nra.
Qed.
Lemma veq_refl n u : veq n u u. Proof. intros i _; reflexivity. Qed.
Lemma mv_adj n A u v : dot n u (mv n A v) = dot n (mvT n A u) v.
Proof.
  unfold dot, mv, mvT.
  rewrite (rsum_ext n _ (fun i => rsum n (fun j => u i * (A i j * v j)))) by (intros; rewrite rsum_scal; reflexivity).
  rewrite rsum_swap. apply rsum_ext. intros j Hj. rewrite <- rsum_scal_r. apply rsum_ext; intros; ring.
Qed.
