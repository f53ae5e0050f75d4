(** Viscous fluxes: strain-rate form, symmetry, dissipation, wall conditions. *)
From Coq Require Import Reals Arith Lra Lia Psatz Bool FunctionalExtensionality.
From Coquelicot Require Import Coquelicot.
From Verif Require Import Num Vec Euler EulerSpec EulerProofs BoundaryProofs NavierStokes NavierStokesSpec.
Local Open Scope R_scope.

Section Block.
Variables (d : nat) (Pr rho p : R) (u q : vec).
Hypothesis Hr : rho <> 0.
Hypothesis Hst : is_state d q rho u p.

(** velocity gradient encoded by entropy-variable derivatives *)
Definition sa (v : vec) (k : nat) : R := p / rho * (v (S k) + u k * v (S d)).

Lemma pq : pressure d q = p. Proof. exact (state_pressure d q rho u p Hr Hst). Qed.
Lemma uq k : (k < d)%nat -> q (S k) / q 0%nat = u k. Proof. intros H. exact (state_vel d q rho u p k Hr Hst H). Qed.
Lemma q0 : q 0%nat = rho. Proof. apply Hst. Qed.

Lemma cij_0 i j mu v acc : applyCijMatrix d i j mu Pr q v acc 0%nat = acc 0%nat.
Proof. unfold applyCijMatrix. cbv zeta. destruct (Nat.eqb i j); reflexivity. Qed.
Lemma cij_S i j mu v acc k : (i < d)%nat -> (j < d)%nat -> (k < d)%nat ->
  applyCijMatrix d i j mu Pr q v acc (S k) = acc (S k) +
  mu * ((if Nat.eqb i j then sa v k else 0) + (if Nat.eqb k j then sa v i else 0) - (if Nat.eqb k i then 2/3 * sa v j else 0)).
Proof.
  intros Hi Hj Hk. unfold applyCijMatrix, sa. cbv zeta. rewrite pq, q0.
  destruct (Nat.eqb_spec i j) as [->|Hij].
  - rewrite mk_S by exact Hk. rewrite <- q0. rewrite (uq k Hk), (uq j Hj), q0. destruct (Nat.eqb_spec k j) as [->|]; field; exact Hr.
  - rewrite mk_S by exact Hk. rewrite <- q0. rewrite (uq i Hi), (uq j Hj), q0.
    destruct (Nat.eqb_spec k i) as [->|Hki].
    + destruct (Nat.eqb_spec i j) as [->|_]; [congruence|]. field. exact Hr.
    + destruct (Nat.eqb_spec k j) as [->|_]; field; exact Hr.
Qed.
Definition heat (mu : R) : R := p / rho * (p / rho) * gamma * mu / (gami * Pr).
Lemma cij_E i j mu v acc : (i < d)%nat -> (j < d)%nat -> 
  applyCijMatrix d i j mu Pr q v acc (S d) = acc (S d) +
  mu * ((if Nat.eqb i j then rsum d (fun k => u k * sa v k) else 0) + u j * sa v i - u i * (2/3 * sa v j)) +
  (if Nat.eqb i j then heat mu * v (S d) else 0).
Proof.
  intros Hi Hj. unfold applyCijMatrix, sa, heat. cbv zeta. rewrite pq, q0.
  destruct (Nat.eqb_spec i j) as [->|Hij]; rewrite mk_E.
  - assert (E : rsum d (fun k => p / rho * mu * (q (S k) / rho) * (v (S k) + q (S k) / rho * v (S d))) =
                mu * rsum d (fun k => u k * (p / rho * (v (S k) + u k * v (S d))))).
    { rewrite <- rsum_scal. apply rsum_ext. intros k Hk. rewrite <- q0, (uq k Hk), q0. field. exact Hr. }
    rewrite E. assert (Q : q (S j) / rho = u j) by (rewrite <- q0 at 1; exact (uq j Hj)). rewrite Q.
    set (ht := p / rho * (p / rho) * gamma * mu / (gami * Pr)). field. exact Hr.
  - rewrite <- q0. rewrite (uq i Hi), (uq j Hj), q0. field. exact Hr.
Qed.
(** sums of blocks *)
Lemma accum_sum n (f : nat -> vec -> vec) (g : nat -> nat -> R) acc k :
  (forall e a, (e < n)%nat -> f e a k = a k + g e k) -> accum n f acc k = acc k + rsum n (fun e => g e k).
Proof. induction n as [|n IH]; intros H; simpl; [lra|]. rewrite H by lia. rewrite IH by (intros; apply H; lia). lra. Qed.
Lemma accum_ext n (f g : nat -> vec -> vec) acc : (forall e a, (e < n)%nat -> f e a = g e a) -> accum n f acc = accum n g acc.
Proof. induction n as [|n IH]; intros H; simpl; [reflexivity|]. rewrite IH by (intros; apply H; lia). apply H. lia. Qed.

(** row [i] of the block matrix applied to the columns V j *)
Definition vgrad (V : nat -> vec) : nat -> nat -> R := fun k j => sa (V j) k.
Definition rowC (i : nat) (mu : R) (V : nat -> vec) : vec :=
  accum d (fun j acc => applyCijMatrix d i j mu Pr q (V j) acc) zeros.
Lemma row_acc_0 i mu V acc : accum d (fun j acc => applyCijMatrix d i j mu Pr q (V j) acc) acc 0%nat = acc 0%nat.
Proof. rewrite (accum_sum d _ (fun _ _ => 0)); [rewrite rsum_0; ring|]. intros e a He. rewrite cij_0. ring. Qed.
Lemma delta_sum n (f : nat -> R) k c : (k < n)%nat -> rsum n (fun i => if Nat.eqb k i then c * f i else 0) = c * f k.
Proof. intros H. rewrite <- (rsum_delta n (fun i => c * f i) k H). apply rsum_ext. intros i Hi. rewrite Nat.eqb_sym. reflexivity. Qed.
Lemma row_acc_S i mu V acc k : (i < d)%nat -> (k < d)%nat ->
  accum d (fun j acc => applyCijMatrix d i j mu Pr q (V j) acc) acc (S k) = acc (S k) + stress d mu (vgrad V) i k.
Proof.
  intros Hi Hk.
  rewrite (accum_sum d _ (fun j _ => mu * ((if Nat.eqb i j then sa (V j) k else 0) + (if Nat.eqb k j then sa (V j) i else 0) - (if Nat.eqb k i then 2/3 * sa (V j) j else 0))))
    by (intros e a He; apply cij_S; assumption).
  f_equal. rewrite rsum_scal. unfold stress. f_equal. rewrite rsum_minus, rsum_plus.
  rewrite (rsum_ext d (fun j => if Nat.eqb i j then sa (V j) k else 0) (fun j => if Nat.eqb i j then 1 * vgrad V k j else 0))
    by (intros; unfold vgrad; destruct (Nat.eqb i i0); ring).
  rewrite (rsum_ext d (fun j => if Nat.eqb k j then sa (V j) i else 0) (fun j => if Nat.eqb k j then 1 * vgrad V i j else 0))
    by (intros; unfold vgrad; destruct (Nat.eqb k i0); ring).
  rewrite !delta_sum by assumption.
  destruct (Nat.eqb k i); [|rewrite rsum_0; ring]. rewrite rsum_scal. unfold divergence, vgrad. ring.
Qed.
Lemma row_acc_E i mu V acc : (i < d)%nat ->
  accum d (fun j acc => applyCijMatrix d i j mu Pr q (V j) acc) acc (S d) =
  acc (S d) + rsum d (fun k => u k * stress d mu (vgrad V) i k) + heat mu * V i (S d).
Proof.
  intros Hi.
  rewrite (accum_sum d _ (fun j _ => mu * ((if Nat.eqb i j then rsum d (fun k => u k * sa (V j) k) else 0) + u j * sa (V j) i - u i * (2/3 * sa (V j) j)) +
     (if Nat.eqb i j then heat mu * V j (S d) else 0)))
    by (intros e a He; rewrite (cij_E i e mu (V e) a Hi He); ring).
  rewrite rsum_plus, (delta_sum d (fun j => V j (S d)) i (heat mu) Hi), Rplus_assoc. f_equal. f_equal.
  rewrite rsum_scal, rsum_minus, rsum_plus.
  rewrite (rsum_ext d (fun j => if Nat.eqb i j then rsum d (fun k => u k * sa (V j) k) else 0) (fun j => if Nat.eqb i j then 1 * (fun j => rsum d (fun k => u k * sa (V j) k)) j else 0))
    by (intros; destruct (Nat.eqb i i0); ring).
  rewrite delta_sum by exact Hi. rewrite rsum_scal, rsum_scal.
  unfold stress.
  rewrite (rsum_ext d (fun k => u k * (mu * _)) (fun k => mu * (u k * vgrad V k i + u k * vgrad V i k - (if Nat.eqb i k then (2/3 * divergence d (vgrad V)) * u k else 0))))
    by (intros k Hk; rewrite (Nat.eqb_sym i k); destruct (Nat.eqb k i); ring).
  rewrite rsum_scal, rsum_minus, rsum_plus, delta_sum by exact Hi. unfold divergence, vgrad. cbv beta. ring.
Qed.
Lemma row_0 i mu V : rowC i mu V 0%nat = 0. Proof. unfold rowC. rewrite row_acc_0. reflexivity. Qed.
Lemma row_S i mu V k : (i < d)%nat -> (k < d)%nat -> rowC i mu V (S k) = stress d mu (vgrad V) i k.
Proof. intros. unfold rowC. rewrite row_acc_S by assumption. unfold zeros. ring. Qed.
Lemma row_E i mu V : (i < d)%nat -> rowC i mu V (S d) = rsum d (fun k => u k * stress d mu (vgrad V) i k) + heat mu * V i (S d).
Proof. intros. unfold rowC. rewrite row_acc_E by assumption. unfold zeros. ring. Qed.

(** inner product of a row with a vector *)
Lemma row_dot i mu V v : (i < d)%nat -> p <> 0 ->
  dot (d + 2) v (rowC i mu V) = rho / p * rsum d (fun k => sa v k * stress d mu (vgrad V) i k) + heat mu * v (S d) * V i (S d).
Proof.
  intros Hi Hp. rewrite dot_state, row_0, row_E by exact Hi.
  rewrite Rmult_plus_distr_l, <- !rsum_scal. unfold dot, mom.
  rewrite (rsum_ext d (fun k => v (S k) * rowC i mu V (S k)) (fun k => v (S k) * stress d mu (vgrad V) i k)) by (intros k Hk; rewrite row_S by assumption; reflexivity).
  replace (rsum d (fun k => rho / p * (sa v k * stress d mu (vgrad V) i k))) with
    (rsum d (fun k => v (S k) * stress d mu (vgrad V) i k) + rsum d (fun k => v (S d) * (u k * stress d mu (vgrad V) i k))).
  2:{ rewrite <- rsum_plus. apply rsum_ext. intros k Hk. unfold sa. field. split; assumption. }
  ring.
Qed.
End Block.

(** bilinear form of the stress *)
Lemma stress_form d mu (A G : nat -> nat -> R) :
  rsum d (fun i => rsum d (fun k => A k i * stress d mu G i k)) =
  mu * (rsum d (fun i => rsum d (fun k => 1/2 * (A k i + A i k) * (G k i + G i k))) - 2/3 * divergence d A * divergence d G).
Proof.
  assert (E1 : rsum d (fun i => rsum d (fun k => A k i * (G k i + G i k))) = rsum d (fun i => rsum d (fun k => A i k * (G k i + G i k)))).
  { rewrite rsum_swap. apply rsum_ext. intros i Hi. apply rsum_ext. intros k Hk. ring. }
  assert (E2 : rsum d (fun i => rsum d (fun k => 1/2 * (A k i + A i k) * (G k i + G i k))) = rsum d (fun i => rsum d (fun k => A k i * (G k i + G i k)))).
  { transitivity (1/2 * rsum d (fun i => rsum d (fun k => A k i * (G k i + G i k))) + 1/2 * rsum d (fun i => rsum d (fun k => A i k * (G k i + G i k)))).
    - rewrite <- !rsum_scal, <- rsum_plus. apply rsum_ext. intros i Hi. rewrite <- !rsum_scal, <- rsum_plus. apply rsum_ext. intros k Hk. ring.
    - rewrite <- E1. field. }
  rewrite E2. unfold stress.
  transitivity (rsum d (fun i => mu * rsum d (fun k => A k i * (G k i + G i k)) - mu * (2/3 * divergence d G) * A i i)).
  - apply rsum_ext. intros i Hi. rewrite <- rsum_scal.
    rewrite <- (delta_sum d (fun k => A k i) i (mu * (2/3 * divergence d G)) Hi), <- rsum_minus. apply rsum_ext. intros k Hk.
    rewrite (Nat.eqb_sym i k). destruct (Nat.eqb k i); ring.
  - rewrite rsum_minus, !rsum_scal. unfold divergence at 2. ring.
Qed.
Lemma sum_sq_trace n (g : nat -> R) : rsum n g * rsum n g <= INR n * rsum n (fun i => g i * g i).
Proof.
  assert (0 <= rsum n (fun i => rsum n (fun j => (g i - g j) * (g i - g j)))) by (apply rsum_nonneg; intros; apply rsum_nonneg; intros; apply Rle_0_sqr).
  assert (E : rsum n (fun i => rsum n (fun j => (g i - g j) * (g i - g j))) = 2 * INR n * rsum n (fun i => g i * g i) - 2 * (rsum n g * rsum n g)).
  { rewrite (rsum_ext n _ (fun i => INR n * (g i * g i) + rsum n (fun j => g j * g j) - 2 * rsum n g * g i)).
    - rewrite rsum_minus, rsum_plus, !rsum_scal, rsum_const. ring.
    - intros i Hi. rewrite <- rsum_const. rewrite <- rsum_plus.
      replace (2 * rsum n g * g i) with (rsum n (fun j => 2 * g i * g j)) by (rewrite rsum_scal; ring).
      rewrite <- rsum_minus. apply rsum_ext. intros j Hj. ring. }
  lra.
Qed.
Lemma stress_nonneg d mu G : (d <= 3)%nat -> 0 <= mu -> 0 <= rsum d (fun i => rsum d (fun k => G k i * stress d mu G i k)).
Proof.
  intros Hd Hm. rewrite stress_form. apply Rmult_le_pos; [exact Hm|].
  assert (H1 : rsum d (fun i => 2 * (G i i * G i i)) <= rsum d (fun i => rsum d (fun k => 1/2 * (G k i + G i k) * (G k i + G i k)))).
  { apply rsum_le. intros i Hi. rewrite <- (delta_sum d (fun k => G k k * G k k) i 2 Hi). apply rsum_le. intros k Hk.
    destruct (Nat.eqb_spec i k) as [->|]; [lra|]. pose proof (Rle_0_sqr (G k i + G i k)) as S. unfold Rsqr in S. lra. }
  rewrite rsum_scal in H1. pose proof (sum_sq_trace d (fun i => G i i)) as H2. cbn beta in H2. fold (divergence d G) in H2.
  assert (H3 : 0 <= rsum d (fun i => G i i * G i i)) by (apply rsum_nonneg; intros; apply Rle_0_sqr).
  assert (H4 : INR d <= 3) by (replace 3 with (INR 3) by (simpl; lra); apply le_INR; exact Hd).
  assert (H5 : INR d * rsum d (fun i => G i i * G i i) <= 3 * rsum d (fun i => G i i * G i i)) by (apply Rmult_le_compat_r; assumption).
  lra.
Qed.

(** * Physical form *)
Lemma shift_0 x j : forall i, shift x j 0 i = x i.
Proof. intros i. unfold shift. destruct (Nat.eqb i j); ring. Qed.

Lemma visc_row d e mu Pr q Dw : applyViscousScaling d e mu Pr q Dw = rowC d Pr q e mu (fun j => col d j Dw).
Proof. reflexivity. Qed.

Section Field.
Variables (rf pf uf : R -> R) (w1 w2 : R -> R) (eps : R).
Hypothesis He : 0 < eps.
Hypothesis Hpos : forall t, Rabs t < eps -> 0 < rf t /\ 0 < pf t /\ w1 t = rf t * uf t / pf t /\ w2 t = - rf t / pf t.
Variables (d1 d2 g T' : R).
Hypothesis D1 : is_derive w1 0 d1.
Hypothesis D2 : is_derive w2 0 d2.
Hypothesis Du : is_derive uf 0 g.
Hypothesis DT : is_derive (fun t => pf t / rf t) 0 T'.
Lemma near_pos (P : R -> Prop) : (forall t, Rabs t < eps -> P t) -> locally 0 P.
Proof. intros H. exists (mkposreal eps He). intros y Hy. apply H. unfold ball in Hy. simpl in Hy. unfold AbsRing_ball, abs, minus, plus, opp in Hy. simpl in Hy. rewrite Ropp_0, Rplus_0_r in Hy. exact Hy. Qed.
Lemma field_grads : pf 0 / rf 0 * (d1 + uf 0 * d2) = g /\ pf 0 / rf 0 * (pf 0 / rf 0) * d2 = T'.
Proof.
  destruct (Hpos 0) as (Hr & Hp & _); [rewrite Rabs_R0; exact He|].
  set (Tf := fun t => pf t / rf t). assert (DT' : is_derive Tf 0 T') by exact DT.
  assert (T0 : 0 < Tf 0) by (apply Rdiv_lt_0_compat; assumption).
  assert (ET : ex_derive Tf 0) by (eexists; exact DT). assert (EU : ex_derive uf 0) by (eexists; exact Du).
  assert (X1 : is_derive (fun t => uf t / Tf t) 0 (g / Tf 0 - uf 0 * T' / (Tf 0 * Tf 0))).
  { pose proof (is_derive_unique _ _ _ DT') as UT. pose proof (is_derive_unique _ _ _ Du) as UU. clearbody Tf.
    auto_derive; [repeat split; auto; lra|].
    replace (Derive (fun x => uf x) 0) with (Derive uf 0) by reflexivity.
    replace (Derive (fun x => Tf x) 0) with (Derive Tf 0) by reflexivity. rewrite UT, UU. field. lra. }
  assert (X2 : is_derive (fun t => - / Tf t) 0 (T' / (Tf 0 * Tf 0))).
  { pose proof (is_derive_unique _ _ _ DT') as UT. clearbody Tf.
    auto_derive; [repeat split; auto; lra|].
    replace (Derive (fun x => Tf x) 0) with (Derive Tf 0) by reflexivity. rewrite UT. field. lra. }
  assert (Y1 : d1 = g / Tf 0 - uf 0 * T' / (Tf 0 * Tf 0)).
  { rewrite <- (is_derive_unique _ _ _ D1). apply is_derive_unique. apply (is_derive_ext_loc (fun t => uf t / Tf t)); [|exact X1].
    apply near_pos. intros t Ht. destruct (Hpos t Ht) as (A & B & -> & _). unfold Tf. match goal with |- ?l = ?r => change (@eq R l r) end. field. split; lra. }
  assert (Y2 : d2 = T' / (Tf 0 * Tf 0)).
  { rewrite <- (is_derive_unique _ _ _ D2). apply is_derive_unique. apply (is_derive_ext_loc (fun t => - / Tf t)); [|exact X2].
    apply near_pos. intros t Ht. destruct (Hpos t Ht) as (A & B & _ & ->). unfold Tf. match goal with |- ?l = ?r => change (@eq R l r) end. field. split; lra. }
  fold (Tf 0). rewrite Y1, Y2. split; field; lra.
Qed.
End Field.

Lemma stress_ext d mu G G' i k : (i < d)%nat -> (k < d)%nat -> (forall a b, (a < d)%nat -> (b < d)%nat -> G a b = G' a b) -> stress d mu G i k = stress d mu G' i k.
Proof. intros Hi Hk H. unfold stress, divergence. rewrite (H k i Hk Hi), (H i k Hi Hk), (rsum_ext d (fun a => G a a) (fun a => G' a a)); [reflexivity|]. intros; apply H; assumption. Qed.

Lemma viscous_physical d e mu Pr (rho p : vec -> R) (u q : vec -> vec) (x : vec) eps Dw G gT :
  0 < eps -> Pr <> 0 -> (e < d)%nat ->
  (forall j t, (j < d)%nat -> Rabs t < eps ->
     0 < rho (shift x j t) /\ 0 < p (shift x j t) /\ is_state d (q (shift x j t)) (rho (shift x j t)) (u (shift x j t)) (p (shift x j t))) ->
  (forall j k, (j < d)%nat -> (k < d + 2)%nat -> partial_at (fun y => calcEntropyVars d false (q y) k) x j (Dw (j * (d + 2) + k)%nat)) ->
  (forall j k, (j < d)%nat -> (k < d)%nat -> partial_at (fun y => u y k) x j (G k j)) ->
  (forall j, (j < d)%nat -> partial_at (fun y => p y / rho y) x j (gT j)) ->
  forall f, f = applyViscousScaling d e mu Pr (q x) Dw ->
  f 0%nat = 0 /\
  (forall k, (k < d)%nat -> f (S k) = stress d mu G e k) /\
  f (S d) = rsum d (fun k => u x k * stress d mu G e k) + 7/5 * mu / (2/5 * Pr) * gT e.
Proof.
  intros He HPr Hed Hst HDw HG HT f Hf.
  assert (SH : forall j, (shift x j 0) = x). { intros j. apply functional_extensionality. apply shift_0. }
  assert (Z : Rabs 0 < eps) by (rewrite Rabs_R0; exact He).
  destruct (Hst e 0 Hed Z) as (Hr & Hp & Hq). rewrite (SH e) in Hr, Hp, Hq.
  assert (Hr' : rho x <> 0) by lra.
  assert (FG : forall j, (j < d)%nat -> p x / rho x * (p x / rho x) * Dw (j * (d + 2) + S d)%nat = gT j /\
              forall k, (k < d)%nat -> p x / rho x * (Dw (j * (d + 2) + S k)%nat + u x k * Dw (j * (d + 2) + S d)%nat) = G k j).
  { intros j Hj.
    assert (K : forall k (uf : R -> R) w1 d1 g, 
       (forall t, Rabs t < eps -> w1 t = rho (shift x j t) * uf t / p (shift x j t)) -> is_derive w1 0 d1 -> is_derive uf 0 g -> uf 0 = k ->
       p x / rho x * (d1 + k * Dw (j * (d + 2) + S d)%nat) = g /\ p x / rho x * (p x / rho x) * Dw (j * (d + 2) + S d)%nat = gT j).
    { intros k uf w1 d1 g Hw D1 Du Hu0.
      pose proof (field_grads (fun t => rho (shift x j t)) (fun t => p (shift x j t)) uf w1 (fun t => calcEntropyVars d false (q (shift x j t)) (S d)) eps He) as F.
      specialize (F). cbn beta in F. rewrite (SH j), Hu0 in F.
      apply (F) with (T' := gT j); [|exact D1|apply HDw; lia|exact Du|apply HT; exact Hj].
      intros t Ht. destruct (Hst j t Hj Ht) as (A & B & C). repeat split; auto.
      pose proof (entvars_prim d _ _ _ _ A B C) as (_ & _ & W2). rewrite W2. field. lra. }
    split.
    - apply (K 0 (fun _ => 0) (fun _ => 0) 0 0); [intros t Ht| | |]; try reflexivity; try apply (is_derive_const 0 0).
      destruct (Hst j t Hj Ht) as (A & B & C). field. lra.
    - intros k Hk. apply (K (u x k) (fun t => u (shift x j t) k) (fun t => calcEntropyVars d false (q (shift x j t)) (S k))).
      + intros t Ht. destruct (Hst j t Hj Ht) as (A & B & C). pose proof (entvars_prim d _ _ _ _ A B C) as (_ & W1 & _). rewrite W1 by exact Hk. field. lra.
      + apply HDw; lia.
      + apply HG; assumption.
      + rewrite (SH j). reflexivity. }
  assert (EX : forall k, (k < d)%nat -> stress d mu (vgrad d (rho x) (p x) (u x) (fun j => col d j Dw)) e k = stress d mu G e k).
  { intros k Hk. apply stress_ext; auto. intros a b Ha Hb. unfold vgrad, sa, col. apply FG; assumption. }
  subst f. rewrite visc_row. split; [|split].
  - apply row_0.
  - intros k Hk. rewrite (row_S d Pr (rho x) (p x) (u x) (q x) Hr' Hq e mu _ k Hed Hk). apply EX, Hk.
  - rewrite (row_E d Pr (rho x) (p x) (u x) (q x) Hr' Hq e mu _ Hed). f_equal.
    + apply rsum_ext. intros k Hk. rewrite EX by exact Hk. reflexivity.
    + unfold col, heat. destruct (FG e Hed) as (<- & _). unfold gamma, gami. field. split; assumption.
Qed.

(** * Symmetry and dissipation *)
Lemma cij_dot d i j mu Pr q v w rho u p : rho <> 0 -> p <> 0 -> is_state d q rho u p -> (i < d)%nat -> (j < d)%nat ->
  dot (d + 2) v (applyCijMatrix d i j mu Pr q w zeros) =
  mu * (rho / p * ((if Nat.eqb i j then rsum d (fun k => sa d rho p u v k * sa d rho p u w k) else 0) +
        sa d rho p u v j * sa d rho p u w i - 2/3 * sa d rho p u v i * sa d rho p u w j)) +
  (if Nat.eqb i j then heat Pr rho p mu * v (S d) * w (S d) else 0).
Proof.
  intros Hr Hp Hq Hi Hj. rewrite dot_state, cij_0, (cij_E d Pr rho p u q Hr Hq i j mu w zeros Hi Hj). change (zeros 0%nat) with 0. change (zeros (S d)) with 0.
  unfold dot, mom.
  rewrite (rsum_ext d (fun k => v (S k) * applyCijMatrix d i j mu Pr q w zeros (S k)) (fun k => (if Nat.eqb i j then mu * (v (S k) * sa d rho p u w k) else 0) + (if Nat.eqb j k then (mu * sa d rho p u w i) * v (S k) else 0) - (if Nat.eqb i k then (mu * (2/3 * sa d rho p u w j)) * v (S k) else 0))).
  2:{ intros k Hk. rewrite (cij_S d Pr rho p u q Hr Hq i j mu w zeros k Hi Hj Hk). unfold zeros.
      rewrite (Nat.eqb_sym k j), (Nat.eqb_sym k i). destruct (Nat.eqb i j), (Nat.eqb j k), (Nat.eqb i k); ring. }
  rewrite rsum_minus, rsum_plus, !delta_sum by assumption.
  destruct (Nat.eqb i j).
  - rewrite (rsum_ext d (fun k => sa d rho p u v k * sa d rho p u w k) (fun k => p / rho * (v (S k) * sa d rho p u w k + v (S d) * (u k * sa d rho p u w k)))) by (intros; unfold sa at 1; ring).
    rewrite !rsum_scal, rsum_plus, rsum_scal.
    set (S1 := rsum d (fun k => v (S k) * sa d rho p u w k)). set (S2 := rsum d (fun k => u k * sa d rho p u w k)).
    set (h := heat Pr rho p mu). set (wi := sa d rho p u w i). set (wj := sa d rho p u w j). unfold sa. field. split; assumption.
  - rewrite rsum_0. set (wi := sa d rho p u w i). set (wj := sa d rho p u w j). unfold sa. field. split; assumption.
Qed.
Lemma cij_symmetric d i j mu Pr q v w : physical d q -> (i < d)%nat -> (j < d)%nat ->
  dot (d + 2) v (applyCijMatrix d i j mu Pr q w zeros) = dot (d + 2) w (applyCijMatrix d j i mu Pr q v zeros).
Proof.
  intros (rho & u & p & Hr & Hp & H) Hi Hj. assert (Hr' : rho <> 0) by lra. assert (Hp' : p <> 0) by lra.
  rewrite (cij_dot d i j mu Pr q v w rho u p Hr' Hp' H Hi Hj), (cij_dot d j i mu Pr q w v rho u p Hr' Hp' H Hj Hi).
  rewrite (Nat.eqb_sym j i). destruct (Nat.eqb i j).
  - rewrite (rsum_ext d (fun k => sa d rho p u w k * sa d rho p u v k) (fun k => sa d rho p u v k * sa d rho p u w k)) by (intros; ring). ring.
  - ring.
Qed.
Lemma dissipation_form d mu Pr q Dw rho u p : rho <> 0 -> p <> 0 -> is_state d q rho u p ->
  rsum d (fun i => dot (d + 2) (col d i Dw) (applyViscousScaling d i mu Pr q Dw)) =
  rho / p * rsum d (fun i => rsum d (fun k => vgrad d rho p u (fun j => col d j Dw) k i * stress d mu (vgrad d rho p u (fun j => col d j Dw)) i k)) +
  heat Pr rho p mu * rsum d (fun i => col d i Dw (S d) * col d i Dw (S d)).
Proof.
  intros Hr Hp H. rewrite <- !rsum_scal, <- rsum_plus. apply rsum_ext. intros i Hi.
  rewrite visc_row, (row_dot d Pr rho p u q Hr H i mu _ _ Hi Hp). unfold vgrad at 2. ring.
Qed.
Lemma dissipation d mu Pr q Dw : (d <= 3)%nat -> physical d q -> 0 <= mu -> 0 < Pr ->
  0 <= rsum d (fun i => dot (d + 2) (col d i Dw) (applyViscousScaling d i mu Pr q Dw)).
Proof.
  intros Hd (rho & u & p & Hr & Hp & H) Hm HPr.
  rewrite (dissipation_form d mu Pr q Dw rho u p) by (auto; lra).
  apply Rplus_le_le_0_compat.
  - apply Rmult_le_pos; [left; apply Rdiv_lt_0_compat; assumption|]. apply stress_nonneg; assumption.
  - apply Rmult_le_pos; [|apply rsum_nonneg; intros; apply Rle_0_sqr]. unfold heat, gamma, gami.
    apply Rdiv_le_0_compat; [|lra]. apply Rmult_le_pos; [|exact Hm]. pose proof (Rdiv_lt_0_compat p rho Hp Hr). nra.
Qed.
Lemma dissipation_strict d mu Pr q Dw j : (d <= 3)%nat -> physical d q -> 0 < mu -> 0 < Pr -> (j < d)%nat ->
  col d j Dw (S d) <> 0 -> 0 < rsum d (fun i => dot (d + 2) (col d i Dw) (applyViscousScaling d i mu Pr q Dw)).
Proof.
  intros Hd (rho & u & p & Hr & Hp & H) Hm HPr Hj Hnz.
  rewrite (dissipation_form d mu Pr q Dw rho u p) by (auto; lra).
  apply Rplus_le_lt_0_compat.
  - apply Rmult_le_pos; [left; apply Rdiv_lt_0_compat; assumption|]. apply stress_nonneg; auto; lra.
  - apply Rmult_lt_0_compat.
    + unfold heat, gamma, gami. apply Rdiv_lt_0_compat; [|lra]. apply Rmult_lt_0_compat; [|exact Hm]. pose proof (Rdiv_lt_0_compat p rho Hp Hr). nra.
    + assert (N : 0 <= rsum d (fun i => col d i Dw (S d) * col d i Dw (S d))) by (apply rsum_nonneg; intros; apply Rle_0_sqr).
      destruct N as [N|N]; [exact N|]. exfalso. symmetry in N.
      pose proof (rsum_nonneg_zero d (fun i => col d i Dw (S d) * col d i Dw (S d)) (fun i _ => Rle_0_sqr _) N j Hj) as Z. cbn beta in Z. apply Rmult_integral in Z. tauto.
Qed.

(** * Adiabatic wall *)
Definition bnd_cols (d : nat) (dir Dw : vec) (d2 : nat) : vec := fun k =>
  if Nat.eqb k (d + 1) then Dw (d2 * (d + 2) + k)%nat - rsum d (fun e => Dw (e * (d + 2) + d + 1)%nat * nrm d dir e) * nrm d dir d2
  else Dw (d2 * (d + 2) + k)%nat.
Lemma bnd_cols_S d dir Dw j k : (k < d)%nat -> bnd_cols d dir Dw j (S k) = col d j Dw (S k).
Proof. intros H. unfold bnd_cols, col. destruct (Nat.eqb_spec (S k) (d + 1)); [lia|reflexivity]. Qed.
Lemma bnd_cols_E d dir Dw j : bnd_cols d dir Dw j (S d) = col d j Dw (S d) - rsum d (fun e => col d e Dw (S d) * nrm d dir e) * nrm d dir j.
Proof.
  unfold bnd_cols, col. destruct (Nat.eqb_spec (S d) (d + 1)) as [_|]; [|lia]. f_equal. f_equal. apply rsum_ext. intros e He. f_equal. f_equal. lia.
Qed.
Lemma nrm_unit d dir : 0 < dot d dir dir -> rsum d (fun e => nrm d dir e * nrm d dir e) = 1.
Proof.
  intros H. unfold nrm. rewrite (rsum_ext d _ (fun e => dir e * dir e * (/ dot d dir dir))).
  - rewrite rsum_scal_r. fold (dot d dir dir). field. lra.
  - intros e He. pose proof (sqrt_lt_R0 _ H) as S. set (s := sqrt (dot d dir dir)) in *.
    replace (dot d dir dir) with (s * s) by (apply sqrt_sqrt; lra). field. lra.
Qed.
Lemma nrm_dir d dir e : 0 < dot d dir dir -> dir e = sqrt (dot d dir dir) * nrm d dir e.
Proof. intros H. unfold nrm. pose proof (sqrt_lt_R0 _ H). field. lra. Qed.
Lemma bnd_normal_zero d dir Dw : 0 < dot d dir dir -> rsum d (fun j => dir j * bnd_cols d dir Dw j (S d)) = 0.
Proof.
  intros H. set (N := rsum d (fun e => col d e Dw (S d) * nrm d dir e)).
  rewrite (rsum_ext d _ (fun j => sqrt (dot d dir dir) * (col d j Dw (S d) * nrm d dir j - N * (nrm d dir j * nrm d dir j)))).
  - rewrite rsum_scal, rsum_minus, rsum_scal, nrm_unit by exact H. fold N. ring.
  - intros j Hj. rewrite bnd_cols_E. fold N. rewrite (nrm_dir d dir j H) at 1. ring.
Qed.
Section Wall.
Variables (d : nat) (dir Dw : vec) (mu Pr rho p : R) (u q : vec).
Hypothesis Hr : rho <> 0. Hypothesis Hp : p <> 0. Hypothesis Hst : is_state d q rho u p.
Hypothesis Hn : 0 < dot d dir dir.
Let V := bnd_cols d dir Dw.
Let G := vgrad d rho p u V.
Lemma stress_mu c i k : stress d (mu * c) G i k = c * stress d mu G i k.
Proof. unfold stress. ring. Qed.
Lemma adia_0 : calcAdiabaticWallFlux d dir mu Pr q Dw 0%nat = 0.
Proof.
  unfold calcAdiabaticWallFlux. cbv zeta. rewrite (accum_sum d _ (fun _ _ => 0)); [rewrite rsum_0; unfold zeros; ring|].
  intros e a He. rewrite row_acc_0. ring.
Qed.
Lemma adia_S k : (k < d)%nat -> calcAdiabaticWallFlux d dir mu Pr q Dw (S k) = rsum d (fun e => dir e * stress d mu G e k).
Proof.
  intros Hk. unfold calcAdiabaticWallFlux. cbv zeta.
  rewrite (accum_sum d _ (fun e _ => dir e * stress d mu G e k)); [unfold zeros; ring|].
  intros e a He. rewrite (row_acc_S d Pr rho p u q Hr Hst e (mu * dir e) _ a k He Hk). f_equal. apply stress_mu.
Qed.
Lemma adia_E : calcAdiabaticWallFlux d dir mu Pr q Dw (S d) = rsum d (fun k => u k * calcAdiabaticWallFlux d dir mu Pr q Dw (S k)).
Proof.
  assert (E : calcAdiabaticWallFlux d dir mu Pr q Dw (S d) = rsum d (fun e => rsum d (fun k => u k * (dir e * stress d mu G e k)) + heat Pr rho p mu * (dir e * V e (S d)))).
  { unfold calcAdiabaticWallFlux. cbv zeta.
    rewrite (accum_sum d _ (fun e _ => rsum d (fun k => u k * (dir e * stress d mu G e k)) + heat Pr rho p mu * (dir e * V e (S d)))); [unfold zeros; ring|].
    intros e a He. rewrite (row_acc_E d Pr rho p u q Hr Hst e (mu * dir e) _ a He). rewrite Rplus_assoc. f_equal. f_equal.
    - apply rsum_ext. intros k Hk. f_equal. apply stress_mu.
    - unfold heat. change (V e (S d)) with (bnd_cols d dir Dw e (S d)). unfold bnd_cols, Rdiv. ring. }
  rewrite E, rsum_plus, rsum_scal. unfold V at 1. rewrite (bnd_normal_zero d dir Dw Hn), Rmult_0_r, Rplus_0_r.
  rewrite rsum_swap. apply rsum_ext. intros k Hk. rewrite adia_S by exact Hk. rewrite rsum_scal. reflexivity.
Qed.
End Wall.
Lemma adiabatic_entropy d dir mu Pr q Dw : physical d q -> 0 < dot d dir dir ->
  dot (d + 2) (calcEntropyVars d false q) (calcAdiabaticWallFlux d dir mu Pr q Dw) = 0.
Proof.
  intros (rho & u & p & Hr & Hp & H) Hn. pose proof (entvars_prim d q rho u p Hr Hp H) as (_ & W1 & W2).
  rewrite dot_state, adia_0, (adia_E d dir Dw mu Pr rho p u q) by (auto; lra). rewrite W2. unfold dot.
  rewrite <- rsum_scal, Rmult_0_r, Rplus_0_l, <- rsum_plus. rewrite <- (rsum_0 d). apply rsum_ext. intros k Hk. unfold mom. rewrite W1 by exact Hk. field. lra.
Qed.
Lemma adiabatic_at_rest d dir mu Pr q Dw rho p : 0 < rho -> 0 < p -> is_state d q rho (fun _ => 0) p -> 0 < dot d dir dir ->
  calcAdiabaticWallFlux d dir mu Pr q Dw 0%nat = 0 /\
  (forall k, (k < d)%nat -> calcAdiabaticWallFlux d dir mu Pr q Dw (S k) = rsum d (fun e => dir e * applyViscousScaling d e mu Pr q Dw (S k))) /\
  calcAdiabaticWallFlux d dir mu Pr q Dw (S d) = 0.
Proof.
  intros Hr Hp H Hn. assert (Hr' : rho <> 0) by lra. assert (Hp' : p <> 0) by lra. split; [apply adia_0|]. split.
  - intros k Hk. rewrite (adia_S d dir Dw mu Pr rho p (fun _ => 0) q Hr' H k Hk). apply rsum_ext. intros e He. f_equal.
    rewrite visc_row, (row_S d Pr rho p (fun _ => 0) q Hr' H e mu _ k He Hk). apply stress_ext; auto.
    intros a b Ha Hb. unfold vgrad, sa. rewrite bnd_cols_S by exact Ha. ring.
  - rewrite (adia_E d dir Dw mu Pr rho p (fun _ => 0) q Hr' H Hn). transitivity (rsum d (fun _ => 0)); [|apply rsum_0]. apply rsum_ext. intros; ring.
Qed.

(** * Penalties *)
Lemma penalty_form d fac mu Pr qfs dw rho u p : rho <> 0 -> is_state d qfs rho u p -> dw (S d) = 0 ->
  penalty d fac mu Pr qfs dw 0%nat = 0 /\ (forall k, (k < d)%nat -> penalty d fac mu Pr qfs dw (S k) = fac * mu * (p / rho) * (INR d + 1/3) * dw (S k)) /\
  penalty d fac mu Pr qfs dw (S d) = 0.
Proof.
  intros Hr H Hd. unfold penalty. cbv zeta. rewrite mk_0, mk_E. split; [|split; [|reflexivity]].
  - rewrite (accum_sum d _ (fun _ _ => 0)); [rewrite rsum_0; unfold zeros; ring|]. intros e a He. rewrite cij_0. ring.
  - intros k Hk. rewrite mk_S by exact Hk.
    rewrite (accum_sum d _ (fun e _ => mu * (p / rho) * dw (S k) * 1 + (if Nat.eqb k e then (mu * (p / rho) * (1/3)) * dw (S e) else 0))).
    + rewrite rsum_plus, delta_sum by exact Hk. rewrite rsum_scal, rsum_const. unfold zeros. ring.
    + intros e a He. rewrite (cij_S d Pr rho p u qfs Hr H e e mu dw a k He He Hk). rewrite Nat.eqb_refl. unfold sa. rewrite Hd.
      destruct (Nat.eqb_spec k e) as [->|]; field; exact Hr.
Qed.
Lemma noslip_entropy d dir Jac mu Pr qfs q rho u p rho0 u0 p0 : 0 < rho -> 0 < p -> is_state d q rho u p ->
  0 < rho0 -> 0 < p0 -> is_state d qfs rho0 u0 p0 ->
  dot (d + 2) (calcEntropyVars d false q) (calcNoSlipPenaltyFlux d dir Jac mu Pr qfs q) =
  sqrt (dot d dir dir) / Jac * mu * (p0 / rho0) * (INR d + 1/3) * (rho / p * (rho / p)) * dot d u u.
Proof.
  intros Hr Hp H Hr0 Hp0 H0. pose proof (entvars_prim d q rho u p Hr Hp H) as (_ & W1 & W2).
  assert (P : pressure d q = p) by (apply (state_pressure d q rho u p); auto; lra).
  unfold calcNoSlipPenaltyFlux. cbv zeta. rewrite P.
  destruct (penalty_form d (sqrt (dot d dir dir) / Jac) mu Pr qfs (mk d 0 (fun e => q (S e) / p) 0) rho0 u0 p0) as (F0 & F1 & F2); [lra|exact H0|apply mk_E|].
  rewrite dot_state, F0, F2, !Rmult_0_r, Rplus_0_l, Rplus_0_r. unfold dot. rewrite <- rsum_scal. apply rsum_ext. intros k Hk. unfold mom.
  rewrite F1, W1, mk_S by exact Hk. rewrite (proj1 (proj2 H) k Hk).
  assert (C : p * rho0 <> 0) by (apply Rmult_integral_contrapositive_currified; lra).
  set (fc := sqrt _ / Jac). cbv beta. field. split; lra.
Qed.
Lemma noslip_zero d dir Jac mu Pr qfs q rho p : 0 < rho -> 0 < p -> is_state d q rho (fun _ => 0) p -> physical d qfs ->
  same d (calcNoSlipPenaltyFlux d dir Jac mu Pr qfs q) (fun _ => 0).
Proof.
  intros Hr Hp H (r0 & u0 & p0 & Hr0 & Hp0 & H0).
  unfold calcNoSlipPenaltyFlux. cbv zeta.
  destruct (penalty_form d (sqrt (dot d dir dir) / Jac) mu Pr qfs (mk d 0 (fun e => q (S e) / pressure d q) 0) r0 u0 p0) as (F0 & F1 & F2); [lra|exact H0|apply mk_E|].
  apply same_intro; [exact F0| |exact F2]. intros i Hi. rewrite F1, mk_S by exact Hi. rewrite (proj1 (proj2 H) i Hi). unfold Rdiv. ring.
Qed.
(** control: difference of the momentum entropy variables from their target values *)
Lemma control_form d dir Jac mu Pr uc qfs q rho u p rho0 u0 p0 : 0 < rho -> 0 < p -> is_state d q rho u p ->
  0 < rho0 -> 0 < p0 -> is_state d qfs rho0 u0 p0 -> forall f, f = calcControlPenaltyFlux d dir Jac mu Pr uc qfs q ->
  f 0%nat = 0 /\ f (S d) = 0 /\
  forall k, (k < d)%nat -> f (S k) = sqrt (dot d dir dir) / Jac * mu * (p0 / rho0) * (INR d + 1/3) * (rho / p) * (u k - uc * (dir k / sqrt (dot d dir dir))).
Proof.
  intros Hr Hp H Hr0 Hp0 H0 f ->.
  assert (P : pressure d q = p) by (apply (state_pressure d q rho u p); auto; lra).
  unfold calcControlPenaltyFlux. cbv zeta. rewrite P.
  destruct (penalty_form d (sqrt (dot d dir dir) / Jac) mu Pr qfs (mk d 0 (fun e => (q (S e) - q 0%nat * uc * dir e / sqrt (dot d dir dir)) / p) 0) rho0 u0 p0) as (F0 & F1 & F2); [lra|exact H0|apply mk_E|].
  split; [exact F0|]. split; [exact F2|]. intros k Hk. rewrite F1, mk_S by exact Hk. rewrite (proj1 (proj2 H) k Hk), (proj1 H). unfold Rdiv. ring.
Qed.

(** * Dual flux *)
Lemma cij_lin d i j mu Pr q v acc k : physical d q -> (i < d)%nat -> (j < d)%nat -> (k < d + 2)%nat ->
  applyCijMatrix d i j mu Pr q v acc k = acc k + mu * applyCijMatrix d i j 1 Pr q v zeros k.
Proof.
  intros (rho & u & p & Hr & Hp & H) Hi Hj. assert (Hr' : rho <> 0) by lra. revert k. apply state_ind.
  - rewrite !cij_0. unfold zeros. ring.
  - intros k Hk. rewrite (cij_S d Pr rho p u q Hr' H i j mu v acc k Hi Hj Hk), (cij_S d Pr rho p u q Hr' H i j 1 v zeros k Hi Hj Hk). unfold zeros. ring.
  - rewrite (cij_E d Pr rho p u q Hr' H i j mu v acc Hi Hj), (cij_E d Pr rho p u q Hr' H i j 1 v zeros Hi Hj). unfold zeros.
    unfold heat. destruct (Nat.eqb i j); unfold Rdiv; ring.
Qed.
Lemma dual_identity d dir mu Pr q Dw : physical d q -> 0 < dot d dir dir ->
  rsum d (fun j => dot (d + 2) (col d j Dw) (calcNoSlipDualFlux d dir mu Pr q j)) =
  - dot (d + 2) (mk d 0 (fun e => calcEntropyVars d false q (S e)) 0) (calcAdiabaticWallFlux d dir mu Pr q Dw).
Proof.
  intros Hph Hn. set (dw := mk d 0 (fun e => q (S e) / pressure d q) 0).
  assert (Hdw : same d dw (mk d 0 (fun e => calcEntropyVars d false q (S e)) 0)).
  { destruct Hph as (rho & u & p & Hr & Hp & H). pose proof (entvars_prim d q rho u p Hr Hp H) as (_ & W1 & _).
    assert (P : pressure d q = p) by (apply (state_pressure d q rho u p); auto; lra).
    apply same_intro; unfold dw; rewrite ?mk_0, ?mk_E; try reflexivity. intros i Hi. rewrite !mk_S by exact Hi. rewrite P, W1 by exact Hi.
    rewrite (proj1 (proj2 H) i Hi). reflexivity. }
  assert (C1 : forall j k, (j < d)%nat -> (k < d + 2)%nat -> dualColumn d dir mu Pr q j k = rsum d (fun e => - mu * dir e * applyCijMatrix d j e 1 Pr q dw zeros k)).
  { intros j k Hj Hk. unfold dualColumn. cbv zeta. fold dw.
    rewrite (accum_sum d _ (fun e k => - mu * dir e * applyCijMatrix d j e 1 Pr q dw zeros k)); [unfold zeros at 1; ring|].
    intros e a He. apply cij_lin; assumption. }
  assert (C2 : forall k, (k < d + 2)%nat -> calcAdiabaticWallFlux d dir mu Pr q Dw k =
     rsum d (fun e => rsum d (fun j => mu * dir e * applyCijMatrix d e j 1 Pr q (bnd_cols d dir Dw j) zeros k))).
  { intros k Hk. unfold calcAdiabaticWallFlux. cbv zeta.
    rewrite (accum_sum d _ (fun e k => rsum d (fun j => mu * dir e * applyCijMatrix d e j 1 Pr q (bnd_cols d dir Dw j) zeros k))); [unfold zeros at 1; ring|].
    intros e a He. rewrite (accum_sum d _ (fun j k => mu * dir e * applyCijMatrix d e j 1 Pr q (bnd_cols d dir Dw j) zeros k)); [reflexivity|].
    intros j b Hj. apply (cij_lin d e j (mu * dir e) Pr q (bnd_cols d dir Dw j) b k); assumption. }
  transitivity (rsum d (fun j => dot (d + 2) (bnd_cols d dir Dw j) (dualColumn d dir mu Pr q j))).
  { set (N := rsum d (fun e => dualColumn d dir mu Pr q e (d + 1)%nat * nrm d dir e)).
    set (M := rsum d (fun e => col d e Dw (S d) * nrm d dir e)).
    rewrite (rsum_ext d (fun j => dot (d + 2) (col d j Dw) (calcNoSlipDualFlux d dir mu Pr q j))
       (fun j => dot (d + 2) (col d j Dw) (dualColumn d dir mu Pr q j) - N * (col d j Dw (S d) * nrm d dir j))).
    2:{ intros j Hj. rewrite !dot_state. unfold calcNoSlipDualFlux at 1 3. cbv zeta. fold N.
        destruct (Nat.eqb_spec 0 (d + 1)); [lia|]. destruct (Nat.eqb_spec (S d) (d + 1)); [|lia].
        replace (dot d (mom (col d j Dw)) (mom (calcNoSlipDualFlux d dir mu Pr q j))) with (dot d (mom (col d j Dw)) (mom (dualColumn d dir mu Pr q j))); [ring|].
        apply rsum_ext. intros k Hk. unfold mom, calcNoSlipDualFlux. cbv zeta. destruct (Nat.eqb_spec (S k) (d + 1)); [lia|]. reflexivity. }
    rewrite (rsum_ext d (fun j => dot (d + 2) (bnd_cols d dir Dw j) (dualColumn d dir mu Pr q j))
       (fun j => dot (d + 2) (col d j Dw) (dualColumn d dir mu Pr q j) - M * (dualColumn d dir mu Pr q j (d + 1)%nat * nrm d dir j))).
    2:{ intros j Hj. rewrite !dot_state. rewrite bnd_cols_E. fold M. replace (d + 1)%nat with (S d) by lia.
        replace (dot d (mom (bnd_cols d dir Dw j)) (mom (dualColumn d dir mu Pr q j))) with (dot d (mom (col d j Dw)) (mom (dualColumn d dir mu Pr q j))).
        2:{ apply rsum_ext. intros k Hk. unfold mom at 1 3. rewrite bnd_cols_S by exact Hk. reflexivity. }
        unfold bnd_cols at 1. destruct (Nat.eqb_spec 0 (d + 1)); [lia|]. change (Dw (j * (d + 2) + 0)%nat) with (col d j Dw 0%nat). ring. }
    rewrite !rsum_minus, !rsum_scal. fold N M. ring. }
  transitivity (rsum d (fun j => rsum d (fun e => - (mu * dir e) * dot (d + 2) (bnd_cols d dir Dw j) (applyCijMatrix d j e 1 Pr q dw zeros)))).
  { apply rsum_ext. intros j Hj. rewrite (dot_ext (d + 2) _ (bnd_cols d dir Dw j) _ (fun k => rsum d (fun e => - mu * dir e * applyCijMatrix d j e 1 Pr q dw zeros k))).
    - unfold dot. rewrite (rsum_ext (d + 2) _ (fun k => rsum d (fun e => bnd_cols d dir Dw j k * (- mu * dir e * applyCijMatrix d j e 1 Pr q dw zeros k)))) by (intros; rewrite rsum_scal; reflexivity).
      rewrite rsum_swap. apply rsum_ext. intros e He. rewrite <- rsum_scal. apply rsum_ext. intros k Hk. ring.
    - intros i Hi. reflexivity.
    - intros k Hk. apply C1; assumption. }
  rewrite (dot_ext (d + 2) _ dw _ (fun k => rsum d (fun e => rsum d (fun j => mu * dir e * applyCijMatrix d e j 1 Pr q (bnd_cols d dir Dw j) zeros k)))).
  2:{ intros i Hi. symmetry. apply Hdw. exact Hi. }
  2:{ intros i Hi. apply C2. exact Hi. }
  transitivity (- rsum d (fun e => rsum d (fun j => mu * dir e * dot (d + 2) dw (applyCijMatrix d e j 1 Pr q (bnd_cols d dir Dw j) zeros)))).
  - rewrite rsum_swap, <- rsum_opp. apply rsum_ext. intros e He. rewrite <- rsum_opp. apply rsum_ext. intros j Hj.
    rewrite (cij_symmetric d j e 1 Pr q _ dw Hph Hj He). ring.
  - f_equal. unfold dot. symmetry.
    rewrite (rsum_ext (d + 2) _ (fun k => rsum d (fun e => rsum d (fun j => mu * dir e * (dw k * applyCijMatrix d e j 1 Pr q (bnd_cols d dir Dw j) zeros k))))).
    + rewrite rsum_swap. apply rsum_ext. intros e He. rewrite rsum_swap. apply rsum_ext. intros j Hj. rewrite rsum_scal. reflexivity.
    + intros k Hk. rewrite <- rsum_scal. apply rsum_ext. intros e He. rewrite <- rsum_scal. apply rsum_ext. intros j Hj. ring.
Qed.

(** * setZeroNormalDeriv, Sutherland *)
Lemma zero_normal d dir Dw s : 0 < dot d dir dir ->
  rsum d (fun i => setZeroNormalDeriv d dir Dw i s * dir i) = 0 /\
  (forall t, dot d t dir = 0 -> rsum d (fun i => setZeroNormalDeriv d dir Dw i s * t i) = rsum d (fun i => Dw (s + i * (d + 2))%nat * t i)).
Proof.
  intros Hn. unfold setZeroNormalDeriv. cbv zeta. set (N := rsum d (fun j => Dw (s + j * (d + 2))%nat * nrm d dir j)). split.
  - rewrite (rsum_ext d _ (fun i => sqrt (dot d dir dir) * (Dw (s + i * (d + 2))%nat * nrm d dir i - N * (nrm d dir i * nrm d dir i)))).
    + rewrite rsum_scal, rsum_minus, rsum_scal, nrm_unit by exact Hn. fold N. ring.
    + intros i Hi. rewrite (nrm_dir d dir i Hn) at 1. ring.
  - intros t Ht. rewrite (rsum_ext d _ (fun i => Dw (s + i * (d + 2))%nat * t i - N * / sqrt (dot d dir dir) * (t i * dir i))).
    + rewrite rsum_minus, rsum_scal. fold (dot d t dir). rewrite Ht. ring.
    + intros i Hi. unfold nrm, Rdiv. ring.
Qed.
Lemma sutherland d q rho u p : 0 < rho -> 0 < p -> is_state d q rho u p ->
  let T := 7/5 * p / rho in
  calcSutherlandViscosity d q = T * sqrt T * (1 + 1986/4600) / (T + 1986/4600) /\ 0 < calcSutherlandViscosity d q.
Proof.
  intros Hr Hp H T. assert (P : pressure d q = p) by (apply (state_pressure d q rho u p); auto; lra).
  assert (HT : 0 < T) by (unfold T; apply Rdiv_lt_0_compat; lra).
  assert (E : calcSutherlandViscosity d q = T * sqrt T * (1 + 1986/4600) / (T + 1986/4600)).
  { unfold calcSutherlandViscosity, ST. cbv zeta. rewrite P, (proj1 H). change (gamma * p / rho) with T. rewrite sqrt_sqrt by lra. field. lra. }
  split; [exact E|]. rewrite E. pose proof (sqrt_lt_R0 T HT). apply Rdiv_lt_0_compat; [|lra]. apply Rmult_lt_0_compat; [|lra]. apply Rmult_lt_0_compat; assumption.
Qed.
