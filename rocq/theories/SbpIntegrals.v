(** Integrals of monomials over the reference simplices and their boundaries (proof file). *)
From Coq Require Import Reals List Arith ZArith Lia Lra Psatz FunctionalExtensionality.
From Coquelicot Require Import Coquelicot.
From Verif Require Import Num Vec SbpPolySpec SbpElem SbpElemProofs.
Import ListNotations.
Local Open Scope R_scope.

Lemma zfact_INR n : IZR (zfact n) = INR (fact n).
Proof. induction n as [|n IH]; [reflexivity|]. cbn [zfact fact]. rewrite mult_IZR, IH, <- INR_IZR_INZ, <- mult_INR. f_equal. Qed.
Lemma INR_1 : INR 1 = 1. Proof. reflexivity. Qed.
Lemma fact_pos n : 0 < INR (fact n). Proof. apply lt_0_INR, lt_O_fact. Qed.
Lemma fact_S n : INR (fact (S n)) = (INR n + 1) * INR (fact n).
Proof. change (fact (S n)) with (S n * fact n)%nat. rewrite mult_INR, S_INR. ring. Qed.

Lemma is_RInt_zero (a b : R) : is_RInt (fun _ : R => 0) a b 0.
Proof.
  pose proof (is_RInt_const a b (0 : R)) as P.
  assert (Z : scal (b - a) (0 : R) = 0) by (unfold scal; cbn; unfold mult; cbn; ring).
  exact (eq_rect _ (fun v : R => is_RInt (fun _ : R => 0) a b v) P _ Z).
Qed.
Lemma is_RInt_scalR (f : R -> R) a b c v : is_RInt f a b v -> is_RInt (fun t => c * f t) a b (c * v).
Proof. exact (is_RInt_scal f a b c v). Qed.
Lemma is_RInt_plusR (f g : R -> R) a b v w : is_RInt f a b v -> is_RInt g a b w -> is_RInt (fun t => f t + g t) a b (v + w).
Proof. exact (is_RInt_plus f g a b v w). Qed.
Lemma is_RInt_extR (f g : R -> R) a b v : (forall t, f t = g t) -> is_RInt f a b v -> is_RInt g a b v.
Proof. intros E. apply is_RInt_ext. intros; apply E. Qed.
Lemma is_RInt_uniq (f g : R -> R) a b v w : (forall t, f t = g t) -> is_RInt f a b v -> is_RInt g a b w -> v = w.
Proof.
  intros E Hf Hg. apply (is_RInt_extR f g a b v E) in Hf. rewrite <- (is_RInt_unique g a b v Hf). exact (is_RInt_unique g a b w Hg).
Qed.

Lemma power_int (a : nat) (L : R) : is_RInt (fun t => t ^ a) 0 L (L ^ S a / INR (S a)).
Proof.
  replace (L ^ S a / INR (S a)) with (minus (L ^ S a / INR (S a)) (0 ^ S a / INR (S a))).
  2:{ rewrite pow_i by lia. unfold minus, plus, opp; cbn [Hierarchy.AbelianGroup.sort]; cbn -[pow INR]. field. apply not_0_INR. lia. }
  apply (is_RInt_derive (fun t => t ^ S a / INR (S a)) (fun t => t ^ a)).
  - intros x _. auto_derive; [exact I|]. cbn [pred]. change (match a with 0%nat => 1 | S _ => INR a + 1 end) with (INR (S a)). rewrite !S_INR. pose proof (pos_INR a). field. lra.
  - intros x _. apply (ex_derive_continuous (fun t : R => t ^ a)). auto_derive. exact I.
Qed.
Lemma beta_int (b : nat) : forall (a : nat) (L : R),
  is_RInt (fun t => t ^ a * (L - t) ^ b) 0 L (L ^ S (a + b) * (INR (fact a) * INR (fact b)) / INR (fact (S (a + b)))).
Proof.
  induction b as [|b IH]; intros a L.
  - apply (is_RInt_extR (fun t => t ^ a)); [intros; cbn; ring|].
    replace (L ^ S (a + 0) * (INR (fact a) * INR (fact 0)) / INR (fact (S (a + 0)))) with (L ^ S a / INR (S a)); [apply power_int|].
    rewrite Nat.add_0_r, fact_S, S_INR. cbn [fact]. rewrite INR_1. pose proof (fact_pos a). pose proof (pos_INR a). field. lra.
  - set (F := fun t : R => t ^ S a * (L - t) ^ S b / INR (S a)).
    set (dF := fun t : R => t ^ a * (L - t) ^ S b - INR (S b) / INR (S a) * (t ^ S a * (L - t) ^ b)).
    assert (HF : is_RInt dF 0 L 0).
    { replace 0 with (minus (F L) (F 0)) at 2.
      - apply (is_RInt_derive F dF).
        + intros x _. unfold F, dF. auto_derive; [exact I|]. cbn [pred]. change (match a with 0%nat => 1 | S _ => INR a + 1 end) with (INR (S a)). change (match b with 0%nat => 1 | S _ => INR b + 1 end) with (INR (S b)). rewrite !S_INR. unfold Rminus. cbn [pow]. pose proof (pos_INR a). field. lra.
        + intros x _. apply (ex_derive_continuous dF). unfold dF. auto_derive. exact I.
      - unfold F, minus, plus, opp; cbn -[pow INR]. rewrite (pow_i (S a)) by lia. replace (L - L) with 0 by ring. rewrite (pow_i (S b)) by lia.
        field. apply not_0_INR. lia. }
    specialize (IH (S a) L).
    apply (is_RInt_extR (fun t => dF t + INR (S b) / INR (S a) * (t ^ S a * (L - t) ^ b))).
    { intros t. unfold dF. ring. }
    replace (L ^ S (a + S b) * (INR (fact a) * INR (fact (S b))) / INR (fact (S (a + S b))))
      with (0 + INR (S b) / INR (S a) * (L ^ S (S a + b) * (INR (fact (S a)) * INR (fact b)) / INR (fact (S (S a + b))))).
    + apply is_RInt_plusR; [exact HF|]. apply is_RInt_scalR. exact IH.
    + replace (a + S b)%nat with (S a + b)%nat by lia. rewrite (fact_S a), (fact_S b), !(S_INR a), (S_INR b).
      pose proof (fact_pos (S (S a + b))). pose proof (pos_INR a). field. lra.
Qed.

(** ** triangle *)
Lemma mono2 a b x y : mono [a; b] (pt2 x y) = x ^ a * y ^ b.
Proof. cbn. ring. Qed.
Lemma mono3 a b c x y z : mono [a; b; c] (pt3 x y z) = x ^ a * (y ^ b * z ^ c).
Proof. cbn. ring. Qed.
Lemma tri_unique f v w : tri_integral f v -> tri_integral f w -> v = w.
Proof.
  intros [g [Hg Hv]] [h [Hh Hw]]. apply (is_RInt_uniq g h 0 1); [|assumption|assumption].
  intros x. apply (is_RInt_uniq (fun y => f (pt2 x y)) (fun y => f (pt2 x y)) 0 (1 - x)); auto.
Qed.
Lemma tri_ext f f' v : (forall x y, f (pt2 x y) = f' (pt2 x y)) -> tri_integral f v -> tri_integral f' v.
Proof. intros E [g [Hg Hv]]. exists g. split; [|exact Hv]. intros x. apply (is_RInt_extR (fun y => f (pt2 x y))); [intros; apply E|apply Hg]. Qed.
Lemma tri_zero : tri_integral (fun _ => 0) 0.
Proof. exists (fun _ => 0). split; intros; apply is_RInt_zero. Qed.
Lemma tri_lin f f' c v w : tri_integral f v -> tri_integral f' w -> tri_integral (fun x => c * f x + f' x) (c * v + w).
Proof.
  intros [g [Hg Hv]] [h [Hh Hw]]. exists (fun x => c * g x + h x). split.
  - intros x. apply is_RInt_plusR; [apply is_RInt_scalR|]; auto.
  - apply is_RInt_plusR; [apply is_RInt_scalR|]; auto.
Qed.
(** int x^a y^b (1-x-y)^c over the triangle *)
Lemma tri_beta a b c : tri_integral (fun q => q 0%nat ^ a * (q 1%nat ^ b * (1 - q 0%nat - q 1%nat) ^ c))
  (INR (fact a) * INR (fact b) * INR (fact c) / INR (fact (a + b + c + 2))).
Proof.
  exists (fun x => x ^ a * ((1 - x) ^ S (b + c) * (INR (fact b) * INR (fact c)) / INR (fact (S (b + c))))). split.
  - intros x. cbn [pt2]. apply is_RInt_scalR. apply (beta_int c b (1 - x)).
  - apply (is_RInt_extR (fun x => (INR (fact b) * INR (fact c)) / INR (fact (S (b + c))) * (x ^ a * (1 - x) ^ S (b + c)))).
    { intros x. unfold Rdiv. ring. }
    replace (INR (fact a) * INR (fact b) * INR (fact c) / INR (fact (a + b + c + 2)))
      with (INR (fact b) * INR (fact c) / INR (fact (S (b + c))) * (1 ^ S (a + S (b + c)) * (INR (fact a) * INR (fact (S (b + c)))) / INR (fact (S (a + S (b + c)))))).
    + apply is_RInt_scalR. apply (beta_int (S (b + c)) a 1).
    + rewrite pow1. replace (a + b + c + 2)%nat with (S (a + S (b + c))) by lia.
      pose proof (fact_pos (S (b + c))). pose proof (fact_pos (S (a + S (b + c)))). field. lra.
Qed.
Lemma tri_mono a b : tri_integral (mono [a; b]) (INR (fact a) * INR (fact b) / INR (fact (a + b + 2))).
Proof.
  apply (tri_ext (fun q => q 0%nat ^ a * (q 1%nat ^ b * (1 - q 0%nat - q 1%nat) ^ 0))); [intros; cbn; ring|].
  replace (INR (fact a) * INR (fact b) / INR (fact (a + b + 2))) with (INR (fact a) * INR (fact b) * INR (fact 0) / INR (fact (a + b + 0 + 2))).
  - apply tri_beta.
  - replace (a + b + 0 + 2)%nat with (a + b + 2)%nat by lia. cbn [fact]. rewrite INR_1. unfold Rdiv. ring.
Qed.

(** ** tetrahedron *)
Lemma tet_unique f v w : tet_integral f v -> tet_integral f w -> v = w.
Proof.
  intros (g & h & Hg & Hh & Hv) (g' & h' & Hg' & Hh' & Hw).
  assert (G : forall x y, g x y = g' x y).
  { intros x y. apply (is_RInt_uniq (fun z => f (pt3 x y z)) (fun z => f (pt3 x y z)) 0 (1 - x - y)); auto. }
  apply (is_RInt_uniq h h' 0 1); [|assumption|assumption].
  intros x. apply (is_RInt_uniq (g x) (g' x) 0 (1 - x)); auto.
Qed.
Lemma tet_ext f f' v : (forall x y z, f (pt3 x y z) = f' (pt3 x y z)) -> tet_integral f v -> tet_integral f' v.
Proof. intros E (g & h & Hg & Hh & Hv). exists g, h. split; [|auto]. intros x y. apply (is_RInt_extR (fun z => f (pt3 x y z))); [intros; apply E|apply Hg]. Qed.
Lemma tet_zero : tet_integral (fun _ => 0) 0.
Proof. exists (fun _ _ => 0), (fun _ => 0). split; [|split]; intros; apply is_RInt_zero. Qed.
Lemma tet_lin f f' c v w : tet_integral f v -> tet_integral f' w -> tet_integral (fun x => c * f x + f' x) (c * v + w).
Proof.
  intros (g & h & Hg & Hh & Hv) (g' & h' & Hg' & Hh' & Hw). exists (fun x y => c * g x y + g' x y), (fun x => c * h x + h' x).
  split; [|split]; intros; (apply is_RInt_plusR; [apply is_RInt_scalR|]); auto.
Qed.
Lemma tet_mono a b c : tet_integral (mono [a; b; c]) (INR (fact a) * INR (fact b) * INR (fact c) / INR (fact (a + b + c + 3))).
Proof.
  destruct (tri_beta a b (S c)) as [g [Hg Hv]].
  exists (fun x y => x ^ a * (y ^ b * ((1 - x - y) ^ S c / INR (S c)))), (fun x => / INR (S c) * g x). split; [|split].
  - intros x y. apply (is_RInt_extR (fun z => x ^ a * (y ^ b * z ^ c))); [intros; symmetry; apply mono3|].
    apply is_RInt_scalR, is_RInt_scalR, power_int.
  - intros x. apply (is_RInt_extR (fun y => / INR (S c) * (x ^ a * (y ^ b * (1 - x - y) ^ S c)))); [intros; unfold Rdiv; ring|].
    apply is_RInt_scalR. exact (Hg x).
  - replace (INR (fact a) * INR (fact b) * INR (fact c) / INR (fact (a + b + c + 3)))
      with (/ INR (S c) * (INR (fact a) * INR (fact b) * INR (fact (S c)) / INR (fact (a + b + S c + 2)))).
    + apply is_RInt_scalR. exact Hv.
    + replace (a + b + c + 3)%nat with (a + b + S c + 2)%nat by lia. rewrite fact_S, S_INR.
      pose proof (pos_INR c). pose proof (fact_pos (a + b + S c + 2)). field. lra.
Qed.

(** ** boundaries *)
Lemma zero_pow a : 0 ^ a = if Nat.eqb a 0 then 1 else 0.
Proof. destruct a; [reflexivity|]. cbn [Nat.eqb]. apply pow_i. lia. Qed.
Definition bval (d k : nat) (e : list nat) : R := IZR (bdr_num k e) / IZR (vol_den (d - 1) e).
Definition vval (d : nat) (e : list nat) : R := IZR (vol_num e) / IZR (vol_den d e).
Lemma vval2 a b : vval 2 [a; b] = INR (fact a) * INR (fact b) / INR (fact (a + b + 2)).
Proof. unfold vval, vol_num, vol_den, zfacts. cbn [fold_right list_sum]. rewrite !mult_IZR, !zfact_INR. replace (a + (b + 0) + 2)%nat with (a + b + 2)%nat by lia. unfold Rdiv. ring. Qed.
Lemma vval3 a b c : vval 3 [a; b; c] = INR (fact a) * INR (fact b) * INR (fact c) / INR (fact (a + b + c + 3)).
Proof. unfold vval, vol_num, vol_den, zfacts. cbn [fold_right list_sum]. rewrite !mult_IZR, !zfact_INR. replace (a + (b + (c + 0)) + 3)%nat with (a + b + c + 3)%nat by lia. unfold Rdiv. ring. Qed.
Lemma bval2 k a b : bval 2 k [a; b] = if Nat.eqb (nth k [a; b] 0%nat) 0 then 0 else INR (fact a) * INR (fact b) / INR (fact (S (b + a))).
Proof.
  unfold bval, bdr_num. destruct (Nat.eqb _ 0); [unfold Rdiv; ring|]. unfold zfacts, vol_den. cbn [fold_right list_sum Nat.sub]. rewrite !mult_IZR, !zfact_INR.
  replace (a + (b + 0) + 1)%nat with (S (b + a)) by lia. unfold Rdiv. ring.
Qed.
Lemma bval3 k a b c : bval 3 k [a; b; c] = if Nat.eqb (nth k [a; b; c] 0%nat) 0 then 0 else INR (fact a) * INR (fact b) * INR (fact c) / INR (fact (a + b + c + 2)).
Proof.
  unfold bval, bdr_num. destruct (Nat.eqb _ 0); [unfold Rdiv; ring|]. unfold zfacts, vol_den. cbn [fold_right list_sum Nat.sub]. rewrite !mult_IZR, !zfact_INR.
  replace (a + (b + (c + 0)) + 2)%nat with (a + b + c + 2)%nat by lia. unfold Rdiv. ring.
Qed.
Lemma trib_mono k a b : (k < 2)%nat -> tri_boundary k (mono [a; b]) (bval 2 k [a; b]).
Proof.
  intros Hk. set (v := INR (fact b) * INR (fact a) / INR (fact (S (b + a)))).
  assert (Hh : is_RInt (fun t => mono [a; b] (pt2 (1 - t) t)) 0 1 v).
  { apply (is_RInt_extR (fun t => t ^ b * (1 - t) ^ a)); [intros; rewrite mono2; ring|].
    replace v with (1 ^ S (b + a) * (INR (fact b) * INR (fact a)) / INR (fact (S (b + a)))) by (unfold v; rewrite pow1; unfold Rdiv; ring).
    apply beta_int. }
  assert (HL : forall m, is_RInt (fun t => t ^ m) 0 1 (INR (fact m) / INR (fact (S m)))).
  { intros m. replace (INR (fact m) / INR (fact (S m))) with (1 ^ S m / INR (S m)); [apply power_int|].
    rewrite pow1, fact_S, S_INR. pose proof (fact_pos m). pose proof (pos_INR m). field. lra. }
  exists v. rewrite bval2. destruct k as [|[|k]]; [| |lia]; cbn [nth].
  - exists (if Nat.eqb a 0 then INR (fact b) / INR (fact (S b)) else 0). split; [exact Hh|]. split.
    + apply (is_RInt_extR (fun t => 0 ^ a * t ^ b)); [intros; unfold upd_at; cbn; ring|]. rewrite zero_pow.
      destruct (Nat.eqb a 0); [|apply (is_RInt_extR (fun _ => 0)); [intros; ring|apply is_RInt_zero]].
      apply (is_RInt_extR (fun t => t ^ b)); [intros; ring|]. apply HL.
    + unfold v. destruct (Nat.eqb_spec a 0) as [->|N]; [|unfold Rdiv; ring]. rewrite Nat.add_0_r. cbn [fact]. rewrite INR_1. unfold Rdiv. ring.
  - exists (if Nat.eqb b 0 then INR (fact a) / INR (fact (S a)) else 0). split; [exact Hh|]. split.
    + apply (is_RInt_extR (fun t => 0 ^ b * t ^ a)); [intros; unfold upd_at; cbn; ring|]. rewrite zero_pow.
      destruct (Nat.eqb b 0); [|apply (is_RInt_extR (fun _ => 0)); [intros; ring|apply is_RInt_zero]].
      apply (is_RInt_extR (fun t => t ^ a)); [intros; ring|]. apply HL.
    + unfold v. destruct (Nat.eqb_spec b 0) as [->|N]; [|unfold Rdiv; ring]. cbn [Nat.add]. cbn [fact]. rewrite INR_1. unfold Rdiv. ring.
Qed.
Lemma tri_scal f c v : tri_integral f v -> tri_integral (fun x => c * f x) (c * v).
Proof. intros Hf. apply (tri_ext (fun x => c * f x + 0)); [intros; ring|]. replace (c * v) with (c * v + 0) by ring. apply (tri_lin f (fun _ => 0) c v 0 Hf tri_zero). Qed.
Lemma tetb_mono k a b c : (k < 3)%nat -> tet_boundary k (mono [a; b; c]) (bval 3 k [a; b; c]).
Proof.
  intros Hk. set (v := INR (fact a) * INR (fact b) * INR (fact c) / INR (fact (a + b + c + 2))).
  assert (Hh : tri_integral (fun q => mono [a; b; c] (pt3 (q 0%nat) (q 1%nat) (1 - q 0%nat - q 1%nat))) v).
  { apply (tri_ext (fun q => q 0%nat ^ a * (q 1%nat ^ b * (1 - q 0%nat - q 1%nat) ^ c))); [intros; rewrite mono3; reflexivity|apply tri_beta]. }
  exists v. rewrite bval3.
  assert (HL : forall (m a' b' : nat) (g : (nat -> R) -> R), (forall q, g q = 0 ^ m * mono [a'; b'] q) ->
     tri_integral g (if Nat.eqb m 0 then INR (fact a') * INR (fact b') / INR (fact (a' + b' + 2)) else 0)).
  { intros m a' b' g Hg. apply (tri_ext (fun q => 0 ^ m * mono [a'; b'] q)); [intros; symmetry; apply Hg|].
    rewrite zero_pow. destruct (Nat.eqb m 0).
    - replace (INR (fact a') * INR (fact b') / INR (fact (a' + b' + 2))) with (1 * (INR (fact a') * INR (fact b') / INR (fact (a' + b' + 2)))) by ring.
      apply tri_scal, tri_mono.
    - apply (tri_ext (fun _ => 0)); [intros; ring|apply tri_zero]. }
  destruct k as [|[|[|k]]]; [| | |lia]; cbn [nth face_point].
  - eexists. split; [exact Hh|]. split; [apply (HL a b c); intros; rewrite mono3; cbn; ring|].
    unfold v. destruct (Nat.eqb_spec a 0) as [->|N]; [|unfold Rdiv; ring]. cbn [fact Nat.add]. rewrite INR_1. unfold Rdiv. ring.
  - eexists. split; [exact Hh|]. split; [apply (HL b a c); intros; rewrite mono3; cbn; ring|].
    unfold v. destruct (Nat.eqb_spec b 0) as [->|N]; [|unfold Rdiv; ring]. rewrite Nat.add_0_r. cbn [fact]. rewrite INR_1. unfold Rdiv. ring.
  - eexists. split; [exact Hh|]. split; [apply (HL c a b); intros; rewrite mono3; cbn; ring|].
    unfold v. destruct (Nat.eqb_spec c 0) as [->|N]; [|unfold Rdiv; ring]. rewrite Nat.add_0_r. cbn [fact]. rewrite INR_1. unfold Rdiv. ring.
Qed.
