(** Curves of every degree: the pieces join, and derive() is the derivative of eval. *)
From Coq Require Import Reals List Arith Bool Lia Lra Psatz.
From Coquelicot Require Import Coquelicot.
From Verif Require Import Steel SteelProofs.
Import ListNotations.
Local Open Scope R_scope.

Lemma boor_join c k q : degree c = S q -> knot c k < knot c (k + 1) -> boor c (knot c (k + 1)) (S q) k = boor c (knot c (k + 1)) (S q) (k + 1).
Proof.
  intros Dg H. cbn [boor]. rewrite Dg. replace (k + S q - q)%nat with (k + 1)%nat by lia. replace (k + 1 - 1)%nat with k by lia.
  replace ((knot c (k + 1) - knot c k) / (knot c (k + 1) - knot c k)) with 1 by (field; lra). unfold Rdiv. replace (knot c (k + 1) - knot c (k + 1)) with 0 by ring. ring.
Qed.
Lemma piece_eval c : sound c -> (0 < degree c)%nat -> distinct c -> forall k u, (degree c <= k < length (cps c))%nat -> knot c k <= u <= knot c (k + 1) ->
  evalCurve c u = Fine (boor c u (degree c) k).
Proof.
  intros So Dp D k u Hk Hu. assert (S' := So). destruct S' as (_ & Hm & Mo).
  assert (L1 : knot c (degree c) <= knot c k) by (apply Mo; lia). assert (L2 : knot c (k + 1) <= knot c (length (cps c))) by (apply Mo; lia).
  assert (L3 : knot c k < knot c (k + 1)) by (apply D; lia).
  destruct (eval_span c u So) as (k' & E & Hk' & Hu' & Hs'); [lra|lra|]. rewrite E. f_equal.
  destruct (degree c) as [|q] eqn:Dq; [lia|].
  destruct (lt_eq_lt_dec k k') as [[H|H]|H]; [|now subst|].
  - destruct (Nat.eq_dec k' (k + 1)) as [->|N].
    + assert (u = knot c (k + 1)) by lra. subst u. symmetry. now apply boor_join.
    + assert (knot c (k + 1) < knot c k') by (apply distinct_lt; [exact D|lia|lia]). lra.
  - destruct (Nat.eq_dec k (k' + 1)) as [->|N].
    + assert (u = knot c (k' + 1)) by lra. subst u. now apply boor_join.
    + assert (knot c (k' + 1) < knot c k) by (apply distinct_lt; [exact D|lia|lia]). lra.
Qed.

Section Interval.
Variables (c : curve) (k : nat).
Hypothesis So : sound c.
Hypothesis Hk : (degree c <= k < length (cps c))%nat.
Hypothesis Hs : knot c k < knot c (k + 1).
Let p := degree c.
Lemma wide r i : (S r <= p)%nat -> (k - p + S r <= i <= k)%nat -> knot c i < knot c (i + p - r).
Proof.
  intros Hr Hi. destruct So as (_ & Hm & Mo). fold p in Hm, Hk. assert (knot c i <= knot c k) by (apply Mo; lia). assert (knot c (k + 1) <= knot c (i + p - r)) by (apply Mo; lia). lra.
Qed.
Lemma boor_diff u r i : (S r <= p)%nat -> (k - p + S r <= i)%nat -> (i + 1 <= k)%nat ->
  boor c u (S r) (i + 1) - boor c u (S r) i =
  (u - knot c (i + 1)) / (knot c (i + 1 + p - r) - knot c (i + 1)) * (boor c u r (i + 1) - boor c u r i) + (knot c (i + p - r) - u) / (knot c (i + p - r) - knot c i) * (boor c u r i - boor c u r (i - 1)).
Proof.
  intros Hr Hi Hi'. assert (W := wide r i Hr ltac:(lia)). assert (W' := wide r (i + 1) Hr ltac:(lia)). cbn [boor]. fold p. replace (i + 1 - 1)%nat with i by lia. field. lra.
Qed.
Lemma boor_deriv : forall r i u, (S r <= p)%nat -> (k - p + S r <= i <= k)%nat ->
  is_derive (fun u => boor c u (S r) i) u (INR (S r) * (boor c u r i - boor c u r (i - 1)) / (knot c (i + p - r) - knot c i)).
Proof.
  induction r as [|r IH]; intros i u Hr Hi; assert (W := wide _ i Hr Hi).
  - cbn [boor]. fold p. auto_derive; [exact I|]. cbn [INR]. field. lra.
  - assert (DA := IH (i - 1)%nat u ltac:(lia) ltac:(lia)). assert (DB := IH i u ltac:(lia) ltac:(lia)).
    set (w := fun u => (u - knot c i) / (knot c (i + p - S r) - knot c i)).
    assert (Dw : is_derive w u (/ (knot c (i + p - S r) - knot c i))) by (unfold w; auto_derive; [exact I|field; lra]).
    apply (is_derive_ext (fun u => (1 - w u) * boor c u (S r) (i - 1) + w u * boor c u (S r) i)); [intros t; reflexivity|].
    assert (D1 := is_derive_mult w (fun u => boor c u (S r) i) u _ _ Dw DB Rmult_comm).
    assert (Dv : is_derive (fun u => 1 - w u) u (- / (knot c (i + p - S r) - knot c i))) by (unfold w; auto_derive; [exact I|field; lra]).
    assert (D2 := is_derive_mult (fun u => 1 - w u) (fun u => boor c u (S r) (i - 1)) u _ _ Dv DA Rmult_comm).
    assert (D3 := is_derive_plus _ _ u _ _ D2 D1). eapply is_derive_ext in D3; [|intros t; reflexivity].
    match type of D3 with is_derive _ _ ?l => match goal with |- is_derive _ _ ?m => assert (E : m = l); [|rewrite E; exact D3] end end.
    unfold plus, mult; cbn [AbelianGroup.sort Ring.sort]. cbn -[INR boor Nat.sub Nat.add].
    assert (Df := boor_diff u r (i - 1) ltac:(lia) ltac:(lia) ltac:(lia)). replace (i - 1 + 1)%nat with i in Df by lia.
    assert (W1 := wide r i ltac:(lia) ltac:(lia)). assert (W2 := wide r (i - 1) ltac:(lia) ltac:(lia)). replace (i - 1 + p - r)%nat with (i + p - S r)%nat in * by lia.
    match type of Df with _ = ?x => assert (Df' : boor c u (S r) i = boor c u (S r) (i - 1) + x) by lra end. rewrite Df'. unfold w. rewrite (S_INR (S r)). field. lra.
Qed.
Lemma boor_derived d u : derive c = Fine d -> forall r i, (S r <= p)%nat -> (k - p + r <= i)%nat -> (i + 1 <= k)%nat ->
  boor d u r i = INR p * (boor c u r (i + 1) - boor c u r i) / (knot c (i + 1 + p - r) - knot c (i + 1)).
Proof.
  intros Hd. destruct (derive_facts c d So Hd) as (F1 & F2 & F3 & F4 & F5). assert (S' := So). destruct S' as (_ & Hm & Mo). fold p in F1, F5, Hm, Hk.
  induction r as [|r IH]; intros i Hr Hi Hi'.
  - cbn [boor]. rewrite F5 by lia. replace (i + p + 1)%nat with (i + 1 + p - 0)%nat by lia. reflexivity.
  - assert (W1 := wide r i ltac:(lia) ltac:(lia)). assert (W2 := wide r (i + 1) ltac:(lia) ltac:(lia)). assert (W3 := wide (S r) (i + 1) ltac:(lia) ltac:(lia)).
    rewrite (boor_diff u r i) by lia. cbn [boor]. rewrite (IH (i - 1)%nat) by lia. rewrite (IH i) by lia. rewrite !F4 by lia. replace (i - 1 + 1)%nat with i by lia.
    replace (i + degree d - r + 1)%nat with (i + p - r)%nat by lia. replace (i + 1 + p - S r)%nat with (i + p - r)%nat in * by lia. field. lra.
Qed.
End Interval.

(** with distinct inner knots and degree two or more derive() is the derivative of eval within the domain, knots included *)
Lemma spline_derive c d u : sound c -> (2 <= degree c)%nat -> distinct c -> derive c = Fine d -> knot c (degree c) < u < knot c (length (cps c)) ->
  exists v, evalCurve d u = Fine v /\ is_derive (value c) u v.
Proof.
  intros So Dg D Hd Hu. destruct (derive_facts c d So Hd) as (F1 & F2 & F3 & F4 & F5). assert (Sd := derive_sound c d So Hd).
  assert (So' := So). destruct So' as (Hp & Hm & Mo).
  assert (Dd : distinct d) by (intros j Hj; rewrite !F4 by lia; replace (j + 1 + 1)%nat with (S j + 1)%nat by lia; replace (j + 1)%nat with (S j) at 1 by lia; apply D; lia).
  assert (Ev : forall k t, (degree c <= k < length (cps c))%nat -> knot c k <= t <= knot c (k + 1) -> value c t = boor c t (degree c) k) by (intros k t H1 H2; unfold value; now rewrite (piece_eval c So ltac:(lia) D k t H1 H2)).
  assert (Ed : forall k t, (degree c <= k < length (cps c))%nat -> knot c k <= t <= knot c (k + 1) -> evalCurve d t = Fine (boor d t (degree d) (k - 1))).
  { intros k t H1 H2. apply (piece_eval d Sd ltac:(lia) Dd (k - 1) t); [lia|]. rewrite !F4 by lia. replace (k - 1 + 1)%nat with k by lia. exact H2. }
  assert (Der : forall k t, (degree c <= k < length (cps c))%nat -> is_derive (fun t => boor c t (degree c) k) t (boor d t (degree d) (k - 1))).
  { intros k t H1. assert (L : knot c k < knot c (k + 1)) by (apply D; lia).
    assert (X := boor_deriv c k So H1 L (degree d) k t ltac:(lia) ltac:(lia)). replace (S (degree d)) with (degree c) in X by lia.
    rewrite (boor_derived c k So H1 L d t Hd (degree d) (k - 1)) by lia. replace (k - 1 + 1)%nat with k by lia. exact X. }
  destruct (eval_span c u So) as (k & _ & Hk & Hu' & Hs); [lra|lra|].
  exists (boor d u (degree d) (k - 1)). split; [exact (Ed k u Hk Hu')|].
  destruct (Req_dec u (knot c k)) as [El|Nl]; [|destruct (Req_dec u (knot c (k + 1))) as [Er|Nr]].
  - assert (Hk1 : (degree c < k)%nat) by (destruct (Nat.eq_dec k (degree c)) as [X|X]; [rewrite <- X in Hu; lra|lia]).
    assert (L : knot c (k - 1) < knot c k) by (replace k with (k - 1 + 1)%nat at 2 by lia; apply D; lia).
    apply (glue (value c) (fun t => boor c t (degree c) (k - 1)) (fun t => boor c t (degree c) k) (knot c (k - 1)) u (knot c (k + 1))); [lra| | | |apply Der; exact Hk].
    + intros t Ht. apply Ev; [lia|]. replace (k - 1 + 1)%nat with k by lia. lra.
    + intros t Ht. apply Ev; [exact Hk|lra].
    + replace (boor d u (degree d) (k - 1)) with (boor d u (degree d) (k - 1 - 1)); [apply Der; lia|].
      assert (A := Ed k u Hk Hu'). assert (B := Ed (k - 1)%nat u ltac:(lia)). replace (k - 1 + 1)%nat with k in B by lia. specialize (B ltac:(lra)). congruence.
  - assert (Hk1 : (k + 1 < length (cps c))%nat) by (destruct (Nat.eq_dec (k + 1) (length (cps c))) as [X|X]; [rewrite X in Er; lra|lia]).
    assert (L : knot c (k + 1) < knot c (k + 1 + 1)) by (apply D; lia).
    apply (glue (value c) (fun t => boor c t (degree c) k) (fun t => boor c t (degree c) (k + 1)) (knot c k) u (knot c (k + 1 + 1))); [lra| | |apply Der; exact Hk|].
    + intros t Ht. apply Ev; [exact Hk|lra].
    + intros t Ht. apply Ev; [lia|lra].
    + replace (boor d u (degree d) (k - 1)) with (boor d u (degree d) (k + 1 - 1)); [apply Der; lia|].
      assert (A := Ed k u Hk Hu'). assert (B := Ed (k + 1)%nat u ltac:(lia) ltac:(lra)). congruence.
  - apply (glue (value c) (fun t => boor c t (degree c) k) (fun t => boor c t (degree c) k) (knot c k) u (knot c (k + 1))); [lra|intros t Ht; apply Ev; [exact Hk|lra]|intros t Ht; apply Ev; [exact Hk|lra]|apply Der; exact Hk|apply Der; exact Hk].
Qed.
(** growth of a curve from the values of its derivative's pieces *)
Lemma piece_growth c d k K : sound c -> (1 <= degree c)%nat -> (degree c <= k < length (cps c))%nat -> knot c k < knot c (k + 1) -> derive c = Fine d ->
  (forall u, knot c k <= u <= knot c (k + 1) -> K <= boor d u (degree d) (k - 1)) ->
  forall a b, knot c k <= a -> a <= b -> b <= knot c (k + 1) -> K * (b - a) <= boor c b (degree c) k - boor c a (degree c) k.
Proof.
  intros So Dg Hk L Hd HK. destruct (derive_facts c d So Hd) as (F1 & F2 & F3 & F4 & F5). assert (S' := So). destruct S' as (_ & Hm & Mo).
  apply (growth (fun u => boor c u (degree c) k) (fun u => boor d u (degree d) (k - 1)) K); [|exact HK].
  intros x _. assert (X := boor_deriv c k So Hk L (degree d) k x ltac:(lia) ltac:(lia)). replace (S (degree d)) with (degree c) in X by lia.
  rewrite (boor_derived c k So Hk L d x Hd (degree d) (k - 1)) by lia. replace (k - 1 + 1)%nat with k by lia. exact X.
Qed.
Lemma spline_growth c d K : sound c -> (1 <= degree c)%nat -> distinct c -> derive c = Fine d ->
  (forall k u, (degree c <= k < length (cps c))%nat -> knot c k <= u <= knot c (k + 1) -> K <= boor d u (degree d) (k - 1)) ->
  forall a b, knot c (degree c) <= a -> a <= b -> b <= knot c (length (cps c)) -> K * (b - a) <= value c b - value c a.
Proof.
  intros So Dg D Hd HK a b Ha Hab Hb. assert (S' := So). destruct S' as (Hp & Hm & Mo).
  apply (chain (value c) K (knot c) (degree c) (length (cps c) - degree c)); [intros k Hk; left; apply D; lia| |exact Ha|exact Hab|replace (degree c + (length (cps c) - degree c))%nat with (length (cps c)) by lia; exact Hb].
  intros k x y Hk Hx Hxy Hy.
  assert (Ev : forall t, knot c k <= t <= knot c (k + 1) -> value c t = boor c t (degree c) k) by (intros t Ht; unfold value; now rewrite (piece_eval c So ltac:(lia) D k t ltac:(lia) Ht)).
  rewrite !Ev by lra. apply (piece_growth c d k K So Dg ltac:(lia) (D k ltac:(lia)) Hd); [|exact Hx|exact Hxy|exact Hy]. intros u Hu. apply HK; [lia|exact Hu].
Qed.
