From Coq Require Import Reals ZArith List Bool Arith Permutation Lra Lia Psatz.
From Verif Require Import Num Vec KdTree.
Import ListNotations.
Local Open Scope R_scope.

Section P.
Context (dim : nat) (rnd : R -> R) (ne : nat -> nat -> list nd -> list nd).
Hypothesis Hdim : (0 < dim)%nat.
Hypothesis Hrnd : rounding rnd.
Hypothesis Hne : nth_element_contract ne.

Local Notation dist := (distance dim rnd).

Lemma rnd_mono x y : x <= y -> rnd x <= rnd y. Proof. apply Hrnd. Qed.
Lemma rnd_0 : rnd 0 = 0. Proof. apply Hrnd. Qed.
Lemma rnd_idem x : rnd (rnd x) = rnd x. Proof. apply Hrnd. Qed.
Lemma rnd_nonneg x : 0 <= x -> 0 <= rnd x. Proof. intros H. rewrite <- rnd_0. apply rnd_mono, H. Qed.

Lemma dist_upto_props k p q : 0 <= dist_upto rnd k p q /\ rnd (dist_upto rnd k p q) = dist_upto rnd k p q.
Proof.
  induction k as [|k [IH1 IH2]]; cbn [dist_upto]; [rewrite rnd_0; lra|].
  split; [|apply rnd_idem]. apply rnd_nonneg.
  assert (0 <= rnd (rnd (p k - q k) * rnd (p k - q k))) by (apply rnd_nonneg, Rle_0_sqr). lra.
Qed.

Lemma dist_nonneg p q : 0 <= dist p q. Proof. apply dist_upto_props. Qed.

Lemma dist_ge_coord k p q i : (i < k)%nat -> rnd (rnd (p i - q i) * rnd (p i - q i)) <= dist_upto rnd k p q.
Proof.
  induction k as [|k IH]; intros Hi; [lia|]. cbn [dist_upto].
  destruct (dist_upto_props k p q) as [H0 H1].
  assert (Hs : 0 <= rnd (rnd (p k - q k) * rnd (p k - q k))) by (apply rnd_nonneg, Rle_0_sqr).
  destruct (Nat.eq_dec i k) as [->|Hn].
  - rewrite <- rnd_idem at 1. apply rnd_mono. lra.
  - eapply Rle_trans; [apply IH; lia|]. rewrite <- H1 at 1. apply rnd_mono. lra.
Qed.

(** the geometric fact behind pruning *)
Lemma prune_right (a c pt : vec) index : (index < dim)%nat ->
  0 < rnd (a index - pt index) -> a index <= c index ->
  rnd (rnd (a index - pt index) * rnd (a index - pt index)) <= dist c pt.
Proof.
  intros Hi Hp Hle. eapply Rle_trans; [|apply (dist_ge_coord dim c pt index Hi)].
  apply rnd_mono. assert (rnd (a index - pt index) <= rnd (c index - pt index)) by (apply rnd_mono; lra). nra.
Qed.
Lemma prune_left (a c pt : vec) index : (index < dim)%nat ->
  rnd (a index - pt index) <= 0 -> c index <= a index ->
  rnd (rnd (a index - pt index) * rnd (a index - pt index)) <= dist c pt.
Proof.
  intros Hi Hp Hle. eapply Rle_trans; [|apply (dist_ge_coord dim c pt index Hi)].
  apply rnd_mono. assert (rnd (c index - pt index) <= rnd (a index - pt index)) by (apply rnd_mono; lra). nra.
Qed.

(** ** Tree well-formedness: range [b,e) of the array, splitting coordinate [index] *)
Definition pt_at (arr : list nd) (i : nat) : vec := ndpt (nth i arr nd0).
Inductive kdok (arr : list nd) : nat -> nat -> nat -> option nat -> Prop :=
| kd_nil index b e : (e <= b)%nat -> kdok arr index b e None
| kd_node index b e n : (b <= n < e)%nat -> (e <= length arr)%nat ->
    (forall i, (b <= i < n)%nat -> pt_at arr i index <= pt_at arr n index) ->
    (forall i, (n < i < e)%nat -> pt_at arr n index <= pt_at arr i index) ->
    kdok arr ((index + 1) mod dim) b n (ndl (nth n arr nd0)) ->
    kdok arr ((index + 1) mod dim) (n + 1) e (ndr (nth n arr nd0)) ->
    kdok arr index b e (Some n).

Definition D (arr : list nd) (pt : vec) (i : nat) : R := dist (pt_at arr i) pt.
Definition sinv (arr : list nd) (pt : vec) (s : qst) : Prop :=
  match best s with None => True | Some j => (j < length arr)%nat /\ best_dist s = D arr pt j end.
Definition improves (arr : list nd) (pt : vec) (b e : nat) (s s' : qst) : Prop :=
  sinv arr pt s' /\
  (visited s' <= visited s + (e - b))%nat /\
  (best s <> None -> best s' <> None /\ best_dist s' <= best_dist s) /\
  ((b < e)%nat -> best s' <> None) /\
  (forall i, (b <= i < e)%nat -> best_dist s' <= D arr pt i) /\
  (best s' = best s \/ exists j, best s' = Some j /\ (b <= j < e)%nat).

Lemma nth_error_nth_d (arr : list nd) k : (k < length arr)%nat -> nth_error arr k = Some (nth k arr nd0).
Proof. intros H. apply nth_error_nth'. exact H. Qed.

Lemma nearest_rec_ok arr pt : forall index b e p, kdok arr index b e p -> (index < dim)%nat ->
  forall fuel s, (e - b <= fuel)%nat -> sinv arr pt s ->
  exists s', nearest_rec dim rnd fuel arr p pt index s = Val s' /\ improves arr pt b e s s'.
Proof.
  induction 1 as [index b e Hbe|index b e n Hn He HL HR Hl IHl Hr IHr]; intros Hidx fuel s Hf Hs.
  { exists s. split; [destruct fuel; reflexivity|].
    split; [exact Hs|]. split; [lia|]. split; [intros; split; [assumption|lra]|].
    split; [lia|]. split; [intros; lia|left; reflexivity]. }
  destruct fuel as [|fuel]; [lia|]. cbn [nearest_rec].
  rewrite (nth_error_nth_d arr n) by lia.
  set (a := nth n arr nd0) in *. set (d := dist (ndpt a) pt).
  assert (Hidx' : ((index + 1) mod dim < dim)%nat) by (apply Nat.mod_upper_bound; lia).
  specialize (IHl Hidx'). specialize (IHr Hidx').
  match goal with |- context [Reqb (best_dist ?x) 0] => set (s1 := x) end.
  assert (Hd : d = D arr pt n) by reflexivity.
  assert (Hd0 : 0 <= d) by apply dist_nonneg.
  assert (HD0 : forall i, 0 <= D arr pt i) by (intros; apply dist_nonneg).
  assert (H1 : sinv arr pt s1 /\ best s1 <> None /\ best_dist s1 <= d /\
     (best s <> None -> best_dist s1 <= best_dist s) /\ visited s1 = S (visited s) /\
     (best s1 = best s \/ best s1 = Some n)).
  { unfold s1. unfold sinv in Hs. destruct (best s) as [j|] eqn:Eb.
    - destruct (Rltb_spec d (best_dist s)) as [Hlt|Hge].
      + unfold sinv; cbn [best best_dist visited]. repeat split; try (intros; lra); try discriminate; auto; lia.
      + unfold sinv; cbn [best best_dist visited]. repeat split; try (intros; lra); try discriminate; auto; tauto.
    - unfold sinv; cbn [best best_dist visited]. repeat split; try discriminate; try lia; auto; try lra. congruence. }
  destruct H1 as (Hs1 & Hb1 & Hd1 & Hm1 & Hv1 & Hw1).
  assert (Hb1d : exists j, best s1 = Some j /\ best_dist s1 = D arr pt j).
  { unfold sinv in Hs1. destruct (best s1) as [j|]; [|congruence]. exists j; tauto. }
  destruct (Reqb_spec (best_dist s1) 0) as [Hz|Hnz].
  { exists s1. split; [reflexivity|]. split; [exact Hs1|]. split; [rewrite Hv1; lia|].
    split; [intros; split; [exact Hb1|auto]|]. split; [auto|]. split; [intros; rewrite Hz; apply HD0|].
    destruct Hw1 as [Hw|Hw]; [left; exact Hw|right; exists n; split; [exact Hw|lia]]. }
  set (dx := rnd (get a index - pt index)).
  (* both orders of visiting *)
  assert (Hgo : forall pn pf bn en bf ef,
     (forall fuel s, (en - bn <= fuel)%nat -> sinv arr pt s ->
        exists s', nearest_rec dim rnd fuel arr pn pt ((index + 1) mod dim) s = Val s' /\ improves arr pt bn en s s') ->
     (forall fuel s, (ef - bf <= fuel)%nat -> sinv arr pt s ->
        exists s', nearest_rec dim rnd fuel arr pf pt ((index + 1) mod dim) s = Val s' /\ improves arr pt bf ef s s') ->
     (en - bn <= fuel)%nat -> (ef - bf <= fuel)%nat -> ((en - bn) + (ef - bf) < e - b)%nat ->
     (b <= bn /\ en <= e)%nat -> (b <= bf /\ ef <= e)%nat ->
     (forall i, (b <= i < e)%nat -> i = n \/ (bn <= i < en)%nat \/ (bf <= i < ef)%nat) ->
     (forall i, (bf <= i < ef)%nat -> rnd (dx * dx) <= D arr pt i) ->
     exists s', match nearest_rec dim rnd fuel arr pn pt ((index + 1) mod dim) s1 with
       | Val s2 => if Rleb (best_dist s2) (rnd (dx * dx)) then Val s2
                   else nearest_rec dim rnd fuel arr pf pt ((index + 1) mod dim) s2
       | x => x end = Val s' /\ improves arr pt b e s s').
  { intros pn pf bn en bf ef Hrn Hrf Hfn Hff Hsz Hrn' Hrf' Hcov Hpr.
    destruct (Hrn fuel s1 Hfn Hs1) as (s2 & E2 & I2). rewrite E2.
    destruct I2 as (J1 & J2 & J3 & J4 & J5 & J6). destruct (J3 Hb1) as [J3a J3b].
    assert (Hwhere2 : best s2 = best s \/ exists j, best s2 = Some j /\ (b <= j < e)%nat).
    { destruct J6 as [J6|(j & Ej & Hj)]; [|right; exists j; split; [exact Ej|lia]].
      rewrite J6. destruct Hw1 as [Hw|Hw]; [left; exact Hw|right; exists n; split; [exact Hw|lia]]. }
    destruct (Rleb_spec (best_dist s2) (rnd (dx * dx))) as [Hp|Hp].
    - exists s2. split; [reflexivity|]. split; [exact J1|]. split; [lia|].
      split; [intros Hb; split; [exact J3a|specialize (Hm1 Hb); lra]|]. split; [auto|].
      split; [|exact Hwhere2].
      intros i Hi. destruct (Hcov i Hi) as [->|[Hi'|Hi']].
      + rewrite <- Hd; lra. 
      + apply J5; exact Hi'.
      + specialize (Hpr i Hi'). lra.
    - destruct (Hrf fuel s2 Hff J1) as (s3 & E3 & K1 & K2 & K3 & K4 & K5 & K6).
      destruct (K3 J3a) as [K3a K3b].
      exists s3. split; [exact E3|]. split; [exact K1|]. split; [lia|].
      split; [intros Hb; split; [exact K3a|specialize (Hm1 Hb); lra]|]. split; [auto|]. split.
      + intros i Hi. destruct (Hcov i Hi) as [->|[Hi'|Hi']].
        * rewrite <- Hd; lra.
        * specialize (J5 i Hi'). lra.
        * apply K5; exact Hi'.
      + destruct K6 as [K6|(j & Ej & Hj)]; [rewrite K6; exact Hwhere2|right; exists j; split; [exact Ej|lia]]. }
  destruct (Rltb_spec 0 dx) as [Hdx|Hdx].
  - apply (Hgo _ _ b n (n + 1)%nat e IHl IHr); try lia.
    intros i Hi. apply (prune_right (ndpt a) (pt_at arr i) pt index Hidx Hdx). apply HR; lia.
  - apply (Hgo _ _ (n + 1)%nat e b n IHr IHl); try lia.
    intros i Hi. apply (prune_left (ndpt a) (pt_at arr i) pt index Hidx Hdx). apply HL; lia.
Qed.

(** ** Construction *)
Definition key (a : nd) : vec * Z := (ndpt a, ndidx a).

Lemma upd_length n f arr : length (upd n f arr) = length arr.
Proof. revert n; induction arr as [|a arr IH]; intros [|n]; simpl; auto. Qed.
Lemma nth_upd n f arr i : (n < length arr)%nat -> nth i (upd n f arr) nd0 = if Nat.eqb i n then f (nth i arr nd0) else nth i arr nd0.
Proof.
  revert n i; induction arr as [|a arr IH]; intros n i Hn; simpl in Hn; [lia|].
  destruct n as [|n], i as [|i]; simpl; try reflexivity. apply IH; lia.
Qed.
Lemma map_key_upd n f arr : (forall a, key (f a) = key a) -> map key (upd n f arr) = map key arr.
Proof. intros Hf. revert n; induction arr as [|a arr IH]; intros [|n]; simpl; auto; [rewrite Hf; reflexivity|rewrite IH; reflexivity]. Qed.

Lemma skipn_skipn' {A} (n m : nat) (l : list A) : skipn n (skipn m l) = skipn (m + n) l.
Proof. revert l; induction m as [|m IH]; intros l; [reflexivity|]. destruct l; [rewrite !skipn_nil; reflexivity|]. apply IH. Qed.

Lemma slice_length b e arr : (b <= e <= length arr)%nat -> length (slice b e arr) = (e - b)%nat.
Proof. intros H. unfold slice. rewrite firstn_length, skipn_length. lia. Qed.
Lemma splice_length b e sub arr : (b <= e <= length arr)%nat -> length sub = (e - b)%nat -> length (splice b e sub arr) = length arr.
Proof. intros H Hs. unfold splice. rewrite !app_length, firstn_length, skipn_length. lia. Qed.
Lemma nth_splice_in b e sub arr i : (b <= e <= length arr)%nat -> length sub = (e - b)%nat -> (b <= i < e)%nat ->
  nth i (splice b e sub arr) nd0 = nth (i - b) sub nd0.
Proof.
  intros H Hs Hi. unfold splice. rewrite app_nth2; rewrite firstn_length_le by lia; [|lia].
  rewrite app_nth1 by lia. reflexivity.
Qed.
Lemma nth_splice_out b e sub arr i : (b <= e <= length arr)%nat -> length sub = (e - b)%nat -> (i < b \/ e <= i)%nat ->
  nth i (splice b e sub arr) nd0 = nth i arr nd0.
Proof.
  intros H Hs Hi. unfold splice. destruct (Nat.lt_ge_cases i b) as [Hlt|Hge].
  - rewrite app_nth1 by (rewrite firstn_length_le; lia).
    rewrite <- (firstn_skipn b arr) at 2. rewrite app_nth1; [reflexivity|rewrite firstn_length_le; lia].
  - rewrite app_nth2; rewrite firstn_length_le by lia; [|lia].
    rewrite app_nth2 by lia. rewrite Hs. replace (i - b - (e - b))%nat with (i - e)%nat by lia.
    rewrite <- (firstn_skipn e arr) at 2. rewrite app_nth2; rewrite firstn_length_le by lia; [reflexivity|lia].
Qed.
Lemma splice_perm b e sub arr : (b <= e <= length arr)%nat -> Permutation (slice b e arr) sub -> Permutation arr (splice b e sub arr).
Proof.
  intros H Hp. unfold splice. rewrite <- Hp. unfold slice.
  replace (firstn b arr ++ firstn (e - b) (skipn b arr) ++ skipn e arr) with arr; [reflexivity|].
  rewrite <- (firstn_skipn b arr) at 1. f_equal.
  rewrite <- (firstn_skipn (e - b) (skipn b arr)) at 1. f_equal. rewrite skipn_skipn'. f_equal. lia.
Qed.

(** what a range rearrangement preserves *)
Definition frame (b e : nat) (arr arr' : list nd) : Prop :=
  length arr' = length arr /\ (forall i, (i < b \/ e <= i)%nat -> nth i arr' nd0 = nth i arr nd0) /\
  Permutation (map key arr) (map key arr') /\
  (* every property of the points of the range that holds of all of them is kept *)
  (forall P : vec -> Prop, (forall i, (b <= i < e)%nat -> P (pt_at arr i)) -> forall i, (b <= i < e)%nat -> P (pt_at arr' i)).

Lemma frame_refl b e arr : frame b e arr arr.
Proof. repeat split; auto. Qed.
Lemma frame_trans b e a1 a2 a3 : frame b e a1 a2 -> frame b e a2 a3 -> frame b e a1 a3.
Proof.
  intros (L1 & O1 & P1 & Q1) (L2 & O2 & P2 & Q2). split; [congruence|].
  split; [intros; rewrite O2, O1; auto|]. split; [etransitivity; eassumption|]. intros P HP. apply Q2, Q1, HP.
Qed.
Lemma frame_widen b e b' e' a1 a2 : (b' <= b)%nat -> (e <= e')%nat -> frame b e a1 a2 -> frame b' e' a1 a2.
Proof.
  intros Hb He (L1 & O1 & P1 & Q1). split; [exact L1|]. split; [intros; apply O1; lia|]. split; [exact P1|].
  intros P HP i Hi. destruct (Nat.lt_ge_cases i b) as [H|H].
  { unfold pt_at. rewrite O1 by lia. apply HP; lia. }
  destruct (Nat.lt_ge_cases i e) as [H'|H'].
  { apply Q1; [intros; apply HP; lia|lia]. }
  unfold pt_at. rewrite O1 by lia. apply HP; lia.
Qed.
Lemma frame_upd b e n f arr : (b <= n < e)%nat -> (e <= length arr)%nat -> (forall a, key (f a) = key a) -> frame b e arr (upd n f arr).
Proof.
  intros Hn He Hf. split; [apply upd_length|]. split.
  { intros i Hi. rewrite nth_upd by lia. destruct (Nat.eqb_spec i n); [lia|reflexivity]. }
  split; [rewrite map_key_upd by exact Hf; reflexivity|].
  intros P HP i Hi. unfold pt_at. rewrite nth_upd by lia. destruct (Nat.eqb_spec i n) as [->|Hd]; [|apply HP; exact Hi].
  replace (ndpt (f (nth n arr nd0))) with (ndpt (nth n arr nd0)); [apply HP; exact Hi|].
  specialize (Hf (nth n arr nd0)). unfold key in Hf. congruence.
Qed.
Lemma frame_nth_element b e n index arr : (b <= n < e)%nat -> (e <= length arr)%nat ->
  let arr1 := splice b e (ne index (n - b) (slice b e arr)) arr in
  frame b e arr arr1 /\
  (forall i, (b <= i < n)%nat -> pt_at arr1 i index <= pt_at arr1 n index) /\
  (forall i, (n < i < e)%nat -> pt_at arr1 n index <= pt_at arr1 i index).
Proof.
  intros Hn He arr1.
  assert (Hsl : length (slice b e arr) = (e - b)%nat) by (apply slice_length; lia).
  destruct (Hne index (n - b)%nat (slice b e arr)) as (Hp & H1 & H2); [lia|].
  set (ys := ne index (n - b) (slice b e arr)) in *.
  assert (Hys : length ys = (e - b)%nat) by (rewrite <- (Permutation_length Hp); exact Hsl).
  split; [split; [|split; [|split]]|split].
  - apply splice_length; [lia|exact Hys].
  - intros i Hi. apply nth_splice_out; [lia|exact Hys|exact Hi].
  - apply Permutation_map. apply splice_perm; [lia|exact Hp].
  - intros P HP i Hi. unfold pt_at, arr1. rewrite nth_splice_in; [|lia|exact Hys|exact Hi].
    assert (HI : In (nth (i - b) ys nd0) (slice b e arr)).
    { apply (Permutation_in _ (Permutation_sym Hp)). apply nth_In. lia. }
    apply (In_nth _ _ nd0) in HI. destruct HI as (k & Hk & Ek). rewrite <- Ek. rewrite Hsl in Hk.
    replace (nth k (slice b e arr) nd0) with (nth (b + k) arr nd0); [apply (HP (b + k)%nat); lia|].
    unfold slice. rewrite <- (firstn_skipn b arr) at 1. rewrite app_nth2; rewrite firstn_length_le by lia; [|lia].
    replace (b + k - b)%nat with k by lia.
    rewrite <- (firstn_skipn (e - b) (skipn b arr)) at 1. rewrite app_nth1; [reflexivity|].
    rewrite firstn_length, skipn_length. lia.
  - intros i Hi. unfold pt_at, arr1. rewrite !nth_splice_in by (try exact Hys; lia). apply H1. lia.
  - intros i Hi. unfold pt_at, arr1. rewrite !nth_splice_in by (try exact Hys; lia). apply H2. lia.
Qed.

Lemma kdok_ext arr arr' index b e p : kdok arr index b e p -> length arr' = length arr ->
  (forall i, (b <= i < e)%nat -> nth i arr' nd0 = nth i arr nd0) -> kdok arr' index b e p.
Proof.
  induction 1 as [index b e Hbe|index b e n Hn He HL HR Hl IHl Hr IHr]; intros Hlen Heq; [constructor; exact Hbe|].
  assert (En : nth n arr' nd0 = nth n arr nd0) by (apply Heq; lia).
  constructor; try lia; unfold pt_at in *.
  - intros i Hi. rewrite Heq, En by lia. apply HL; exact Hi.
  - intros i Hi. rewrite (Heq i), En by lia. apply HR; exact Hi.
  - rewrite En. apply IHl; [exact Hlen|intros; apply Heq; lia].
  - rewrite En. apply IHr; [exact Hlen|intros; apply Heq; lia].
Qed.

Lemma make_tree_ok : forall fuel arr b e index, (e - b <= fuel)%nat -> (e <= length arr)%nat ->
  exists arr' p, make_tree dim ne fuel arr b e index = Val (arr', p) /\ frame b e arr arr' /\ kdok arr' index b e p.
Proof.
  induction fuel as [|fuel IH]; intros arr b e index Hf He; cbn [make_tree].
  { destruct (Nat.leb_spec e b); [|lia]. exists arr, None. split; [reflexivity|]. split; [apply frame_refl|constructor; lia]. }
  destruct (Nat.leb_spec e b) as [Hbe|Hbe].
  { exists arr, None. split; [reflexivity|]. split; [apply frame_refl|constructor; lia]. }
  set (n := (b + (e - b) / 2)%nat).
  assert (Hn : (b <= n < e)%nat). { unfold n. assert ((e - b) / 2 < e - b)%nat by (apply Nat.div_lt; lia). lia. }
  destruct (frame_nth_element b e n index arr Hn He) as (F1 & L1 & R1).
  set (arr1 := splice b e (ne index (n - b) (slice b e arr)) arr) in *.
  assert (Len1 : length arr1 = length arr) by apply F1.
  destruct (IH arr1 b n ((index + 1) mod dim)) as (arr2 & l & E2 & F2 & K2); [lia|lia|]. rewrite E2.
  assert (Len2 : length arr2 = length arr1) by apply F2.
  set (arr3 := upd n (set_left l) arr2).
  assert (Len3 : length arr3 = length arr2) by apply upd_length.
  assert (F3 : frame b e arr2 arr3) by (apply frame_upd; [exact Hn|lia|reflexivity]).
  destruct (IH arr3 (n + 1)%nat e ((index + 1) mod dim)) as (arr4 & r & E4 & F4 & K4); [lia|lia|]. rewrite E4.
  assert (Len4 : length arr4 = length arr3) by apply F4.
  set (arr5 := upd n (set_right r) arr4).
  assert (Len5 : length arr5 = length arr4) by apply upd_length.
  exists arr5, (Some n). split; [reflexivity|]. split.
  { eapply frame_trans; [exact F1|]. eapply frame_trans; [eapply frame_widen; [| |exact F2]; lia|].
    eapply frame_trans; [exact F3|]. eapply frame_trans; [eapply frame_widen; [| |exact F4]; lia|].
    apply frame_upd; [exact Hn|lia|reflexivity]. }
  (* entries of the final array *)
  assert (N5 : nth n arr5 nd0 = set_right r (set_left l (nth n arr1 nd0))).
  { unfold arr5. rewrite nth_upd by lia. rewrite Nat.eqb_refl. f_equal.
    destruct F4 as (_ & O4 & _). rewrite O4 by lia. unfold arr3. rewrite nth_upd by lia. rewrite Nat.eqb_refl. f_equal.
    destruct F2 as (_ & O2 & _). apply O2; lia. }
  assert (Nl : forall i, (b <= i < n)%nat -> nth i arr5 nd0 = nth i arr2 nd0).
  { intros i Hi. unfold arr5. rewrite nth_upd by lia. destruct (Nat.eqb_spec i n); [lia|].
    destruct F4 as (_ & O4 & _). rewrite O4 by lia. unfold arr3. rewrite nth_upd by lia. destruct (Nat.eqb_spec i n); [lia|reflexivity]. }
  assert (Nr : forall i, (n + 1 <= i < e)%nat -> nth i arr5 nd0 = nth i arr4 nd0).
  { intros i Hi. unfold arr5. rewrite nth_upd by lia. destruct (Nat.eqb_spec i n); [lia|reflexivity]. }
  constructor; [exact Hn|lia| | | |].
  - intros i Hi. unfold pt_at. rewrite N5, Nl by exact Hi. cbn [set_right set_left ndpt].
    destruct F2 as (_ & _ & _ & Q2). apply (Q2 (fun v => v index <= pt_at arr1 n index)); [exact L1|exact Hi].
  - intros i Hi. unfold pt_at. rewrite N5, Nr by lia. cbn [set_right set_left ndpt].
    destruct F4 as (_ & _ & _ & Q4). apply (Q4 (fun v => pt_at arr1 n index <= v index)); [|lia].
    intros j Hj. unfold pt_at, arr3. rewrite nth_upd by lia. destruct (Nat.eqb_spec j n); [lia|].
    destruct F2 as (_ & O2 & _). rewrite O2 by lia. apply R1; lia.
  - rewrite N5. cbn [set_right set_left ndl]. eapply kdok_ext; [exact K2|lia|exact Nl].
  - rewrite N5. cbn [set_right ndr]. eapply kdok_ext; [exact K4|lia|exact Nr].
Qed.

(** ** The object *)
Definition kd_ready (t : kd) : Prop :=
  match root t with Root k => kdok (nodes t) 0 0 (length (nodes t)) (Some k) | Null => nodes t = [] | Dangling => False end.

Lemma finalize_ok t : exists t', finalize dim ne t = Val t' /\ kd_ready t' /\
  Permutation (map key (nodes t)) (map key (nodes t')).
Proof.
  unfold finalize. destruct (make_tree_ok (length (nodes t)) (nodes t) 0 (length (nodes t)) 0) as (arr & p & E & F & K); [lia|lia|].
  rewrite E. eexists; split; [reflexivity|]. destruct F as (L & _ & P & _). split; [|exact P].
  unfold kd_ready; cbn [root nodes]. rewrite L. destruct p as [k|]; [exact K|].
  inversion K; subst. destruct arr; [reflexivity|]. simpl in L. lia.
Qed.

Lemma nearest_ok t pt : kd_ready t -> nodes t <> [] ->
  exists t' i, nearest dim rnd t pt = Val (t', i) /\ nodes t' = nodes t /\ root t' = root t /\
    exists a, In a (nodes t) /\ ndidx a = i /\ best_dist (q t') = dist (ndpt a) pt /\
      (forall c, In c (nodes t) -> dist (ndpt a) pt <= dist (ndpt c) pt) /\
      (visited (q t') <= length (nodes t))%nat.
Proof.
  intros Hr Hne0. unfold kd_ready in Hr. unfold nearest. destruct (root t) as [|k|] eqn:Er; [congruence| |tauto].
  destruct (nearest_rec_ok (nodes t) pt 0 0 (length (nodes t)) (Some k) Hr Hdim (length (nodes t))
     {| best := None; best_dist := 0; visited := 0 |}) as (s & E & I1 & I2 & _ & I4 & I5 & _); [lia|exact I|].
  rewrite E. unfold sinv in I1.
  assert (Hl : (0 < length (nodes t))%nat) by (destruct (nodes t); [congruence|simpl; lia]).
  specialize (I4 Hl). destruct (best s) as [j|]; [|congruence]. destruct I1 as [Hj Hd].
  rewrite (nth_error_nth_d _ j Hj). eexists _, _. split; [reflexivity|]. cbn [nodes root q].
  split; [reflexivity|]. split; [reflexivity|]. exists (nth j (nodes t) nd0).
  split; [apply nth_In; exact Hj|]. split; [reflexivity|]. split; [exact Hd|]. split.
  - intros c Hc. apply (In_nth _ _ nd0) in Hc. destruct Hc as (i & Hi & Ei). rewrite <- Ei.
    change (D (nodes t) pt j <= D (nodes t) pt i). rewrite <- Hd. apply I5; lia.
  - cbn [visited] in I2. lia.
Qed.

(** ** Histories *)
Definition added (ops : list kop) : list (vec * Z) :=
  flat_map (fun o => match o with Add x i => [(x, i)] | _ => [] end) ops.
(** after [ops] the tree has been finalized and nothing was added since *)
Fixpoint clean (f : bool) (ops : list kop) : bool :=
  match ops with [] => f | Add _ _ :: r => clean false r | Fin :: r => clean true r | Query _ :: r => clean f r end.
(** every query in the history is made on a finalized non-empty tree *)
Fixpoint proper (f : bool) (n : nat) (ops : list kop) : Prop :=
  match ops with
  | [] => True
  | Add _ _ :: r => proper false (S n) r
  | Fin :: r => proper true n r
  | Query _ :: r => f = true /\ (0 < n)%nat /\ proper f n r
  end.

Definition good_answer (pts : list (vec * Z)) (pt : vec) (out : kout) : Prop :=
  exists x i, In (x, i) pts /\ (forall y j, In (y, j) pts -> dist x pt <= dist y pt) /\
    exists v, out = Answer i (rnd (sqrt (dist x pt))) v /\ (v <= length pts)%nat.

Lemma krun_ok : forall ops t f pts,
  (f = true -> kd_ready t) -> Permutation pts (map key (nodes t)) -> proper f (length pts) ops ->
  exists t' outs, krun dim rnd ne t ops = Val (t', outs) /\ length outs = length ops /\
    forall k pt, nth_error ops k = Some (Query pt) ->
      exists out, nth_error outs k = Some out /\ good_answer (pts ++ added (firstn k ops)) pt out.
Proof.
  induction ops as [|o ops IH]; intros t f pts Hf Hp Hprop; cbn [krun].
  { exists t, []. split; [reflexivity|]. split; [reflexivity|]. intros [|k]; discriminate. }
  destruct o as [x i| |pt]; cbn [kstep proper] in *.
  - destruct (IH (add_node t x i) false (pts ++ [(x, i)])) as (t' & outs & E & L & H).
    + discriminate.
    + unfold add_node; cbn [nodes]. rewrite map_app. cbn. apply Permutation_app_tail. exact Hp.
    + rewrite app_length. cbn [length]. replace (length pts + 1)%nat with (S (length pts)) by lia. exact Hprop.
    + rewrite E. exists t', (Done :: outs). split; [reflexivity|]. split; [simpl; lia|].
      intros [|k] pt Hk; [discriminate|]. cbn [nth_error] in *. destruct (H k pt Hk) as (out & Ho & Hg).
      exists out. split; [exact Ho|]. cbn [firstn added flat_map]. rewrite <- app_assoc in Hg. exact Hg.
  - destruct (finalize_ok t) as (t1 & E1 & R1 & P1). rewrite E1.
    destruct (IH t1 true pts) as (t' & outs & E & L & H); [auto|etransitivity; eassumption|exact Hprop|].
    rewrite E. exists t', (Done :: outs). split; [reflexivity|]. split; [simpl; lia|].
    intros [|k] pt Hk; [discriminate|]. cbn [nth_error] in *. destruct (H k pt Hk) as (out & Ho & Hg). exists out; split; assumption.
  - destruct Hprop as (Hft & Hn & Hprop). specialize (Hf Hft).
    assert (Hlen : length (nodes t) = length pts) by (rewrite (Permutation_length Hp), map_length; reflexivity).
    destruct (nearest_ok t pt Hf) as (t1 & i & E1 & En & Er & a & Ha & Hi & Hd & Hmin & Hv).
    { intros E0. rewrite E0 in Hlen. simpl in Hlen. lia. }
    rewrite E1.
    destruct (IH t1 f pts) as (t' & outs & E & L & H).
    + intros _. unfold kd_ready in *. rewrite Er, En. exact Hf.
    + rewrite En; exact Hp.
    + exact Hprop.
    + rewrite E. eexists t', (_ :: outs). split; [reflexivity|]. split; [simpl; lia|].
      intros [|k] pt' Hk; cbn [nth_error] in *.
      * injection Hk as <-. eexists; split; [reflexivity|]. cbn [firstn added flat_map]. rewrite app_nil_r.
        exists (ndpt a), i. split.
        { apply (Permutation_in _ (Permutation_sym Hp)). subst i. apply (in_map key _ _ Ha). }
        split.
        { intros y j Hy. apply (Permutation_in _ Hp) in Hy. apply in_map_iff in Hy.
          destruct Hy as (c & Ec & Hc). unfold key in Ec. injection Ec as <- _. apply Hmin, Hc. }
        eexists. split; [unfold kd_distance; rewrite Hd; reflexivity|lia].
      * destruct (H k pt' Hk) as (out & Ho & Hg). exists out; split; [exact Ho|exact Hg].
Qed.
End P.

Lemma rounding_id : rounding (fun x => x).
Proof. repeat split; auto. Qed.

Lemma dist_id_euclid dim p q : distance dim (fun x => x) p q = rsum dim (fun i => (p i - q i) * (p i - q i)).
Proof. unfold distance. induction dim as [|d IH]; simpl; [reflexivity|]. rewrite IH. reflexivity. Qed.
