(** Spline evaluation: convex hull, pieces of quadratic curves, slopes. *)
From Coq Require Import Reals List Arith Bool Lia Lra Psatz Machin.
From Coquelicot Require Import Coquelicot.
From Verif Require Import EmCoef Steel.
Import ListNotations.
Local Open Scope R_scope.

Lemma rle_true a b : rle a b = true <-> a <= b. Proof. unfold rle. destruct (Rle_dec a b); split; intros; auto; try discriminate; contradiction. Qed.
Lemma rlt_true a b : rlt a b = true <-> a < b. Proof. unfold rlt. destruct (Rlt_dec a b); split; intros; auto; try discriminate; contradiction. Qed.
Lemma rlt_false a b : b <= a -> rlt a b = false. Proof. unfold rlt. destruct (Rlt_dec a b); intros; auto. lra. Qed.

(** what setUp accepts *)
Definition sound (c : curve) : Prop := (degree c < length (cps c))%nat /\ length (knots c) = (length (cps c) + degree c + 1)%nat /\
  (forall i j, (i <= j)%nat -> (j < length (knots c))%nat -> knot c i <= knot c j).
Lemma setUp_sound c d : setUp c = Fine d -> d = c /\ sound c.
Proof.
  unfold setUp. destruct (_ && _) eqn:E; [|discriminate]. intros H; inversion H; subst d. split; [reflexivity|].
  apply andb_true_iff in E. destruct E as [E _]. apply andb_true_iff in E. destruct E as [E K]. apply andb_true_iff in E. destruct E as [E1 E2].
  apply Nat.ltb_lt in E1. apply Nat.eqb_eq in E2. split; [exact E1|]. split; [exact E2|].
  assert (S1 : forall i, (i + 1 < length (knots c))%nat -> knot c i <= knot c (i + 1)).
  { intros i Hi. apply rle_true. rewrite forallb_forall in K. apply K. apply in_seq. lia. }
  intros i j Hij. induction Hij as [|j Hij IH]; intros Hj; [lra|]. apply Rle_trans with (knot c j); [apply IH; lia|]. replace (S j) with (j + 1)%nat by lia. apply S1. lia.
Qed.

Lemma boor_hull c u k lo hi : sound c -> (degree c <= k < length (cps c))%nat -> knot c k <= u <= knot c (k + 1) -> knot c k < knot c (k + 1) ->
  forall r i, (r <= degree c)%nat -> (k - degree c + r <= i <= k)%nat -> (forall j, (i - r <= j <= i)%nat -> lo <= cp c j <= hi) -> lo <= boor c u r i <= hi.
Proof.
  intros (Hp & Hm & Mo) Hk Hu Hs. induction r as [|r IH]; intros i Hr Hi Hc; cbn [boor]; [apply Hc; lia|].
  assert (A : knot c i <= knot c k) by (apply Mo; lia). assert (B : knot c (k + 1) <= knot c (i + degree c - r)) by (apply Mo; lia).
  set (w := (u - knot c i) / _).
  assert (W : 0 <= w <= 1).
  { unfold w. split; [apply Rmult_le_pos; [lra|left; apply Rinv_0_lt_compat; lra]|]. apply Rmult_le_reg_r with (knot c (i + degree c - r) - knot c i); [lra|]. unfold Rdiv. rewrite Rmult_assoc, Rinv_l by lra. lra. }
  assert (H1 : lo <= boor c u r (i - 1) <= hi) by (apply IH; [lia|lia|intros; apply Hc; lia]).
  assert (H2 : lo <= boor c u r i <= hi) by (apply IH; [lia|lia|intros; apply Hc; lia]). nra.
Qed.

Lemma span_find c u p : forall d, (forall i j, (p <= i <= j)%nat -> (j <= p + d)%nat -> knot c i <= knot c j) -> knot c p <= u <= knot c (p + d) -> knot c p < knot c (p + d) ->
  exists k, find (fun k => rle (knot c k) u && rlt (knot c k) (knot c (k + 1))) (rev (seq p d)) = Some k /\ (p <= k < p + d)%nat /\
    knot c k <= u <= knot c (k + 1) /\ knot c k < knot c (k + 1).
Proof.
  induction d as [|d IH]; intros Mo Hu Hs; [rewrite Nat.add_0_r in Hs; lra|].
  rewrite seq_S, rev_app_distr. cbn [rev app find]. replace (p + S d)%nat with (p + d + 1)%nat in * by lia.
  assert (M1 : knot c (p + d) <= knot c (p + d + 1)) by (apply Mo; lia).
  destruct (rle (knot c (p + d)) u && rlt (knot c (p + d)) (knot c (p + d + 1))) eqn:E.
  - apply andb_true_iff in E. destruct E as [E1 E2]. apply rle_true in E1. apply rlt_true in E2. exists (p + d)%nat. split; [reflexivity|]. split; [lia|]. split; [lra|exact E2].
  - destruct IH as (k & H1 & H2 & H3 & H4).
    + intros i j Hi Hj. apply Mo; lia.
    + split; [lra|]. apply andb_false_iff in E. destruct E as [E|E]; [unfold rle in E; destruct (Rle_dec (knot c (p + d)) u); [discriminate|lra]|]. unfold rlt in E. destruct (Rlt_dec (knot c (p + d)) (knot c (p + d + 1))); [discriminate|lra].
    + apply andb_false_iff in E. destruct E as [E|E]; [unfold rle in E; destruct (Rle_dec (knot c (p + d)) u); [discriminate|lra]|]. unfold rlt in E. destruct (Rlt_dec (knot c (p + d)) (knot c (p + d + 1))); [discriminate|lra].
    + exists k. split; [exact H1|]. split; [lia|]. split; assumption.
Qed.
Lemma eval_span c u : sound c -> knot c (degree c) <= u <= knot c (length (cps c)) -> knot c (degree c) < knot c (length (cps c)) ->
  exists k, evalCurve c u = Fine (boor c u (degree c) k) /\ (degree c <= k < length (cps c))%nat /\ knot c k <= u <= knot c (k + 1) /\ knot c k < knot c (k + 1).
Proof.
  intros S Hu Hs. destruct S as (Hp & Hm & Mo). unfold evalCurve. rewrite !rlt_false by lra. cbn [orb]. unfold span.
  destruct (span_find c u (degree c) (length (cps c) - degree c)) as (k & H1 & H2 & H3 & H4).
  - intros i j Hi Hj. apply Mo; lia.
  - replace (degree c + (length (cps c) - degree c))%nat with (length (cps c)) by lia. exact Hu.
  - replace (degree c + (length (cps c) - degree c))%nat with (length (cps c)) by lia. exact Hs.
  - rewrite H1. exists k. split; [reflexivity|]. split; [lia|]. split; assumption.
Qed.

(** ---- quadratic curves ---- *)
Section Quadratic.
Variable c : curve.
Hypothesis Deg : degree c = 2%nat.
Lemma boor2 u j : boor c u 2 (S (S j)) =
  (1 - (u - knot c (j + 2)) / (knot c (j + 3) - knot c (j + 2))) * ((1 - (u - knot c (j + 1)) / (knot c (j + 3) - knot c (j + 1))) * cp c j + (u - knot c (j + 1)) / (knot c (j + 3) - knot c (j + 1)) * cp c (j + 1)) +
  (u - knot c (j + 2)) / (knot c (j + 3) - knot c (j + 2)) * ((1 - (u - knot c (j + 2)) / (knot c (j + 4) - knot c (j + 2))) * cp c (j + 1) + (u - knot c (j + 2)) / (knot c (j + 4) - knot c (j + 2)) * cp c (j + 2)).
Proof.
  cbn [boor]. rewrite Deg. replace (S (S j) - 1)%nat with (j + 1)%nat by lia. replace (j + 1 - 1)%nat with j by lia. replace (S (S j)) with (j + 2)%nat by lia.
  replace (j + 2 + 2 - 1)%nat with (j + 3)%nat by lia. replace (j + 1 + 2 - 0)%nat with (j + 3)%nat by lia. replace (j + 2 + 2 - 0)%nat with (j + 4)%nat by lia. reflexivity.
Qed.
(** the control points of the derivative *)
Definition d2 (i : nat) : R := 2 * (cp c (i + 1) - cp c i) / (knot c (i + 3) - knot c (i + 1)).
Lemma boor2_derive j u : knot c (j + 2) < knot c (j + 3) -> knot c (j + 1) <= knot c (j + 2) -> knot c (j + 3) <= knot c (j + 4) ->
  is_derive (fun u => boor c u 2 (S (S j))) u
    ((1 - (u - knot c (j + 2)) / (knot c (j + 3) - knot c (j + 2))) * d2 j + (u - knot c (j + 2)) / (knot c (j + 3) - knot c (j + 2)) * d2 (j + 1)).
Proof.
  intros H1 H2 H3. apply (is_derive_ext (fun u => (1 - (u - knot c (j + 2)) / (knot c (j + 3) - knot c (j + 2))) * ((1 - (u - knot c (j + 1)) / (knot c (j + 3) - knot c (j + 1))) * cp c j + (u - knot c (j + 1)) / (knot c (j + 3) - knot c (j + 1)) * cp c (j + 1)) +
    (u - knot c (j + 2)) / (knot c (j + 3) - knot c (j + 2)) * ((1 - (u - knot c (j + 2)) / (knot c (j + 4) - knot c (j + 2))) * cp c (j + 1) + (u - knot c (j + 2)) / (knot c (j + 4) - knot c (j + 2)) * cp c (j + 2)))).
  - intros t. symmetry. apply boor2.
  - auto_derive; [exact I|]. unfold d2. replace (j + 1 + 1)%nat with (j + 2)%nat by lia. replace (j + 1 + 3)%nat with (j + 4)%nat by lia.
    field. lra.
Qed.
End Quadratic.

(** a quadratic curve whose inner knots are distinct: its value on each interval *)
Definition value (c : curve) (u : R) : R := match evalCurve c u with Fine v => v | _ => 0 end.
Definition distinct (c : curve) : Prop := forall k, (degree c <= k < length (cps c))%nat -> knot c k < knot c (k + 1).
Lemma distinct_lt c : distinct c -> forall i j, (degree c <= i < j)%nat -> (j <= length (cps c))%nat -> knot c i < knot c j.
Proof.
  intros D i j Hi Hj. replace j with (i + S (j - i - 1))%nat by lia. assert (B : (i + S (j - i - 1) <= length (cps c))%nat) by lia. revert B.
  generalize (j - i - 1)%nat as d. induction d as [|d IH]; intros B; [apply D; lia|].
  apply Rlt_trans with (knot c (i + S d)); [apply IH; lia|]. replace (i + S (S d))%nat with (i + S d + 1)%nat by lia. apply D. lia.
Qed.
(** gluing two derivatives *)
Lemma glue (f g h : R -> R) (a x b l : R) : a < x < b -> (forall t, a <= t <= x -> f t = g t) -> (forall t, x <= t <= b -> f t = h t) -> is_derive g x l -> is_derive h x l -> is_derive f x l.
Proof.
  intros Hx Hg Hh Dg Dh. apply is_derive_Reals. apply is_derive_Reals in Dg. apply is_derive_Reals in Dh.
  intros eps He. destruct (Dg eps He) as [d1 H1]. destruct (Dh eps He) as [d2 H2].
  assert (P : 0 < Rmin (Rmin d1 d2) (Rmin (x - a) (b - x))) by (repeat apply Rmin_glb_lt; [apply cond_pos|apply cond_pos|lra|lra]).
  exists (mkposreal _ P). cbn. intros t Ht Hb.
  assert (B1 := Rlt_le_trans _ _ _ Hb (Rmin_l _ _)). assert (B2 := Rlt_le_trans _ _ _ Hb (Rmin_r _ _)).
  assert (B3 := Rlt_le_trans _ _ _ B1 (Rmin_l _ _)). assert (B4 := Rlt_le_trans _ _ _ B1 (Rmin_r _ _)).
  assert (B5 := Rlt_le_trans _ _ _ B2 (Rmin_l _ _)). assert (B6 := Rlt_le_trans _ _ _ B2 (Rmin_r _ _)).
  destruct (Rle_dec 0 t) as [P0|P0].
  - rewrite Rabs_pos_eq in B6 by lra. rewrite !Hh by lra. apply H2; assumption.
  - rewrite Rabs_left in B5 by lra. rewrite !Hg by lra. apply H1; assumption.
Qed.

(** growth over a chain of intervals *)
Lemma chain (g : R -> R) (K : R) (t : nat -> R) (p : nat) : forall d, (forall k, (p <= k < p + d)%nat -> t k <= t (k + 1)%nat) ->
  (forall k a b, (p <= k < p + d)%nat -> t k <= a -> a <= b -> b <= t (k + 1)%nat -> K * (b - a) <= g b - g a) ->
  forall a b, t p <= a -> a <= b -> b <= t (p + d)%nat -> K * (b - a) <= g b - g a.
Proof.
  induction d as [|d IH]; intros Mo H a b Ha Hab Hb.
  - rewrite Nat.add_0_r in Hb. replace b with a by lra. lra.
  - replace (p + S d)%nat with (p + d + 1)%nat in Hb by lia.
    assert (IH' : forall a b, t p <= a -> a <= b -> b <= t (p + d)%nat -> K * (b - a) <= g b - g a) by (apply IH; [intros; apply Mo; lia|intros k x y Hk; apply H; lia]).
    destruct (Rle_dec b (t (p + d)%nat)) as [B|B]; [now apply IH'|].
    destruct (Rle_dec a (t (p + d)%nat)) as [A|A]; [|apply (H (p + d)%nat); [lia|lra|lra|lra]].
    assert (X := IH' a (t (p + d)%nat) Ha A (Rle_refl _)). assert (Y : K * (b - t (p + d)%nat) <= g b - g (t (p + d)%nat)) by (apply (H (p + d)%nat); [lia|lra|lra|lra]). lra.
Qed.
(** growth on one interval from the slope *)
Lemma growth (g g' : R -> R) (K lo hi : R) : (forall x, lo <= x <= hi -> is_derive g x (g' x)) -> (forall x, lo <= x <= hi -> K <= g' x) ->
  forall a b, lo <= a -> a <= b -> b <= hi -> K * (b - a) <= g b - g a.
Proof.
  intros Dg HK a b Ha Hab Hb. destruct (MVT_gen g a b g') as (x & Hx & E).
  - intros x Hx. rewrite Rmin_left, Rmax_right in Hx by lra. apply Dg. lra.
  - intros x Hx. rewrite Rmin_left, Rmax_right in Hx by lra. apply continuity_pt_filterlim. apply (ex_derive_continuous g). exists (g' x). apply Dg. lra.
  - rewrite Rmin_left, Rmax_right in Hx by lra. rewrite E. apply Rmult_le_compat_r; [lra|]. apply HK. lra.
Qed.

(** ---- the derived curve ---- *)
Lemma nth_removelast (l : list R) : forall i, (i + 1 < length l)%nat -> nth i (removelast l) 0 = nth i l 0.
Proof.
  induction l as [|x l IH]; intros i Hi; [cbn in Hi; lia|]. destruct l as [|y l]; [cbn in Hi; lia|].
  change (removelast (x :: y :: l)) with (x :: removelast (y :: l)). destruct i as [|i]; [reflexivity|]. cbn [nth]. rewrite IH by (cbn in *; lia). reflexivity.
Qed.
Lemma length_removelast (l : list R) : length (removelast l) = (length l - 1)%nat.
Proof. induction l as [|x l IH]; [reflexivity|]. destruct l as [|y l]; [reflexivity|]. change (removelast (x :: y :: l)) with (x :: removelast (y :: l)). cbn [length]. rewrite IH. cbn [length]. lia. Qed.
Lemma nth_tl (l : list R) i : nth i (tl l) 0 = nth (i + 1) l 0.
Proof. rewrite Nat.add_1_r. destruct l; [destruct i; reflexivity|reflexivity]. Qed.
Lemma length_tl (l : list R) : length (tl l) = (length l - 1)%nat. Proof. destruct l; cbn; lia. Qed.
Lemma derive_facts c d : sound c -> derive c = Fine d ->
  (degree d + 1 = degree c)%nat /\ (length (cps d) + 1 = length (cps c))%nat /\ (length (knots d) + 2 = length (knots c))%nat /\
  (forall i, (i + 2 < length (knots c))%nat -> knot d i = knot c (i + 1)) /\
  (forall i, (i + 1 < length (cps c))%nat -> cp d i = INR (degree c) * (cp c (i + 1) - cp c i) / (knot c (i + degree c + 1) - knot c (i + 1))).
Proof.
  intros (Hp & Hm & Mo). unfold derive. destruct (degree c =? 0)%nat eqn:E0; [discriminate|]. apply Nat.eqb_neq in E0.
  destruct (forallb _ _); [|discriminate]. intros H; inversion H; subst d; clear H. cbn [degree cps knots]. rewrite map_length, seq_length, length_removelast, length_tl.
  split; [lia|]. split; [lia|]. split; [lia|]. split.
  - intros i Hi. unfold knot. cbn [knots]. rewrite nth_removelast by (rewrite length_tl; lia). apply nth_tl.
  - intros i Hi. unfold cp at 1. cbn [cps].
    rewrite (nth_indep _ 0 ((fun i => INR (degree c) * (cp c (i + 1) - cp c i) / (knot c (i + degree c + 1) - knot c (i + 1))) 0%nat)) by (rewrite map_length, seq_length; lia).
    rewrite (map_nth (fun i => INR (degree c) * (cp c (i + 1) - cp c i) / (knot c (i + degree c + 1) - knot c (i + 1)))). rewrite seq_nth by lia. reflexivity.
Qed.
Lemma derive_sound c d : sound c -> derive c = Fine d -> sound d.
Proof.
  intros So H. destruct (derive_facts c d So H) as (F1 & F2 & F3 & F4 & _). destruct So as (Hp & Hm & Mo). split; [lia|]. split; [lia|].
  intros i j Hij Hj. rewrite !F4 by lia. apply Mo; lia.
Qed.
