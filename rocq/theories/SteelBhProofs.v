(** The "bh" model: range, extrapolation and the clamped end. *)
From Coq Require Import Reals List Arith Bool Lia Lra Psatz.
From Coquelicot Require Import Coquelicot.
From Verif Require Import EmCoef Steel SteelProofs.
Import ListNotations.
Local Open Scope R_scope.

Lemma scaled_knot c i : knot (scaledKnots c) i = knot c i / last (knots c) 0.
Proof.
  unfold knot, scaledKnots. cbn [knots]. destruct (le_lt_dec (length (knots c)) i) as [H|H].
  - rewrite !nth_overflow by (rewrite ?map_length; exact H). unfold Rdiv. ring.
  - rewrite (nth_indep _ 0 ((fun t => t / last (knots c) 0) 0)) by (rewrite map_length; exact H). rewrite (map_nth (fun t => t / last (knots c) 0)). reflexivity.
Qed.
(** at a clamped end the curve passes through its last control point *)
Lemma boor_clamped c u : (forall i, (length (cps c) <= i < length (cps c) + degree c)%nat -> knot c i = u) -> knot c (length (cps c) - 1) < u ->
  forall r, (r <= degree c)%nat -> boor c u r (length (cps c) - 1) = cp c (length (cps c) - 1).
Proof.
  intros H L. destruct (Nat.eq_dec (length (cps c)) 0) as [Z|Z].
  - assert (E : forall r i, boor c u r i = 0).
    { destruct c as [[|x l] t p]; cbn in Z; [|lia]. induction r as [|r IH]; intros i; cbn [boor]; [unfold cp; destruct i; reflexivity|]. rewrite !IH. ring. }
    intros r Hr. rewrite E. destruct c as [[|x l] t p]; cbn in Z; [reflexivity|lia].
  - induction r as [|r IH]; intros Hr; [reflexivity|]. cbn [boor]. rewrite IH by lia.
    rewrite (H (length (cps c) - 1 + degree c - r)%nat) by lia. replace ((u - knot c (length (cps c) - 1)) / (u - knot c (length (cps c) - 1))) with 1 by (field; lra). ring.
Qed.
Lemma hull c u lo hi : sound c -> knot c (degree c) <= u <= knot c (length (cps c)) -> knot c (degree c) < knot c (length (cps c)) ->
  (forall i, (i < length (cps c))%nat -> lo <= cp c i <= hi) -> exists v, evalCurve c u = Fine v /\ lo <= v <= hi.
Proof.
  intros So Hu Hs Hc. destruct (eval_span c u So Hu Hs) as (k & E & Hk & Hu' & Hs'). exists (boor c u (degree c) k). split; [exact E|].
  apply (boor_hull c u k lo hi So Hk Hu' Hs'); [lia|lia|]. intros j Hj. apply Hc. lia.
Qed.
Lemma clamped_eval c : sound c -> (0 < degree c)%nat -> (forall i, (length (cps c) <= i < length (cps c) + degree c)%nat -> knot c i = knot c (length (cps c))) ->
  knot c (length (cps c) - 1) < knot c (length (cps c)) -> evalCurve c (knot c (length (cps c))) = Fine (cp c (length (cps c) - 1)).
Proof.
  intros So Dp Hc Hl. assert (So' := So). destruct So' as (Hp & Hm & Mo).
  assert (A : knot c (degree c) <= knot c (length (cps c) - 1)) by (apply Mo; lia).
  unfold evalCurve. rewrite !rlt_false by lra. cbn [orb].
  assert (Sp : span c (knot c (length (cps c))) = Some (length (cps c) - 1)%nat).
  { unfold span. replace (length (cps c) - degree c)%nat with (S (length (cps c) - degree c - 1))%nat by lia. rewrite seq_S, rev_app_distr. cbn [rev app find].
    replace (degree c + (length (cps c) - degree c - 1))%nat with (length (cps c) - 1)%nat by lia. replace (length (cps c) - 1 + 1)%nat with (length (cps c)) by lia.
    replace (rle (knot c (length (cps c) - 1)) (knot c (length (cps c)))) with true by (symmetry; apply rle_true; lra). replace (rlt (knot c (length (cps c) - 1)) (knot c (length (cps c)))) with true by (symmetry; apply rlt_true; lra). reflexivity. }
  rewrite Sp. f_equal. apply boor_clamped; [exact Hc|exact Hl|lia].
Qed.

Lemma last_nth (l : list R) : l <> [] -> last l 0 = nth (length l - 1) l 0.
Proof. induction l as [|x l IH]; [congruence|]. intros _. destruct l as [|y l]; [reflexivity|]. change (last (y :: l) 0 = nth (length l) (y :: l) 0). rewrite IH by congruence. f_equal. cbn [length]. lia. Qed.
Lemma bh_inv c l : bhSpline c = Fine l -> sound (scaledKnots c) /\ hcurve l = scaledKnots c /\ derive (scaledKnots c) = Fine (hslope l) /\ h_b_max l = last (knots c) 0 /\
  h_h_max l = last (cps c) 0 /\ cps c <> [] /\ knots c <> [].
Proof.
  unfold bhSpline. intros H. assert (N : cps c <> [] /\ knots c <> []) by (split; intros E; rewrite E in H; [discriminate|destruct (cps c); discriminate]).
  assert (H' : andThen (setUp (scaledKnots c)) (fun s => andThen (derive s) (fun d => Fine {| hcurve := s; hslope := d; h_b_max := last (knots c) 0; h_h_max := last (cps c) 0 |})) = Fine l) by (destruct (cps c); [easy|destruct (knots c); [easy|exact H]]).
  destruct (setUp (scaledKnots c)) as [c'| |] eqn:E; try discriminate. destruct (setUp_sound _ c' E) as [-> So]. cbn [andThen] in H'. destruct (derive (scaledKnots c)) as [d| |] eqn:Ed; try discriminate. cbn [andThen] in H'. inversion H'; subst l. cbn.
  tauto.
Qed.
Lemma tiny_pos : 0 < tiny. Proof. unfold tiny. apply Rdiv_lt_0_compat; [lra|]. apply pow_lt. lra. Qed.

Section Bh.
Variables (c : curve) (l : bhcurve).
Hypothesis H : bhSpline c = Fine l.
Let n := length (cps c). Let p := degree c. Let B := last (knots c) 0.
Hypothesis Bpos : 0 < B.
Hypothesis First : nth p (knots c) 0 = 0.
Hypothesis Last : nth n (knots c) 0 = B.
Lemma scaled_ends : knot (scaledKnots c) p = 0 /\ knot (scaledKnots c) n = 1.
Proof. rewrite !scaled_knot. unfold knot. rewrite First, Last. fold B. split; field; lra. Qed.
Lemma scaled_at b : 0 <= b <= B -> 0 <= b / B <= 1.
Proof. intros Hb. split; [apply Rmult_le_pos; [lra|left; apply Rinv_0_lt_compat; lra]|]. apply Rmult_le_reg_r with B; [exact Bpos|]. unfold Rdiv. rewrite Rmult_assoc, Rinv_l by lra. lra. Qed.
Lemma bh_middle lo hi b : (forall x, In x (cps c) -> lo <= x <= hi) -> tiny < b <= B -> exists v, bh_eval l b = Fine v /\ lo <= v * b <= hi.
Proof.
  intros Hc Hb. destruct (bh_inv c l H) as (So & E1 & E2 & E3 & E4 & N1 & N2). destruct scaled_ends as [K1 K2]. assert (T := tiny_pos).
  destruct (hull (scaledKnots c) (b / B) lo hi So) as (v & Ev & Hv).
  - change (degree (scaledKnots c)) with p. change (length (cps (scaledKnots c))) with n. rewrite K1, K2. apply scaled_at. lra.
  - change (degree (scaledKnots c)) with p. change (length (cps (scaledKnots c))) with n. rewrite K1, K2. lra.
  - intros i Hi. apply Hc. apply nth_In. exact Hi.
  - exists (v / b). unfold bh_eval. rewrite E1, E3. destruct (Rle_dec b tiny); [exfalso; lra|]. fold B. destruct (Rle_dec b B); [|exfalso; lra]. rewrite Ev. split; [reflexivity|]. replace (v / b * b) with v by (field; lra). exact Hv.
Qed.
Lemma bh_above b : tiny < b -> B < b -> exists v, bh_eval l b = Fine v /\ v * b = last (cps c) 0 + nu0 * (b - B).
Proof.
  intros Ht Hb. destruct (bh_inv c l H) as (So & E1 & E2 & E3 & E4 & N1 & N2). eexists. unfold bh_eval. rewrite E3, E4. fold B. destruct (Rle_dec b tiny); [exfalso; lra|]. destruct (Rle_dec b B); [exfalso; lra|]. split; [reflexivity|]. field. assert (T := tiny_pos). lra.
Qed.
Lemma bh_below lo hi b : (forall i, (i + 1 < n)%nat -> lo <= INR p * (cp c (i + 1) - cp c i) / (knot c (i + p + 1) - knot c (i + 1)) <= hi) -> tiny <= B -> 0 <= b <= tiny ->
  exists v, bh_eval l b = Fine v /\ lo <= v <= hi.
Proof.
  intros Hc HT Hb. destruct (bh_inv c l H) as (So & E1 & E2 & E3 & E4 & N1 & N2). destruct scaled_ends as [K1 K2].
  destruct (derive_facts _ _ So E2) as (F1 & F2 & F3 & F4 & F5). assert (Sd := derive_sound _ _ So E2). assert (Sc := So). destruct Sc as (Hp & Hm & _).
  change (degree (scaledKnots c)) with p in *. change (cps (scaledKnots c)) with (cps c) in *. fold n in F2, F5, Hp, Hm.
  destruct (hull (hslope l) (b / B) (lo * B) (hi * B) Sd) as (v & Ev & Hv).
  - rewrite !F4 by lia. replace (degree (hslope l) + 1)%nat with p by lia. replace (length (cps (hslope l)) + 1)%nat with n by lia. rewrite K1, K2. apply scaled_at. lra.
  - rewrite !F4 by lia. replace (degree (hslope l) + 1)%nat with p by lia. replace (length (cps (hslope l)) + 1)%nat with n by lia. rewrite K1, K2. lra.
  - intros i Hi. rewrite F5 by lia. specialize (Hc i ltac:(lia)). rewrite !scaled_knot. fold B. change (cp (scaledKnots c)) with (cp c).
    set (num := INR p * (cp c (i + 1) - cp c i)) in *. set (k1 := knot c (i + p + 1)) in *. set (k0 := knot c (i + 1)) in *.
    assert (E : num / (k1 / B - k0 / B) = num / (k1 - k0) * B).
    { unfold Rdiv. replace (k1 * / B - k0 * / B) with ((k1 - k0) * / B) by ring. destruct (Req_dec (k1 - k0) 0) as [Z|Z].
      - exfalso. unfold derive in E2. change (degree (scaledKnots c)) with p in E2. change (cps (scaledKnots c)) with (cps c) in E2. fold n in E2. destruct (p =? 0)%nat; [discriminate|].
        destruct (forallb _ _) eqn:Ef in E2; [|discriminate]. rewrite forallb_forall in Ef. specialize (Ef i). rewrite in_seq in Ef. specialize (Ef ltac:(lia)). apply rlt_true in Ef. rewrite !scaled_knot in Ef. fold B in Ef. fold k1 k0 in Ef.
        assert (k1 / B - k0 / B = (k1 - k0) / B) by (field; lra). rewrite Z in H0. unfold Rdiv in H0. rewrite Rmult_0_l in H0. unfold Rdiv in Ef. lra.
      - rewrite Rinv_mult, Rinv_inv. ring. }
    rewrite E. nra.
  - exists (v / B). unfold bh_eval. rewrite E3. fold B. destruct (Rle_dec b tiny); [|exfalso; lra]. rewrite Ev. split; [reflexivity|].
    split; apply Rmult_le_reg_r with B; try exact Bpos; unfold Rdiv; rewrite Rmult_assoc, Rinv_l by lra; lra.
Qed.
Lemma bh_end : (0 < p)%nat -> (forall i, (n <= i)%nat -> (i < length (knots c))%nat -> nth i (knots c) 0 = B) -> nth (n - 1) (knots c) 0 < B -> tiny < B ->
  exists v, bh_eval l B = Fine v /\ v * B = last (cps c) 0.
Proof.
  intros Dp Hc Hl HT. destruct (bh_inv c l H) as (So & E1 & E2 & E3 & E4 & N1 & N2). destruct scaled_ends as [K1 K2]. assert (Sc := So). destruct Sc as (_ & Hm & _). cbn [scaledKnots knots cps degree] in Hm. rewrite map_length in Hm. fold n p in Hm.
  assert (E : evalCurve (scaledKnots c) (knot (scaledKnots c) n) = Fine (cp (scaledKnots c) (n - 1))).
  { apply (clamped_eval (scaledKnots c) So Dp).
    - change (degree (scaledKnots c)) with p. change (length (cps (scaledKnots c))) with n. intros i Hi. rewrite !scaled_knot. unfold knot. rewrite !Hc by lia. reflexivity.
    - change (length (cps (scaledKnots c))) with n. rewrite !scaled_knot. unfold knot. rewrite Last. fold B. apply Rmult_lt_compat_r; [now apply Rinv_0_lt_compat|exact Hl]. }
  rewrite K2 in E. exists (last (cps c) 0 / B). unfold bh_eval. rewrite E1, E3. fold B. destruct (Rle_dec B tiny); [exfalso; lra|]. destruct (Rle_dec B B); [|exfalso; lra]. replace (B / B) with 1 by (field; lra). rewrite E. cbn [andThen].
  rewrite last_nth by exact N1. split; [reflexivity|]. field. lra.
Qed.
End Bh.
