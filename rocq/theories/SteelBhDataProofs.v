(** The shipped "bh" data of hiperco50: accepted, and with a growing flux. *)
From Coq Require Import Reals List Arith Bool Lia Lra Psatz.
From Coquelicot Require Import Coquelicot.
From Verif Require Import EmCoef Steel SteelProofs SplineProofs SteelDataProofs SteelBhProofs.
Import ListNotations.
Local Open Scope R_scope.

Definition bh50 : curve := {| cps := match o_cps hiperco50_bh with Some x => x | None => [] end; knots := match o_knots hiperco50_bh with Some x => x | None => [] end; degree := 3%nat |}.
(** the shipped curve, scaled to [0,1], and its derivative *)
Definition sbh : curve := {| cps := match o_cps hiperco50_bh with Some x => x | None => [] end; degree := 3%nat;
  knots := [0; 0; 0; 0; 2/25; 3/25; 4/25; 1/5; 6/25; 7/25; 8/25; 9/25; 2/5; 11/25; 1497/3125; 13/25; 14/25; 591/1000; 16/25; 17119/25000; 18/25; 19/25; 4/5; 21/25; 5467/6250; 9/10; 23/25; 118/125; 24/25; 1; 1; 1; 1] |}.
Definition sd : curve := {| degree := 2%nat; cps := [228280731/400000; 18376541/80000; 16302747/200000; 41030389/400000; 6339237/100000; 1473891/20000; 6808443/100000; 27793091/400000; 13182933/200000; 6303089/80000; 6708371/79360; 18499221/200000; 24538097/200000; 16295911/124400; 111147621/400000; 119616657/249520; 14938368/26875; 3071621/4000; 32071653/28810; 131139609/40000; (- (9831061/38240)); 2576103861/100000; 360201591/8000; 397700235/6928; 17427467/100; 1904629479/8000; 30709983/70; 135479151/100];
  knots := [0; 0; 0; 2/25; 3/25; 4/25; 1/5; 6/25; 7/25; 8/25; 9/25; 2/5; 11/25; 1497/3125; 13/25; 14/25; 591/1000; 16/25; 17119/25000; 18/25; 19/25; 4/5; 21/25; 5467/6250; 9/10; 23/25; 118/125; 24/25; 1; 1; 1] |}.
Lemma sbh_scaled : scaledKnots bh50 = sbh.
Proof.
  unfold scaledKnots, sbh, bh50. cbn [cps knots degree o_cps o_knots hiperco50_bh]. f_equal. cbn [last map].
  repeat (apply f_equal2; [lra|]). reflexivity.
Qed.
Lemma sbh_setUp : setUp sbh = Fine sbh.
Proof.
  unfold setUp. match goal with |- (if ?b then _ else _) = _ => assert (E : b = true); [|rewrite E; reflexivity] end.
  apply andb_intro; [apply andb_intro; [reflexivity|]|].
  - cbn [length knots sbh forallb seq Nat.sub]. repeat (apply andb_intro; [apply rle_true; unfold knot; cbn; lra|]). reflexivity.
  - cbn [length knots sbh forallb seq Nat.sub degree]. repeat (apply andb_intro; [apply rlt_true; unfold knot; cbn; lra|]). reflexivity.
Qed.
Lemma sbh_derive : derive sbh = Fine sd.
Proof.
  unfold derive. cbn [degree sbh Nat.eqb]. match goal with |- (if ?b then _ else _) = _ => assert (E : b = true) end.
  { cbn [length cps sbh o_cps hiperco50_bh forallb seq Nat.sub]. repeat (apply andb_intro; [apply rlt_true; unfold knot; cbn; lra|]). reflexivity. }
  rewrite E. unfold sd. f_equal. f_equal.
  cbn [length cps sbh o_cps hiperco50_bh seq Nat.sub map]. unfold knot, cp. cbn [knots cps sbh o_cps hiperco50_bh nth Nat.add INR].
  repeat (apply f_equal2; [field|]). reflexivity.
Qed.
Lemma sbh_sound : sound sbh. Proof. exact (proj2 (setUp_sound _ _ sbh_setUp)). Qed.
Lemma sd_sound : sound sd. Proof. exact (derive_sound _ _ sbh_sound sbh_derive). Qed.
Lemma sd_low i : (i < 28)%nat -> i <> 20%nat -> 60 <= cp sd i <= 2000000.
Proof. intros Hi N. do 28 (destruct i as [|i]; [first [congruence | unfold cp; cbn; lra]|]). lia. Qed.
Lemma mix w x y K : 0 <= w <= 1 -> K <= x -> K <= y -> K <= (1 - w) * x + w * y.
Proof. intros Hw Hx Hy. nra. Qed.
Lemma unit_weight u A B : A < B -> A <= u <= B -> 0 <= (u - A) / (B - A) <= 1.
Proof. intros H Hu. split; [apply Rmult_le_pos; [lra|left; apply Rinv_0_lt_compat; lra]|]. apply Rmult_le_reg_r with (B - A); [lra|]. unfold Rdiv. rewrite Rmult_assoc, Rinv_l by lra. lra. Qed.
Lemma sbh_slope k u : (3 <= k < 29)%nat -> knot sbh k <= u <= knot sbh (k + 1) -> 60 <= boor sd u 2 (k - 1).
Proof.
  intros Hk Hu. destruct (derive_facts _ _ sbh_sound sbh_derive) as (_ & _ & _ & F4 & _).
  assert (Kn : knot sd (k - 1) = knot sbh k /\ knot sd (k - 1 + 1) = knot sbh (k + 1)) by (split; (rewrite F4 by (cbn; lia)); f_equal; lia). destruct Kn as [Kn1 Kn2].
  assert (L : knot sbh k < knot sbh (k + 1)) by (do 29 (destruct k as [|k]; [try lia; unfold knot; cbn; lra|]); lia).
  destruct (Nat.eq_dec k 21) as [->|N1]; [|destruct (Nat.eq_dec k 22) as [->|N2]; [|destruct (Nat.eq_dec k 23) as [->|N3]]].
  - change (21 - 1)%nat with (S (S 18)). rewrite (boor2 sd eq_refl). unfold knot in Hu; cbn in Hu. unfold knot, cp; cbn. apply mix; [apply unit_weight; lra|lra|lra].
  - change (22 - 1)%nat with (S (S 19)). rewrite (boor2 sd eq_refl). unfold knot in Hu; cbn in Hu. unfold knot, cp; cbn.
    match goal with |- 60 <= ?e => replace e with (56705399063597047/8929040000 + (- (2818810836188407/178580800)) * u + 140151308731867/14286464 * (u * u)) by field end. assert (Q := Rle_0_sqr (u - 8045 / 10000)). unfold Rsqr in Q. lra.
  - change (23 - 1)%nat with (S (S 20)). rewrite (boor2 sd eq_refl). unfold knot in Hu; cbn in Hu. unfold knot, cp; cbn. apply mix; [apply unit_weight; lra|lra|lra].
  - apply (boor_hull sd u (k - 1) 60 2000000 sd_sound); [cbn; lia|rewrite Kn1, Kn2; exact Hu|rewrite Kn1, Kn2; exact L|cbn; lia|cbn; lia|]. intros j Hj. apply sd_low; lia.
Qed.
Lemma sbh_distinct : distinct sbh.
Proof. intros k Hk. cbn in Hk. do 29 (destruct k as [|k]; [try lia; unfold knot; cbn; lra|]). lia. Qed.
Lemma sbh_growth a b : 0 <= a -> a <= b -> b <= 1 -> 60 * (b - a) <= value sbh b - value sbh a.
Proof.
  intros Ha Hab Hb. apply (spline_growth sbh sd 60 sbh_sound); [cbn; lia|exact sbh_distinct|exact sbh_derive|intros k u Hk Hu; apply sbh_slope; [cbn in Hk; lia|exact Hu]| |exact Hab|].
  - unfold knot; cbn; lra.
  - unfold knot; cbn; lra.
Qed.
(** the first piece and its slope *)
Lemma sbh_first u : 0 <= u <= 2 / 25 -> value sbh u = 228280731/400000 * u + (- (68199013/16000)) * (u * u) + 36329957/2880 * (u * u * u).
Proof.
  intros Hu. unfold value. rewrite (piece_eval sbh sbh_sound (Nat.lt_0_succ 2) sbh_distinct 3 u); [|cbn; lia|unfold knot; cbn; lra].
  cbn [boor degree sbh Nat.add Nat.sub]. unfold knot, cp; cbn. field.
Qed.
Lemma sd_distinct : distinct sd.
Proof. intros k Hk. cbn in Hk. do 28 (destruct k as [|k]; [try lia; unfold knot; cbn; lra|]). lia. Qed.
Lemma sd_first u : 0 <= u <= 2 / 25 -> value sd u = 228280731/400000 + (- (68199013/8000)) * u + 36329957/960 * (u * u).
Proof.
  intros Hu. unfold value. rewrite (piece_eval sd sd_sound (Nat.lt_0_succ 1) sd_distinct 2 u); [|cbn; lia|unfold knot; cbn; lra].
  cbn [boor degree sd Nat.add Nat.sub]. unfold knot, cp; cbn. field.
Qed.
Lemma sbh_last : value sbh 1 = 39788736 / 1000.
Proof.
  assert (E := clamped_eval sbh sbh_sound (Nat.lt_0_succ 2)). change (knot sbh (length (cps sbh))) with 1 in E. unfold value. rewrite E; [unfold cp; cbn; lra| |unfold knot; cbn; lra].
  intros i Hi. cbn in Hi. do 32 (destruct i as [|i]; [try lia; unfold knot; cbn; lra|]). lia.
Qed.

(** ---- the law ---- *)
Definition bh50_law : bhcurve := {| hcurve := sbh; hslope := sd; h_b_max := 5 / 2; h_h_max := 39788736 / 1000 |}.
Lemma bh50_accepted : exists l, bhSpline bh50 = Fine l /\ hcurve l = sbh /\ hslope l = sd /\ h_b_max l = 5 / 2 /\ h_h_max l = 39788736 / 1000.
Proof. eexists. unfold bhSpline. cbn [cps bh50 o_cps hiperco50_bh knots o_knots]. rewrite sbh_scaled, sbh_setUp. cbn [andThen]. rewrite sbh_derive. cbn [andThen]. split; [reflexivity|]. cbn. repeat split; lra. Qed.
Lemma eval_value c u : sound c -> knot c (degree c) = 0 -> knot c (length (cps c)) = 1 -> 0 <= u <= 1 -> evalCurve c u = Fine (value c u).
Proof. intros So E0 E1 Hu. destruct (eval_span c u So) as (k & E & _); [rewrite E0, E1; exact Hu|rewrite E0, E1; lra|]. unfold value. now rewrite E. Qed.
Definition bh50_nu (b : R) : R := if Rle_dec b tiny then value sd (b / (5 / 2)) / (5 / 2) else if Rle_dec b (5 / 2) then value sbh (b / (5 / 2)) / b else (39788736 / 1000 - nu0 * (5 / 2)) / b + nu0.
Definition bh50_flux (b : R) : R := if Rle_dec b tiny then b / (5 / 2) * value sd (b / (5 / 2)) else if Rle_dec b (5 / 2) then value sbh (b / (5 / 2)) else 39788736 / 1000 + nu0 * (b - 5 / 2).
Lemma tiny_small : 0 < tiny <= 1 / 100.
Proof.
  split; [exact tiny_pos|]. unfold tiny. apply Rmult_le_compat_l; [lra|]. apply Rinv_le_contravar; [lra|].
  replace 14%nat with (2 + 12)%nat by reflexivity. rewrite pow_add. assert (1 <= 10 ^ 12) by (apply pow_R1_Rle; lra). cbn [pow] in *. lra.
Qed.
Lemma bh50_eval l b : hcurve l = sbh -> hslope l = sd -> h_b_max l = 5 / 2 -> h_h_max l = 39788736 / 1000 -> 0 <= b -> bh_eval l b = Fine (bh50_nu b).
Proof.
  intros E1 E2 E3 E4 Hb. assert (T := tiny_small). unfold bh_eval, bh50_nu. rewrite E1, E2, E3, E4.
  destruct (Rle_dec b tiny) as [A|A].
  - rewrite (eval_value sd); [reflexivity|exact sd_sound|unfold knot; cbn; lra|unfold knot; cbn; lra|]. lra.
  - destruct (Rle_dec b (5 / 2)) as [A'|A']; [|reflexivity]. rewrite (eval_value sbh); [reflexivity|exact sbh_sound|unfold knot; cbn; lra|unfold knot; cbn; lra|]. lra.
Qed.
Lemma bh50_flux_eq b : 0 <= b -> bh50_nu b * b = bh50_flux b.
Proof. intros Hb. assert (T := tiny_small). unfold bh50_nu, bh50_flux. destruct (Rle_dec b tiny); [field|]. destruct (Rle_dec b (5 / 2)); field; lra. Qed.
Lemma bh50_low a b : 0 <= a -> a <= b -> b <= 5 / 2 -> 24 * (b - a) <= bh50_flux b - bh50_flux a.
Proof.
  intros Ha Hab Hb. assert (T := tiny_small). unfold bh50_flux.
  set (u := a / (5 / 2)). set (v := b / (5 / 2)). assert (Hu : 0 <= u) by (unfold u; lra). assert (Huv : u <= v) by (unfold u, v; lra). assert (Hv : v <= 1) by (unfold v; lra).
  replace (24 * (b - a)) with (60 * (v - u)) by (unfold u, v; field).
  destruct (Rle_dec b tiny) as [B|B].
  - destruct (Rle_dec a tiny) as [_|]; [|exfalso; lra]. assert (Hs : v <= 4 / 1000) by (unfold v; lra). rewrite !sd_first by lra.
    match goal with |- _ <= ?e => replace e with ((v - u) * (228280731/400000 + (- (68199013/8000)) * (v + u) + 36329957/960 * (v * v + v * u + u * u))) by ring end.
    rewrite Rmult_comm. apply Rmult_le_compat_l; [lra|]. assert (0 <= v * v + v * u + u * u) by nra. lra.
  - destruct (Rle_dec b (5 / 2)) as [_|]; [|exfalso; lra]. assert (G := sbh_growth u v Hu Huv Hv).
    destruct (Rle_dec a tiny) as [A|A].
    + assert (Hs : u <= 4 / 1000) by (unfold u; lra). assert (V : u * value sd u <= value sbh u).
      { rewrite sd_first, sbh_first by lra. assert (0 <= u * u * (4000 - 26000 * u)) by (apply Rmult_le_pos; [nra|lra]). assert (0 <= u * u) by nra. nra. }
      lra.
    + destruct (Rle_dec a (5 / 2)) as [_|]; [|exfalso; lra]. exact G.
Qed.
Lemma bh50_growth a b : 0 <= a -> a <= b -> 24 * (b - a) <= bh50_flux b - bh50_flux a.
Proof.
  intros Ha Hab. assert (T := tiny_small). destruct (Rle_dec b (5 / 2)) as [B|B]; [now apply bh50_low|]. assert (N := nu0_high).
  assert (Eb : bh50_flux b = 39788736 / 1000 + nu0 * (b - 5 / 2)) by (unfold bh50_flux; destruct (Rle_dec b tiny); [exfalso; lra|]; destruct (Rle_dec b (5 / 2)); [contradiction|reflexivity]).
  destruct (Rle_dec a (5 / 2)) as [A|A].
  - assert (X := bh50_low a (5 / 2) Ha A (Rle_refl _)).
    assert (E : bh50_flux (5 / 2) = 39788736 / 1000) by (unfold bh50_flux; destruct (Rle_dec (5 / 2) tiny); [exfalso; lra|]; destruct (Rle_dec (5 / 2) (5 / 2)); [|exfalso; lra]; replace (5 / 2 / (5 / 2)) with 1 by field; exact sbh_last).
    rewrite E in X. rewrite Eb. nra.
  - assert (Ea : bh50_flux a = 39788736 / 1000 + nu0 * (a - 5 / 2)) by (unfold bh50_flux; destruct (Rle_dec a tiny); [exfalso; lra|]; destruct (Rle_dec a (5 / 2)); [contradiction|reflexivity]).
    rewrite Ea, Eb. nra.
Qed.
Lemma bh50_nu_low b : 0 <= b -> 24 <= bh50_nu b.
Proof.
  intros Hb. assert (T := tiny_small). destruct (Rle_dec b 0) as [B|B].
  - replace b with 0 by lra. unfold bh50_nu. destruct (Rle_dec 0 tiny); [|exfalso; lra]. rewrite sd_first by lra. lra.
  - assert (X := bh50_growth 0 b (Rle_refl 0) Hb). rewrite <- !bh50_flux_eq in X by lra. apply Rmult_le_reg_r with b; lra.
Qed.
