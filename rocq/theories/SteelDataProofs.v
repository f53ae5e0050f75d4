(** The shipped "lognu" data of hiperco50: accepted, bounded by the reluctivity of free space, and with a growing flux. *)
From Coq Require Import Reals List Arith Bool Lia Lra Psatz Machin.
From Coquelicot Require Import Coquelicot.
From Verif Require Import EmCoef Steel SteelProofs SplineProofs.
Import ListNotations.
Local Open Scope R_scope.

(** ---- numbers ---- *)
Lemma PI_bound : PI <= 3147 / 1000.
Proof.
  destruct (PI_2_3_7_ineq 1) as [_ H]. cbn [Nat.mul Nat.add sum_f_R0] in H. unfold tg_alt, PI_2_3_7_tg, Ratan_seq in H. cbn in H. lra.
Qed.
Lemma exp_scaled x n : exp (INR n * x) = exp x ^ n.
Proof. induction n as [|n IH]; [cbn; rewrite Rmult_0_l; apply exp_0|]. rewrite S_INR. replace ((INR n + 1) * x) with (INR n * x + x) by ring. rewrite exp_plus, IH. cbn. ring. Qed.
Lemma exp_low : 40 <= exp (38492 / 10000).
Proof.
  assert (H : 106 / 100 <= exp (38492 / 640000)) by (assert (X := exp_ineq1_le (38492 / 640000)); lra).
  assert (E : exp (38492 / 10000) = exp (38492 / 640000) ^ 64) by (rewrite <- exp_scaled; f_equal; replace (INR 64) with 64 by (rewrite INR_IZR_INZ; reflexivity); field).
  rewrite E. apply Rle_trans with ((106 / 100) ^ 64); [|apply pow_incr; lra].
  assert (P : forall x y n, 0 <= y -> y <= x ^ n -> y * y <= x ^ (2 * n)) by (intros x y n H0 H1; rewrite Nat.mul_comm, pow_mult; cbn [pow]; rewrite Rmult_1_r; apply Rmult_le_compat; assumption).
  assert (P1 : 112 / 100 <= (106 / 100) ^ (2 * 1)) by (cbn; lra).
  assert (P2 : 125 / 100 <= (106 / 100) ^ (2 * (2 * 1))) by (apply Rle_trans with (112 / 100 * (112 / 100)); [lra|apply P; [lra|exact P1]]).
  assert (P2' : 1262 / 1000 <= (106 / 100) ^ (2 * (2 * 1))) by (cbn; lra).
  assert (P3 : 1592 / 1000 <= (106 / 100) ^ (2 * (2 * (2 * 1)))) by (apply Rle_trans with (1262 / 1000 * (1262 / 1000)); [lra|apply P; [lra|exact P2']]).
  assert (P4 : 2534 / 1000 <= (106 / 100) ^ (2 * (2 * (2 * (2 * 1))))) by (apply Rle_trans with (1592 / 1000 * (1592 / 1000)); [lra|apply P; [lra|exact P3]]).
  assert (P5 : 6421 / 1000 <= (106 / 100) ^ (2 * (2 * (2 * (2 * (2 * 1)))))) by (apply Rle_trans with (2534 / 1000 * (2534 / 1000)); [lra|apply P; [lra|exact P4]]).
  change 64%nat with (2 * (2 * (2 * (2 * (2 * (2 * 1))))))%nat.
  apply Rle_trans with (6421 / 1000 * (6421 / 1000)); [lra|apply P; [lra|exact P5]].
Qed.
(* exp (-13.5848) by 18 squarings of 1 - y, rounded down *)
Lemma exp_high : exp (135848 / 10000) <= 794300.
Proof.
  assert (Sq : forall x z w, 0 <= w -> 0 <= z -> z <= x -> w <= z * z -> w <= x * x) by (intros x z w W Z H1 H2; nra).
  set (y := 135848 / 10000 / 262144). assert (H0 : 9999481781005859 / 10000000000000000 <= exp (- y)) by (assert (X := exp_ineq1_le (- y)); unfold y in *; lra).
  assert (D : forall z, exp (2 * z) = exp z * exp z) by (intros z; rewrite <- exp_plus; f_equal; ring).
  assert (H1 : 9998963588866810 / 10000000000000000 <= exp (- (135848 / 10000 / 131072))) by (replace (- (135848 / 10000 / 131072)) with (2 * (- y)) by (unfold y; field); rewrite D; apply (Sq _ (9999481781005859 / 10000000000000000)); [lra|lra|exact H0|lra]).
  assert (H2 : 9997927285148423 / 10000000000000000 <= exp (- (135848 / 10000 / 65536))) by (replace (- (135848 / 10000 / 65536)) with (2 * (- (135848 / 10000 / 131072))) by (unfold y; field); rewrite D; apply (Sq _ (9998963588866810 / 10000000000000000)); [lra|lra|exact H1|lra]).
  assert (H3 : 9995854999911531 / 10000000000000000 <= exp (- (135848 / 10000 / 32768))) by (replace (- (135848 / 10000 / 32768)) with (2 * (- (135848 / 10000 / 65536))) by (unfold y; field); rewrite D; apply (Sq _ (9997927285148423 / 10000000000000000)); [lra|lra|exact H2|lra]).
  assert (H4 : 9991711717925635 / 10000000000000000 <= exp (- (135848 / 10000 / 16384))) by (replace (- (135848 / 10000 / 16384)) with (2 * (- (135848 / 10000 / 32768))) by (unfold y; field); rewrite D; apply (Sq _ (9995854999911531 / 10000000000000000)); [lra|lra|exact H3|lra]).
  assert (H5 : 9983430305413244 / 10000000000000000 <= exp (- (135848 / 10000 / 8192))) by (replace (- (135848 / 10000 / 8192)) with (2 * (- (135848 / 10000 / 16384))) by (unfold y; field); rewrite D; apply (Sq _ (9991711717925635 / 10000000000000000)); [lra|lra|exact H4|lra]).
  assert (H6 : 9966888066304357 / 10000000000000000 <= exp (- (135848 / 10000 / 4096))) by (replace (- (135848 / 10000 / 4096)) with (2 * (- (135848 / 10000 / 8192))) by (unfold y; field); rewrite D; apply (Sq _ (9983430305413244 / 10000000000000000)); [lra|lra|exact H5|lra]).
  assert (H7 : 9933885772624020 / 10000000000000000 <= exp (- (135848 / 10000 / 2048))) by (replace (- (135848 / 10000 / 2048)) with (2 * (- (135848 / 10000 / 4096))) by (unfold y; field); rewrite D; apply (Sq _ (9966888066304357 / 10000000000000000)); [lra|lra|exact H6|lra]).
  assert (H8 : 9868208654354192 / 10000000000000000 <= exp (- (135848 / 10000 / 1024))) by (replace (- (135848 / 10000 / 1024)) with (2 * (- (135848 / 10000 / 2048))) by (unfold y; field); rewrite D; apply (Sq _ (9933885772624020 / 10000000000000000)); [lra|lra|exact H7|lra]).
  assert (H9 : 9738154204587097 / 10000000000000000 <= exp (- (135848 / 10000 / 512))) by (replace (- (135848 / 10000 / 512)) with (2 * (- (135848 / 10000 / 1024))) by (unfold y; field); rewrite D; apply (Sq _ (9868208654354192 / 10000000000000000)); [lra|lra|exact H8|lra]).
  assert (H10 : 9483164731231735 / 10000000000000000 <= exp (- (135848 / 10000 / 256))) by (replace (- (135848 / 10000 / 256)) with (2 * (- (135848 / 10000 / 512))) by (unfold y; field); rewrite D; apply (Sq _ (9738154204587097 / 10000000000000000)); [lra|lra|exact H9|lra]).
  assert (H11 : 8993041331967746 / 10000000000000000 <= exp (- (135848 / 10000 / 128))) by (replace (- (135848 / 10000 / 128)) with (2 * (- (135848 / 10000 / 256))) by (unfold y; field); rewrite D; apply (Sq _ (9483164731231735 / 10000000000000000)); [lra|lra|exact H10|lra]).
  assert (H12 : 8087479239848021 / 10000000000000000 <= exp (- (135848 / 10000 / 64))) by (replace (- (135848 / 10000 / 64)) with (2 * (- (135848 / 10000 / 128))) by (unfold y; field); rewrite D; apply (Sq _ (8993041331967746 / 10000000000000000)); [lra|lra|exact H11|lra]).
  assert (H13 : 6540732045497272 / 10000000000000000 <= exp (- (135848 / 10000 / 32))) by (replace (- (135848 / 10000 / 32)) with (2 * (- (135848 / 10000 / 64))) by (unfold y; field); rewrite D; apply (Sq _ (8087479239848021 / 10000000000000000)); [lra|lra|exact H12|lra]).
  assert (H14 : 4278117569099492 / 10000000000000000 <= exp (- (135848 / 10000 / 16))) by (replace (- (135848 / 10000 / 16)) with (2 * (- (135848 / 10000 / 32))) by (unfold y; field); rewrite D; apply (Sq _ (6540732045497272 / 10000000000000000)); [lra|lra|exact H13|lra]).
  assert (H15 : 1830228993503774 / 10000000000000000 <= exp (- (135848 / 10000 / 8))) by (replace (- (135848 / 10000 / 8)) with (2 * (- (135848 / 10000 / 16))) by (unfold y; field); rewrite D; apply (Sq _ (4278117569099492 / 10000000000000000)); [lra|lra|exact H14|lra]).
  assert (H16 : 334973816866183 / 10000000000000000 <= exp (- (135848 / 10000 / 4))) by (replace (- (135848 / 10000 / 4)) with (2 * (- (135848 / 10000 / 8))) by (unfold y; field); rewrite D; apply (Sq _ (1830228993503774 / 10000000000000000)); [lra|lra|exact H15|lra]).
  assert (H17 : 11220745798589 / 10000000000000000 <= exp (- (135848 / 10000 / 2))) by (replace (- (135848 / 10000 / 2)) with (2 * (- (135848 / 10000 / 4))) by (unfold y; field); rewrite D; apply (Sq _ (334973816866183 / 10000000000000000)); [lra|lra|exact H16|lra]).
  assert (H18 : 12590513627 / 10000000000000000 <= exp (- (135848 / 10000 / 1))) by (replace (- (135848 / 10000 / 1)) with (2 * (- (135848 / 10000 / 2))) by (unfold y; field); rewrite D; apply (Sq _ (11220745798589 / 10000000000000000)); [lra|lra|exact H17|lra]).
  replace (- (135848 / 10000 / 1)) with (- (135848 / 10000)) in H18 by field. rewrite exp_Ropp in H18.
  assert (P := exp_pos (135848 / 10000)). apply Rmult_le_reg_r with (/ exp (135848 / 10000)); [now apply Rinv_0_lt_compat|]. rewrite Rinv_r by lra. lra.
Qed.
Lemma nu0_high : 794400 <= nu0.
Proof.
  unfold nu0, mu_0. assert (P := PI_RGT_0). assert (B := PI_bound). apply Rmult_le_reg_r with (4 / 10000000 * PI); [lra|]. unfold Rdiv at 2. rewrite Rmult_1_l, Rinv_l by lra. nra.
Qed.

(** ---- the curve ---- *)
Definition steel : curve :=
  {| cps := [5401/1000; 43732/10000; 39991/10000; 38783/10000; 38492/10000; 38882/10000; 43043/10000; 48375/10000; 10251/1000; 135846/10000; 135848/10000];
     degree := 2%nat;
     knots := [0; 0; 0; 6209/10000; 9571/10000; 11516/10000; 1346/1000; 15888/10000; 18193/10000; 23539/10000; 27175/10000; 35/10; 35/10; 35/10] |}.
Lemma andb_intro a b : a = true -> b = true -> a && b = true. Proof. intros -> ->. reflexivity. Qed.
Lemma steel_setUp : setUp steel = Fine steel.
Proof.
  unfold setUp. match goal with |- (if ?b then _ else _) = _ => assert (E : b = true); [|rewrite E; reflexivity] end.
  apply andb_intro; [apply andb_intro; [reflexivity|]|].
  - cbn [length knots steel forallb seq Nat.sub]. repeat (apply andb_intro; [apply rle_true; unfold knot; cbn; lra|]). reflexivity.
  - cbn [length knots steel forallb seq Nat.sub degree]. repeat (apply andb_intro; [apply rlt_true; unfold knot; cbn; lra|]). reflexivity.
Qed.
Lemma steel_derive : exists d, derive steel = Fine d.
Proof.
  unfold derive. cbn [degree steel Nat.eqb]. match goal with |- exists d, (if ?b then _ else _) = _ => assert (E : b = true); [|rewrite E; eexists; reflexivity] end.
  cbn [length cps steel forallb seq Nat.sub]. repeat (apply andb_intro; [apply rlt_true; unfold knot; cbn; lra|]). reflexivity.
Qed.
Lemma steel_sound : sound steel. Proof. exact (proj2 (setUp_sound _ _ steel_setUp)). Qed.
Lemma steel_distinct : distinct steel.
Proof. intros k Hk. cbn in Hk. destruct k as [|[|[|[|[|[|[|[|[|[|[|k]]]]]]]]]]]; try lia; unfold knot; cbn; lra. Qed.
Lemma steel_knots : knot steel 2 = 0 /\ knot steel 11 = 35 / 10 /\ knot steel 14 = 0. Proof. unfold knot; cbn; lra. Qed.
Lemma steel_range k : (k < 11)%nat -> 38492 / 10000 <= cp steel k <= 135848 / 10000.
Proof. intros Hk. destruct k as [|[|[|[|[|[|[|[|[|[|[|k]]]]]]]]]]]; try lia; unfold cp; cbn; lra. Qed.
Lemma steel_value_range u : 0 <= u <= 35 / 10 -> 38492 / 10000 <= value steel u <= 135848 / 10000.
Proof.
  intros Hu. destruct steel_knots as (K1 & K2 & _). destruct (eval_span steel u steel_sound) as (k & E & Hk & Hu' & Hs); [change (degree steel) with 2%nat; change (length (cps steel)) with 11%nat; rewrite K1, K2; exact Hu|change (degree steel) with 2%nat; change (length (cps steel)) with 11%nat; rewrite K1, K2; lra|].
  unfold value. rewrite E. cbn in Hk. apply (boor_hull steel u k _ _ steel_sound); [cbn; lia|exact Hu'|exact Hs|cbn; lia|cbn; lia|]. intros j Hj. apply steel_range. lia.
Qed.
Lemma steel_slope j u : (j < 9)%nat -> knot steel (j + 2) <= u <= knot steel (j + 3) ->
  1 / 4 <= 1 + u * ((1 - (u - knot steel (j + 2)) / (knot steel (j + 3) - knot steel (j + 2))) * d2 steel j + (u - knot steel (j + 2)) / (knot steel (j + 3) - knot steel (j + 2)) * d2 steel (j + 1)).
Proof.
  intros Hj.
  assert (G : forall A B p q be, A < B -> 0 <= A -> A <= u <= B -> 0 <= be -> be * B <= 3 / 4 -> - be <= p -> - be <= q -> 1 / 4 <= 1 + u * ((1 - (u - A) / (B - A)) * p + (u - A) / (B - A) * q)).
  { intros A B p q be AB A0 Hu B0 Bb Hp Hq. set (w := (u - A) / (B - A)).
    assert (W : 0 <= w <= 1) by (unfold w; split; [apply Rmult_le_pos; [lra|left; apply Rinv_0_lt_compat; lra]|apply Rmult_le_reg_r with (B - A); [lra|]; unfold Rdiv; rewrite Rmult_assoc, Rinv_l by lra; lra]).
    assert (S : - be <= (1 - w) * p + w * q) by nra. assert (u * - be <= u * ((1 - w) * p + w * q)) by (apply Rmult_le_compat_l; lra). nra. }
  destruct j as [|[|[|[|j]]]].
  - unfold d2, knot, cp. cbn. intros Hu.
    replace ((1 - (u - 0) / (6209 / 10000 - 0)) * _ + _) with (- (10278 * 2 / 6209) + u * (10278 * 2 / 6209 - 2 * 3741 / 9571) * (10000 / 6209)) by field.
    assert (Q := Rle_0_sqr (u - 406 / 1000)). unfold Rsqr in Q. lra.
  - intros Hu. apply (G _ _ _ _ (7818 / 10000)); [| |exact Hu| | | |]; unfold d2, knot, cp; cbn; lra.
  - intros Hu. apply (G _ _ _ _ (456 / 1000)); [| |exact Hu| | | |]; unfold d2, knot, cp; cbn; lra.
  - intros Hu. apply (G _ _ _ _ (15 / 100)); [| |exact Hu| | | |]; unfold d2, knot, cp; cbn; lra.
  - intros Hu. destruct j as [|[|[|[|[|j]]]]]; try lia; (apply (G _ _ _ _ 0); [| |exact Hu| | | |]; unfold d2, knot, cp; cbn; lra).
Qed.
(** flux over gradient grows at least as 10 b on the range of the data *)
Lemma steel_growth a b : 0 <= a -> a <= b -> b <= 35 / 10 -> 10 * (b - a) <= exp (value steel b) * b - exp (value steel a) * a.
Proof.
  destruct steel_knots as (K1 & K2 & _). intros Ha Hab Hb.
  apply (chain (fun b => exp (value steel b) * b) 10 (knot steel) 2 9); [intros k Hk; left; apply steel_distinct; cbn; lia| |rewrite K1; exact Ha|exact Hab|change (2 + 9)%nat with 11%nat; rewrite K2; exact Hb].
  intros k x y Hk Hx Hxy Hy. assert (Seg : forall t, knot steel k <= t <= knot steel (k + 1) -> value steel t = boor steel t 2 k).
  { intros t Ht. unfold value. rewrite (piece_eval steel steel_sound (Nat.lt_0_succ 1) steel_distinct k t); [reflexivity|cbn; lia|exact Ht]. }
  rewrite !Seg by lra. destruct k as [|[|j]]; [lia|lia|]. replace (S (S j)) with (j + 2)%nat in Hx, Hy, Seg by lia. replace (j + 2 + 1)%nat with (j + 3)%nat in Hy, Seg by lia.
  set (s' := fun u => (1 - (u - knot steel (j + 2)) / (knot steel (j + 3) - knot steel (j + 2))) * d2 steel j + (u - knot steel (j + 2)) / (knot steel (j + 3) - knot steel (j + 2)) * d2 steel (j + 1)).
  assert (P0 : 0 <= knot steel (j + 2)) by (rewrite <- K1; apply steel_sound; [lia|cbn; lia]). assert (P1 : knot steel (j + 3) <= 35 / 10) by (rewrite <- K2; apply steel_sound; [lia|cbn; lia]).
  apply (growth (fun u => exp (boor steel u 2 (S (S j))) * u) (fun u => exp (boor steel u 2 (S (S j))) * (1 + u * s' u)) 10 (knot steel (j + 2)) (knot steel (j + 3))); [| |exact Hx|exact Hxy|exact Hy].
  - intros u Hu. assert (Db : is_derive (fun u => boor steel u 2 (S (S j))) u (s' u)).
    { apply boor2_derive; [reflexivity|replace (j + 3)%nat with (j + 2 + 1)%nat by lia; apply steel_distinct; cbn; lia|apply steel_sound; [lia|cbn; lia]|apply steel_sound; [lia|cbn; lia]]. }
    assert (De := is_derive_comp exp (fun u => boor steel u 2 (S (S j))) u _ _ (is_derive_exp _) Db).
    assert (Dm := is_derive_mult (fun u => exp (boor steel u 2 (S (S j)))) (fun u => u) u _ _ De (is_derive_id u) Rmult_comm).
    eapply is_derive_ext; [intros t; reflexivity|]. match type of Dm with is_derive _ _ ?l => replace (exp (boor steel u 2 (S (S j))) * (1 + u * s' u)) with l; [exact Dm|] end.
    unfold plus, mult, scal, one; cbn. unfold mult; cbn. ring.
  - intros u Hu. assert (V := steel_value_range u ltac:(lra)). rewrite (Seg u Hu) in V. replace (j + 2)%nat with (S (S j)) in V by lia.
    assert (E : 40 <= exp (boor steel u 2 (S (S j)))). { apply Rle_trans with (1 := exp_low). destruct (Req_dec (38492 / 10000) (boor steel u 2 (S (S j)))) as [<-|N]; [lra|left; apply exp_increasing; lra]. }
    assert (Q := steel_slope j u ltac:(lia) Hu). fold (s' u) in Q. nra.
Qed.

(** ---- the reluctivity, all flux densities ---- *)
Definition steel_nu (b : R) : R := if Rle_dec b (35 / 10) then exp (value steel b) else nu0.
Lemma steel_nu_low b : b <= 35 / 10 -> steel_nu b = exp (value steel b). Proof. unfold steel_nu. destruct (Rle_dec b (35 / 10)); [reflexivity|intros; contradiction]. Qed.
Lemma steel_nu_high b : 35 / 10 < b -> steel_nu b = nu0. Proof. unfold steel_nu. destruct (Rle_dec b (35 / 10)); [intros; lra|reflexivity]. Qed.
Lemma exp_mono x y : x <= y -> exp x <= exp y. Proof. intros H. destruct (Req_dec x y) as [->|N]; [lra|left; apply exp_increasing; lra]. Qed.
Lemma steel_nu_range b : 0 <= b -> 40 <= steel_nu b <= nu0.
Proof.
  intros Hb. assert (N := nu0_high). destruct (Rle_dec b (35 / 10)) as [L|L]; [|rewrite steel_nu_high by lra; lra].
  rewrite steel_nu_low by exact L. destruct (steel_value_range b ltac:(lra)) as [V1 V2]. apply exp_mono in V1, V2. assert (E1 := exp_low). assert (E2 := exp_high). lra.
Qed.
Lemma steel_nu_growth a b : 0 <= a -> a <= b -> 10 * (b - a) <= steel_nu b * b - steel_nu a * a.
Proof.
  intros Ha Hab. destruct (Rle_dec b (35 / 10)) as [L|L]; [rewrite !steel_nu_low by lra; apply steel_growth; lra|].
  rewrite (steel_nu_high b) by lra. assert (N := nu0_high). destruct (Rle_dec a (35 / 10)) as [A|A]; [|rewrite steel_nu_high by lra; nra].
  rewrite steel_nu_low by exact A. assert (G := steel_growth a (35 / 10) Ha A (Rle_refl _)).
  destruct (steel_value_range (35 / 10) ltac:(lra)) as [_ V2]. apply exp_mono in V2. assert (E2 := exp_high). nra.
Qed.
Lemma steel_accepted : exists d, logNu steel = Fine {| lcurve := steel; lslope := d; l_b_max := 35 / 10 |}.
Proof. destruct steel_derive as (d & Hd). exists d. unfold logNu. rewrite steel_setUp. cbn [andThen]. rewrite Hd. reflexivity. Qed.
Lemma steel_eval d b : 0 <= b -> logNu_eval {| lcurve := steel; lslope := d; l_b_max := 35 / 10 |} b = Fine (steel_nu b).
Proof.
  intros Hb. unfold logNu_eval, steel_nu. cbn [l_b_max lcurve]. destruct (Rle_dec b (35 / 10)) as [L|L]; [|reflexivity].
  destruct steel_knots as (K1 & K2 & _). destruct (eval_span steel b steel_sound) as (k & E & _);
    [change (degree steel) with 2%nat; change (length (cps steel)) with 11%nat; rewrite K1, K2; lra|change (degree steel) with 2%nat; change (length (cps steel)) with 11%nat; rewrite K1, K2; lra|].
  unfold value. rewrite E. reflexivity.
Qed.
