(** C150: nonlinear reluctivities from spline data, and those shipped with the code. *)
From Coq Require Import Reals List Arith Bool Lia Lra Psatz String.
From Coquelicot Require Import Coquelicot.
From Verif Require Import EmCoef Steel SteelProofs SplineProofs SteelDataProofs SteelBhProofs SteelBhDataProofs.
From Verif Require Import Vec Inputs Options Thermal ThermalSpec FlowOptions ThermalOptionsSpec JacOptionsSpec EnergyOptionsSpec Props_EnergyOptions.
From Verif Require ThermalOptions Form JacOptions.
Import ListNotations.
Import JacOptions (residualVector).
Import ThermalOptions (telem, el_nq, el_pw, el_nu, tface, tf_th, tf_XT, tmesh, elems, outer, config).
Local Open Scope R_scope.
Local Open Scope string_scope.

(** the reluctivity is a function nu of the flux density: Eval returns it at every density from 0 on *)
Definition reluctivity (l : lognu) (nu : R -> R) : Prop := forall b, 0 <= b -> logNu_eval l b = Fine (nu b).
Definition none : spline_options := {| o_cps := None; o_knots := None; o_degree := None |}.
(** first and last parameter of the domain of a curve, and the last knot *)
Definition first_b (c : curve) : R := nth (degree c) (knots c) 0.
Definition last_b (c : curve) : R := nth (List.length (cps c)) (knots c) 0.
Definition b_max (c : curve) : R := last (knots c) 0.

Lemma logNu_inv c l : logNu c = Fine l -> sound c /\ lcurve l = c /\ derive c = Fine (lslope l) /\ l_b_max l = b_max c /\ last_b c <= b_max c.
Proof.
  unfold logNu. intros H. assert (N : cps c <> [] /\ knots c <> []) by (split; intros E; rewrite E in H; [discriminate|destruct (cps c); discriminate]).
  assert (H' : andThen (setUp c) (fun c => andThen (derive c) (fun d => Fine {| lcurve := c; lslope := d; l_b_max := last (knots c) 0 |})) = Fine l) by (destruct (cps c); [easy|destruct (knots c); [easy|exact H]]).
  destruct (setUp c) as [c'| |] eqn:E; try discriminate. destruct (setUp_sound c c' E) as [-> So]. cbn [andThen] in H'. destruct (derive c) as [d| |] eqn:Ed; try discriminate. cbn [andThen] in H'. inversion H'; subst l. cbn.
  split; [exact So|]. split; [reflexivity|]. split; [reflexivity|]. split; [reflexivity|]. unfold last_b, b_max. rewrite last_nth by tauto. destruct So as (Hp & Hm & Mo). apply Mo; lia.
Qed.

(** C150: what Eval does with any accepted data: between the exponentials of the extreme control points over the domain of
    the curve, the reluctivity of free space above the last knot, and an exception elsewhere. *)
Theorem C150_range : forall c l lo hi b, logNu c = Fine l -> first_b c < last_b c -> (forall x, In x (cps c) -> lo <= x <= hi) ->
  (first_b c <= b <= last_b c -> exists v, logNu_eval l b = Fine v /\ exp lo <= v <= exp hi) /\
  (b_max c < b -> logNu_eval l b = Fine nu0) /\ (b < first_b c \/ (last_b c < b /\ b <= b_max c) -> logNu_eval l b = Throws).
Proof.
  intros c l lo hi b H Hd Hc. destruct (logNu_inv c l H) as (So & E1 & _ & E2 & Hl). unfold logNu_eval. rewrite E1, E2. split; [|split].
  - intros Hb. destruct (Rle_dec b (b_max c)) as [_|F]; [|exfalso; lra]. destruct (eval_span c b So) as (k & E & Hk & Hu & Hs); [exact Hb|exact Hd|]. rewrite E. cbn [andThen]. exists (exp (boor c b (degree c) k)). split; [reflexivity|].
    assert (V : lo <= boor c b (degree c) k <= hi).
    { apply (boor_hull c b k lo hi So Hk Hu Hs); [lia|lia|]. intros j Hj. apply Hc. apply nth_In. lia. }
    split; apply exp_mono; lra.
  - intros Hb. destruct (Rle_dec b (b_max c)); [exfalso; lra|reflexivity].
  - intros Hb. destruct (Rle_dec b (b_max c)) as [_|F]; [|exfalso; lra]. unfold evalCurve. fold (knot c (degree c)).
    destruct Hb as [Hb|[Hb _]].
    + replace (rlt b (knot c (degree c))) with true by (symmetry; apply rlt_true; exact Hb). reflexivity.
    + replace (rlt (knot c (List.length (cps c))) b) with true by (symmetry; apply rlt_true; exact Hb). rewrite orb_true_r. reflexivity.
Qed.
Print Assumptions C150_range.

(** C150: with distinct inner knots and degree two or more EvalStateDeriv is the derivative of Eval within the domain, knots
    included, and EvalState2ndDeriv is that of EvalStateDeriv from degree three on. *)
Definition distinct_knots (c : curve) : Prop := forall k, (degree c <= k < List.length (cps c))%nat -> nth k (knots c) 0 < nth (k + 1) (knots c) 0.
Lemma distinct_eval c x : sound c -> first_b c < last_b c -> first_b c <= x <= last_b c -> evalCurve c x = Fine (value c x).
Proof. intros So Hd Hx. destruct (eval_span c x So Hx Hd) as (k & E & _). unfold value. now rewrite E. Qed.
Theorem C150_derivative : forall c l, logNu c = Fine l -> (2 <= degree c)%nat -> distinct_knots c ->
  exists nu d, (forall x, first_b c <= x <= last_b c -> logNu_eval l x = Fine (nu x)) /\
    (forall b, first_b c < b < last_b c -> logNu_d l b = Fine (d b) /\ is_derive nu b (d b)) /\
    ((3 <= degree c)%nat -> forall b, first_b c < b < last_b c -> exists dd, logNu_dd l b = Fine dd /\ is_derive d b dd).
Proof.
  intros c l H Deg D. destruct (logNu_inv c l H) as (So & E1 & E3 & E2 & Hl). set (s := lslope l) in *.
  destruct (derive_facts c s So E3) as (F1 & F2 & F3 & F4 & F5). assert (Sd := derive_sound c s So E3). assert (Sc := So). destruct Sc as (Hp & Hm & Mo).
  assert (Hd : first_b c < last_b c) by (apply (distinct_lt c D (degree c) (List.length (cps c))); lia).
  assert (Fs : first_b s = first_b c /\ last_b s = last_b c).
  { unfold first_b, last_b. fold (knot s (degree s)) (knot s (List.length (cps s))). rewrite !F4 by lia. split; unfold knot; f_equal; lia. }
  destruct Fs as [Fs Ls]. assert (Ds : distinct s) by (intros j Hj; rewrite !F4 by lia; replace (j + 1 + 1)%nat with (S j + 1)%nat by lia; replace (j + 1)%nat with (S j) at 1 by lia; apply D; lia).
  assert (V : forall b, first_b c < b < last_b c -> is_derive (value c) b (value s b)).
  { intros b Hb. destruct (spline_derive c s b So Deg D E3 Hb) as (v & Hv & Dv). unfold value at 2. now rewrite Hv. }
  exists (fun x => exp (value c x)), (fun b => exp (value c b) * value s b). unfold logNu_d, logNu_eval, logNu_dd. rewrite E1, E2. fold s. split; [|split].
  - intros x Hx. destruct (Rle_dec x (b_max c)) as [_|F]; [|exfalso; lra]. rewrite (distinct_eval c x So Hd Hx). reflexivity.
  - intros b Hb. split.
    + destruct (Rle_dec b (b_max c)) as [_|F]; [|exfalso; lra]. rewrite (distinct_eval c b So Hd) by lra. cbn [andThen]. rewrite (distinct_eval s b Sd) by (rewrite Fs, Ls; lra). reflexivity.
    + assert (De := is_derive_comp exp (value c) b _ _ (is_derive_exp _) (V b Hb)). rewrite Rmult_comm. exact De.
  - intros Deg3 b Hb. assert (X : exists e, derive s = Fine e).
    { unfold derive. destruct (degree s =? 0)%nat eqn:E0; [apply Nat.eqb_eq in E0; lia|]. match goal with |- exists e, (if ?t then _ else _) = _ => assert (E : t = true); [|rewrite E; eexists; reflexivity] end.
      apply forallb_forall. intros i Hi. apply in_seq in Hi. apply rlt_true. destruct Sd as (Hp' & Hm' & Mo').
      destruct (le_lt_dec (degree s) i) as [Q|Q].
      - apply Rlt_le_trans with (knot s (i + 2)); [replace (i + 2)%nat with (i + 1 + 1)%nat by lia; apply Ds; lia|apply Mo'; lia].
      - apply Rle_lt_trans with (knot s (degree s)); [apply Mo'; lia|]. apply Rlt_le_trans with (knot s (degree s + 1)); [apply Ds; lia|apply Mo'; lia]. }
    destruct X as (e & Ee). rewrite Ee. cbn [andThen]. destruct (Rle_dec b (b_max c)) as [_|F]; [|exfalso; lra].
    rewrite (distinct_eval c b So Hd) by lra. cbn [andThen]. rewrite (distinct_eval s b Sd) by (rewrite Fs, Ls; lra). cbn [andThen].
    destruct (spline_derive s e b Sd ltac:(lia) Ds Ee) as (v & Hv & Dv); [fold (first_b s); fold (last_b s); unfold knot; fold (first_b s) (last_b s); rewrite Fs, Ls; exact Hb|].
    rewrite Hv. cbn [andThen]. eexists. split; [reflexivity|].
    assert (De := is_derive_comp exp (value c) b _ _ (is_derive_exp _) (V b Hb)). assert (Dm := is_derive_mult (fun b => exp (value c b)) (value s) b _ _ De Dv Rmult_comm).
    match type of Dm with is_derive _ _ ?x => replace (exp (value c b) * (v + value s b ^ 2)) with x; [exact Dm|] end. unfold plus, mult, scal; cbn. unfold mult; cbn. ring.
Qed.
Print Assumptions C150_derivative.

(** C150: the "lognu" data shipped for hiperco50: accepted; Eval never throws, lies between 40 and the reluctivity of free space, and the
    flux nu(b) b grows with b at least as 10 b. *)
Theorem C150_hiperco50 : exists l nu, lognuMaterial none (Some hiperco50_lognu) = Fine l /\ reluctivity l nu /\
  (forall b, 0 <= b -> 40 <= nu b <= nu0) /\ (forall a b, 0 <= a <= b -> 10 * (b - a) <= nu b * b - nu a * a).
Proof.
  destruct steel_accepted as (d & Hd). exists {| lcurve := steel; lslope := d; l_b_max := 35 / 10 |}, steel_nu. split; [exact Hd|]. split; [intros b Hb; exact (steel_eval d b Hb)|].
  split; [exact steel_nu_range|]. intros a b Hab. apply steel_nu_growth; lra.
Qed.
Print Assumptions C150_hiperco50.
(** C150: but it jumps at the last knot, by more than 100, so the flux is not continuous there. *)
Theorem C150_continuous_refuted : forall l nu, lognuMaterial none (Some hiperco50_lognu) = Fine l -> reluctivity l nu ->
  (forall b, 35 / 10 < b -> nu (35 / 10) + 100 <= nu b) /\ ~ continuity_pt nu (35 / 10).
Proof.
  intros l nu Hl Hn. destruct steel_accepted as (d & Hd). assert (E : lognuMaterial none (Some hiperco50_lognu) = Fine {| lcurve := steel; lslope := d; l_b_max := 35 / 10 |}) by exact Hd.
  rewrite E in Hl. inversion Hl; subst l. assert (Ev : forall b, 0 <= b -> nu b = steel_nu b) by (intros b Hb; assert (X := Hn b Hb); rewrite steel_eval in X by exact Hb; congruence).
  assert (J : forall b, 35 / 10 < b -> nu (35 / 10) + 100 <= nu b).
  { intros b Hb. rewrite !Ev by lra. rewrite (steel_nu_high b) by exact Hb. rewrite steel_nu_low by lra. destruct (steel_value_range (35 / 10) ltac:(lra)) as [_ V]. apply exp_mono in V. assert (E2 := exp_high). assert (N := nu0_high). lra. }
  split; [exact J|]. intros C. destruct (C 1 ltac:(lra)) as (al & Hal & Hc). specialize (Hc (35 / 10 + al / 2)). unfold dist in Hc; cbn in Hc. unfold R_dist in Hc.
  assert (X : Rabs (nu (35 / 10 + al / 2) - nu (35 / 10)) < 1).
  { apply Hc. split; [split; [exact I|lra]|]. replace (35 / 10 + al / 2 - 35 / 10) with (al / 2) by ring. rewrite Rabs_pos_eq by lra. lra. }
  assert (Y := J (35 / 10 + al / 2) ltac:(lra)). rewrite Rabs_pos_eq in X by lra. lra.
Qed.
Print Assumptions C150_continuous_refuted.

(** the boundary of a problem neither measures negatively nor heats *)
Definition passive_boundary (o : opts) (M : tmesh) : Prop :=
  (forall f p q, In f (outer M) -> (q < npts (tf_th f) p)%nat -> 0 <= wts (tf_th f) p q * Wf (tf_th f) p q (tf_XT f)) /\
  (forall f, In f (outer M) -> let w := get (get o "bcs") "convection" in lists (attributes w) f = true -> 0 <= num w "h" 1).
(** C150: the "bh" data shipped for hiperco50: accepted; Eval never throws, is at least 24, and the flux grows at least as 24 b. *)
Theorem C150_hiperco50_bh : exists l nu, bhMaterial none (Some hiperco50_bh) = Fine l /\ (forall b, 0 <= b -> bh_eval l b = Fine (nu b)) /\
  (forall b, 0 <= b -> 24 <= nu b) /\ (forall a b, 0 <= a <= b -> 24 * (b - a) <= nu b * b - nu a * a).
Proof.
  destruct bh50_accepted as (l & Hl & E1 & E2 & E3 & E4). exists l, bh50_nu. split; [exact Hl|]. split; [intros b Hb; exact (bh50_eval l b E1 E2 E3 E4 Hb)|].
  split; [exact bh50_nu_low|]. intros a b Hab. rewrite !bh50_flux_eq by lra. apply bh50_growth; lra.
Qed.
Print Assumptions C150_hiperco50_bh.

(** a law of the steel hiperco50 from the library, by either model *)
Definition shipped (law : R -> R) : Prop :=
  (exists l, lognuMaterial none (Some hiperco50_lognu) = Fine l /\ reluctivity l law) \/
  (exists l, bhMaterial none (Some hiperco50_bh) = Fine l /\ forall b, 0 <= b -> bh_eval l b = Fine (law b)).
(** every material is this steel or linear, with a reluctivity of at least k0 *)
Definition steel_and_linear (k0 : R) (M : tmesh) : Prop := forall e q, In e (elems M) -> (q < el_nq e)%nat -> 0 <= el_pw e q /\
  ((exists law, shipped law /\ forall b, 0 <= b -> el_nu e q b = law b) \/ exists v, k0 <= v /\ forall b, 0 <= b -> el_nu e q b = v).
Lemma shipped_monotone law : shipped law -> (forall b, 0 <= b -> 10 <= law b) /\ forall a b, 0 <= a <= b -> 10 * (b - a) <= law b * b - law a * a.
Proof.
  intros [(l & Hl & Hn)|(l & Hl & Hn)].
  - destruct C150_hiperco50 as (l' & nu & Hl' & Hn' & R' & G'). rewrite Hl in Hl'. inversion Hl'; subst l'.
    assert (Ev : forall b, 0 <= b -> law b = nu b) by (intros b Hb; assert (X := Hn b Hb); rewrite (Hn' b Hb) in X; congruence).
    split; [intros b Hb; rewrite Ev by exact Hb; assert (X := R' b Hb); lra|]. intros a b Hab. rewrite !Ev by lra. exact (G' a b Hab).
  - destruct C150_hiperco50_bh as (l' & nu & Hl' & Hn' & R' & G'). rewrite Hl in Hl'. inversion Hl'; subst l'.
    assert (Ev : forall b, 0 <= b -> law b = nu b) by (intros b Hb; assert (X := Hn b Hb); rewrite (Hn' b Hb) in X; congruence).
    split; [intros b Hb; rewrite Ev by exact Hb; assert (X := R' b Hb); lra|]. intros a b Hab. rewrite !Ev by lra. assert (X := G' a b Hab). lra.
Qed.
Lemma steel_monotone k0 o M : k0 <= 10 -> passive_boundary o M -> steel_and_linear k0 M -> monotone_laws k0 o M.
Proof.
  intros K [B1 B2] S. split; [|split; [exact B1|exact B2]]. intros e q He Hq. destruct (S e q He Hq) as [Pw [(law & Sh & L)|(v & Hv & L)]]; (split; [exact Pw|]; split).
  - destruct (shipped_monotone law Sh) as [S1 _]. intros b Hb. rewrite L by exact Hb. assert (X := S1 b Hb). lra.
  - destruct (shipped_monotone law Sh) as [_ S2]. intros a b Hab. rewrite !L by lra. assert (X := S2 a b Hab). nra.
  - intros b Hb. rewrite L by exact Hb. exact Hv.
  - intros a b Hab. rewrite !L by lra. nra.
Qed.
(** C150: a machine of this steel and linear materials has at most one field, and it depends continuously on the sources. *)
Theorem C150_machine : forall N nattr M o c k0 ess l1 l2 u1 u2, fits N nattr M -> built Magnetism nattr o c -> plain_problem o M ->
  0 < k0 <= 10 -> passive_boundary o M -> steel_and_linear k0 M -> same_held N ess u1 u2 ->
  (forall i, (i < N)%nat -> residualVector M c ess l1 u1 i = 0) -> (forall i, (i < N)%nat -> residualVector M c ess l2 u2 i = 0) ->
  k0 * gradient_energy M (vsub u1 u2) <= dot N (vsub u1 u2) (vsub l1 l2) /\ (anchored N ess M -> veq N l1 l2 -> veq N u1 u2).
Proof.
  intros N nattr M o c k0 ess l1 l2 u1 u2 F B P K Pb S Sh R1 R2.
  assert (Mo := steel_monotone k0 o M (proj2 K) Pb S). split; [exact (C148_stability Magnetism N nattr M o c k0 ess l1 l2 u1 u2 F B P Mo Sh R1 R2)|].
  intros An El. apply (C148_unique Magnetism N nattr M o c k0 ess l1 u1 u2 F B P (proj1 K) Mo An Sh R1).
  intros i Hi. rewrite <- (R2 i Hi). unfold residualVector, Form.zero_at. destruct (Form.memb i ess); [reflexivity|]. now rewrite (El i Hi).
Qed.
Print Assumptions C150_machine.

(** C150: data whose knots are not as many as the control points, the degree and one together are refused by both models. *)
Theorem C150_refused : forall c, cps c <> [] -> knots c <> [] -> List.length (knots c) <> (List.length (cps c) + degree c + 1)%nat -> logNu c = Throws /\ bhSpline c = Throws.
Proof.
  intros c N1 N2 H. unfold logNu, bhSpline.
  assert (E1 : setUp c = Throws) by (unfold setUp; rewrite (proj2 (Nat.eqb_neq _ _) H), andb_false_r; reflexivity).
  assert (E2 : setUp (scaledKnots c) = Throws) by (unfold setUp, scaledKnots; cbn [knots cps degree]; rewrite map_length, (proj2 (Nat.eqb_neq _ _) H), andb_false_r; reflexivity).
  destruct (cps c) eqn:E3; [congruence|]. destruct (knots c) eqn:E4; [congruence|]. rewrite E1, E2. split; reflexivity.
Qed.
Print Assumptions C150_refused.
(** C150: so the "bh" data shipped for team13, with control points and knots exchanged, cannot be used. *)
Theorem C150_team13_refuted : forall d, bhMaterial {| o_cps := None; o_knots := None; o_degree := d |} (Some team13_bh) = Throws.
Proof.
  intros d. unfold bhMaterial, getCurve. cbn [o_cps o_knots o_degree team13_bh orElse andThen].
  assert (R : forall p, bhSpline {| cps := match o_cps team13_bh with Some x => x | None => [] end; knots := match o_knots team13_bh with Some x => x | None => [] end; degree := p |} = Throws).
  { intros p. apply C150_refused; cbn [o_cps o_knots team13_bh cps knots degree List.length]; [congruence|congruence|lia]. }
  destruct d as [p|]; cbn [orElse andThen]; apply R.
Qed.
Print Assumptions C150_team13_refuted.

(** C150: the "bh" model with accepted data on a domain from 0 to the last knot B > tiny: the flux nu(b) b lies between the extreme control
    points, nu(0) between the extreme slopes of the control points; above B the flux is the last control point and that of free
    space; with the last knot repeated it is the last control point at B too, so the flux does not jump there. *)
Theorem C150_bh : forall c l lo hi slo shi, bhSpline c = Fine l -> tiny < b_max c -> first_b c = 0 -> last_b c = b_max c ->
  (forall x, In x (cps c) -> lo <= x <= hi) ->
  (forall i, (i + 1 < List.length (cps c))%nat -> slo <= INR (degree c) * (nth (i + 1) (cps c) 0 - nth i (cps c) 0) / (nth (i + degree c + 1) (knots c) 0 - nth (i + 1) (knots c) 0) <= shi) ->
  exists nu, (forall b, 0 <= b -> bh_eval l b = Fine (nu b)) /\
    (forall b, 0 <= b <= tiny -> slo <= nu b <= shi) /\ (forall b, tiny < b <= b_max c -> lo <= nu b * b <= hi) /\
    (forall b, b_max c < b -> nu b * b = last (cps c) 0 + nu0 * (b - b_max c)) /\
    ((0 < degree c)%nat -> (forall i, (List.length (cps c) <= i)%nat -> (i < List.length (knots c))%nat -> nth i (knots c) 0 = b_max c) -> nth (List.length (cps c) - 1) (knots c) 0 < b_max c -> nu (b_max c) * b_max c = last (cps c) 0).
Proof.
  intros c l lo hi slo shi H HB Hf Hl Hc Hs. assert (T := tiny_pos). assert (Bp : 0 < last (knots c) 0) by (unfold b_max in HB; lra).
  exists (fun b => match bh_eval l b with Fine v => v | _ => 0 end).
  assert (L := bh_below c l H Bp Hf Hl slo shi). assert (M := bh_middle c l H Bp Hf Hl lo hi). assert (U := bh_above c l H Bp).
  split; [|split; [|split; [|split]]].
  - intros b Hb. destruct (Rle_dec b tiny) as [A|A]; [destruct (L b Hs ltac:(unfold b_max in HB; lra) ltac:(lra)) as (v & E & _); now rewrite E|].
    destruct (Rle_dec b (b_max c)) as [A'|A']; [destruct (M b Hc ltac:(unfold b_max in A'; lra)) as (v & E & _); now rewrite E|]. destruct (U b ltac:(lra) ltac:(unfold b_max in A'; lra)) as (v & E & _). now rewrite E.
  - intros b Hb. destruct (L b Hs ltac:(unfold b_max in HB; lra) Hb) as (v & E & V). rewrite E. exact V.
  - intros b Hb. destruct (M b Hc Hb) as (v & E & V). rewrite E. exact V.
  - intros b Hb. destruct (U b ltac:(lra) Hb) as (v & E & V). rewrite E. exact V.
  - intros Dp Hk Hn. destruct (bh_end c l H Bp Hf Hl Dp Hk Hn HB) as (v & E & V). unfold b_max. rewrite E. exact V.
Qed.
Print Assumptions C150_bh.
(** C150: with distinct inner knots and degree two or more EvalStateDeriv of the "bh" model is the derivative of Eval at every flux
    density above tiny but the last knot; at 0 it divides by 0. *)
Theorem C150_bh_derivative : forall c l, bhSpline c = Fine l -> (2 <= degree c)%nat -> distinct_knots c -> tiny < b_max c -> first_b c = 0 -> last_b c = b_max c ->
  exists nu d, (forall b, tiny < b -> bh_eval l b = Fine (nu b)) /\
    (forall b, tiny < b -> b <> b_max c -> bh_d l b = Fine (d b) /\ is_derive nu b (d b)) /\ bh_d l 0 = Steel.Undefined.
Proof.
  intros c l H Deg D HB Hf Hl. assert (T := tiny_pos). destruct (bh_inv c l H) as (So & E1 & E2 & E3 & E4 & N1 & N2). set (s := hslope l) in *. set (sc := scaledKnots c) in *.
  fold (b_max c) in E3. set (B := b_max c) in *. assert (Bp : 0 < B) by lra.
  destruct (scaled_ends c Bp Hf Hl) as [K1 K2]. fold sc in K1, K2.
  assert (Ds : distinct sc). { intros k Hk. unfold sc. rewrite !scaled_knot. apply Rmult_lt_compat_r; [now apply Rinv_0_lt_compat|]. apply D. exact Hk. }
  destruct (derive_facts sc s So E2) as (F1 & F2 & F3 & F4 & F5). assert (Sd := derive_sound sc s So E2). assert (Sc := So). destruct Sc as (Hp & Hm & _).
  change (degree sc) with (degree c) in F1, Hp, Hm. change (cps sc) with (cps c) in F2, Hp, Hm.
  assert (L1 : forall u, 0 <= u <= 1 -> evalCurve sc u = Fine (value sc u)) by (intros u Hu; apply (eval_value sc u So K1 K2 Hu)).
  assert (L2 : forall u, 0 <= u <= 1 -> evalCurve s u = Fine (value s u)).
  { intros u Hu. apply (eval_value s u Sd); [| |exact Hu]; rewrite F4 by lia; [rewrite <- K1|rewrite <- K2]; f_equal; lia. }
  assert (V : forall u, 0 < u < 1 -> is_derive (value sc) u (value s u)).
  { intros u Hu. destruct (spline_derive sc s u So Deg Ds E2) as (v & Hv & Dv); [change (degree sc) with (degree c); change (List.length (cps sc)) with (List.length (cps c)); rewrite K1, K2; exact Hu|]. unfold value at 2. now rewrite Hv. }
  assert (In01 : forall b, 0 <= b <= B -> 0 <= b / B <= 1) by (intros b Hb; apply (scaled_at c Bp b Hb)).
  set (hm := last (cps c) 0) in *.
  exists (fun b => if Rle_dec b B then value sc (b / B) / b else (hm - nu0 * B) / b + nu0),
    (fun b => if Rle_dec b B then value s (b / B) / (b * B) - value sc (b / B) / b ^ 2 else - (hm - nu0 * B) / b ^ 2).
  split; [|split].
  - intros b Hb. unfold bh_eval. rewrite E1, E3, E4. destruct (Rle_dec b tiny); [exfalso; lra|]. destruct (Rle_dec b B); [|reflexivity]. rewrite L1 by (apply In01; lra). reflexivity.
  - intros b Hb Nb. split.
    + unfold bh_d. rewrite E1, E3, E4. fold s. destruct (Rle_dec b B); [|reflexivity]. rewrite L1, L2 by (apply In01; lra). cbn [andThen]. destruct (Req_EM_T b 0); [exfalso; lra|reflexivity].
    + destruct (Rle_dec b B) as [A|A].
      * assert (A' : b < B) by (destruct A; [assumption|contradiction]).
        apply (is_derive_ext_loc (fun b => value sc (b / B) / b)).
        { apply (locally_interval _ b tiny B); [exact Hb|cbn; lra|]. intros y Y1 Y2. cbn in Y2. destruct (Rle_dec y B); [reflexivity|exfalso; lra]. }
        assert (Hi : 0 < b / B < 1). { split; [apply Rdiv_lt_0_compat; lra|]. apply Rmult_lt_reg_r with B; [exact Bp|]. unfold Rdiv. rewrite Rmult_assoc, Rinv_l by lra. lra. }
        assert (Dl : is_derive (fun b => b / B) b (/ B)) by (auto_derive; [exact I|field; lra]).
        assert (Dc := is_derive_comp (value sc) (fun b => b / B) b _ _ (V _ Hi) Dl).
        assert (Dd := is_derive_div (fun b => value sc (b / B)) (fun b => b) b _ _ Dc (is_derive_id b) ltac:(lra)).
        match type of Dd with is_derive _ _ ?x => replace (value s (b / B) / (b * B) - value sc (b / B) / b ^ 2) with x; [exact Dd|] end.
        unfold minus, plus, opp, mult, scal, one; cbn. unfold mult; cbn. field. lra.
      * apply (is_derive_ext_loc (fun b => (hm - nu0 * B) / b + nu0)).
        { apply (locally_interval _ b B p_infty); [cbn; lra|exact I|]. intros y Y1 Y2. cbn in Y1. destruct (Rle_dec y B); [exfalso; lra|reflexivity]. }
        auto_derive; [lra|]. field. lra.
  - unfold bh_d. rewrite E1, E3. fold s. destruct (Rle_dec 0 B); [|exfalso; lra]. rewrite L1, L2 by (apply In01; lra). cbn [andThen]. destruct (Req_EM_T 0 0); [reflexivity|contradiction].
Qed.
Print Assumptions C150_bh_derivative.
(** C150: each of control points, knots and degree is the material's own where given there and the library's elsewhere; a degree
    missing in both is 3, control points or knots missing in both are undefined behaviour. *)
Theorem C150_options : forall own lib,
  (forall c t p, o_cps own = Some c \/ (o_cps own = None /\ o_cps lib = Some c) -> o_knots own = Some t \/ (o_knots own = None /\ o_knots lib = Some t) ->
     o_degree own = Some p \/ (o_degree own = None /\ o_degree lib = Some p) \/ (o_degree own = None /\ o_degree lib = None /\ p = 3%nat) ->
     lognuMaterial own (Some lib) = logNu {| cps := c; knots := t; degree := p |} /\ bhMaterial own (Some lib) = bhSpline {| cps := c; knots := t; degree := p |}) /\
  ((o_cps own = None /\ o_cps lib = None) \/ (o_knots own = None /\ o_knots lib = None) -> lognuMaterial own (Some lib) = Steel.Undefined /\ bhMaterial own (Some lib) = Steel.Undefined).
Proof.
  intros [a b d] [a' b' d']. unfold lognuMaterial, bhMaterial, getCurve. cbn [o_cps o_knots o_degree]. split.
  - intros c t p [->|[-> ->]] [->|[-> ->]] [->|[[-> ->]|(-> & -> & ->)]]; split; reflexivity.
  - intros [[-> ->]|[-> ->]]; [split; reflexivity|]. destruct a as [a|]; [split; reflexivity|]. destruct a' as [a'|]; split; reflexivity.
Qed.
Print Assumptions C150_options.

(** non-vacuity *)
Example C150_shape : distinct_knots steel /\ first_b steel = 0 /\ last_b steel = 35 / 10. Proof. split; [exact steel_distinct|split; reflexivity]. Qed.
Example C150_line : exists l, lognuMaterial {| o_cps := Some [0; 1]; o_knots := Some [0; 0; 2; 2]; o_degree := Some 1%nat |} None = Fine l /\ logNu_eval l 1 = Fine (exp (1 / 2)).
Proof.
  unfold lognuMaterial, getCurve. cbn [o_cps o_knots o_degree orElse andThen logNu cps knots].
  set (c := {| cps := [0; 1]; knots := [0; 0; 2; 2]; degree := 1 |}).
  assert (E : setUp c = Fine c).
  { unfold setUp. match goal with |- (if ?b then _ else _) = _ => assert (E : b = true); [|rewrite E; reflexivity] end.
    apply andb_intro; [apply andb_intro; [reflexivity|]|]; cbn [List.length knots c forallb seq Nat.sub degree]; repeat (apply andb_intro; [first [apply rle_true | apply rlt_true]; unfold knot; cbn; lra|]); reflexivity. }
  rewrite E. cbn [andThen].
  assert (E2 : exists d, derive c = Fine d) by (unfold derive; cbn [degree c Nat.eqb List.length cps Nat.sub seq forallb]; replace (rlt (knot c (0 + 1)) (knot c (0 + 1 + 1))) with true by (symmetry; apply rlt_true; unfold knot; cbn; lra); eexists; reflexivity).
  destruct E2 as (d & Ed). rewrite Ed. cbn [andThen]. eexists. split; [reflexivity|]. unfold logNu_eval. cbn [l_b_max lcurve knots c last]. destruct (Rle_dec 1 2) as [_|F]; [|exfalso; lra].
  unfold evalCurve. cbn [degree c List.length cps]. rewrite !rlt_false by (unfold knot; cbn; lra). cbn [orb].
  assert (S1 : span c 1 = Some 1%nat) by (unfold span; cbn [degree c List.length cps Nat.sub seq rev app List.find]; replace (rle (knot c 1) 1 && rlt (knot c 1) (knot c (1 + 1))) with true by (symmetry; apply andb_intro; [apply rle_true|apply rlt_true]; unfold knot; cbn; lra); reflexivity).
  rewrite S1. cbn [andThen]. do 2 f_equal. unfold boor, knot, cp. cbn. field.
Qed.
(** a strip of this steel beside one of a linear material *)
Definition iron (law : R -> R) (w : R) (first : nat) : telem := {| ThermalOptions.el_n := 2; ThermalOptions.el_dim := 2; el_nq := 1; el_pw := fun _ => 1; ThermalOptions.el_W := fun _ => w;
  ThermalOptions.el_C := fun _ i k => match k, i with O, O => -1 | O, _ => 1 | _, _ => 0 end; el_nu := fun _ => law; ThermalOptions.el_dnu := fun _ _ => 0; ThermalOptions.el_glob := fun i => (first + i)%nat |}.
Definition steel_strip : tmesh := {| elems := [iron steel_nu 1 0; iron bh50_nu 2 1]; ThermalOptions.inner := []; outer := outer Props_JacOptions.saturable |}.
Example C150_machine_met : exists c, built Magnetism 2 Props_JacOptions.saturable_options c /\ forall load u1 u2, u1 0%nat = u2 0%nat ->
  (forall i, (i < 3)%nat -> residualVector steel_strip c [0%nat] load u1 i = 0) -> (forall i, (i < 3)%nat -> residualVector steel_strip c [0%nat] load u2 i = 0) -> veq 3 u1 u2.
Proof.
  destruct Props_JacOptions.saturable_ok as (F & _ & _ & P & D & _). destruct steel_accepted as (d & Hd). destruct bh50_accepted as (l & Hl & E1 & E2 & E3 & E4).
  exists [(ThermalOptions.OnDomain, ThermalOptions.Diffusion)]. split; [reflexivity|]. intros load u1 u2 U R1 R2.
  destruct (C150_machine 3 2 steel_strip Props_JacOptions.saturable_options [(ThermalOptions.OnDomain, ThermalOptions.Diffusion)] 10 [0%nat] load load u1 u2) as [_ H];
    [|reflexivity| |lra| | | |exact R1|exact R2|].
  - destruct F as (F1 & F2 & F3 & F4 & F5 & F6). split; [|split; [|split; [exact F3|split; [exact F4|split; [exact F5|exact F6]]]]].
    + intros e i [<-|[<-|[]]]; cbn; lia.
    + intros e q [<-|[<-|[]]]; cbn; lra.
  - destruct P as (P1 & P2 & P3). split; [exact P1|split; [exact P2|exact P3]].
  - destruct D as (_ & D2 & D3). split; [exact D2|exact D3].
  - intros e q [<-|[<-|[]]] _; (split; [cbn; lra|]); left; [exists steel_nu|exists bh50_nu]; (split; [|intros; reflexivity]).
    + left. eexists. split; [exact Hd|intros b Hb; exact (steel_eval d b Hb)].
    + right. exists l. split; [exact Hl|intros b Hb; exact (bh50_eval l b E1 E2 E3 E4 Hb)].
  - intros i _ [<-|[]]. exact U.
  - apply H; [|intros i _; reflexivity]. intros v Z E. apply (rod_anchored even_rod (or_intror eq_refl) v Z). exact E.
Qed.
(** the shipped curve fits C150_bh and C150_bh_derivative *)
Example C150_bh_met : (exists l, bhSpline bh50 = Fine l) /\ first_b bh50 = 0 /\ last_b bh50 = b_max bh50 /\ b_max bh50 = 25 / 10 /\ distinct_knots bh50.
Proof.
  destruct bh50_accepted as (l & Hl & _). split; [now exists l|]. split; [reflexivity|]. split; [reflexivity|]. split; [unfold b_max; cbn; lra|].
  intros k Hk. cbn in Hk. do 29 (destruct k as [|k]; [try lia; cbn; lra|]). lia.
Qed.
