From Coq Require Import Reals ZArith Bool List Lra Lia Psatz.
From Verif Require Import Num LineSearch.
Import ListNotations.
Local Open Scope R_scope.

Lemma quadInterp_stationary c0 c1 c2 x0 x1 : c2 <> 0 -> x0 <> x1 ->
  let q x := c0 + c1 * x + c2 * (x * x) in
  c1 + 2 * c2 * quadInterp Rnum x0 (q x0) (c1 + 2 * c2 * x0) x1 (q x1) = 0.
Proof.
  intros H Hx q. unfold quadInterp, q. cbn [nadd nsub nmul ndiv nopp nZ Rnum].
  assert (Hd : (x0 - x1) * (x0 - x1) <> 0) by (apply Rmult_integral_contrapositive; split; lra).
  replace (x0 * x0 - 2 * x1 * x0 + x1 * x1) with ((x0 - x1) * (x0 - x1)) by ring.
  replace ((2 * x0 * (c0 + c1 * x0 + c2 * (x0 * x0)) - 2 * x0 * (c0 + c1 * x1 + c2 * (x1 * x1)) -
       x0 * x0 * (c1 + 2 * c2 * x0) + x1 * x1 * (c1 + 2 * c2 * x0)) / ((x0 - x1) * (x0 - x1))) with c1 by (field; lra).
  replace (- (c0 + c1 * x0 + c2 * (x0 * x0) - (c0 + c1 * x1 + c2 * (x1 * x1)) -
          x0 * (c1 + 2 * c2 * x0) + x1 * (c1 + 2 * c2 * x0)) / ((x0 - x1) * (x0 - x1))) with c2 by (field; lra).
  field; exact H.
Qed.

Lemma quadratic_interp_stationary a b c alpha : a <> 0 -> alpha <> 0 ->
  2 * a * quadratic_interp Rnum c b (a * (alpha * alpha) + b * alpha + c) alpha + b = 0.
Proof.
  intros Ha Hal. unfold quadratic_interp, sq. cbn [nadd nsub nmul ndiv nopp nZ Rnum].
  replace ((a * (alpha * alpha) + b * alpha + c - b * alpha - c) / (alpha * alpha)) with a by (field; exact Hal).
  field; exact Ha.
Qed.

Lemma quadratic_interp_min a b c alpha : 0 < a -> alpha <> 0 ->
  let q x := a * (x * x) + b * x + c in
  forall x, q (quadratic_interp Rnum c b (q alpha) alpha) <= q x.
Proof.
  intros Ha Hal q x. pose proof (quadratic_interp_stationary a b c alpha ltac:(lra) Hal) as H.
  change (a * (alpha * alpha) + b * alpha + c) with (q alpha) in H.
  generalize dependent (quadratic_interp Rnum c b (q alpha) alpha). intros m H. cbn [T Rnum] in m. unfold q.
  assert (E : (a * (x * x) + b * x + c) - (a * (m * m) + b * m + c) = a * ((x - m) * (x - m)) + (2 * a * m + b) * (x - m)) by ring.
  rewrite H in E. assert (0 <= a * ((x - m) * (x - m))) by (apply Rmult_le_pos; [lra|apply Rle_0_sqr]). lra.
Qed.

Section Cubic.
Context (a b c d alpha1 alpha2 : R).
Let q x := a * (x * x * x) + b * (x * x) + c * x + d.
Hypothesis H1 : alpha1 <> 0.
Hypothesis H2 : alpha2 <> 0.
Hypothesis H12 : alpha1 <> alpha2.

Lemma cubic_coeffs : forall den, den = alpha1 * alpha1 * (alpha2 * alpha2) * (alpha2 - alpha1) ->
  (alpha1*alpha1 * (q alpha2 - d - c * alpha2) - alpha2*alpha2 * (q alpha1 - d - c * alpha1)) / den = a /\
  (- (alpha1*alpha1*alpha1) * (q alpha2 - d - c * alpha2) + alpha2*alpha2*alpha2 * (q alpha1 - d - c * alpha1)) / den = b.
Proof.
  intros den ->. unfold q. split; field; repeat split; lra.
Qed.

Lemma cubic_interp_eq : cubic_interp Rnum d c (q alpha1) alpha1 (q alpha2) alpha2 =
  if Rltb (Rabs a) (1 / 2^52) then c / (2 * b)
  else (- b + sqrt (Rmax (b * b - 3 * a * c) 0)) / (3 * a).
Proof.
  destruct (cubic_coeffs _ eq_refl) as [Ea Eb].
  unfold cubic_interp, sq, cube. cbn [nadd nsub nmul ndiv nopp nZ Rnum nltb nabs nsqrt].
  rewrite nmax_R. rewrite Ea, Eb. unfold nlit. cbn [ndiv nZ Rnum].
  assert (E52 : 2^52 = IZR (2^52)) by (rewrite (pow_IZR 2 52); reflexivity).
  rewrite E52. reflexivity.
Qed.

Lemma cubic_interp_stationary : 1 / 2^52 <= Rabs a -> 0 <= b * b - 3 * a * c ->
  let x : R := cubic_interp Rnum d c (q alpha1) alpha1 (q alpha2) alpha2 in
  3 * a * (x * x) + 2 * b * x + c = 0 /\ 0 <= 6 * a * x + 2 * b.
Proof.
  intros Ha Hd x. unfold x. rewrite cubic_interp_eq.
  destruct (Rltb_spec (Rabs a) (1/2^52)) as [H|_]; [lra|].
  assert (Ha0 : a <> 0). { intros ->. rewrite Rabs_R0 in Ha. assert (0 < 1 / 2^52) by (apply Rdiv_lt_0_compat; [lra|apply pow_lt; lra]). lra. }
  rewrite Rmax_left by exact Hd. set (s := sqrt _).
  assert (Hs : s * s = b * b - 3 * a * c) by (apply sqrt_sqrt; exact Hd).
  assert (Hs0 : 0 <= s) by apply sqrt_pos.
  split.
  - replace c with ((b * b - s * s) / (3 * a)); [field; exact Ha0|]. rewrite Hs. field; exact Ha0.
  - replace (6 * a * _ + 2 * b) with (2 * s); [lra|]. field; exact Ha0.
Qed.
End Cubic.

(* degenerate branch: sign error *)
Lemma cubic_interp_degenerate_wrong b c d alpha1 alpha2 :
  alpha1 <> 0 -> alpha2 <> 0 -> alpha1 <> alpha2 -> b <> 0 ->
  let q x := b * (x * x) + c * x + d in
  let x : R := cubic_interp Rnum d c (q alpha1) alpha1 (q alpha2) alpha2 in
  2 * b * x + c = 2 * c /\ x = - (- c / (2 * b)).
Proof.
  intros H1 H2 H12 Hb q x. unfold x.
  assert (E : forall y, q y = 0 * (y*y*y) + b * (y*y) + c * y + d) by (intros; unfold q; ring).
  rewrite !E. rewrite (cubic_interp_eq 0 b c d alpha1 alpha2 H1 H2 H12). rewrite Rabs_R0.
  destruct (Rltb_spec 0 (1/2^52)) as [_|H].
  - split; field; exact Hb.
  - assert (0 < 1 / 2^52) by (apply Rdiv_lt_0_compat; [lra|apply pow_lt; lra]). lra.
Qed.

(** ** The search loop *)
Definition Rls := ls_opts Rnum.
Definition accepts (o : Rls) (phi : R -> R) (phi0 dphi0 a : R) : Prop := phi a <= phi0 + mu Rnum o * a * dphi0.

Lemma ls_loop_spec (o : Rls) phi phi0 dphi0 : rho_lo Rnum o <= rho_hi Rnum o -> forall rem first alpha1 phi1 alpha2 a tr,
  0 < alpha2 -> 0 < rho_lo Rnum o ->
  ls_loop Rnum o phi phi0 dphi0 rem first alpha1 phi1 alpha2 (phi alpha2) = (a, tr) ->
  (length tr <= rem)%nat /\
  (forall i, (i < length tr)%nat ->
     rho_lo Rnum o * nth i (alpha2 :: tr) 0 <= nth (S i) (alpha2 :: tr) 0 <= rho_hi Rnum o * nth i (alpha2 :: tr) 0 /\
     ~ accepts o phi phi0 dphi0 (nth i (alpha2 :: tr) 0)) /\
  ((a = last (alpha2 :: tr) 0 /\ accepts o phi phi0 dphi0 a) \/
   (a = 0 /\ length tr = rem /\ ~ accepts o phi phi0 dphi0 (last (alpha2 :: tr) 0))).
Proof.
  intros Hlh. induction rem as [|rem IH]; intros first alpha1 phi1 alpha2 a tr Hp Hl; cbn [ls_loop];
  cbn [nltb nadd nmul nZ Rnum];
  (destruct (Rltb_spec (phi0 + mu Rnum o * alpha2 * dphi0) (phi alpha2)) as [H|H];
   [|intros E; injection E as <- <-; split; [simpl; lia|]; split; [intros i Hi; simpl in Hi; lia|]; left; split; [reflexivity|exact H]]).
  - intros E; injection E as <- <-. split; [simpl; lia|]. split; [intros i Hi; simpl in Hi; lia|].
    right. split; [reflexivity|split; [reflexivity|]]. unfold accepts; simpl; lra.
  - match goal with |- context [nmax Rnum (nmin Rnum ?t _) _] => set (tmp := t) end.
    rewrite nmax_R, nmin_R. set (a2 := Rmax (Rmin tmp (alpha2 * rho_hi Rnum o)) (alpha2 * rho_lo Rnum o)).
    assert (Ha2 : rho_lo Rnum o * alpha2 <= a2 <= rho_hi Rnum o * alpha2).
    { unfold a2. split.
      - eapply Rle_trans; [|apply Rmax_r]. lra.
      - apply Rmax_lub; [eapply Rle_trans; [apply Rmin_r|lra]|]. nra. }
    destruct (ls_loop Rnum o phi phi0 dphi0 rem false alpha2 (phi alpha2) a2 (phi a2)) as [a' tr'] eqn:E.
    intros E'; injection E' as <- <-.
    apply IH in E; [|assert (0 < rho_lo Rnum o * alpha2) by nra; lra|exact Hl].
    destruct E as (Hlen & Hr & Ha). cbn [T Rnum length] in *. split; [lia|]. split.
    + intros [|i] Hi; [simpl; split; [exact Ha2|apply Rlt_not_le; exact H]|].
      apply (Hr i); lia.
    + destruct Ha as [[Ha Hacc]|(Ha & Hn & Hacc)].
      * left. split; [exact Ha|exact Hacc].
      * right. split; [exact Ha|]. split; [lia|exact Hacc].
Qed.

Lemma ls_search_spec (o : Rls) (phi : R -> R) (phi0 dphi0 alpha a : R) (tr : list R) :
  0 < rho_lo Rnum o <= rho_hi Rnum o -> 0 < alpha ->
  ls_search Rnum o phi phi0 dphi0 alpha = (a, tr) ->
  hd 0 tr = alpha /\
  (1 <= length tr <= S (max_iter Rnum o))%nat /\
  (forall i, (S i < length tr)%nat ->
     rho_lo Rnum o * nth i tr 0 <= nth (S i) tr 0 <= rho_hi Rnum o * nth i tr 0 /\
     ~ accepts o phi phi0 dphi0 (nth i tr 0)) /\
  ((a = last tr 0 /\ accepts o phi phi0 dphi0 a) \/
   (a = 0 /\ length tr = S (max_iter Rnum o) /\ ~ accepts o phi phi0 dphi0 (last tr 0))).
Proof.
  intros Hr Ha. unfold ls_search.
  destruct (ls_loop Rnum o phi phi0 dphi0 (max_iter Rnum o) true alpha (phi alpha) alpha (phi alpha)) as [a' tr'] eqn:E.
  intros E'; injection E' as <- <-. apply ls_loop_spec in E; [|lra|lra|lra].
  destruct E as (Hlen & Hi & Hc). cbn [T Rnum length hd] in *.
  split; [reflexivity|]. split; [lia|]. split; [intros i Hi'; apply Hi; lia|].
  destruct Hc as [[H1 H2]|(H1 & H2 & H3)]; [left; auto|right; split; [exact H1|split; [lia|exact H3]]].
Qed.

Lemma nth_last (tr : list R) : nth (length tr - 1) tr 0 = last tr 0.
Proof.
  induction tr as [|x tr IH]; [reflexivity|]. destruct tr as [|y tr]; [reflexivity|].
  replace (length (x :: y :: tr) - 1)%nat with (S (length (y :: tr) - 1)) by (simpl; lia).
  cbn [nth last]. exact IH.
Qed.

Lemma trial_bounds rlo rhi tr : 0 < rlo -> 0 < hd 0 tr ->
  (forall i, (S i < length tr)%nat -> rlo * nth i tr 0 <= nth (S i) tr 0 <= rhi * nth i tr 0) ->
  forall i, (i < length tr)%nat -> rlo ^ i * hd 0 tr <= nth i tr 0 <= rhi ^ i * hd 0 tr.
Proof.
  intros Hl Hh H. induction i as [|i IH]; intros Hi.
  - destruct tr; simpl in *; [lia|lra].
  - specialize (IH ltac:(lia)). specialize (H i Hi). simpl.
    assert (0 < nth i tr 0). { assert (0 < rlo ^ i) by (apply pow_lt; lra). nra. }
    assert (0 < rhi) by nra. split; nra.
Qed.

Lemma ls_search_range (o : Rls) (phi : R -> R) (phi0 dphi0 alpha a : R) (tr : list R) :
  0 < rho_lo Rnum o <= rho_hi Rnum o -> rho_hi Rnum o < 1 -> 0 < alpha ->
  ls_search Rnum o phi phi0 dphi0 alpha = (a, tr) ->
  a = 0 \/ (rho_lo Rnum o ^ (length tr - 1) * alpha <= a <= rho_hi Rnum o ^ (length tr - 1) * alpha
            /\ 0 < a <= alpha /\ phi a <= phi0 + mu Rnum o * a * dphi0).
Proof.
  intros Hr H1 Ha E. apply ls_search_spec in E; [|exact Hr|exact Ha].
  destruct E as (Hh & Hlen & Hi & [[Hl Hacc]|(H0 & _)]); [right|left; exact H0].
  assert (Hb := trial_bounds (rho_lo Rnum o) (rho_hi Rnum o) tr ltac:(lra) ltac:(lra)
                 (fun i h => proj1 (Hi i h)) (length tr - 1)%nat ltac:(lia)).
  assert (El := nth_last tr).
  rewrite El, <- Hl, Hh in Hb. split; [exact Hb|]. split; [|exact Hacc].
  assert (0 < rho_lo Rnum o ^ (length tr - 1)) by (apply pow_lt; lra).
  assert (rho_hi Rnum o ^ (length tr - 1) <= 1).
  { rewrite <- (pow1 (length tr - 1)). apply pow_incr; lra. }
  nra.
Qed.

(* if -dphi0 is a genuine descent slope, enough backtracks always succeed *)
Lemma armijo_small phi phi0 dphi0 m :
  phi 0 = phi0 -> derivable_pt_lim phi 0 dphi0 -> dphi0 < 0 -> m < 1 ->
  exists delta, 0 < delta /\ forall a, 0 < a < delta -> phi a <= phi0 + m * a * dphi0.
Proof.
  intros H0 Hd Hn Hm. destruct (Hd ((m - 1) * dphi0)) as [delta H]; [nra|].
  exists delta; split; [apply cond_pos|]. intros a Ha.
  specialize (H a ltac:(lra)). rewrite Rabs_right in H by lra. specialize (H ltac:(lra)).
  rewrite Rplus_0_l, H0 in H. apply Rabs_def2 in H. destruct H as [H _].
  assert ((phi a - phi0) / a < m * dphi0) by lra.
  apply (Rmult_lt_compat_r a) in H1; [|lra]. unfold Rdiv in H1. rewrite Rmult_assoc, Rinv_l in H1; lra.
Qed.

Lemma ls_search_succeeds mu0 rhi rlo ord phi phi0 dphi0 alpha :
  0 < rlo <= rhi -> rhi < 1 -> 0 < alpha -> mu0 < 1 ->
  phi 0 = phi0 -> derivable_pt_lim phi 0 dphi0 -> dphi0 < 0 ->
  exists K, forall mi, (K <= mi)%nat ->
    0 < fst (ls_search Rnum {| mu := mu0 : T Rnum; rho_hi := rhi : T Rnum; rho_lo := rlo : T Rnum; interp_order := ord; max_iter := mi |} phi phi0 dphi0 alpha).
Proof.
  intros Hr H1 Ha Hm H0 Hd Hn.
  destruct (armijo_small phi phi0 dphi0 mu0 H0 Hd Hn Hm) as (delta & Hdp & Hacc).
  destruct (pow_lt_1_zero rhi ltac:(rewrite Rabs_right; lra) (delta / alpha)) as [K HK]; [apply Rdiv_lt_0_compat; lra|].
  exists K. intros mi Hmi.
  set (o := Build_ls_opts Rnum mu0 rhi rlo ord mi).
  destruct (ls_search Rnum o phi phi0 dphi0 alpha) as [a tr] eqn:E. cbn [fst].
  pose proof (ls_search_range o phi phi0 dphi0 alpha a tr Hr H1 Ha E) as [Hz|(_ & H & _)]; [|lra].
  exfalso. apply ls_search_spec in E; [|exact Hr|exact Ha].
  destruct E as (Hh & Hlen & Hi & [[Hl Hac]|(_ & Hlen' & Hna)]); cbn [T Rnum max_iter rho_lo rho_hi o] in *.
  - (* a = last tr = 0 impossible *)
    assert (Hb := trial_bounds rlo rhi tr ltac:(lra) ltac:(lra) (fun i h => proj1 (Hi i h)) (length tr - 1)%nat ltac:(lia)).
    assert (El := nth_last tr).
    rewrite El, <- Hl, Hz, Hh in Hb. assert (0 < rlo ^ (length tr - 1)) by (apply pow_lt; lra). nra.
  - assert (El := nth_last tr).
    assert (Hb := trial_bounds rlo rhi tr ltac:(lra) ltac:(lra) (fun i h => proj1 (Hi i h)) (length tr - 1)%nat ltac:(lia)).
    rewrite El, Hh in Hb. apply Hna. unfold accepts. cbn [mu o]. apply Hacc.
    assert (0 < rlo ^ (length tr - 1)) by (apply pow_lt; lra).
    specialize (HK (length tr - 1)%nat). rewrite Hlen' in *. cbn [max_iter o] in *.
    specialize (HK ltac:(lia)). replace (S mi - 1)%nat with mi in * by lia.
    assert (0 < rhi ^ mi) by (apply pow_lt; lra). rewrite Rabs_right in HK by lra.
    apply (Rmult_lt_compat_r alpha) in HK; [|lra]. unfold Rdiv in HK. rewrite Rmult_assoc, Rinv_l in HK by lra.
    split; [nra|lra].
Qed.

(** the rule that generates trial steps *)
Definition next_trial (o : Rls) (phi : R -> R) (phi0 dphi0 : R) (i : nat) (tr : list R) : R :=
  let t := nth i tr 0 in
  let raw := if orb (Nat.eqb i 0) (Z.eqb (interp_order Rnum o) 2)
             then quadratic_interp Rnum phi0 dphi0 (phi t) t
             else cubic_interp Rnum phi0 dphi0 (phi (nth (i - 1) tr 0)) (nth (i - 1) tr 0) (phi t) t in
  Rmax (Rmin raw (t * rho_hi Rnum o)) (t * rho_lo Rnum o).

Lemma ls_loop_rule (o : Rls) (phi : R -> R) phi0 dphi0 : forall rem alpha1 alpha2 a (tr : list R),
  ls_loop Rnum o phi phi0 dphi0 rem false alpha1 (phi alpha1) alpha2 (phi alpha2) = (a, tr) ->
  forall i, (i < length tr)%nat -> nth (S (S i)) (alpha1 :: alpha2 :: tr) 0 = next_trial o phi phi0 dphi0 (S i) (alpha1 :: alpha2 :: tr).
Proof.
  induction rem as [|rem IH]; intros alpha1 alpha2 a tr; cbn [ls_loop]; cbn [nltb nadd nmul nZ Rnum];
  (destruct (Rltb_spec (phi0 + mu Rnum o * alpha2 * dphi0) (phi alpha2)) as [H|H];
   [|intros E; injection E as <- <-; intros i Hi; simpl in Hi; lia]).
  - intros E; injection E as <- <-; intros i Hi; simpl in Hi; lia.
  - rewrite nmax_R, nmin_R. cbn [orb].
    match goal with |- context [ls_loop Rnum o phi phi0 dphi0 rem false alpha2 (phi alpha2) ?x _] => set (a2 := x) end.
    destruct (ls_loop Rnum o phi phi0 dphi0 rem false alpha2 (phi alpha2) a2 (phi a2)) as [a' tr'] eqn:E.
    intros E'; injection E' as <- <-. intros [|i] Hi.
    + reflexivity.
    + specialize (IH _ _ _ _ E i ltac:(cbn [T Rnum length] in *; lia)).
      change (nth (S (S i)) (alpha2 :: a2 :: tr') 0 = next_trial o phi phi0 dphi0 (S (S i)) (alpha1 :: alpha2 :: a2 :: tr')).
      etransitivity; [exact IH|]. unfold next_trial. cbn [Nat.eqb orb nth Nat.sub]. rewrite Nat.sub_0_r. reflexivity.
Qed.

Lemma ls_search_rule (o : Rls) (phi : R -> R) (phi0 dphi0 alpha a : R) (tr : list R) :
  ls_search Rnum o phi phi0 dphi0 alpha = (a, tr) ->
  forall i, (S i < length tr)%nat -> nth (S i) tr 0 = next_trial o phi phi0 dphi0 i tr.
Proof.
  unfold ls_search. destruct (max_iter Rnum o) as [|m]; cbn [ls_loop]; cbn [nltb nadd nmul nZ Rnum];
  (destruct (Rltb_spec (phi0 + mu Rnum o * alpha * dphi0) (phi alpha)) as [H|H];
   [|intros E; injection E as <- <-; intros i Hi; simpl in Hi; lia]).
  - intros E; injection E as <- <-; intros i Hi; simpl in Hi; lia.
  - rewrite nmax_R, nmin_R. cbn [orb].
    match goal with |- context [ls_loop Rnum o phi phi0 dphi0 m false alpha (phi alpha) ?x _] => set (a2 := x) end.
    destruct (ls_loop Rnum o phi phi0 dphi0 m false alpha (phi alpha) a2 (phi a2)) as [a' tr'] eqn:E.
    intros E'; injection E' as <- <-. intros [|i] Hi; [reflexivity|].
    apply (ls_loop_rule _ _ _ _ _ _ _ _ _ E). cbn [T Rnum length] in *; lia.
Qed.
