From Coq Require Import Reals List ZArith Bool Lia Lra Sorted.
From Verif Require Import Num Vec Surface.
Import ListNotations.

(** ** extraction *)
Lemma wrz_length i v l : length (wrz i v l) = length l.
Proof. revert i. induction l as [|a l IH]; intros [|i]; simpl; auto. Qed.
Lemma wrz_nth i v l j : nth j (wrz i v l) (-1)%Z = if Nat.eqb j i && Nat.ltb i (length l) then v else nth j l (-1)%Z.
Proof.
  revert i j. induction l as [|a l IH]; intros [|i] [|j]; simpl; auto.
  - now rewrite andb_false_r.
  - rewrite IH. reflexivity.
Qed.
Lemma flag_verts_spec vs : forall l, length (flag_verts vs l) = length l /\
  forall j, (j < length l)%nat -> nth j (flag_verts vs l) (-1)%Z = if in_dec Nat.eq_dec j vs then 0%Z else nth j l (-1)%Z.
Proof.
  induction vs as [|v vs IH]; intros l; [auto|]. simpl flag_verts. unfold flag_verts. simpl. fold (flag_verts vs (wrz v 0 l)).
  destruct (IH (wrz v 0%Z l)) as [L N]. rewrite wrz_length in *. split; [assumption|]. intros j Hj. rewrite N by assumption.
  rewrite wrz_nth. destruct (in_dec Nat.eq_dec j vs), (Nat.eq_dec v j) as [->|]; try reflexivity.
  - destruct (Nat.eqb_spec j j); [|lia]. destruct (Nat.ltb_spec j (length l)); [reflexivity|lia].
  - destruct (Nat.eqb_spec j v); [congruence|reflexivity].
Qed.
(** vertices used by the marked elements *)
Definition used (marker : list Z) (bels : list bel) (v : nat) : Prop := exists b, In b bels /\ marked marker b = true /\ In v (b_verts b).
Lemma flag_spec marker bels nv :
  let s := flag_pass marker bels nv in
  length (fst s) = nv /\ snd s = length (filter (marked marker) bels) /\
  forall j, (j < nv)%nat -> (used marker bels j -> nth j (fst s) (-1)%Z = 0%Z) /\ (~ used marker bels j -> nth j (fst s) (-1)%Z = (-1)%Z).
Proof.
  cbv zeta. unfold flag_pass.
  assert (G : forall bels s,  let s' := fold_left (fun s b => if marked marker b then (flag_verts (b_verts b) (fst s), S (snd s)) else s) bels s in
    length (fst s') = length (fst s) /\ snd s' = (snd s + length (filter (marked marker) bels))%nat /\
    forall j, (j < length (fst s))%nat -> (used marker bels j -> nth j (fst s') (-1)%Z = 0%Z) /\ (~ used marker bels j -> nth j (fst s') (-1)%Z = nth j (fst s) (-1)%Z)).
  { clear bels. induction bels as [|b bels IH]; intros s; cbv zeta; simpl.
    - split; [reflexivity|]. split; [lia|]. intros j Hj. split; [intros (b & [] & _)|auto].
    - destruct (marked marker b) eqn:M.
      + destruct (flag_verts_spec (b_verts b) (fst s)) as [FL FN].
        destruct (IH (flag_verts (b_verts b) (fst s), S (snd s))) as (L & C & N). cbv zeta in *. cbn [fst snd] in *.
        rewrite L, FL, C. split; [reflexivity|]. split; [simpl; lia|]. intros j Hj. destruct (N j ltac:(lia)) as [N1 N2].
        destruct (in_dec Nat.eq_dec j (b_verts b)) as [i|i].
        * split; [|intros U; exfalso; apply U; exists b; simpl; auto]. intros _.
          destruct (in_dec Nat.eq_dec j (flat_map b_verts (filter (marked marker) bels))) as [u|u].
          -- apply N1. apply in_flat_map in u as (c & Hc & Hj'). apply filter_In in Hc as [? ?]. exists c. auto.
          -- rewrite N2; [rewrite FN by assumption; destruct in_dec; [reflexivity|contradiction]|].
             intros (c & H1 & H2 & H3). apply u. apply in_flat_map. exists c. rewrite filter_In. auto.
        * split.
          -- intros (c & [<-|H1] & H2 & H3); [contradiction|]. apply N1. exists c. auto.
          -- intros U. rewrite N2; [rewrite FN by assumption; destruct in_dec; [contradiction|reflexivity]|].
             intros (c & H1 & H2). apply U. exists c. simpl. auto.
      + destruct (IH s) as (L & C & N). cbv zeta in *. split; [assumption|]. split; [assumption|]. intros j Hj. destruct (N j Hj) as [N1 N2].
        split; intros U.
        * apply N1. destruct U as (c & [<-|H1] & H2); [destruct H2; congruence|exists c; auto].
        * apply N2. intros (c & H1 & H2). apply U. exists c. simpl; auto. }
  destruct (G bels (repeat (-1)%Z nv, O)) as (L & C & N). cbv zeta in *. cbn [fst snd] in *. rewrite repeat_length in *.
  split; [assumption|]. split; [assumption|]. intros j Hj. destruct (N j Hj) as [N1 N2]. split; [assumption|]. intros U. rewrite N2 by assumption.
  clear. revert j. induction nv; intros [|j]; simpl; auto.
Qed.
(** numbering *)
Lemma number_spec l : forall n, (0 <= n)%Z -> (forall a, In a l -> a = 0%Z \/ a = (-1)%Z) ->
  length (number l n) = length l /\
  forall j, (j < length l)%nat -> nth j (number l n) (-1)%Z =
    if Z.eqb (nth j l (-1)%Z) 0 then (n + Z.of_nat (length (filter (fun i => Z.eqb (nth i l (-1)%Z) 0) (seq 0 j))))%Z else (-1)%Z.
Proof.
  induction l as [|a l IH]; intros n Hn H; [split; [reflexivity|simpl; intros; lia]|].
  assert (SH : forall j, length (filter (fun i => Z.eqb (nth i (a :: l) (-1)%Z) 0) (seq 0 (S j))) =
     ((if Z.eqb a 0 then 1 else 0) + length (filter (fun i => Z.eqb (nth i l (-1)%Z) 0) (seq 0 j)))%nat).
  { intros j. cbn [seq]. rewrite <- seq_shift. cbn [filter]. change (nth 0 (a :: l) (-1)%Z) with a.
    assert (E : forall s, length (filter (fun i => (nth i (a :: l) (-1) =? 0)%Z) (map S s)) = length (filter (fun i => (nth i l (-1) =? 0)%Z) s)).
    { clear. induction s as [|k s IH]; cbn [map filter]; [reflexivity|]. change (nth (S k) (a :: l) (-1)%Z) with (nth k l (-1)%Z).
      destruct (nth k l (-1) =? 0)%Z; cbn [length]; auto. }
    specialize (E (seq 0 j)). destruct (Z.eqb a 0); cbn [length]; rewrite E; lia. }
  simpl number. destruct (Z.eqb_spec a 0) as [->|Ha].
  - destruct (IH (n + 1)%Z ltac:(lia) ltac:(intros; apply H; now right)) as [L N]. split; [simpl; lia|]. intros [|j] Hj; [simpl; lia|].
    simpl length in Hj. change (nth (S j) (n :: number l (n + 1)) (-1)%Z) with (nth j (number l (n + 1)) (-1)%Z). rewrite (N j) by lia. rewrite SH. simpl (nth (S j) _ _).
    destruct (nth j l (-1) =? 0)%Z; simpl; lia.
  - destruct (IH n Hn ltac:(intros; apply H; now right)) as [L N]. split; [simpl; lia|]. intros [|j] Hj.
    + simpl. destruct (H a (or_introl eq_refl)); [contradiction|]. subst. reflexivity.
    + simpl length in Hj. change (nth (S j) (a :: number l n) (-1)%Z) with (nth j (number l n) (-1)%Z). rewrite (N j) by lia. rewrite SH. simpl (nth (S j) _ _).
      destruct (Z.eqb_spec a 0); [contradiction|]. reflexivity.
Qed.
Lemma filter_seq_nth (P : nat -> bool) n : forall j, (j < n)%nat -> P j = true ->
  nth (length (filter P (seq 0 j))) (filter P (seq 0 n)) n = j.
Proof.
  intros j Hj HP. replace n with (j + (1 + (n - j - 1)))%nat at 1 by lia. rewrite seq_app, filter_app, app_nth2 by lia.
  rewrite Nat.sub_diag. simpl. rewrite HP. reflexivity.
Qed.

Lemma v2v_spec marker bels nv j : (j < nv)%nat ->
  length (v2v_of marker bels nv) = nv /\
  (used marker bels j -> exists k, nth j (v2v_of marker bels nv) (-1)%Z = Z.of_nat k /\ nth_error (surf_verts (v2v_of marker bels nv)) k = Some j) /\
  (~ used marker bels j -> nth j (v2v_of marker bels nv) (-1)%Z = (-1)%Z).
Proof.
  intros Hj. destruct (flag_spec marker bels nv) as (L & _ & F). set (s := fst (flag_pass marker bels nv)) in *.
  assert (V : forall a, In a s -> a = 0%Z \/ a = (-1)%Z).
  { intros a Ha. destruct (In_nth s a (-1)%Z Ha) as (k & Hk & <-). destruct (F k ltac:(lia)) as [F1 F2].
    destruct (in_dec Nat.eq_dec k (flat_map b_verts (filter (marked marker) bels))) as [u|u].
    - left. apply F1. apply in_flat_map in u as (c & Hc & Hu). apply filter_In in Hc as [? ?]. exists c. auto.
    - right. apply F2. intros (c & H1 & H2 & H3). apply u. apply in_flat_map. exists c. rewrite filter_In. auto. }
  destruct (number_spec s 0%Z ltac:(lia) V) as [NL NN]. unfold v2v_of. fold s. rewrite NL, L. split; [reflexivity|].
  destruct (F j Hj) as [F1 F2]. split.
  - intros U. specialize (F1 U). rewrite (NN j) by lia. rewrite F1. simpl.
    eexists. split; [reflexivity|]. unfold surf_verts. rewrite NL, L.
    rewrite (filter_ext_in (fun i => (0 <=? nth i (number s 0) (-1))%Z) (fun i => (nth i s (-1) =? 0)%Z) (seq 0 nv)).
    2:{ intros i Hi. apply in_seq in Hi. rewrite (NN i) by lia. destruct (nth i s (-1) =? 0)%Z; [apply Z.leb_le; lia|reflexivity]. }
    pose proof (filter_seq_nth (fun i => (nth i s (-1) =? 0)%Z) nv j Hj) as N. cbv beta in N. rewrite F1 in N. specialize (N eq_refl).
    rewrite <- N at 2. apply nth_error_nth'. 
    replace nv with (j + (1 + (nv - j - 1)))%nat by lia. rewrite seq_app, filter_app, app_length. simpl. rewrite F1. simpl. lia.
  - intros U. rewrite (NN j) by lia. rewrite F2 by assumption. reflexivity.
Qed.
Lemma used_dec marker bels v : {used marker bels v} + {~ used marker bels v}.
Proof.
  destruct (in_dec Nat.eq_dec v (flat_map b_verts (filter (marked marker) bels))) as [u|u].
  - left. apply in_flat_map in u as (c & Hc & Hu). apply filter_In in Hc as [? ?]. exists c. auto.
  - right. intros (c & H1 & H2 & H3). apply u. apply in_flat_map. exists c. rewrite filter_In. auto.
Qed.
Lemma surf_verts_spec marker bels nv : let sv := surf_verts (v2v_of marker bels nv) in
  NoDup sv /\ forall v, In v sv <-> (v < nv)%nat /\ used marker bels v.
Proof.
  cbv zeta. unfold surf_verts. split; [apply NoDup_filter, seq_NoDup|]. intros v.
  destruct (Nat.ltb_spec v nv) as [Hv|Hv].
  - destruct (v2v_spec marker bels nv v Hv) as (L & U & N). rewrite filter_In, in_seq, L. split.
    + intros [_ E]. split; [assumption|]. destruct (used_dec marker bels v) as [u|u]; [assumption|]. rewrite (N u) in E. discriminate.
    + intros [_ u]. split; [lia|]. destruct (U u) as (k & E & _). rewrite E. apply Z.leb_le. lia.
  - rewrite filter_In, in_seq. split; [intros [H _]|lia].
    assert (L : length (v2v_of marker bels nv) = nv).
    { unfold v2v_of. destruct (flag_spec marker bels nv) as (L & _ & _). rewrite <- L at 2.
      generalize (fst (flag_pass marker bels nv)) 0%Z. clear. induction l as [|a l IH]; simpl; intros z; [reflexivity|]. destruct (a =? 0)%Z; simpl; auto. }
    lia.
Qed.

(** node copy *)
Definition prefix_marked (marker : list Z) (bels : list bel) : Prop :=
  exists a b, bels = a ++ b /\ (forall x, In x a -> marked marker x = true) /\ (forall x, In x b -> marked marker x = false).
Lemma copy_unmarked marker n i bels : (forall x, In x bels -> marked marker x = false) -> copy_nodes marker n i bels = Some [].
Proof. revert i. induction bels as [|b bels IH]; simpl; intros i H; [reflexivity|]. rewrite H by auto. apply IH. auto. Qed.
Lemma copy_prefix marker n i a b : (forall x, In x a -> marked marker x = true) -> (forall x, In x b -> marked marker x = false) ->
  (i + length a <= n)%nat -> copy_nodes marker n i (a ++ b) = Some (map (fun k => (k, k)) (seq i (length a))).
Proof.
  revert i. induction a as [|x a IH]; simpl; intros i Ha Hb Hn; [now apply copy_unmarked|].
  rewrite Ha by auto. destruct (Nat.ltb_spec i n); [|lia]. rewrite IH by (auto; lia). reflexivity.
Qed.
Lemma copy_bad marker n bels : forall i, (n <= i)%nat -> (exists x, In x bels /\ marked marker x = true) -> copy_nodes marker n i bels = None.
Proof.
  induction bels as [|b bels IH]; intros i Hi (x & Hx & Hm); [destruct Hx|]. simpl. destruct (marked marker b) eqn:M.
  - destruct (Nat.ltb_spec i n); [lia|reflexivity].
  - apply IH; [lia|]. destruct Hx as [->|Hx]; [congruence|]. eauto.
Qed.
Lemma copy_gap marker bels : forall n i, (i + length (filter (marked marker) bels) <= n)%nat \/ True -> 
  n = (i + length (filter (marked marker) bels))%nat -> ~ prefix_marked marker bels -> copy_nodes marker n i bels = None.
Proof.
  induction bels as [|b bels IH]; intros n i _ Hn HP.
  - exfalso. apply HP. exists [], []. simpl. intuition.
  - simpl in Hn |- *. destruct (marked marker b) eqn:M.
    + simpl in Hn. destruct (Nat.ltb_spec i n); [|reflexivity]. rewrite (IH n (S i)); [reflexivity|auto|lia|].
      intros (u & v & E & H1 & H2). apply HP. exists (b :: u), v. subst. simpl. intuition; subst; auto.
    + (* an unmarked element first: some marked one follows *)
      destruct (existsb (marked marker) bels) eqn:X.
      * apply existsb_exists in X as (x & Hx & Hm). clear IH HP.
        assert (G : forall bels n i, (n < i + length (filter (marked marker) bels))%nat -> (exists x, In x bels /\ marked marker x = true) -> copy_nodes marker n i bels = None).
        { clear. induction bels as [|c bels IH]; intros n i Hn Hx; [destruct Hx as (x & [] & _)|]. simpl in *. destruct (marked marker c) eqn:M.
          - destruct (Nat.ltb_spec i n); [|reflexivity]. simpl in Hn. rewrite IH; [reflexivity|lia|].
            destruct (filter (marked marker) bels) as [|y l] eqn:F; [simpl in Hn; lia|]. exists y. apply filter_In. rewrite F. now left.
          - destruct Hx as (x & [->|Hx] & Hm); [congruence|]. apply IH; [lia|eauto]. }
        apply G; [|eauto]. lia.
      * exfalso. apply HP. exists [], (b :: bels). simpl. split; [reflexivity|]. split; [intuition|].
        intros x [<-|Hx]; [assumption|]. destruct (marked marker x) eqn:E; [|reflexivity].
        assert (existsb (marked marker) bels = true) by (apply existsb_exists; eauto). congruence.
Qed.

(** ** distance *)
Local Open Scope R_scope.
Lemma project_range x : 0 <= fst (project x) <= 1.
Proof. unfold project. destruct (Rltb_spec x 0); [simpl; lra|]. destruct (Rltb_spec 1 x); simpl; lra. Qed.
Lemma newton_sound lt tr x n : forall xi hit r, 0 <= xi <= 1 -> newton_dist lt tr x n xi hit = Dist r ->
  exists xi', 0 <= xi' <= 1 /\ r = norm 2 (vsub (t_X tr xi') x).
Proof.
  induction n as [|n IH]; intros xi hit r Hx H; [discriminate|]. cbn [newton_dist] in H.
  destruct (Rltb _ tol13); [injection H as <-; eauto|]. destruct (Rleb _ lt); [discriminate|].
  match type of H with context [project ?a] => pose proof (project_range a) as P; destruct (project a) as [xi' inside] end. cbn [fst] in P.
  destruct (negb inside && hit); [injection H as <-; eauto|]. eapply IH; eauto.
Qed.
(** straight segment from a to a + e *)
Definition segment (a e : vec) : trans := {| t_X := fun s i => a i + s * e i; t_J := fun _ => e; t_H := fun _ _ => 0 |}.
Section Seg.
Context (a e x : vec).
Let L := dot 2 e e.
Let w : vec := vsub a x.
Let b := dot 2 e w.
Lemma seg_sq s : norm 2 (vsub (t_X (segment a e) s) x) * norm 2 (vsub (t_X (segment a e) s) x) = dot 2 w w + 2 * s * b + s * s * L.
Proof.
  unfold norm. rewrite sqrt_sqrt by (unfold dot; simpl; nra). unfold L, b, w, dot, vsub, segment; simpl. ring.
Qed.
Lemma seg_grad s : dot 2 (t_J (segment a e) s) (vsub (t_X (segment a e) s) x) = b + s * L.
Proof. unfold L, b, w, dot, vsub, segment; simpl. ring. Qed.
Lemma seg_hess s r : dot 2 (t_J (segment a e) s) (t_J (segment a e) s) + dot 2 (t_H (segment a e) s) r = L.
Proof. unfold L, dot, segment; simpl. ring. Qed.
Lemma norm_nonneg' v : 0 <= norm 2 v. Proof. apply sqrt_pos. Qed.
(** optimality in terms of squares: gradient g at s0 with g (s - s0) >= -eps on [0,1] *)
Lemma seg_opt s0 s : norm 2 (vsub (t_X (segment a e) s) x) * norm 2 (vsub (t_X (segment a e) s) x) =
  norm 2 (vsub (t_X (segment a e) s0) x) * norm 2 (vsub (t_X (segment a e) s0) x) + 2 * (s - s0) * (b + s0 * L) + (s - s0) * (s - s0) * L.
Proof. rewrite !seg_sq. ring. Qed.
Lemma segment_distance lt : 0 <= lt < L ->
  exists r, solveDistance lt (segment a e) x = Dist r /\ forall s, 0 <= s <= 1 ->
    r * r <= norm 2 (vsub (t_X (segment a e) s) x) * norm 2 (vsub (t_X (segment a e) s) x) + tol13 * tol13 / L.
Proof.
  intros Hl. assert (HL : 0 < L) by lra. assert (T : 0 < tol13) by (unfold tol13; apply Rdiv_lt_0_compat; [lra|apply pow_lt; lra]).
  assert (TL : 0 <= tol13 * tol13 / L) by (apply Rlt_le, Rdiv_lt_0_compat; nra).
  assert (small : forall s0, Rabs (b + s0 * L) < tol13 -> forall s,
     norm 2 (vsub (t_X (segment a e) s0) x) * norm 2 (vsub (t_X (segment a e) s0) x) <= norm 2 (vsub (t_X (segment a e) s) x) * norm 2 (vsub (t_X (segment a e) s) x) + tol13 * tol13 / L).
  { intros s0 Hg s. rewrite (seg_opt s0 s). set (g := b + s0 * L) in *. set (d := s - s0).
    assert (G2 : g * g <= tol13 * tol13) by (apply Rabs_def2 in Hg; nra).
    assert (g * g / L <= tol13 * tol13 / L) by (apply Rmult_le_compat_r; [apply Rlt_le, Rinv_0_lt_compat; lra|assumption]).
    assert (0 <= 2 * d * g + d * d * L + g * g / L); [|lra].
    replace (2 * d * g + d * d * L + g * g / L) with ((d * L + g) * (d * L + g) / L) by (field; lra).
    apply Rmult_le_pos; [apply Rle_0_sqr|apply Rlt_le, Rinv_0_lt_compat; lra]. }
  (* end points *)
  assert (e0 : 0 <= b -> forall s, 0 <= s <= 1 -> norm 2 (vsub (t_X (segment a e) 0) x) * norm 2 (vsub (t_X (segment a e) 0) x) <= norm 2 (vsub (t_X (segment a e) s) x) * norm 2 (vsub (t_X (segment a e) s) x) + tol13 * tol13 / L).
  { intros Hb s Hs. rewrite (seg_opt 0 s). assert (0 <= s * b) by (apply Rmult_le_pos; lra). assert (0 <= s * s * L) by (apply Rmult_le_pos; [apply Rle_0_sqr|lra]). nra. }
  assert (e1 : b + L <= 0 -> forall s, 0 <= s <= 1 -> norm 2 (vsub (t_X (segment a e) 1) x) * norm 2 (vsub (t_X (segment a e) 1) x) <= norm 2 (vsub (t_X (segment a e) s) x) * norm 2 (vsub (t_X (segment a e) s) x) + tol13 * tol13 / L).
  { intros Hb s Hs. rewrite (seg_opt 1 s). assert (0 <= (1 - s) * - (b + L)) by (apply Rmult_le_pos; lra). assert (0 <= (s - 1) * (s - 1) * L) by (apply Rmult_le_pos; [apply Rle_0_sqr|lra]). nra. }
  assert (NS : forall g : R, Rltb 0 (- g / L * g) = false).
  { intros g. apply Rltb_false. replace (- g / L * g) with (- (g * g / L)) by (field; lra).
    assert (0 <= g * g / L) by (apply Rmult_le_pos; [apply Rle_0_sqr|apply Rlt_le, Rinv_0_lt_compat; lra]). lra. }
  assert (HA : Rleb (Rabs L) lt = false) by (apply Rleb_false; rewrite Rabs_pos_eq; lra).
  (* Newton steps from s go to the unconstrained minimiser m *)
  set (m := - b / L).
  assert (ST : forall s, s + - (b + s * L) / L = m) by (intros; unfold m; field; lra).
  assert (BM : b = - m * L) by (unfold m; field; lra).
  unfold solveDistance. cbn [newton_dist]. rewrite !seg_grad, seg_hess, HA. 
  destruct (Rltb (Rabs (b + 1 / 2 * L)) tol13) eqn:G0.
  { eexists. split; [reflexivity|]. intros s _. apply small. now apply Rltb_true. }
  rewrite NS, ST. unfold project at 1. destruct (Rltb_spec m 0) as [Hm|Hm]; [|destruct (Rltb_spec 1 m) as [Hm1|Hm1]].
  - cbn [negb andb orb]. rewrite !seg_grad, seg_hess, HA. assert (0 <= b) by nra.
    destruct (Rltb (Rabs (b + 0 * L)) tol13); [eexists; split; [reflexivity|]; now apply e0|].
    rewrite NS, ST. unfold project at 1. destruct (Rltb_spec m 0); [|lra]. cbn [negb andb orb]. eexists; split; [reflexivity|]; now apply e0.
  - cbn [negb andb orb]. rewrite !seg_grad, seg_hess, HA. assert (b + L <= 0) by nra.
    destruct (Rltb (Rabs (b + 1 * L)) tol13); [eexists; split; [reflexivity|]; now apply e1|].
    rewrite NS, ST. unfold project at 1. destruct (Rltb_spec m 0); [lra|]. destruct (Rltb_spec 1 m); [|lra]. cbn [negb andb orb]. eexists; split; [reflexivity|]; now apply e1.
  - cbn [negb andb orb]. rewrite !seg_grad.
    assert (Z : b + m * L = 0) by (rewrite BM; ring). rewrite Z, Rabs_R0. destruct (Rltb_spec 0 tol13); [|lra].
    eexists. split; [reflexivity|]. intros s _. apply small. rewrite Z, Rabs_R0. lra.
Qed.
End Seg.

(** the mark of an element is the entry with its 1-based attribute *)
Lemma and_iff_compat_l_if (P Q R : Prop) : (P -> (Q <-> R)) -> (P /\ Q <-> P /\ R).
Proof. tauto. Qed.
Lemma marked_iff marker b : (1 <= b_attr b <= length marker)%nat ->
  (marked marker b = true <-> exists a f, b_attr b = S a /\ nth_error marker a = Some f /\ f <> 0%Z).
Proof.
  unfold marked. destruct (b_attr b) as [|a]; [lia|]. intros Ha. replace (S a - 1)%nat with a by lia.
  destruct (nth_error marker a) as [f|] eqn:E; [|apply nth_error_None in E; lia].
  rewrite (nth_error_nth _ _ _ E). split.
  - intros H. exists a, f. repeat split; auto. intros ->. discriminate.
  - intros (a' & f' & E1 & E2 & H). injection E1 as <-. rewrite E in E2. injection E2 as <-. destruct (Z.eqb_spec f 0); [contradiction|reflexivity].
Qed.
