From Coq Require Import Reals List ZArith Bool Lia Lra Psatz String.
From Verif Require Import Num TimeLoop.
Import ListNotations.
Local Open Scope R_scope.

Section P.
Context {S : Type}.
Variable step : S -> R -> R -> S * R.
Variable o : time_opts.
Variable lo : log_opts.

(** specification: the uncontrolled trajectory: i steps of the marcher with the loop's step size *)
Fixpoint traj (s : S) (t : R) (i : nat) : S * R :=
  match i with
  | O => (s, t)
  | Datatypes.S i' => let '(s', t') := traj s t i' in step s' t' (calcStepSize o t')
  end.
Definition exits (s : S) (t : R) (j : nat) : bool :=
  iterationExit o (snd (traj s t (Datatypes.S j))) (calcStepSize o (snd (traj s t j))).

Lemma traj_shift s t i : traj s t (Datatypes.S i) = traj (fst (step s t (calcStepSize o t))) (snd (step s t (calcStepSize o t))) i.
Proof.
  induction i as [|i IH].
  - cbn. destruct step; reflexivity.
  - change (traj s t (Datatypes.S (Datatypes.S i))) with
      (let '(s', t') := traj s t (Datatypes.S i) in step s' t' (calcStepSize o t')). rewrite IH. reflexivity.
Qed.

Definition entry (ti : Z) (s : S) (t : R) (i : nat) : Z * R * R * S :=
  ((ti + Z.of_nat i)%Z, snd (traj s t i), calcStepSize o (snd (traj s t i)), fst (traj s t i)).
Definition ev (e : Z * R * R * S) : event S := let '(i, t, _, s) := e in Build_event i t s.

Lemma entry_shift ti s t i :
  entry ti s t (Datatypes.S i) = entry (ti + 1) (fst (step s t (calcStepSize o t))) (snd (step s t (calcStepSize o t))) i.
Proof. unfold entry. rewrite traj_shift. f_equal. f_equal. f_equal. lia. Qed.

Lemma loop_spec n : forall ti t s log acc,
  let r := loop step o lo n ti t s log acc in
  exists N, (N <= n)%nat /\
    passes r = acc ++ map (entry ti s t) (seq 0 N) /\
    (r_state r, r_t r) = traj s t N /\
    r_log r = log ++ (if each_timestep lo then map ev (map (entry ti s t) (seq 0 N)) else []) /\
    (forall j, (Datatypes.S j < N)%nat -> exits s t j = false) /\
    ((exists j, N = Datatypes.S j /\ exits s t j = true /\ r_iter r = (ti + Z.of_nat j)%Z) \/
     (N = n /\ (forall j, (j < N)%nat -> exits s t j = false) /\ r_iter r = (ti + Z.of_nat N)%Z)).
Proof.
  induction n as [|n IH]; intros ti t s log acc r.
  - exists 0%nat. subst r. cbn. rewrite !app_nil_r. split; [lia|]. split; [reflexivity|]. split; [reflexivity|]. split.
    { destruct (each_timestep lo); rewrite app_nil_r; reflexivity. }
    split; [intros; lia|]. right. split; [reflexivity|]. split; [intros; lia|lia].
  - subst r. cbn [loop]. set (dt := calcStepSize o t). destruct (step s t dt) as [s' t'] eqn:E.
    assert (E1 : traj s t 1 = (s', t')) by (cbn; exact E).
    destruct (iterationExit o t' dt) eqn:Ex; cbn [passes r_iter r_t r_state r_log].
    + exists 1%nat. split; [lia|]. split; [cbn; unfold entry; cbn; replace (ti + 0)%Z with ti by lia; reflexivity|].
      split; [symmetry; exact E1|]. split.
      { unfold iterationHook. destruct (each_timestep lo); cbn; [|rewrite app_nil_r; reflexivity].
        replace (ti + 0)%Z with ti by lia. reflexivity. }
      split; [intros; lia|]. left. exists 0%nat. split; [reflexivity|]. split; [|lia].
      unfold exits. rewrite E1. exact Ex.
    + destruct (IH (ti + 1)%Z t' s' (iterationHook lo ti t s log) (acc ++ [(ti, t, dt, s)])) as (N & HN & HP & HT & HL & HX & HE).
      assert (Sh : forall i, traj s t (Datatypes.S i) = traj s' t' i).
      { intros i. rewrite traj_shift. unfold dt in E. rewrite E. reflexivity. }
      assert (Shx : forall j, exits s t (Datatypes.S j) = exits s' t' j).
      { intros j. unfold exits. rewrite !Sh. reflexivity. }
      assert (She : map (entry ti s t) (seq 0 (Datatypes.S N)) = (ti, t, dt, s) :: map (entry (ti + 1) s' t') (seq 0 N)).
      { cbn [seq map]. f_equal.
        - unfold entry. cbn. replace (ti + 0)%Z with ti by lia. reflexivity.
        - rewrite <- seq_shift, map_map. apply map_ext. intros i. rewrite entry_shift. unfold dt in E. rewrite E. reflexivity. }
      assert (Ex0 : exits s t 0 = false) by (unfold exits; rewrite E1; exact Ex).
      exists (Datatypes.S N). split; [lia|]. split.
      { rewrite HP, She, <- app_assoc. reflexivity. }
      split; [rewrite Sh; exact HT|]. split.
      { rewrite HL, She. unfold iterationHook. destruct (each_timestep lo); [|reflexivity]. cbn [map]. rewrite <- app_assoc. reflexivity. }
      split. { intros [|j] Hj; [exact Ex0|]. rewrite Shx. apply HX. lia. }
      destruct HE as [(j & Hj & Hjx & Hi)|(Hn & Hjx & Hi)].
      * left. exists (Datatypes.S j). split; [lia|]. split; [rewrite Shx; exact Hjx|]. lia.
      * right. split; [lia|]. split; [|lia]. intros [|j] Hj; [exact Ex0|]. rewrite Shx. apply Hjx. lia.
Qed.

(** the whole run *)
Lemma solve_spec s : let r := solveForState step o lo s in
  exists N, (N <= Z.to_nat (max_iter o))%nat /\
    passes r = map (entry 0 s (t_initial o)) (seq 0 N) /\
    (r_state r, r_t r) = traj s (t_initial o) N /\
    r_log r = (if initial_state lo then [Build_event 0%Z 0 s] else [])
              ++ (if each_timestep lo then map ev (map (entry 0 s (t_initial o)) (seq 0 N)) else [])
              ++ (if final_state lo then [Build_event (r_iter r) (r_t r) (r_state r)] else []) /\
    (forall j, (Datatypes.S j < N)%nat -> exits s (t_initial o) j = false) /\
    ((exists j, N = Datatypes.S j /\ exits s (t_initial o) j = true /\ r_iter r = Z.of_nat j) \/
     (N = Z.to_nat (max_iter o) /\ (forall j, (j < N)%nat -> exits s (t_initial o) j = false) /\ r_iter r = Z.of_nat N)).
Proof.
  unfold solveForState. cbv zeta.
  destruct (loop_spec (Z.to_nat (max_iter o)) 0 (t_initial o) s (initialHook lo s []) []) as (N & HN & HP & HT & HL & HX & HE).
  cbn [passes r_iter r_t r_state r_log]. exists N. split; [exact HN|]. split; [exact HP|]. split; [exact HT|]. split.
  { unfold terminalHook. rewrite HL. unfold initialHook. 
    destruct (initial_state lo), (final_state lo); cbn [app]; rewrite <- ?app_assoc, ?app_nil_r; reflexivity. }
  split; [exact HX|]. destruct HE as [(j & Hj & Hjx & Hi)|(Hn & Hjx & Hi)].
  - left. exists j. auto.
  - right. auto.
Qed.
End P.

(** ** C13 *)
Section Times.
Context {S : Type}.
Variable step : S -> R -> R -> S * R.
Variable o : time_opts.
Hypothesis advances : forall s t dt, snd (step s t dt) = t + dt.
Hypothesis dtpos : 0 < dt_opt o.
Notation t0 := (t_initial o).
Notation tf := (t_final o).
Notation dt := (dt_opt o).

Lemma traj_t s t i : snd (traj step o s t (Datatypes.S i)) = snd (traj step o s t i) + calcStepSize o (snd (traj step o s t i)).
Proof. cbn [traj]. destruct (traj step o s t i) as [s' t']. cbn [snd]. apply advances. Qed.

Definition eps := 1 / 10^14.
Lemma eps_bounds : 0 < eps < 1. Proof. unfold eps. lra. Qed.

Lemma exits_false_gt s j (H : exits step o s t0 j = false) :
  snd (traj step o s t0 (Datatypes.S j)) < tf - eps * calcStepSize o (snd (traj step o s t0 j)).
Proof. unfold exits, iterationExit in H. apply Rleb_false in H. exact H. Qed.
Lemma exits_true_ge s j (H : exits step o s t0 j = true) :
  tf - eps * calcStepSize o (snd (traj step o s t0 j)) <= snd (traj step o s t0 (Datatypes.S j)).
Proof. unfold exits, iterationExit in H. apply Rleb_true in H. exact H. Qed.

(* exact-t-final: as long as the loop has not exited, the steps are full steps *)
Lemma exact_unclipped s : exact_t_final o = true -> t0 < tf -> forall i,
  (forall j, (j < i)%nat -> exits step o s t0 j = false) ->
  snd (traj step o s t0 i) = t0 + INR i * dt /\ snd (traj step o s t0 i) < tf /\ 
  (forall j, (j < i)%nat -> calcStepSize o (snd (traj step o s t0 j)) = dt).
Proof.
  intros Hex Ht i. induction i as [|i IH]; intros H.
  - cbn [traj snd]. split; [cbn; lra|]. split; [lra|]. intros; lia.
  - destruct IH as (E & L & D); [intros j Hj; apply H; lia|].
    pose proof (exits_false_gt s i (H i ltac:(lia))) as X. rewrite traj_t in X |- *.
    set (t := snd (traj step o s t0 i)) in *. 
    assert (C : calcStepSize o t = dt).
    { unfold calcStepSize in *. rewrite Hex in *. destruct (Rltb_spec (tf - t) dt) as [Hc|Hc]; [|reflexivity].
      exfalso. pose proof eps_bounds. nra. }
    split; [rewrite C, S_INR; lra|]. split.
    + rewrite C in *. pose proof eps_bounds. nra.
    + intros j Hj. destruct (Nat.eq_dec j i) as [->|Hne]; [exact C|]. apply D; lia.
Qed.

Lemma calc_exact_bounds t : exact_t_final o = true -> t < tf -> 0 < calcStepSize o t <= dt /\ t + calcStepSize o t <= tf
   /\ (t + calcStepSize o t < tf -> calcStepSize o t = dt).
Proof.
  intros Hex Ht. unfold calcStepSize. rewrite Hex. destruct (Rltb_spec (tf - t) dt); repeat split; intros; lra.
Qed.

Lemma exact_run lo s : exact_t_final o = true -> t0 < tf ->
  let r := solveForState step o lo s in
  let N := List.length (passes r) in
  (forall i p, nth_error (passes r) i = Some p ->
     let '(ti, t, d, _) := p in ti = Z.of_nat i /\ t = t0 + INR i * dt /\ t < tf /\ 0 < d <= dt /\ t + d <= tf /\
       (Datatypes.S i < N -> d = dt)%nat) /\
  t0 <= r_t r <= tf /\ r_t r = Rmin (t0 + INR N * dt) tf /\
  (Z.of_nat N = Z.max 0 (max_iter o) \/ tf - eps * dt <= r_t r) /\
  (forall M, (M < N)%nat -> t0 + INR M * dt < tf - (if Nat.eqb M 0 then 0 else eps * dt)).
Proof.
  intros Hex Ht. cbv zeta. destruct (solve_spec step o lo s) as (N & HN & HP & HT & _ & HX & HE).
  set (r := solveForState step o lo s) in *. rewrite HP, map_length, seq_length.
  assert (Hun : forall i, (i < N)%nat -> snd (traj step o s t0 i) = t0 + INR i * dt /\ snd (traj step o s t0 i) < tf /\ 
     (forall j, (j < i)%nat -> calcStepSize o (snd (traj step o s t0 j)) = dt)).
  { intros i Hi. apply exact_unclipped; auto. intros j Hj. apply HX. lia. }
  assert (Hrt : r_t r = snd (traj step o s t0 N)) by (rewrite <- HT; reflexivity).
  split.
  { intros i p Hp. rewrite nth_error_map in Hp. destruct (nth_error (seq 0 N) i) as [k|] eqn:Ek; [|discriminate].
    cbn in Hp. injection Hp as <-. assert (Hi : (i < N)%nat) by (apply nth_error_Some in Ek || (rewrite <- (seq_length N 0); apply nth_error_Some; congruence)).
    assert (k = i). { apply nth_error_nth with (d := 0%nat) in Ek. rewrite seq_nth in Ek by exact Hi. lia. } subst k.
    unfold entry. destruct (Hun i Hi) as (E & L & _). destruct (calc_exact_bounds _ Hex L) as (B1 & B2 & B3).
    split; [lia|]. split; [exact E|]. split; [exact L|]. split; [exact B1|]. split; [exact B2|].
    intros Hlast. destruct (Hun (Datatypes.S i) Hlast) as (_ & _ & D). apply D. lia. }
  assert (Hlast : t0 <= r_t r <= tf /\ r_t r = Rmin (t0 + INR N * dt) tf).
  { rewrite Hrt. destruct N as [|j].
    - cbn [traj snd INR]. rewrite Rmin_left; lra.
    - destruct (Hun j ltac:(lia)) as (E & L & _). rewrite traj_t. destruct (calc_exact_bounds _ Hex L) as (B1 & B2 & B3).
      rewrite S_INR. set (t := snd (traj step o s t0 j)) in *. pose proof (pos_INR j).
      split; [split; [nra|lra]|].
      unfold calcStepSize in *. rewrite Hex in *. destruct (Rltb_spec (tf - t) dt).
      + rewrite Rmin_right; nra.
      + rewrite Rmin_left; nra. }
  split; [apply Hlast|]. split; [apply Hlast|]. split.
  { destruct HE as [(j & Hj & Hjx & _)|(Hn & _ & _)].
    - right. apply exits_true_ge in Hjx. rewrite Hrt, Hj. 
      destruct (Hun j ltac:(lia)) as (_ & L & _). destruct (calc_exact_bounds _ Hex L) as (B1 & _). pose proof eps_bounds. nra.
    - left. lia. }
  intros M HM. destruct (Nat.eqb_spec M 0) as [->|Hne]; [cbn; lra|].
  destruct M as [|j]; [lia|]. destruct (Hun (Datatypes.S j) HM) as (E & _ & D).
  pose proof (exits_false_gt s j (HX j ltac:(lia))) as X. rewrite (D j ltac:(lia)) in X. rewrite <- E. exact X.
Qed.

Lemma free_run lo s : exact_t_final o = false -> t0 < tf ->
  let r := solveForState step o lo s in
  let N := List.length (passes r) in
  (forall i p, nth_error (passes r) i = Some p ->
     let '(ti, t, d, _) := p in ti = Z.of_nat i /\ t = t0 + INR i * dt /\ d = dt /\ t < tf) /\
  r_t r = t0 + INR N * dt /\ r_t r < tf + dt /\
  (Z.of_nat N = Z.max 0 (max_iter o) \/ tf - eps * dt <= r_t r).
Proof.
  intros Hex Ht. cbv zeta. destruct (solve_spec step o lo s) as (N & HN & HP & HT & _ & HX & HE).
  set (r := solveForState step o lo s) in *. rewrite HP, map_length, seq_length.
  assert (C : forall t, calcStepSize o t = dt) by (intros; unfold calcStepSize; rewrite Hex; reflexivity).
  assert (Hun : forall i, snd (traj step o s t0 i) = t0 + INR i * dt).
  { induction i as [|i IH]; [cbn; lra|]. rewrite traj_t, C, IH, S_INR. lra. }
  assert (Hlt : forall i, (i < N)%nat -> t0 + INR i * dt < tf).
  { intros [|j] Hj; [cbn; lra|]. pose proof (exits_false_gt s j (HX j ltac:(lia))) as X. rewrite C, Hun in X.
    pose proof eps_bounds. nra. }
  assert (Hrt : r_t r = snd (traj step o s t0 N)) by (rewrite <- HT; reflexivity). rewrite Hun in Hrt.
  split.
  { intros i p Hp. rewrite nth_error_map in Hp. destruct (nth_error (seq 0 N) i) as [k|] eqn:Ek; [|discriminate].
    cbn in Hp. injection Hp as <-. assert (Hi : (i < N)%nat) by (rewrite <- (seq_length N 0); apply nth_error_Some; congruence).
    assert (k = i). { apply nth_error_nth with (d := 0%nat) in Ek. rewrite seq_nth in Ek by exact Hi. lia. } subst k.
    unfold entry. rewrite Hun, C. repeat split; try lia. apply Hlt; exact Hi. }
  split; [exact Hrt|]. split.
  { rewrite Hrt. destruct N as [|j]; [cbn; lra|]. pose proof (Hlt j ltac:(lia)). rewrite S_INR. lra. }
  destruct HE as [(j & Hj & Hjx & _)|(Hn & _ & _)]; [right|left; lia].
  apply exits_true_ge in Hjx. rewrite C in Hjx. rewrite Hun in Hjx. subst N. lra.
Qed.
End Times.

(* a run that starts after t-final marches backwards *)
Lemma backwards {S} (step : S -> R -> R -> S * R) (o : time_opts) lo s :
  (forall s t dt, snd (step s t dt) = t + dt) -> 0 < dt_opt o -> exact_t_final o = true -> t_final o < t_initial o ->
  (1 < max_iter o)%Z ->
  r_t (solveForState step o lo s) = t_final o /\
  exists d s1, passes (solveForState step o lo s) = [(0%Z, t_initial o, d, s); (1%Z, t_final o, 0, s1)] /\ d < 0.
Proof.
  intros Ha Hd Hex Ht Hm. unfold solveForState. cbv zeta. cbn [r_t passes].
  replace (Z.to_nat (max_iter o)) with (2 + Z.to_nat (max_iter o - 2))%nat by lia. cbn [loop Nat.add].
  assert (C1 : calcStepSize o (t_initial o) = t_final o - t_initial o).
  { unfold calcStepSize. rewrite Hex. destruct (Rltb_spec (t_final o - t_initial o) (dt_opt o)); lra. }
  rewrite C1. destruct (step s (t_initial o) _) as [s1 t1] eqn:E1.
  assert (t1 = t_final o). { pose proof (Ha s (t_initial o) (t_final o - t_initial o)) as X. rewrite E1 in X. cbn in X. lra. } subst t1.
  unfold iterationExit at 1 3. destruct (Rleb_spec (t_final o - 1 / 10 ^ 14 * (t_final o - t_initial o)) (t_final o)); [lra|].
  assert (C2 : calcStepSize o (t_final o) = 0).
  { unfold calcStepSize. rewrite Hex. destruct (Rltb_spec (t_final o - t_final o) (dt_opt o)); lra. }
  rewrite C2. destruct (step s1 (t_final o) 0) as [s2 t2] eqn:E2.
  assert (t2 = t_final o). { pose proof (Ha s1 (t_final o) 0) as X. rewrite E2 in X. cbn in X. lra. } subst t2.
  unfold iterationExit. destruct (Rleb_spec (t_final o - 1 / 10 ^ 14 * 0) (t_final o)); [|lra].
  cbn. split; [reflexivity|]. exists (t_final o - t_initial o), s1. split; [reflexivity|lra].
Qed.

(** ** C14: what the log holds *)
(** the record a reader of key k sees: the last one written under that key *)
Definition last_record {S} (log : list (event S)) (k : Z) (t : R) (s : S) : Prop :=
  exists before after, log = before ++ Build_event k t s :: after /\ Forall (fun e => e_step e <> k) after.

Lemma last_record_det {S} (log : list (event S)) k t s t' s' :
  last_record log k t s -> last_record log k t' s' -> t = t' /\ s = s'.
Proof.
  intros (b & a & E & F) (b' & a' & E' & F'). rewrite E in E'. clear E.
  revert b' E'. induction b as [|x b IH]; intros [|x' b'] E'; cbn in E'.
  - injection E' as E1 E2 _. auto.
  - injection E' as E1 E2. subst. exfalso. rewrite Forall_forall in F. apply (F (Build_event k t' s')); [|reflexivity].
    apply in_or_app; right; left; reflexivity.
  - injection E' as E1 E2. subst. exfalso. rewrite Forall_forall in F'. apply (F' (Build_event k t s)); [|reflexivity].
    apply in_or_app; right; left; reflexivity.
  - injection E' as -> E'. eauto.
Qed.

Section Log.
Context {S : Type}.
Variable step : S -> R -> R -> S * R.
Variable o : time_opts.

Lemma log_final lo s : final_state lo = true ->
  let r := solveForState step o lo s in last_record (r_log r) (r_iter r) (r_t r) (r_state r).
Proof.
  intros Hf. cbv zeta. destruct (solve_spec step o lo s) as (N & HN & HP & HT & HL & HX & HE).
  set (r := solveForState step o lo s) in *. rewrite Hf in HL. rewrite app_assoc in HL. rewrite HL.
  exists ((if initial_state lo then [Build_event 0%Z 0 s] else []) ++ (if each_timestep lo then map ev (map (entry step o 0 s (t_initial o)) (seq 0 N)) else [])), [].
  split; [reflexivity|constructor].
Qed.

Lemma log_each lo s : each_timestep lo = true ->
  let r := solveForState step o lo s in
  forall i p, nth_error (passes r) i = Some p ->
  let '(k, t, _, x) := p in
  k = Z.of_nat i /\ (final_state lo = false \/ r_iter r <> k -> last_record (r_log r) k t x).
Proof.
  intros He. cbv zeta. destruct (solve_spec step o lo s) as (N & HN & HP & HT & HL & HX & HE).
  set (r := solveForState step o lo s) in *. intros i p Hp. rewrite HP in Hp.
  rewrite nth_error_map in Hp. destruct (nth_error (seq 0 N) i) as [j|] eqn:Ek; [|discriminate].
  cbn in Hp. injection Hp as <-. assert (Hi : (i < N)%nat) by (rewrite <- (seq_length N 0); apply nth_error_Some; congruence).
  assert (j = i). { apply nth_error_nth with (d := 0%nat) in Ek. rewrite seq_nth in Ek by exact Hi. lia. } subst j.
  unfold entry. split; [lia|]. intros Hfin. rewrite He in HL. rewrite HL.
  replace N with (i + (1 + (N - i - 1)))%nat by lia. rewrite seq_app, !map_app. cbn [Nat.add seq map].
  set (pre := map ev (map (entry step o 0 s (t_initial o)) (seq 0 i))).
  exists ((if initial_state lo then [Build_event 0%Z 0 s] else []) ++ pre),
    (map ev (map (entry step o 0 s (t_initial o)) (seq (Datatypes.S i) (N - i - 1))) ++
      (if final_state lo then [Build_event (r_iter r) (r_t r) (r_state r)] else [])).
  split.
  - rewrite <- !app_assoc. cbn [app ev entry]. reflexivity.
  - apply Forall_app. split.
    + rewrite map_map. apply Forall_forall. intros e Hin. apply in_map_iff in Hin. destruct Hin as (k & <- & Hk).
      apply in_seq in Hk. cbn [ev entry e_step]. lia.
    + destruct (final_state lo); [|constructor]. constructor; [|constructor]. cbn [e_step]. destruct Hfin; [discriminate|assumption].
Qed.

(* the key of the final record: a new one exactly when the step limit stopped the run *)
Lemma final_key lo s :
  let r := solveForState step o lo s in let N := List.length (passes r) in
  (0 < max_iter o)%Z ->
  (0 < N)%nat /\
  (r_iter r = Z.of_nat N /\ Z.of_nat N = max_iter o \/
   r_iter r = (Z.of_nat N - 1)%Z /\ exists t d x, nth_error (passes r) (N - 1) = Some (r_iter r, t, d, x) /\ iterationExit o (r_t r) d = true).
Proof.
  intros r N Hmx. destruct (solve_spec step o lo s) as (N' & HN & HP & HT & HL & HX & HE). fold r in HP, HT, HL, HX, HE.
  assert (HNN : N = N') by (subst N; rewrite HP, map_length, seq_length; reflexivity). clearbody N. subst N'.
  destruct HE as [(j & Hj & Hjx & Hi)|(Hn & _ & Hi)].
  - split; [lia|]. right. split; [lia|]. exists (snd (traj step o s (t_initial o) j)), (calcStepSize o (snd (traj step o s (t_initial o) j))), (fst (traj step o s (t_initial o) j)).
    split.
    + rewrite HP, nth_error_map. subst N. replace (Datatypes.S j - 1)%nat with j by lia.
      rewrite (nth_error_nth' _ 0%nat) by (rewrite seq_length; lia). rewrite seq_nth by lia. cbn [option_map Nat.add entry].
      unfold entry. rewrite Hi. f_equal.
    + unfold exits in Hjx. rewrite <- Hj in Hjx. rewrite <- HT in Hjx. exact Hjx.
  - split; [lia|]. left. split; [exact Hi|]. lia.
Qed.

Lemma log_initial_default s lo : initial_state lo = true -> each_timestep lo = false ->
  let r := solveForState step o lo s in
  (r_iter r <> 0%Z -> last_record (r_log r) 0 0 s) /\
  (final_state lo = true -> r_iter r = 0%Z -> last_record (r_log r) 0 (r_t r) (r_state r)).
Proof.
  intros Hi He. cbv zeta. split.
  - intros Hne. destruct (solve_spec step o lo s) as (N & HN & HP & HT & HL & HX & HE).
    rewrite HL, Hi, He. cbn [app]. exists [], (if final_state lo then [Build_event (r_iter (solveForState step o lo s)) (r_t (solveForState step o lo s)) (r_state (solveForState step o lo s))] else []). split; [reflexivity|].
    destruct (final_state lo); [constructor; [exact Hne|constructor]|constructor].
  - intros Hf E. pose proof (log_final lo s Hf) as X. cbv zeta in X. rewrite E in X. exact X.
Qed.
End Log.

(** ** composition with the binary logger *)
From Verif Require Import Logger LoggerProofs.
Definition to_save {S} (enc_t : R -> double) (enc_s : S -> list double) (rank : Z) (e : event S) : save double :=
  {| s_field := "state"; s_ts := e_step e; s_rank := rank; s_time := enc_t (e_time e); s_state := enc_s (e_state e) |}.

Lemma last_record_readable {S} (enc_t : R -> double) (enc_s : S -> list double) rank (log : list (event S)) k t s fs :
  last_record log k t s -> is_double (enc_t t) -> Forall is_double (enc_s s) -> (Z.of_nat (List.length (enc_s s)) < 2^31)%Z ->
  bin_read (bin_saves fs (map (to_save enc_t enc_s rank) log)) "state" k rank = (Some (enc_t t), map Some (enc_s s)).
Proof.
  intros (b & a & -> & F) Ht Hs Hl. rewrite map_app. cbn [map].
  pose proof (bin_history (map (to_save enc_t enc_s rank) b) (to_save enc_t enc_s rank (Build_event k t s)) (map (to_save enc_t enc_s rank) a) fs "state" k rank) as H.
  apply H; auto.
  - repeat split.
  - apply Forall_map. eapply Forall_impl; [|exact F]. intros e He (_ & Hk & _). apply He. exact Hk.
Qed.

Lemma nth_map_seq {A} (f : nat -> A) N i p : nth_error (map f (seq 0 N)) i = Some p -> (i < N)%nat /\ p = f i.
Proof.
  intros Hp. rewrite nth_error_map in Hp. destruct (nth_error (seq 0 N) i) as [j|] eqn:Ek; [|discriminate].
  cbn in Hp. injection Hp as <-. assert (Hi : (i < N)%nat) by (rewrite <- (seq_length N 0); apply nth_error_Some; congruence).
  apply nth_error_nth with (d := 0%nat) in Ek. rewrite seq_nth in Ek by exact Hi. subst j. auto.
Qed.

Lemma marched (S : Type) (step : S -> R -> R -> S * R) (o : time_opts) (lo : log_opts) (s : S) :
  let r := solveForState step o lo s in
  (forall k t d x, nth_error (passes r) 0 = Some (k, t, d, x) -> k = 0%Z /\ t = t_initial o /\ x = s) /\
  (forall i k t d x k' t' d' x',
     nth_error (passes r) i = Some (k, t, d, x) -> nth_error (passes r) (Datatypes.S i) = Some (k', t', d', x') ->
     k' = (k + 1)%Z /\ (x', t') = step x t d) /\
  (forall k t d x, nth_error (passes r) (List.length (passes r) - 1) = Some (k, t, d, x) -> (r_state r, r_t r) = step x t d) /\
  (passes r = [] -> r_state r = s /\ r_t r = t_initial o).
Proof.
  cbv zeta. destruct (solve_spec step o lo s) as (N & HN & HP & HT & _).
  set (r := solveForState step o lo s) in *. rewrite HP, map_length, seq_length. clear HP.
  split; [|split; [|split]].
  - intros k t d x H. apply nth_map_seq in H. destruct H as [_ H]. unfold entry in H. injection H as -> -> _ ->. auto.
  - intros i k t d x k' t' d' x' H H'. apply nth_map_seq in H. apply nth_map_seq in H'.
    destruct H as [_ H], H' as [_ H']. unfold entry in H, H'. injection H as -> -> -> ->. injection H' as -> -> _ ->.
    split; [lia|]. cbn [traj]. destruct (traj step o s (t_initial o) i) as [s1 t1]. cbn [fst snd].
    destruct step; reflexivity.
  - intros k t d x H. apply nth_map_seq in H. destruct H as [Hlt H]. unfold entry in H. injection H as -> -> -> ->.
    rewrite HT. destruct N as [|j]; [lia|]. replace (Datatypes.S j - 1)%nat with j by lia. cbn [traj].
    destruct (traj step o s (t_initial o) j) as [s1 t1]. reflexivity.
  - intros H. destruct N; [|discriminate]. cbn [traj] in HT. clearbody r. injection HT as -> ->. auto.
Qed.

Lemma relaxed_overshoot gamma : 1 < gamma ->
  exists (o : time_opts) (lo : log_opts), exact_t_final o = true /\ 0 < dt_opt o /\ t_initial o < t_final o /\
  t_final o < r_t (solveForState (fun (s : unit) t dt => (s, t + gamma * dt)) o lo tt).
Proof.
  intros Hg. exists {| t_initial := 0; t_final := 1; dt_opt := 1; max_iter := 1; exact_t_final := true |},
    {| initial_state := true; each_timestep := false; final_state := true |}.
  cbn [exact_t_final dt_opt t_initial t_final]. split; [reflexivity|]. split; [lra|]. split; [lra|].
  unfold solveForState. cbv zeta. cbn [r_t max_iter]. change (Z.to_nat 1) with 1%nat. cbn [loop].
  assert (C : calcStepSize {| t_initial := 0; t_final := 1; dt_opt := 1; max_iter := 1; exact_t_final := true |} 0 = 1).
  { unfold calcStepSize. cbn. destruct (Rltb_spec (1 - 0) 1); lra. }
  cbn [t_initial]. rewrite C. destruct iterationExit; cbn [r_t]; lra.
Qed.

Lemma tl_example :
  let o := {| t_initial := 0; t_final := 1; dt_opt := 3/4; max_iter := 3; exact_t_final := true |} in
  let r := solveForState (fun s t dt => (s + dt, t + dt)) o {| initial_state := true; each_timestep := true; final_state := true |} 0 in
  List.length (passes r) = 2%nat /\ r_t r = 1 /\ r_state r = 1.
Proof.
  intros o r. subst r. unfold solveForState. cbv zeta. cbn [r_t passes r_state]. change (Z.to_nat (max_iter o)) with 3%nat.
  cbn [loop]. assert (C1 : calcStepSize o (t_initial o) = 3/4). { unfold calcStepSize, o. cbn. destruct (Rltb_spec (1 - 0) (3/4)); lra. }
  rewrite C1.
  assert (E1 : iterationExit o (t_initial o + 3/4) (3/4) = false). { apply Rleb_false. cbn. lra. }
  rewrite E1.
  assert (C2 : calcStepSize o (t_initial o + 3/4) = 1/4). { unfold calcStepSize, o. cbn. destruct (Rltb_spec (1 - (0 + 3 / 4)) (3/4)); lra. }
  rewrite C2.
  assert (E2 : iterationExit o (t_initial o + 3/4 + 1/4) (1/4) = true). { apply Rleb_true. cbn. lra. }
  rewrite E2. cbn. split; [reflexivity|]. lra.
Qed.

Lemma steady_log (S : Type) (lo : log_opts) (newton : S -> S) (s : S) :
  last_record (snd (solveSteady lo newton s)) 1 1 (fst (solveSteady lo newton s)) /\
  fst (solveSteady lo newton s) = newton s /\
  (initial_state lo = true -> last_record (snd (solveSteady lo newton s)) 0 0 s).
Proof.
  unfold solveSteady, initialHook. cbn [fst snd]. split; [|split; [reflexivity|]].
  - eexists; exists []. split; [reflexivity|constructor].
  - intros ->. exists [], [Build_event 1%Z 1 (newton s)]. split; [reflexivity|]. constructor; [discriminate|constructor].
Qed.
