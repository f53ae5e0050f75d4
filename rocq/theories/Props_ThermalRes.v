(** C76: the load of the thermal residual. *)
From Coq Require Import Reals String List Bool Arith Lra Lia.
From Coquelicot Require Import Coquelicot.
From Verif Require Import Vec Deriv Inputs Form ThermalRes ThermalResSpec.
Import ListNotations.
Local Open Scope R_scope.

Definition empty_load : vector := {| vdata := 0; vsize := 0; vcap := 0; vown := true |}.
Definition inv (n : nat) (ess : list nat) (s : mem * vector) (v : view) : Prop :=
  (forall d i, memb i ess = false -> blk (fst s) d i = bufs v d i) /\
  match from v with
  | None => vsize (snd s) = O /\ forall i, given_load v i = 0
  | Some d => vdata (snd s) = d /\ vsize (snd s) = n /\
      (touched v = false -> forall i, (i < n)%nat -> blk (fst s) d i = if memb i ess then 0 else given_load v i)
  end.
Lemma memb_In i l : memb i l = true <-> In i l.
Proof. unfold memb. rewrite existsb_exists. split; [intros [x [H E]]; apply Nat.eqb_eq in E; now subst|intros H; exists i; split; [exact H|apply Nat.eqb_refl]]. Qed.
Lemma clear_ok ess m v : (forall i, In i ess -> (i < vsize v)%nat) ->
  clear ess m v = Some {| blk := fun b i => if Nat.eqb b (vdata v) && memb i ess then 0 else blk m b i; next := next m |}.
Proof. intros H. unfold clear. assert (E : forallb (fun i => Nat.ltb i (vsize v)) ess = true) by (apply forallb_forall; intros i Hi; apply Nat.ltb_lt, H, Hi). now rewrite E. Qed.
Lemma step_inv n ess c s v : (0 < n)%nat -> (forall i, In i ess -> (i < n)%nat) -> good_loads n [c] -> inv n ess s v ->
  exists s', tstep ess c s = Value s' /\ inv n ess s' (look c v).
Proof.
  intros Hn He G [I1 I2]. destruct s as [m lv]. cbn [fst snd] in *. destruct c as [l|l|d i x]; cbn [tstep look].
  - specialize (G l (or_introl eq_refl)). unfold tr_setInputs, setVectorFromInputs. cbn [fst snd].
    destruct (lookup "thermal_load" l) as [[x|d sz]|] eqn:E; [destruct G| |].
    + subst sz. cbn [vsize]. assert (N : Nat.eqb n 0 = false) by (apply Nat.eqb_neq; lia). rewrite N, clear_ok by exact He.
      eexists. split; [reflexivity|]. split; cbn [fst snd bufs from given_load touched blk vdata vsize].
      * intros b i Hi. rewrite Hi, andb_false_r. now apply I1.
      * split; [reflexivity|]. split; [reflexivity|]. intros _ i Hi. rewrite Nat.eqb_refl. cbn. destruct (memb i ess) eqn:Mi; [reflexivity|now apply I1].
    + destruct (Nat.eqb (vsize lv) 0) eqn:Z.
      * exists (m, lv). split; [reflexivity|]. now split.
      * destruct (from v) as [d|] eqn:Fv.
        -- destruct I2 as [J1 [J2 J3]]. rewrite clear_ok by (intros i Hi; rewrite J2; auto). eexists. split; [reflexivity|].
           split; cbn [fst snd blk].
           ++ intros b i Hi. rewrite Hi, andb_false_r. now apply I1.
           ++ rewrite Fv. split; [exact J1|]. split; [exact J2|]. intros T i Hi. rewrite J1, Nat.eqb_refl. cbn. rewrite (J3 T i Hi). now destruct (memb i ess).
        -- destruct I2 as [J1 _]. rewrite J1 in Z. discriminate.
  - exists (m, lv). split; [reflexivity|]. now split.
  - eexists. split; [reflexivity|]. split; cbn [fst snd bufs from given_load touched].
    + intros b j Hj. unfold store, write. cbn [blk]. destruct (Nat.eqb b d && Nat.eqb j i); [reflexivity|now apply I1].
    + destruct (from v) as [d'|]; [|exact I2]. destruct I2 as [J1 [J2 J3]]. split; [exact J1|]. split; [exact J2|]. intros T j Hj.
      apply orb_false_iff in T. destruct T as [T1 T2]. unfold store. cbn [blk]. rewrite T2. cbn. now apply J3.
Qed.
Lemma runs_inv n ess : (0 < n)%nat -> (forall i, In i ess -> (i < n)%nat) -> forall h s v, good_loads n h -> inv n ess s v ->
  exists s', truns ess h s = Value s' /\ inv n ess s' (looks h v).
Proof.
  intros Hn He h. induction h as [|c r IH]; intros s v G I; [now exists s|]. cbn [truns looks fold_left].
  destruct (step_inv n ess c s v Hn He) as [s1 [E1 I1]]; [intros l [->|[]]; apply G; now left|exact I|]. rewrite E1. apply IH; [|exact I1].
  intros l Hl. apply G. now right.
Qed.

(** C76: after any history, the residual is the form's minus the load as it was when last given, on free entries, and the
    form's on essential entries, if the load's buffer was not written since it was given. *)
Theorem C76_load_partial : forall n ess form m (h : list tcall),
  (0 < n)%nat -> (forall i, In i ess -> (i < n)%nat) -> good_loads n h ->
  let v := looks h {| bufs := blk m; given_load := fun _ => 0; from := None; touched := false |} in
  exists s, truns ess h (m, empty_load) = Value s /\
  (touched v = false -> forall l i, (i < n)%nat ->
     tr_evaluate n form l s i = form (fst s) l i - (if memb i ess then 0 else given_load v i)).
Proof.
  intros n ess form m h Hn He G v. destruct (runs_inv n ess Hn He h (m, empty_load) {| bufs := blk m; given_load := fun _ => 0; from := None; touched := false |} G) as [s [E [I1 I2]]].
  { split; [reflexivity|]. cbn. split; reflexivity. }
  exists s. split; [exact E|]. fold v in I1, I2. intros T l i Hi. unfold tr_evaluate. destruct (from v) as [d|].
  - destruct I2 as [J1 [J2 J3]]. rewrite J2, Nat.eqb_refl, J1, (J3 T i Hi). ring.
  - destruct I2 as [J1 J2]. rewrite J1. assert (N : Nat.eqb 0 n = false) by (apply Nat.eqb_neq; lia). rewrite N, J2. destruct (memb i ess); ring.
Qed.
Print Assumptions C76_load_partial.
Example C76_load_met : let h := [TStore 3 0 7; TSet [("thermal_load"%string, Vector 3 2)]; TEval []; TStore 4 0 1; TSet [("thermal_load"%string, Vector 4 2)]] in
  good_loads 2 h /\ touched (looks h {| bufs := fun _ _ => 0; given_load := fun _ => 0; from := None; touched := false |}) = false.
Proof. cbv zeta. split; [|reflexivity]. intros l [E|[E|[E|[E|[E|[]]]]]]; inversion E; subst; reflexivity. Qed.

(** Giving a load writes into the caller's buffer: its essential entries become 0. *)
Theorem C76_caller_refuted : forall n ess m d, (0 < n)%nat -> (forall i, In i ess -> (i < n)%nat) -> forall i, In i ess ->
  exists s, truns ess [TSet [("thermal_load"%string, Vector d n)]] (m, empty_load) = Value s /\ blk (fst s) d i = 0.
Proof.
  intros n ess m d Hn He i Hi. cbn [truns tstep tr_setInputs setVectorFromInputs lookup String.eqb Ascii.eqb Bool.eqb fst snd].
  unfold tr_setInputs. cbn. assert (N : Nat.eqb n 0 = false) by (apply Nat.eqb_neq; lia). rewrite N, clear_ok by exact He.
  eexists. split; [reflexivity|]. cbn. apply memb_In in Hi. now rewrite Nat.eqb_refl, Hi.
Qed.
Print Assumptions C76_caller_refuted.
(** A later write of the caller into the buffer changes the residual, and on an essential entry too. *)
Theorem C76_alias_refuted : forall form m x, exists s,
  truns [O] [TSet [("thermal_load"%string, Vector 1 1)]; TStore 1 0 x] (m, empty_load) = Value s /\
  tr_evaluate 1 form [] s 0%nat = form (fst s) [] 0%nat - x.
Proof. intros form m x. eexists. split; [reflexivity|]. unfold tr_evaluate. cbn. ring. Qed.
Print Assumptions C76_alias_refuted.
(** A load of another size is dropped without a word, or written outside its bounds. *)
Theorem C76_size_refuted : forall n m form d size, size <> n -> (0 < size)%nat ->
  (exists s, truns [] [TSet [("thermal_load"%string, Vector d size)]] (m, empty_load) = Value s /\ forall l i, tr_evaluate n form l s i = form (fst s) l i) /\
  (forall i ess, In i ess -> (size <= i)%nat -> truns ess [TSet [("thermal_load"%string, Vector d size)]] (m, empty_load) = OutOfBounds).
Proof.
  intros n m form d size Hs Hp. assert (N : Nat.eqb size 0 = false) by (apply Nat.eqb_neq; lia). split.
  - unfold truns, tstep, tr_setInputs, setVectorFromInputs. cbn. rewrite N. eexists. split; [reflexivity|]. intros l i. unfold tr_evaluate. cbn.
    assert (E : Nat.eqb size n = false) by now apply Nat.eqb_neq. rewrite E. ring.
  - intros i ess Hi Hl. unfold truns, tstep, tr_setInputs, setVectorFromInputs. cbn. rewrite N. unfold clear. cbn [vsize].
    assert (E : forallb (fun i => Nat.ltb i size) ess = false).
    { destruct (forallb _ ess) eqn:E; [|reflexivity]. rewrite forallb_forall in E. specialize (E i Hi). apply Nat.ltb_lt in E. lia. }
    now rewrite E.
Qed.
Print Assumptions C76_size_refuted.

(** C76: products with respect to the load.  The residual depends on the load as - (load, 0 on essential entries): the
    forward product into a zero vector and the reverse product into a zero vector are that derivative and its transpose when
    the direction (res_bar) is 0 on essential entries. *)
Theorem C76_products_partial : forall n ess (base load w r : vec) (suffix : string),
  (forall i, In i ess -> w i = 0 /\ r i = 0) ->
  let R (p : vec) := fun i => base i - (if memb i ess then 0 else p i) in
  let wrt := append "thermal_load" suffix in
  (forall fwd i, is_derive (fun t => R (fun j => load j + t * w j) i) 0 (tr_jvp wrt w (fun _ => 0) fwd i)) /\
  (forall rev, is_derive (fun t => dot n r (R (fun j => load j + t * w j))) 0 (dot n (tr_vjp wrt r (fun _ => 0) rev) w)).
Proof.
  intros n ess base load w r suffix H R wrt.
  assert (P : String.prefix "thermal_load" wrt = true) by (unfold wrt; destruct suffix; reflexivity).
  assert (D : forall i, is_derive (fun t => R (fun j => load j + t * w j) i) 0 (0 + -1 * w i)).
  { intros i. unfold R. destruct (memb i ess) eqn:E.
    - apply memb_In in E. destruct (H i E) as [-> _]. apply (DV_eq _ 0 (0 - 0)); [|ring]. apply DV_minus; apply DV_const.
    - apply (DV_eq _ 0 (0 - (0 + 1 * w i))); [|ring]. apply DV_minus; [apply DV_const|]. apply DV_plus; [apply DV_const|]. apply DV_scal_r, DV_id. }
  split.
  - intros fwd i. unfold tr_jvp. rewrite P. apply D.
  - intros rev. unfold tr_vjp. rewrite P. apply (DV_eq _ 0 (rsum n (fun i => r i * (0 + -1 * w i)))).
    + unfold dot. apply (DV_sum n (fun i t => r i * R (fun j => load j + t * w j) i)). intros i _. apply DV_scal, D.
    + unfold dot. apply rsum_ext. intros; ring.
Qed.
Print Assumptions C76_products_partial.
Example C76_products_met : forall i, In i [O] -> (fun i => match i with O => 0 | _ => 5 end) i = 0 /\ (fun i => match i with O => 0 | _ => 3 end) i = 0.
Proof. intros i [<-|[]]. split; reflexivity. Qed.
(** Both products overwrite what they should add to, and count essential entries, on which the residual does not depend. *)
Theorem C76_products_refuted : forall (base load w r acc : vec) fwd i ess, In i ess ->
  let R (p : vec) := fun i => base i - (if memb i ess then 0 else p i) in
  is_derive (fun t => R (fun j => load j + t * w j) i) 0 0 /\
  tr_jvp "thermal_load" w acc fwd i = - w i /\ tr_vjp "thermal_load" r acc fwd i = - r i.
Proof.
  intros base load w r acc fwd i ess Hi R. split; [|split].
  - apply memb_In in Hi. unfold R. rewrite Hi. apply (DV_eq _ 0 (0 - 0)); [|ring]. apply DV_minus; apply DV_const.
  - unfold tr_jvp. cbn. ring.
  - unfold tr_vjp. cbn. ring.
Qed.
Print Assumptions C76_products_refuted.
