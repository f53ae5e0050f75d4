From Coq Require Import Reals List String Bool Arith Lia.
From Verif Require Import Inputs.
Import ListNotations.

Local Arguments Nat.ltb : simpl never.
Local Arguments Nat.leb : simpl never.
Local Arguments Nat.eqb : simpl never.
(** caller blocks: the blocks below [c] belong to callers *)
Definition callers_ok (c : nat) (l : inputs) : Prop := forall k d n, lookup k l = Some (Vector d n) -> (d < c)%nat.
(** the vector has storage of its own *)
Definition private (c : nat) (m : mem) (v : vector) : Prop :=
  (c <= next m)%nat /\ (vcap v = 0%nat \/ (c <= vdata v < next m)%nat) /\ (vsize v <= vcap v)%nat.

Lemma buffer_ext m m' d n : (forall i, (i < n)%nat -> blk m d i = blk m' d i) -> buffer m d n = buffer m' d n.
Proof. intros H. unfold buffer. apply map_ext_in. intros i Hi. apply in_seq in Hi. apply H. lia. Qed.

Lemma deep_set c m v l k d n : private c m v -> callers_ok c l -> lookup k l = Some (Vector d n) ->
  exists m' v', setVectorFromInputs m l k v true false = Ok (m', v') /\
    contents m' v' = buffer m d n /\ private c m' v' /\
    (forall b i, (b < c)%nat -> blk m' b i = blk m b i).
Proof.
  intros (Hc & Hd & Hs) Hl Hk. unfold setVectorFromInputs. rewrite Hk. pose proof (Hl _ _ _ Hk) as Hdc.
  unfold SetSize. destruct (Nat.eqb_spec n (vsize v)) as [E|E]; [|destruct (Nat.leb_spec n (vcap v)) as [L|L]].
  - eexists; eexists. split; [reflexivity|]. split; [|split].
    + unfold contents, buffer. rewrite <- E. apply map_ext_in. intros i Hi. apply in_seq in Hi. cbn.
      rewrite Nat.eqb_refl. destruct (Nat.ltb_spec i (vsize v)); [reflexivity|lia].
    + repeat split; cbn; auto.
    + intros b i Hb. cbn. destruct (Nat.eqb_spec b (vdata v)) as [->|]; [|reflexivity]. cbn.
      destruct Hd as [H0|Hd]; [|lia]. destruct (Nat.ltb_spec i (vsize v)); [lia|reflexivity].
  - eexists; eexists. split; [reflexivity|]. split; [|split].
    + unfold contents, buffer. cbn [vdata vsize]. apply map_ext_in. intros i Hi. apply in_seq in Hi. cbn.
      rewrite Nat.eqb_refl. destruct (Nat.ltb_spec i n); [reflexivity|lia].
    + repeat split; cbn; auto.
    + intros b i Hb. cbn. destruct (Nat.eqb_spec b (vdata v)) as [->|]; [|reflexivity]. cbn.
      destruct Hd as [H0|Hd]; [|lia]. destruct (Nat.ltb_spec i n); [lia|reflexivity].
  - eexists; eexists. split; [reflexivity|]. split; [|split].
    + unfold contents, buffer. cbn [vdata vsize]. apply map_ext_in. intros i Hi. apply in_seq in Hi. cbn.
      rewrite Nat.eqb_refl. destruct (Nat.ltb_spec i n); [reflexivity|lia].
    + repeat split; cbn; auto; try lia.
    + intros b i Hb. cbn. destruct (Nat.eqb_spec b (next m)); [lia|reflexivity].
Qed.

Lemma private_store c m v d i x : private c m v -> private c (store m d i x) v.
Proof. intros (A & B & C). repeat split; cbn; auto. Qed.
Lemma contents_store c m v d i x : private c m v -> (d < c)%nat -> contents (store m d i x) v = contents m v.
Proof.
  intros (A & B & C) Hd. unfold contents. apply map_ext_in. intros j Hj. apply in_seq in Hj. cbn.
  destruct (Nat.eqb_spec (vdata v) d); [|reflexivity]. destruct B; lia.
Qed.

(** deep-only histories: stores go to caller blocks *)
Definition deep_op (c : nat) (o : op) : Prop :=
  match o with SetDeep l _ => callers_ok c l | SetShallow _ _ => False | Store d _ _ => (d < c)%nat end.
(** the buffer of the last successful set in the history, as it was at that moment; callers' memory evolves only by stores *)
Fixpoint expect (m : mem) (cur : list R) (h : list op) : list R :=
  match h with
  | [] => cur
  | SetDeep l k :: r => match lookup k l with Some (Vector d n) => expect m (buffer m d n) r | _ => expect m cur r end
  | SetShallow l k :: r => expect m cur r
  | Store d i x :: r => expect (store m d i x) cur r
  end.

Lemma expect_ext c h : forall m m' cur, Forall (deep_op c) h -> (forall b i, (b < c)%nat -> blk m b i = blk m' b i) ->
  expect m cur h = expect m' cur h.
Proof.
  induction h as [|o h IH]; intros m m' cur Hf He; [reflexivity|]. inversion Hf as [|? ? Ho Hh]; subst.
  destruct o as [l k|l k|d i x]; cbn [expect deep_op] in *.
  - destruct (lookup k l) as [[y|d n]|] eqn:E; [apply IH; auto| |apply IH; auto].
    rewrite (buffer_ext m m' d n); [apply IH; auto|]. intros j _. apply He. eapply Ho; eauto.
  - tauto.
  - apply IH; auto. intros b j Hb. cbn. rewrite He by exact Hb. reflexivity.
Qed.

Lemma deep_history c h : forall m v, private c m v -> Forall (deep_op c) h ->
  let '(m', v') := run (m, v) h in private c m' v' /\ contents m' v' = expect m (contents m v) h.
Proof.
  induction h as [|o h IH]; intros m v Hp Hf; [cbn; auto|]. inversion Hf as [|? ? Ho Hh]; subst.
  unfold run. cbn [fold_left]. fold (run (run1 (m, v) o) h).
  destruct o as [l k|l k|d i x]; cbn [deep_op] in Ho.
  - cbn [expect run1 fst snd]. destruct (lookup k l) as [[y|d n]|] eqn:E.
    + unfold setVectorFromInputs. rewrite E. apply IH; auto.
    + destruct (deep_set c m v l k d n Hp Ho E) as (m1 & v1 & E1 & E2 & E3 & E4). rewrite E1.
      specialize (IH m1 v1 E3 Hh). destruct (run (m1, v1) h) as [m' v']. destruct IH as [I1 I2]. split; [exact I1|].
      rewrite I2, E2. apply (expect_ext c); auto.
    + unfold setVectorFromInputs. rewrite E. apply IH; auto.
  - tauto.
  - cbn [expect run1 fst snd]. specialize (IH (store m d i x) v (private_store c m v d i x Hp) Hh).
    destruct (run (store m d i x, v) h) as [m' v']. destruct IH as [I1 I2]. split; [exact I1|].
    rewrite I2, (contents_store c) by assumption. reflexivity.
Qed.

(** callers' buffers are never written by deep-only histories *)
Lemma deep_callers_safe c h : forall m v, private c m v -> Forall (deep_op c) h ->
  (forall o, In o h -> match o with Store _ _ _ => False | _ => True end) ->
  forall b i, (b < c)%nat -> blk (fst (run (m, v) h)) b i = blk m b i.
Proof.
  induction h as [|o h IH]; intros m v Hp Hf Hn b i Hb; [reflexivity|]. inversion Hf as [|? ? Ho Hh]; subst.
  unfold run. cbn [fold_left]. fold (run (run1 (m, v) o) h).
  assert (Hn' : forall o, In o h -> match o with Store _ _ _ => False | _ => True end) by (intros; apply Hn; right; assumption).
  destruct o as [l k|l k|d j x]; cbn [deep_op] in Ho; [|tauto|exfalso; exact (Hn _ (or_introl eq_refl))].
  cbn [run1 fst snd]. destruct (lookup k l) as [[y|d n]|] eqn:E.
  - unfold setVectorFromInputs. rewrite E. apply IH; auto.
  - destruct (deep_set c m v l k d n Hp Ho E) as (m1 & v1 & E1 & E2 & E3 & E4). rewrite E1. rewrite IH; auto.
  - unfold setVectorFromInputs. rewrite E. apply IH; auto.
Qed.

(** shallow: the vector is the caller's buffer, for ever after *)
Lemma shallow_alias m v l k d n : lookup k l = Some (Vector d n) ->
  exists v', setVectorFromInputs m l k v false false = Ok (m, v') /\
  (forall m', contents m' v' = buffer m' d n).
Proof. intros H. unfold setVectorFromInputs. rewrite H. eexists. split; [reflexivity|]. intros m'. reflexivity. Qed.

(** mixing: a deep set after a shallow one overwrites the first caller's buffer *)
Lemma mixed_clobbers m v ka da na kb db nb : da <> db -> (nb <= na)%nat ->
  let '(m', v') := run (m, v) [SetShallow [(ka, Vector da na)] ka; SetDeep [(kb, Vector db nb)] kb] in
  forall i, (i < nb)%nat -> blk m' da i = blk m db i.
Proof.
  intros Hne Hle. unfold run. cbn [fold_left run1 fst snd]. unfold setVectorFromInputs. cbn [lookup]. rewrite !String.eqb_refl.
  unfold SetSize. cbn [vsize vcap vdata vown fst snd]. destruct (Nat.eqb_spec nb na) as [E|E].
  - intros i Hi. cbn. rewrite Nat.eqb_refl. destruct (Nat.ltb_spec i na); [reflexivity|lia].
  - destruct (Nat.leb_spec nb na); [|lia]. intros i Hi. cbn. rewrite Nat.eqb_refl. destruct (Nat.ltb_spec i nb); [reflexivity|lia].
Qed.

Lemma lookup_in (l : inputs) k v : NoDup (map fst l) -> In (k, v) l -> lookup k l = Some v.
Proof.
  induction l as [|[k' v'] l IH]; [cbn; tauto|]. cbn. intros Hn [E|Hi]; inversion Hn; subst.
  - injection E as -> ->. rewrite String.eqb_refl. reflexivity.
  - destruct (String.eqb_spec k k') as [->|]; [|auto].
    exfalso. match goal with H : ~ In _ _ |- _ => apply H end. exact (in_map fst _ _ Hi).
Qed.
Lemma lookup_notin (l : inputs) k : ~ In k (map fst l) -> lookup k l = None.
Proof.
  induction l as [|[k' v'] l IH]; cbn; intros H; [reflexivity|].
  destruct (String.eqb_spec k k') as [->|]; [exfalso; auto|apply IH; auto].
Qed.
