(** Property C15: how solver options combine with the defaults, and C16: named inputs. *)
From Coq Require Import List String Bool Reals Arith Lia Lra.
From Verif Require Import Options OptionsProofs Inputs InputsProofs.
Import ListNotations.

(** C15.  [at_path j p] is the value found by following keys p; [mentions u p]: u has an entry at p or a
    non-object above it; [wf]: keys unique at every level (std::map). *)
Theorem C15_user_value_wins :
  forall (L : Type) (p : list string) (defaults user : json L) (l : L), wf defaults -> wf user ->
  at_path user p = Some (JLeaf l) -> at_path (construct defaults user) p = Some (JLeaf l).
Proof. intros L p d u l. exact (merge_set p d u l). Qed.
Print Assumptions C15_user_value_wins.

Theorem C15_default_kept :
  forall (L : Type) (p : list string) (defaults user : json L), wf defaults -> wf user ->
  ~ mentions user p -> at_path (construct defaults user) p = at_path defaults p.
Proof. intros L p d u. exact (merge_unmentioned p d u). Qed.
Print Assumptions C15_default_kept.

Theorem C15_null_removes :
  forall (L : Type) (p : list string) (defaults user : json L), p <> [] -> wf defaults -> wf user ->
  at_path user p = Some JNull -> at_path (construct defaults user) p = None.
Proof. intros L p d u. exact (merge_null p d u). Qed.
Print Assumptions C15_null_removes.

Theorem C15_nothing_invented :
  forall (L : Type) (p : list string) (defaults user : json L) (l : L), wf defaults -> wf user ->
  at_path (construct defaults user) p = Some (JLeaf l) ->
  at_path user p = Some (JLeaf l) \/ (~ mentions user p /\ at_path defaults p = Some (JLeaf l)).
Proof. intros L p d u l. exact (merge_only p d u l). Qed.
Print Assumptions C15_nothing_invented.

(** setOptions: deep update; values set (null included) win, everything not mentioned is kept *)
Theorem C15_setOptions_wins :
  forall (L : Type) (p : list string) (options patch j : json L) v, wf patch ->
  setOptions options patch = Done j -> at_path patch p = Some v -> is_obj v = false -> at_path j p = Some v.
Proof. intros L p d u j v. exact (update_set p d u j v). Qed.
Print Assumptions C15_setOptions_wins.

Theorem C15_setOptions_keeps :
  forall (L : Type) (p : list string) (options patch j : json L), wf patch ->
  setOptions options patch = Done j -> ~ mentions patch p -> at_path j p = at_path options p.
Proof. intros L p d u j. exact (update_unmentioned p d u j). Qed.
Print Assumptions C15_setOptions_keeps.

(** it throws exactly when somewhere an object is laid over a non-object (or the patch is not an object) *)
Theorem C15_setOptions_throws_iff :
  forall (L : Type) (options patch : json L), wf patch ->
  (exists j, setOptions options patch = Threw j) <-> (exists p, conflict options patch p).
Proof.
  intros L d u Hw. split.
  - intros [j H]. exact (update_threw u d j Hw H).
  - intros [p C]. destruct (setOptions d u) as [j|j] eqn:E; [|eauto].
    exfalso. exact (update_conflict p d u j Hw E C).
Qed.
Print Assumptions C15_setOptions_throws_iff.

(** and then the options may already have been changed: the update is not atomic *)
Theorem C15_setOptions_not_atomic_refuted :
  exists (options patch j : json nat), wf options /\ wf patch /\ setOptions options patch = Threw j /\ j <> options.
Proof.
  exists (JObj [("a"%string, JLeaf 1); ("b"%string, JLeaf 2)]), (JObj [("a"%string, JLeaf 7); ("b"%string, JObj [])]),
    (JObj [("a"%string, JLeaf 7); ("b"%string, JLeaf 2)]).
  repeat split; try (repeat constructor; cbn; intuition discriminate); try discriminate.
Qed.
Print Assumptions C15_setOptions_not_atomic_refuted.

Example C15_nonvacuous :
  let d := JObj [("silent", JLeaf 0); ("time-dis", JObj [("dt", JLeaf 1); ("type", JLeaf 2)])]%string in
  let u := JObj [("time-dis", JObj [("dt", JLeaf 9)]); ("new", JLeaf 4)]%string in
  wf d /\ wf u /\ at_path u ["time-dis"; "dt"]%string = Some (JLeaf 9) /\ ~ mentions u ["time-dis"; "type"]%string /\
  construct d u = JObj [("silent", JLeaf 0); ("time-dis", JObj [("dt", JLeaf 9); ("type", JLeaf 2)]); ("new", JLeaf 4)]%string.
Proof. cbn. repeat split; try (repeat constructor; cbn; intuition discriminate); tauto. Qed.

(** C16: scalar parameters *)
Theorem C16_scalar_parameter :
  forall (l : inputs) (key : string) (value : R) (required : bool), NoDup (map fst l) ->
  (forall x, In (key, Scalar x) l -> setValueFromInputs l key value required = Ok x) /\
  (forall d n, In (key, Vector d n) l -> setValueFromInputs l key value required = BadVariantAccess) /\
  (~ In key (map fst l) -> setValueFromInputs l key value required = if required then MISOException else Ok value).
Proof.
  intros l key value required Hn. unfold setValueFromInputs. repeat split.
  - intros x Hi. rewrite (lookup_in l key _ Hn Hi). reflexivity.
  - intros d n Hi. rewrite (lookup_in l key _ Hn Hi). reflexivity.
  - intros Hi. rewrite (lookup_notin l key Hi). reflexivity.
Qed.
Print Assumptions C16_scalar_parameter.

(** vector parameters: a key that is absent or of the wrong kind *)
Theorem C16_vector_absent_or_wrong :
  forall m (l : inputs) key v deep required, NoDup (map fst l) ->
  (~ In key (map fst l) -> setVectorFromInputs m l key v deep required = if required then MISOException else Ok (m, v)) /\
  (forall x, In (key, Scalar x) l -> setVectorFromInputs m l key v deep required = BadVariantAccess) /\
  (forall d n, In (key, Vector d n) l -> exists m' v', setVectorFromInputs m l key v deep required = Ok (m', v')).
Proof.
  intros m l key v deep required Hn. unfold setVectorFromInputs. repeat split.
  - intros Hi. rewrite (lookup_notin l key Hi). reflexivity.
  - intros x Hi. rewrite (lookup_in l key _ Hn Hi). reflexivity.
  - intros d n Hi. rewrite (lookup_in l key _ Hn Hi). destruct deep; [destruct (SetSize m v n)|]; eauto.
Qed.
Print Assumptions C16_vector_absent_or_wrong.

(** shallow: from then on, in every later memory, the vector shows the caller's buffer *)
Theorem C16_shallow_aliases :
  forall m v (l : inputs) k d n, lookup k l = Some (Vector d n) ->
  exists v', setVectorFromInputs m l k v false false = Ok (m, v') /\ (forall m', contents m' v' = buffer m' d n).
Proof. exact shallow_alias. Qed.
Print Assumptions C16_shallow_aliases.

(** deep: for every history of deep sets and of stores by the callers into their buffers, the vector
    shows the buffer as it was when it was last set ([expect]), never shares memory with a caller
    ([private]) *)
Theorem C16_deep_copy_history :
  forall c (h : list op) m v, private c m v -> Forall (deep_op c) h ->
  let '(m', v') := run (m, v) h in private c m' v' /\ contents m' v' = expect m (contents m v) h.
Proof. exact deep_history. Qed.
Print Assumptions C16_deep_copy_history.

(** and no caller buffer is ever written *)
Theorem C16_deep_copy_callers_safe :
  forall c (h : list op) m v, private c m v -> Forall (deep_op c) h ->
  (forall o, In o h -> match o with Store _ _ _ => False | _ => True end) ->
  forall b i, (b < c)%nat -> blk (fst (run (m, v) h)) b i = blk m b i.
Proof. exact deep_callers_safe. Qed.
Print Assumptions C16_deep_copy_callers_safe.

(** mixing the two on one vector overwrites the first caller's buffer with the second caller's data *)
Theorem C16_mixed_modes_clobber_refuted :
  forall m v ka da na kb db nb, da <> db -> (nb <= na)%nat ->
  let '(m', _) := run (m, v) [SetShallow [(ka, Vector da na)] ka; SetDeep [(kb, Vector db nb)] kb] in
  forall i, (i < nb)%nat -> blk m' da i = blk m db i.
Proof. exact mixed_clobbers. Qed.
Print Assumptions C16_mixed_modes_clobber_refuted.

Example C16_nonvacuous :
  let m := {| blk := fun b i => INR (b + i); next := 2 |} in
  private 2 m {| vdata := 0; vsize := 0; vcap := 0; vown := false |} /\
  Forall (deep_op 2) [SetDeep [("state"%string, Vector 1 3)] "state"; Store 1 0 7%R].
Proof.
  cbn. split; [repeat split; cbn; auto|].
  apply Forall_cons; [|apply Forall_cons; [cbn; lia|apply Forall_nil]].
  intros k0 d0 n0 H0. cbn in H0. destruct (String.eqb _ _); [injection H0 as <- <-; lia|discriminate].
Qed.
