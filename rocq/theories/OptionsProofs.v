From Coq Require Import List String Bool Lia.
From Verif Require Import Options.
Import ListNotations.

Section J.
Context {L : Type}.
Notation json := (json L).
Implicit Types m acc md mu mv : list (string * json).
Implicit Types d u v t j : json.

(** specification: the value at a path of keys *)
Fixpoint at_path (j : json) (p : list string) : option json :=
  match p with
  | [] => Some j
  | k :: r => match j with JObj m => match find k m with Some v => at_path v r | None => None end | _ => None end
  end.
(** the patch says something at or above path p: p's keys lead through objects of the patch until they
    end or hit a non-object *)
Fixpoint mentions (patch : json) (p : list string) : Prop :=
  match p with
  | [] => True
  | k :: r => match patch with JObj m => match find k m with Some v => mentions v r | None => False end | _ => True end
  end.
(** keys are unique at every level *)
Fixpoint wf (j : json) : Prop :=
  match j with
  | JObj m => NoDup (map fst m) /\ (fix all (l : list (string * json)) := match l with [] => True | (_, v) :: r => wf v /\ all r end) m
  | _ => True
  end.

Lemma json_ind' (P : json -> Prop) : P JNull -> (forall l, P (JLeaf l)) ->
  (forall m, Forall (fun kv => P (snd kv)) m -> P (JObj m)) -> forall j, P j.
Proof.
  intros Hn Hl Ho. fix IH 1. intros [|l|m]; [exact Hn|apply Hl|]. apply Ho.
  induction m as [|[k v] m IHm]; constructor; [apply IH|exact IHm].
Qed.

Lemma find_set k v m k' : find k' (set k v m) = if String.eqb k' k then Some v else find k' m.
Proof.
  induction m as [|[a b] m IH]; cbn [set find].
  - reflexivity.
  - destruct (String.eqb_spec k a) as [->|Ha]; cbn [find].
    + destruct (String.eqb_spec k' a); reflexivity.
    + rewrite IH. destruct (String.eqb_spec k' a) as [->|]; [|reflexivity].
      destruct (String.eqb_spec a k); congruence.
Qed.
Lemma find_none k m : ~ In k (map fst m) -> find k m = None.
Proof.
  induction m as [|[a b] m IH]; cbn; intros H; [reflexivity|].
  destruct (String.eqb_spec k a) as [->|]; [tauto|]. apply IH; tauto.
Qed.
Lemma keys_set_in k v m x : In x (map fst (set k v m)) -> x = k \/ In x (map fst m).
Proof.
  induction m as [|[a b] m IH]; cbn; [intros [->|[]]; auto|]. destruct (String.eqb_spec k a); cbn; [tauto|].
  intros [|Hx]; [tauto|]. destruct (IH Hx); tauto.
Qed.
Lemma keys_set k v m : NoDup (map fst m) -> NoDup (map fst (set k v m)).
Proof.
  intros H. induction m as [|[a b] m IH]; cbn; [repeat constructor; tauto|].
  inversion H as [|? ? Ha Hm]; subst.
  destruct (String.eqb_spec k a) as [->|Hk]; cbn; [exact H|]. constructor; [|apply IH; exact Hm].
  intros Hin. apply keys_set_in in Hin. destruct Hin; [congruence|contradiction].
Qed.
Lemma keys_erase k m x : In x (map fst (erase k m)) -> In x (map fst m).
Proof.
  induction m as [|[a b] m IH]; cbn; [tauto|]. destruct (String.eqb k a); cbn; tauto.
Qed.
Lemma nodup_erase k m : NoDup (map fst m) -> NoDup (map fst (erase k m)).
Proof.
  induction m as [|[a b] m IH]; cbn; intros H; [exact H|]. inversion H; subst.
  destruct (String.eqb k a); cbn; [assumption|]. constructor; [|auto]. intros Hin. apply keys_erase in Hin. contradiction.
Qed.
Lemma find_erase k m k' : NoDup (map fst m) -> find k' (erase k m) = if String.eqb k' k then None else find k' m.
Proof.
  induction m as [|[a b] m IH]; cbn; intros H; [destruct (String.eqb k' k); reflexivity|]. inversion H as [|? ? Ha Hm]; subst.
  destruct (String.eqb_spec k a) as [E|E]; cbn.
  - subst k. destruct (String.eqb_spec k' a) as [E'|E']; [|reflexivity]. subst k'. apply find_none; assumption.
  - rewrite IH by assumption. destruct (String.eqb_spec k' a) as [E'|E']; [|reflexivity]. subst k'.
    destruct (String.eqb_spec a k); congruence.
Qed.

Definition orNull (x : option json) : json := match x with Some x => x | None => JNull end.
Definition merge_go := (fix go (l : list (string * json)) (acc : list (string * json)) : list (string * json) :=
             match l with
             | [] => acc
             | (k, v) :: r =>
               go r (match v with
                     | JNull => erase k acc
                     | _ => set k (merge_patch (match find k acc with Some x => x | None => JNull end) v) acc
                     end)
             end).
Lemma merge_obj t m : merge_patch t (JObj m) = JObj (merge_go m (members t)).
Proof. reflexivity. Qed.

Lemma merge_go_find m : forall acc k, NoDup (map fst m) -> NoDup (map fst acc) ->
  find k (merge_go m acc) =
    match find k m with
    | None => find k acc
    | Some JNull => None
    | Some v => Some (merge_patch (orNull (find k acc)) v)
    end.
Proof.
  induction m as [|[a v] m IH]; intros acc k Hm Ha; [reflexivity|]. cbn [merge_go]. inversion Hm as [|? ? Hna Hm']; subst.
  assert (Ha' : NoDup (map fst (match v with JNull => erase a acc | _ => set a (merge_patch (match find a acc with Some x => x | None => JNull end) v) acc end))).
  { destruct v; [apply nodup_erase; exact Ha|apply keys_set; exact Ha|apply keys_set; exact Ha]. }
  fold merge_go. rewrite IH by assumption. cbn [find].
  destruct (String.eqb_spec k a) as [->|Hk].
  - rewrite (find_none a m) by exact Hna. destruct v.
    + rewrite find_erase by exact Ha. rewrite String.eqb_refl. reflexivity.
    + rewrite find_set, String.eqb_refl. reflexivity.
    + rewrite find_set, String.eqb_refl. reflexivity.
  - assert (E : find k (match v with JNull => erase a acc | _ => set a (merge_patch (match find a acc with Some x => x | None => JNull end) v) acc end) = find k acc).
    { apply String.eqb_neq in Hk. destruct v; [rewrite find_erase by exact Ha|rewrite find_set|rewrite find_set]; rewrite Hk; reflexivity. }
    rewrite E. reflexivity.
Qed.
Lemma merge_go_nodup m : forall acc, NoDup (map fst acc) -> NoDup (map fst (merge_go m acc)).
Proof.
  induction m as [|[a v] m IH]; intros acc Ha; [exact Ha|]. cbn [merge_go]. fold merge_go. apply IH.
  destruct v; [apply nodup_erase; exact Ha|apply keys_set; exact Ha|apply keys_set; exact Ha].
Qed.

Lemma wf_obj m : wf (JObj m) -> NoDup (map fst m) /\ forall k v, find k m = Some v -> wf v.
Proof.
  intros [H A]. split; [exact H|]. clear H. induction m as [|[a b] m IH]; intros k v Hf; [discriminate|].
  cbn in Hf. destruct A as [Hb A]. destruct (String.eqb k a); [injection Hf as <-; exact Hb|]. eapply IH; eauto.
Qed.
Lemma wf_members t : wf t -> NoDup (map fst (members t)).
Proof. destruct t; cbn; try constructor. intros [H _]; exact H. Qed.
Lemma find_members t k v : wf t -> find k (members t) = Some v -> wf v.
Proof. destruct t; cbn [members find]; try discriminate. intros H. apply wf_obj in H. destruct H as [_ H]. apply H. Qed.
Lemma wf_orNull t k : wf t -> wf (orNull (find k (members t))).
Proof. intros H. destruct (find k (members t)) eqn:E; cbn; [eapply find_members; eauto|exact I]. Qed.
Lemma at_members t k r : at_path t (k :: r) = match find k (members t) with Some v => at_path v r | None => None end.
Proof. destruct t; reflexivity. Qed.

(** not mentioned -> as before *)
Lemma merge_unmentioned p : forall d u, wf d -> wf u -> ~ mentions u p -> at_path (merge_patch d u) p = at_path d p.
Proof.
  induction p as [|k r IH]; intros d u Hd Hu Hm; [cbn in Hm; tauto|].
  destruct u as [|l|m]; try (cbn in Hm; tauto). rewrite merge_obj. rewrite !at_members. cbn [members].
  destruct (wf_obj m Hu) as [Hn Hw]. rewrite merge_go_find by (auto using wf_members). cbn [mentions] in Hm.
  destruct (find k m) as [v|] eqn:E; [|reflexivity].
  assert (Hv : wf v) by eauto.
  destruct v as [|l|m']; try (destruct r; cbn in Hm; tauto).
  rewrite IH; [|apply wf_orNull; exact Hd|exact Hv|exact Hm].
  destruct (find k (members d)); cbn [orNull]; [reflexivity|]. destruct r; cbn in *; [tauto|reflexivity].
Qed.
(** a value set by the user wins *)
Lemma merge_set p : forall d u l, wf d -> wf u -> at_path u p = Some (JLeaf l) -> at_path (merge_patch d u) p = Some (JLeaf l).
Proof.
  induction p as [|k r IH]; intros d u l Hd Hu Hp.
  - cbn in Hp. injection Hp as ->. reflexivity.
  - destruct u as [|l'|m]; try discriminate. cbn [at_path] in Hp. rewrite merge_obj, at_members. cbn [members].
    destruct (wf_obj m Hu) as [Hn Hw]. rewrite merge_go_find by (auto using wf_members).
    destruct (find k m) as [v|] eqn:E; [|discriminate]. assert (Hv : wf v) by eauto.
    assert (R : at_path (merge_patch (orNull (find k (members d))) v) r = Some (JLeaf l)) by (apply IH; auto using wf_orNull).
    destruct v; [|exact R|exact R]. destruct r; discriminate.
Qed.
(** null removes *)
Lemma merge_null p : forall d u, p <> [] -> wf d -> wf u -> at_path u p = Some JNull -> at_path (merge_patch d u) p = None.
Proof.
  induction p as [|k r IH]; intros d u Hne Hd Hu Hp; [congruence|].
  destruct u as [|l'|m]; try discriminate. cbn [at_path] in Hp. rewrite merge_obj, at_members. cbn [members].
  destruct (wf_obj m Hu) as [Hn Hw]. rewrite merge_go_find by (auto using wf_members).
  destruct (find k m) as [v|] eqn:E; [|discriminate]. assert (Hv : wf v) by eauto.
  destruct r as [|k' r].
  - cbn in Hp. injection Hp as ->. reflexivity.
  - assert (R : at_path (merge_patch (orNull (find k (members d))) v) (k' :: r) = None) by (apply IH; auto using wf_orNull; discriminate).
    destruct v; [reflexivity|exact R|exact R].
Qed.
(** nothing is invented *)
Lemma merge_only p : forall d u l, wf d -> wf u -> at_path (merge_patch d u) p = Some (JLeaf l) ->
  at_path u p = Some (JLeaf l) \/ (~ mentions u p /\ at_path d p = Some (JLeaf l)).
Proof.
  induction p as [|k r IH]; intros d u l Hd Hu Hp.
  - destruct u; cbn in Hp; try discriminate. left. exact Hp.
  - destruct u as [|l'|m]; try discriminate. rewrite merge_obj, at_members in Hp. cbn [members] in Hp.
    destruct (wf_obj m Hu) as [Hn Hw]. rewrite merge_go_find in Hp by (auto using wf_members).
    rewrite (at_members d). cbn [at_path mentions].
    destruct (find k m) as [v|] eqn:E; [|right; split; [tauto|exact Hp]]. assert (Hv : wf v) by eauto.
    assert (Hp' : at_path (merge_patch (orNull (find k (members d))) v) r = Some (JLeaf l)) by (destruct v; [discriminate|exact Hp|exact Hp]).
    apply IH in Hp'; [|apply wf_orNull; exact Hd|exact Hv]. destruct Hp' as [H|[H1 H2]]; [left; exact H|right].
    split; [exact H1|]. destruct (find k (members d)); [exact H2|]. cbn [orNull] in H2. destruct r; discriminate.
Qed.

(** ** update *)
Definition upd_go := (fix go (l : list (string * json)) (acc : list (string * json)) : @upd L :=
         match l with
         | [] => Done (JObj acc)
         | (k, v) :: r =>
           match v, find k acc with
           | JObj _, Some x =>
             match update x v with
             | Done x' => go r (set k x' acc)
             | Threw x' => Threw (JObj (set k x' acc))
             end
           | _, _ => go r (set k v acc)
           end
         end).
Lemma update_obj t m : update t (JObj m) = match t with JLeaf _ => Threw t | _ => upd_go m (members t) end.
Proof. destruct t; reflexivity. Qed.

Lemma upd_go_find m : forall acc j k, NoDup (map fst m) -> upd_go m acc = Done j ->
  exists acc', j = JObj acc' /\
    match find k m with
    | None => find k acc' = find k acc
    | Some (JObj mv) => match find k acc with
                        | Some x => exists x', update x (JObj mv) = Done x' /\ find k acc' = Some x'
                        | None => find k acc' = Some (JObj mv)
                        end
    | Some v => find k acc' = Some v
    end.
Proof.
  induction m as [|[a v] m IH]; intros acc j k Hm H.
  - cbn in H. injection H as <-. exists acc. split; reflexivity.
  - inversion Hm as [|? ? Hna Hm']; subst. cbn [upd_go] in H. fold upd_go in H. cbn [find].
    assert (Step : exists y, upd_go m (set a y acc) = Done j /\
        match v with JObj mv => match find a acc with Some x => update x (JObj mv) = Done y | None => y = v end | _ => y = v end).
    { destruct v as [|l|mv].
      - exists JNull. auto.
      - exists (JLeaf l). auto.
      - destruct (find a acc) as [x|] eqn:Ea.
        + destruct (update x (JObj mv)) as [x'|x'] eqn:Eu; [|discriminate]. exists x'. auto.
        + exists (JObj mv). auto. }
    destruct Step as (y & Hy & Hyv).
    destruct (String.eqb_spec k a) as [->|Hk].
    + destruct (IH (set a y acc) j a Hm' Hy) as (acc' & -> & H'). rewrite (find_none a m) in H' by exact Hna.
      rewrite find_set, String.eqb_refl in H'. exists acc'. split; [reflexivity|].
      destruct v as [|l|mv]; [subst y; exact H'|subst y; exact H'|].
      destruct (find a acc); [exists y; auto|subst y; exact H'].
    + destruct (IH (set a y acc) j k Hm' Hy) as (acc' & -> & H'). exists acc'. split; [reflexivity|].
      apply String.eqb_neq in Hk. rewrite find_set, Hk in H'. exact H'.
Qed.

Lemma update_unmentioned p : forall d u j, wf u -> update d u = Done j -> ~ mentions u p -> at_path j p = at_path d p.
Proof.
  induction p as [|k r IH]; intros d u j Hu H Hm; [cbn in Hm; tauto|].
  destruct u as [|l|m]; try (cbn in Hm; tauto). rewrite update_obj in H. destruct (wf_obj m Hu) as [Hn Hw].
  assert (H' : upd_go m (members d) = Done j) by (destruct d; [exact H|discriminate|exact H]).
  destruct (upd_go_find m _ j k Hn H') as (acc' & -> & F). rewrite !at_members. cbn [members]. cbn [mentions] in Hm.
  destruct (find k m) as [v|] eqn:E; [|rewrite F; reflexivity]. assert (Hv : wf v) by eauto.
  destruct v as [|l|mv]; try (destruct r; cbn in Hm; tauto).
  destruct (find k (members d)) as [x|].
  - destruct F as (x' & Hx & ->). eapply IH; eauto.
  - rewrite F. destruct r as [|k' r]; [cbn in Hm; tauto|]. cbn [mentions] in Hm. cbn [at_path].
    destruct (find k' mv) as [w|] eqn:Ew; [|reflexivity].
    (* the patch object is inserted as is: paths inside it that are not mentioned do not exist *)
    clear - Hm. revert w Hm. induction r as [|k2 r IHr]; intros w Hm; [cbn in Hm; tauto|].
    destruct w as [|l|mw]; try (cbn in Hm; tauto). cbn [mentions] in Hm. cbn [at_path]. destruct (find k2 mw); [apply IHr; exact Hm|reflexivity].
Qed.
Lemma update_set p : forall d u j v, wf u -> update d u = Done j -> at_path u p = Some v -> is_obj v = false ->
  at_path j p = Some v.
Proof.
  induction p as [|k r IH]; intros d u j v Hu H Hp Hv.
  - cbn in Hp. injection Hp as ->. destruct v; cbn in H; try discriminate.
  - destruct u as [|l'|m]; try discriminate. cbn [at_path] in Hp. rewrite update_obj in H. destruct (wf_obj m Hu) as [Hn Hw].
    assert (H' : upd_go m (members d) = Done j) by (destruct d; [exact H|discriminate|exact H]).
    destruct (upd_go_find m _ j k Hn H') as (acc' & -> & F). cbn [at_path].
    destruct (find k m) as [w|] eqn:E; [|discriminate]. assert (Hw' : wf w) by eauto.
    destruct w as [|l|mv]; [rewrite F; exact Hp|rewrite F; exact Hp|].
    destruct (find k (members d)) as [x|]; [|rewrite F; exact Hp].
    destruct F as (x' & Hx & ->). eapply IH; eauto.
Qed.

(** when it throws: the patch (or a sub-object of it) meets a non-object, or the patch is no object *)
Fixpoint conflict (d u : json) (p : list string) : Prop :=
  match p with
  | [] => is_obj u = false \/ exists l, d = JLeaf l
  | k :: r => match d, u with
              | JObj md, JObj mu => match find k md, find k mu with Some x, Some (JObj w) => conflict x (JObj w) r | _, _ => False end
              | _, _ => False
              end
  end.
Lemma upd_go_threw m : forall acc j, NoDup (map fst m) -> upd_go m acc = Threw j ->
  exists k mv x x', find k m = Some (JObj mv) /\ find k acc = Some x /\ update x (JObj mv) = Threw x'.
Proof.
  induction m as [|[a v] m IH]; intros acc j Hm H; [discriminate|]. inversion Hm as [|? ? Hna Hm']; subst.
  cbn [upd_go] in H. fold upd_go in H.
  assert (G : forall y, upd_go m (set a y acc) = Threw j -> exists k mv x x', find k ((a, v) :: m) = Some (JObj mv) /\ find k acc = Some x /\ update x (JObj mv) = Threw x').
  { intros y Hy. destruct (IH _ _ Hm' Hy) as (k & mv & x & x' & H1 & H2 & H3). exists k, mv, x, x'.
    assert (k <> a). { intros ->. rewrite find_none in H1 by exact Hna. discriminate. }
    apply String.eqb_neq in H0. rewrite find_set, H0 in H2. cbn [find]. rewrite H0. auto. }
  destruct v as [|l|mv]; [eauto|eauto|]. destruct (find a acc) as [x|] eqn:Ea; [|eauto].
  destruct (update x (JObj mv)) as [x'|x'] eqn:Eu; [eauto|].
  exists a, mv, x, x'. cbn [find]. rewrite String.eqb_refl. auto.
Qed.
Lemma update_threw u : forall d j, wf u -> update d u = Threw j -> exists p, conflict d u p.
Proof.
  induction u as [|l|m IH] using json_ind'; intros d j Hu H; [exists []; left; reflexivity|exists []; left; reflexivity|].
  rewrite update_obj in H. destruct (wf_obj m Hu) as [Hn Hw].
  destruct d as [|l|md].
  - apply upd_go_threw in H; [|exact Hn]. destruct H as (k & mv & x & x' & H1 & H2 & _). discriminate.
  - exists []. right. eauto.
  - apply upd_go_threw in H; [|exact Hn]. destruct H as (k & mv & x & x' & H1 & H2 & H3). cbn [members] in H2.
    assert (HP : forall d j, wf (JObj mv) -> update d (JObj mv) = Threw j -> exists p, conflict d (JObj mv) p).
    { clear - IH H1. induction m as [|[a b] m IHm]; [discriminate|]. inversion IH as [|? ? Hb Hm]; subst. cbn in H1.
      destruct (String.eqb k a); [injection H1 as ->; exact Hb|apply IHm; assumption]. }
    destruct (HP x x' (Hw _ _ H1) H3) as [p Hp]. exists (k :: p). cbn [conflict]. rewrite H2, H1. exact Hp.
Qed.
Lemma update_conflict p : forall d u j, wf u -> update d u = Done j -> ~ conflict d u p.
Proof.
  induction p as [|k r IH]; intros d u j Hu H C.
  - cbn in C. destruct C as [C|[l ->]]; [destruct u; cbn in *; discriminate|]. destruct u; discriminate.
  - cbn [conflict] in C. destruct d as [| |md]; try tauto. destruct u as [| |mu]; try tauto.
    destruct (find k md) as [x|] eqn:E1; [|tauto]. destruct (find k mu) as [[| |w]|] eqn:E2; try tauto.
    rewrite update_obj in H. destruct (wf_obj mu Hu) as [Hn Hw].
    destruct (upd_go_find mu _ j k Hn H) as (acc' & -> & F). cbn [members] in F. rewrite E2, E1 in F.
    destruct F as (x' & Hx & _). eapply IH; [|exact Hx|exact C]. eauto.
Qed.
End J.
