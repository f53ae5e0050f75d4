(** Lemmas about composite materials. *)
From Coq Require Import Reals ZArith String List Bool Lra Lia Psatz.
From Coquelicot Require Import Coquelicot.
From Verif Require Import Vec Inputs Coef CoefMix CoefProofs MmsProofs.
Import ListNotations.
Local Open Scope R_scope.

(** ---- specification ---- *)
(** the two-phase Hashin-Shtrikman mixing rule: w is the fraction of the better conductor [a], b the host *)
Definition hs_spec (a b w : R) : R := b * ((1 + w) * a + (1 - w) * b) / ((1 - w) * a + (1 + w) * b).
(** the weight after a history of inputs: the last value supplied under the name, 1/2 before any *)
Fixpoint last_weight (name : string) (h : list inputs) (w : R) : R :=
  match h with
  | [] => w
  | l :: r => last_weight name r (match lookup name l with Some (Scalar x) => x | _ => w end)
  end.
(** the attributes a component lists *)
Definition lists_attr (c : component) (a : Z) : Prop :=
  match cattr c with
  | Some x => if Z.eqb x (-1) then exists l, cattrs c = Some l /\ In a l else a = x
  | None => exists l, cattrs c = Some l /\ In a l
  end.

Lemma hs_bounds a b w : 0 < b <= a -> 0 <= w <= 1 -> b <= hs_spec a b w <= w * a + (1 - w) * b /\ w * a + (1 - w) * b <= a.
Proof.
  intros Hab Hw. unfold hs_spec.
  assert (Hd : 0 < (1 - w) * a + (1 + w) * b) by nra.
  split; [split|nra].
  - apply Rmult_le_reg_r with ((1 - w) * a + (1 + w) * b); [exact Hd|]. unfold Rdiv. rewrite Rmult_assoc, Rinv_l by lra.
    assert (0 <= b * w * (a - b)) by (apply Rmult_le_pos; [nra|lra]). lra.
  - apply Rmult_le_reg_r with ((1 - w) * a + (1 + w) * b); [exact Hd|]. unfold Rdiv. rewrite Rmult_assoc, Rinv_l by lra.
    assert (0 <= w * (1 - w) * (a - b) ^ 2) by (apply Rmult_le_pos; [nra|apply pow2_ge_0]). nra.
Qed.

Lemma mkmix_sorted k v1 v2 by_ : val1 (mkmix k v1 v2 by_) = Rmax v1 v2 /\ val2 (mkmix k v1 v2 by_) = Rmin v1 v2.
Proof.
  unfold mkmix; cbn. unfold Rmax, Rmin. destruct (Rlt_dec v2 v1), (Rle_dec v1 v2); split; lra.
Qed.

Definition with_weight (m : mix) (w : R) : mix :=
  {| mkind := mkind m; val1 := val1 m; val2 := val2 m; weight := w; weighted_by := weighted_by m |}.
Definition as_kind (k : kind) (m : mix) : mix :=
  {| mkind := k; val1 := val1 m; val2 := val2 m; weight := weight m; weighted_by := weighted_by m |}.

Lemma hs_derive m w : (1 - w) * val1 m + (1 + w) * val2 m <> 0 ->
  is_derive (fun w => mixval (with_weight (as_kind HS m) w)) w (mixval (with_weight (as_kind dHS m) w)).
Proof.
  intros Hd. unfold mixval; cbn.
  auto_derive; [exact Hd|]. field. first [exact Hd|intros E; apply Hd; rewrite <- E; ring].
Qed.
Lemma avg_derive m w :
  is_derive (fun w => mixval (with_weight (as_kind Avg m) w)) w (mixval (with_weight (as_kind dAvg m) w)).
Proof. unfold mixval; cbn. auto_derive; [exact I|]. ring. Qed.

(** ---- setInputs ---- *)
Definition rew (h : list inputs) (e : entry) : entry :=
  match e with Const v => Const v | Mix m => Mix (with_weight m (last_weight (weighted_by m) h (weight m))) end.
Lemma with_weight_id m : with_weight m (weight m) = m. Proof. destruct m; reflexivity. Qed.

Lemma table_setInputs_ok l t t' : table_setInputs l t = Ok t' -> t' = map (fun p => (fst p, rew [l] (snd p))) t.
Proof.
  revert t'; induction t as [|[a [v|m]] r IH]; cbn; intros t' H.
  - injection H as <-; reflexivity.
  - destruct (table_setInputs l r); try discriminate. injection H as <-. f_equal. apply IH; reflexivity.
  - unfold mix_setInputs, setValueFromInputs in H.
    destruct (lookup (weighted_by m) l) as [[x|]|] eqn:E; cbn in H; try discriminate.
    + destruct (table_setInputs l r) eqn:Er; try discriminate. injection H as <-. rewrite (IH _ eq_refl). unfold rew, with_weight; cbn [last_weight fst snd]; rewrite ?E; reflexivity.
    + destruct (table_setInputs l r) eqn:Er; try discriminate. injection H as <-. rewrite (IH _ eq_refl). unfold rew, with_weight; cbn [last_weight fst snd]; rewrite ?E; reflexivity.
Qed.
Lemma table_history_ok h t t' : table_history h t = Ok t' -> t' = map (fun p => (fst p, rew h (snd p))) t.
Proof.
  revert t; induction h as [|l r IH]; cbn [table_history]; intros t H.
  - injection H as <-. rewrite <- (map_id t) at 1. apply map_ext. intros [a [v|m]]; cbn; [reflexivity|].
    rewrite with_weight_id. reflexivity.
  - destruct (table_setInputs l t) eqn:E; try discriminate. apply table_setInputs_ok in E. subst a.
    apply IH in H. subst t'. rewrite map_map. apply map_ext. intros [a [v|m]]; cbn; reflexivity.
Qed.

(** ---- construction ---- *)
Lemma add_all_calls e l t : add_all t l e = match add_calls t (map (fun a => (a, e)) l) with Some t' => Built t' | None => MfemError end.
Proof.
  revert t; induction l as [|a r IH]; cbn; intros t; [reflexivity|].
  destruct (addCoefficient t a e); [apply IH|reflexivity].
Qed.
Lemma add_calls_keys {A} (l m m' : list (Z * A)) : unique_keys m -> add_calls m l = Some m' -> unique_keys m'.
Proof. intros Hu H. rewrite (add_calls_app _ _ _ H). apply add_calls_ok; [exact Hu|]. exists m'; exact H. Qed.

Lemma attributes_lists c l a : attributes c = Built l -> (lists_attr c a <-> In a l).
Proof.
  unfold attributes, lists_attr. destruct (cattr c) as [x|]; cbn.
  - destruct (Z.eqb_spec x (-1)) as [->|Hx].
    + cbn. destruct (cattrs c) eqn:E; [|discriminate]. intros [= ->]. split; [intros (l' & [= <-] & H); exact H|eauto].
    + intros [= <-]. cbn. split; [intros ->; auto|intros [->|[]]; reflexivity].
  - destruct (cattrs c) eqn:E; [|discriminate]. intros [= ->]. split; [intros (l' & [= <-] & H); exact H|eauto].
Qed.

(** what a component contributes *)
Inductive contrib (name : string) (ms : materials) (c : component) : entry -> Prop :=
| c_const m v : sfind (cmaterial c) ms = Some m -> sfind name m = Some (PNum v) -> contrib name ms c (Const v)
| c_mix m l wby wt k v0 v1 vs : sfind (cmaterial c) ms = Some m -> sfind name m = Some (PObj (Some l) wby wt) ->
    kind_of wt = Some k -> comp_vals ms name l = Built (v0 :: v1 :: vs) -> contrib name ms c (Mix (mkmix k v0 v1 wby)).

Lemma contrib_fun name ms c e e' : contrib name ms c e -> contrib name ms c e' -> e = e'.
Proof. intros H H'; inversion H; inversion H'; subst; congruence. Qed.

Lemma step1_spec name ms d t c t' : step1 name ms d t c = Built t' ->
  (exists e l, contrib name ms c e /\ attributes c = Built l /\ add_all t l e = Built t') \/
  (t' = t /\ forall e, contrib name ms c e -> forall a, ~ lists_attr c a).
Proof.
  unfold step1. destruct (sfind (cmaterial c) ms) as [m|] eqn:E; [|discriminate].
  destruct (sfind name m) as [[v|[l|] wby wt|]|] eqn:E1; try discriminate.
  - unfold add_entry. destruct (attributes c) as [l| | |] eqn:Ea; try discriminate. intros H. left.
    exists (Const v), l. repeat split; try assumption. eapply c_const; eassumption.
  - destruct (comp_vals ms name l) as [vals| | |] eqn:Ev; try discriminate.
    destruct (kind_of wt) as [k|] eqn:Ek.
    + destruct (attributes c) as [[|a la]| | |] eqn:Ea.
      * intros [= <-]. right. split; [reflexivity|]. intros e _ a Ha. apply (attributes_lists c [] a Ea) in Ha. exact Ha.
      * destruct vals as [|v0 [|v1 vs]]; try discriminate. unfold add_entry. rewrite Ea. intros H. left.
        exists (Mix (mkmix k v0 v1 wby)), (a :: la). repeat split; try assumption. eapply c_mix; eassumption.
      * destruct vals as [|v0 [|v1 vs]]; try discriminate; unfold add_entry; rewrite Ea; discriminate.
      * destruct vals as [|v0 [|v1 vs]]; try discriminate; unfold add_entry; rewrite Ea; discriminate.
      * destruct vals as [|v0 [|v1 vs]]; try discriminate; unfold add_entry; rewrite Ea; discriminate.
    + intros [= <-]. right. split; [reflexivity|]. intros e He. inversion He; congruence.
  - intros [= <-]. right. split; [reflexivity|]. intros e He. inversion He; congruence.
  - intros [= <-]. right. split; [reflexivity|]. intros e He. inversion He; congruence.
Qed.

Lemma build1_spec name ms d cs : forall t t', build1 name ms d cs t = Built t' -> unique_keys t ->
  unique_keys t' /\
  forall a e, In (a, e) t' <-> In (a, e) t \/ exists c, In c cs /\ lists_attr c a /\ contrib name ms c e.
Proof.
  induction cs as [|c r IH]; cbn [build1]; intros t t' H Hu.
  - injection H as <-. split; [exact Hu|]. intros a e. split; [auto|]. intros [H|(c & [] & _)]; exact H.
  - destruct (step1 name ms d t c) as [t1| | |] eqn:E; try discriminate.
    apply step1_spec in E.
    assert (Hstep : unique_keys t1 /\ forall a e, In (a, e) t1 <-> In (a, e) t \/ (lists_attr c a /\ contrib name ms c e)).
    { destruct E as [(e0 & l & Hc & Ha & Hadd)|[-> Hno]].
      - rewrite add_all_calls in Hadd. destruct (add_calls t (map (fun a => (a, e0)) l)) eqn:Ec; [|discriminate].
        injection Hadd as ->. split; [exact (add_calls_keys _ _ _ Hu Ec)|]. intros a e.
        rewrite (add_calls_app _ _ _ Ec), in_app_iff, in_map_iff. rewrite (attributes_lists c l a Ha).
        split.
        + intros [H1|(a' & [= <- <-] & H1)]; [auto|]. right. split; assumption.
        + intros [H1|[H1 H2]]; [auto|]. right. exists a. rewrite (contrib_fun _ _ _ _ _ Hc H2). split; [reflexivity|exact H1].
      - split; [exact Hu|]. intros a e. split; [auto|]. intros [H1|[H1 H2]]; [exact H1|]. exfalso. exact (Hno e H2 a H1). }
    destruct Hstep as [Hu1 Hin]. destruct (IH t1 t' H Hu1) as [Hu' Hin']. split; [exact Hu'|].
    intros a e. rewrite Hin', Hin. split.
    + intros [[H1|H1]|(c' & H1 & H2)]; [auto| |]; right; [exists c|exists c']; cbn; tauto.
    + intros [H1|(c' & [<-|H1] & H2)]; [auto|tauto|]. right. exists c'. tauto.
Qed.

Lemma table_mesh_keys t : unique_keys t -> unique_keys (material_map (table_mesh t)).
Proof. unfold unique_keys, table_mesh; cbn. rewrite map_map. cbn. intros H; exact H. Qed.
Lemma table_eval t a e X s : unique_keys t -> In (a, e) t -> Eval3 (table_mesh t) a X s = entry_val e.
Proof.
  intros Hu Hi. rewrite (Eval3_chosen _ a (entry_coef e)); [destruct e; reflexivity|apply table_mesh_keys; exact Hu|].
  left. cbn. apply in_map_iff. exists (a, e). split; [reflexivity|exact Hi].
Qed.
Lemma table_eval_none t a X s : (forall e, ~ In (a, e) t) -> Eval3 (table_mesh t) a X s = 0.
Proof.
  intros Hn. unfold Eval3. apply choose_unreg. split; [|reflexivity]. intros c' Hi. cbn in Hi. apply in_map_iff in Hi.
  destruct Hi as [[a' e] [Heq Hi]]. cbn in Heq. injection Heq as -> _. exact (Hn e Hi).
Qed.

Lemma build1_default name ms d d' cs t : build1 name ms d cs t = build1 name ms d' cs t.
Proof. revert t; induction cs as [|c r IH]; cbn; intros t; [reflexivity|]. change (step1 name ms d' t c) with (step1 name ms d t c).
  destruct (step1 name ms d t c); [apply IH|reflexivity|reflexivity|reflexivity]. Qed.

(** the two- and three-state builder *)
Definition contrib2 (name : string) (ms : list (string * material2)) (d : R) (c : component) (v : R) : Prop :=
  exists m, sfind (cmaterial c) ms = Some m /\
    let src := if is_steinmetz name then steinmetz m else Some (props m) in
    exists p, src = Some p /\ (sfind name p = Some (PNum v) \/ (sfind name p = None /\ v = d)).
Lemma build2_spec name ms d cs : forall t t', build2 name ms d cs t = Built t' -> unique_keys t ->
  unique_keys t' /\
  forall a e, In (a, e) t' <-> In (a, e) t \/ exists c v, In c cs /\ lists_attr c a /\ contrib2 name ms d c v /\ e = Const v.
Proof.
  induction cs as [|c r IH]; cbn [build2]; intros t t' H Hu.
  - injection H as <-. split; [exact Hu|]. intros a e. split; [auto|]. intros [H|(c & v & [] & _)]; exact H.
  - destruct (step2 name ms d t c) as [t1| | |] eqn:E; try discriminate. unfold step2 in E.
    destruct (sfind (cmaterial c) ms) as [m|] eqn:Em; [|discriminate].
    set (val := if is_steinmetz name then _ else _) in E.
    assert (Hv : forall v, val = Built v -> contrib2 name ms d c v).
    { intros v Hv. exists m. split; [exact Em|]. subst val. cbv zeta. destruct (is_steinmetz name).
      - destruct (steinmetz m) as [p|]; [|discriminate]. exists p. split; [reflexivity|]. unfold value_or in Hv.
        destruct (sfind name p) as [[x| |]|]; try discriminate; injection Hv as <-; auto.
      - exists (props m). split; [reflexivity|]. unfold value_or in Hv.
        destruct (sfind name (props m)) as [[x| |]|]; try discriminate; injection Hv as <-; auto. }
    assert (Hfun : forall v v', contrib2 name ms d c v -> contrib2 name ms d c v' -> v = v').
    { intros v v' (m1 & H1 & p1 & P1 & Q1) (m2 & H2 & p2 & P2 & Q2). assert (m1 = m2) by congruence; subst m2.
      assert (p1 = p2) by congruence; subst p2.
      destruct Q1 as [Q1|[Q1 ->]], Q2 as [Q2|[Q2 ->]]; congruence. }
    destruct val as [v0| | |]; try discriminate. specialize (Hv v0 eq_refl).
    unfold add_entry in E. destruct (attributes c) as [l| | |] eqn:Ha; try discriminate.
    rewrite add_all_calls in E. destruct (add_calls t (map (fun a => (a, Const v0)) l)) eqn:Ec; [|discriminate].
    injection E as ->.
    destruct (IH t1 t' H (add_calls_keys _ _ _ Hu Ec)) as [Hu' Hin']. split; [exact Hu'|].
    intros a e. rewrite Hin'. rewrite (add_calls_app _ _ _ Ec), in_app_iff, in_map_iff. split.
    + intros [[H1|(a' & [= <- <-] & H1)]|(c' & v & H1 & H2)]; [auto| |].
      * right. exists c, v0. cbn. rewrite (attributes_lists c l a' Ha). tauto.
      * right. exists c', v. cbn. tauto.
    + intros [H1|(c' & v & [<-|H1] & H2 & H3 & H4)]; [auto| |].
      * left. right. exists a. rewrite (attributes_lists c l a Ha) in H2. rewrite H4, (Hfun _ _ H3 Hv). auto.
      * right. exists c', v. tauto.
Qed.
