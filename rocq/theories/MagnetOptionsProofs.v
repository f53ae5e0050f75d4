(** Lemmas for C146. *)
From Coq Require Import Reals List String Bool ZArith Lra Lia.
From Verif Require Import Vec Inputs Options BdrArray BdrArrayProofs CoefMix EmCoef EmInteg Current CurrentSpec CurrentProofs Magnet FlowOptions ThermalOptions ThermalOptionsSpec ThermalOptionsProofs.
From Verif Require Import MagnetOptions MagnetOptionsSpec.
From Verif Require MagnetSpec MagnetProofs Props_Current Props_Magnet.
Import ListNotations.
Local Open Scope R_scope.

(** reading the tables *)
Lemma sources_in m : forall l, sources m = FlowOptions.Ok l ->
  forall s attrs, In (s, attrs) l <-> exists w, In (s, w) m /\ asInts w = FlowOptions.Ok attrs.
Proof.
  induction m as [|[k w] r IH]; intros l H s attrs.
  - injection H as <-. split; [intros []|intros (x & [] & _)].
  - cbn [sources] in H. step H a A. step H t T. injection H as <-. cbn [In]. rewrite (IH t eq_refl). split.
    + intros [E|(x & Hx & Ex)]; [injection E as <- <-; exists w; split; [now left|exact A]|exists x; split; [now right|exact Ex]].
    + intros (x & [E|Hx] & Ex); [injection E as <- <-; left; congruence|right; now exists x].
Qed.
Lemma source_object_in j l : source_object j = FlowOptions.Ok l ->
  forall s attrs, In (s, attrs) l <-> exists w, In (s, w) (members j) /\ asInts w = FlowOptions.Ok attrs.
Proof.
  destruct j as [|x|m]; cbn; intros H; try discriminate; [|now apply sources_in].
  injection H as <-. intros s attrs. split; [intros []|intros (x & [] & _)].
Qed.
Lemma groups_in m : forall o, groups m = FlowOptions.Ok o ->
  forall g l, In (g, l) o <-> exists j, In (g, j) m /\ source_object j = FlowOptions.Ok l.
Proof.
  induction m as [|[k w] r IH]; intros o H g l.
  - injection H as <-. split; [intros []|intros (x & [] & _)].
  - cbn [groups] in H. step H a A. step H t T. injection H as <-. cbn [In]. rewrite (IH t eq_refl). split.
    + intros [E|(x & Hx & Ex)]; [injection E as <- <-; exists w; split; [now left|exact A]|exists x; split; [now right|exact Ex]].
    + intros (x & [E|Hx] & Ex); [injection E as <- <-; left; congruence|right; now exists x].
Qed.
Lemma groups_keys m : forall o, groups m = FlowOptions.Ok o -> map fst o = map fst m.
Proof. induction m as [|[k w] r IH]; intros o H; [now injection H as <-|]. cbn [groups] in H. step H a A. step H t T. injection H as <-. cbn. f_equal. now apply IH. Qed.
Lemma groups_each m : forall o, groups m = FlowOptions.Ok o -> forall g j, In (g, j) m -> exists l, source_object j = FlowOptions.Ok l /\ In (g, l) o.
Proof.
  induction m as [|[k w] r IH]; intros o H g j I; [easy|]. cbn [groups] in H. step H a A. step H t T. injection H as <-.
  destruct I as [E|I]; [injection E as <- <-; exists a; split; [exact A|now left]|]. destruct (IH t eq_refl g j I) as (l & L & J). exists l. split; [exact L|now right].
Qed.
Lemma sources_each m : forall l, sources m = FlowOptions.Ok l -> forall s w, In (s, w) m -> exists attrs, asInts w = FlowOptions.Ok attrs.
Proof.
  induction m as [|[k x] r IH]; intros l H s w I; [easy|]. cbn [sources] in H. step H a A. step H t T. destruct I as [E|I]; [injection E as <- <-; now exists a|now apply (IH t eq_refl s)].
Qed.
Section Table.
Variables (o : opts) (g : Current.options).
Hypothesis G : group_object o = FlowOptions.Ok g.
Lemma group_members : groups (members o) = FlowOptions.Ok g.
Proof. destruct o as [|x|m]; cbn in *; try discriminate; assumption. Qed.
Lemma names_in k s a : names o k s a <-> exists l attrs, In (k, l) g /\ In (s, attrs) l /\ In a attrs.
Proof.
  assert (H := group_members). split.
  - intros (j & w & Hj & Hw & Ha). destruct (groups_each _ _ H _ _ Hj) as (l & L & Hl).
    assert (W : exists attrs, asInts w = FlowOptions.Ok attrs).
    { destruct j as [|x|m]; cbn in L, Hw; try easy. exact (sources_each _ _ L _ _ Hw). }
    destruct W as (attrs & W). exists l, attrs. split; [exact Hl|]. split; [apply (source_object_in _ _ L); now exists w|]. now rewrite <- (ints_ok _ _ W).
  - intros (l & attrs & Hl & Hs & Ha). apply (groups_in _ _ H) in Hl. destruct Hl as (j & Hj & L). apply (source_object_in _ _ L) in Hs. destruct Hs as (w & Hw & W).
    exists j, w. split; [exact Hj|]. split; [exact Hw|]. now rewrite (ints_ok _ _ W).
Qed.
Lemma keys_are : map fst g = map fst (members o). Proof. apply groups_keys, group_members. Qed.
Lemma current_attrs_in a : In a (currentAttributes g) <-> exists k s, names o k s a.
Proof.
  unfold currentAttributes. rewrite in_flat_map. split.
  - intros ([k l] & H1 & H2). cbn in H2. apply in_flat_map in H2. destruct H2 as ([s attrs] & H2 & H3). exists k, s. apply names_in. now exists l, attrs.
  - intros (k & s & H). apply names_in in H. destruct H as (l & attrs & H1 & H2 & H3). exists (k, l). split; [exact H1|]. apply in_flat_map. now exists (s, attrs).
Qed.
Lemma listed_names a k f : listed known2d g a k f <-> exists s e, names o k s a /\ known2d s = Some (f, e).
Proof.
  unfold listed. split.
  - intros (l & s & attrs & e & H1 & H2 & H3 & K). exists s, e. split; [apply names_in; now exists l, attrs|exact K].
  - intros (s & e & H & K). apply names_in in H. destruct H as (l & attrs & H1 & H2 & H3). now exists l, s, attrs, e.
Qed.
(** some source of the attribute has a property that can be decided *)
Lemma some_source (P : string -> bool) a : (exists k s, names o k s a /\ P s = true) \/ (forall k s, names o k s a -> P s = false).
Proof.
  set (L := flat_map (fun kl => flat_map (fun sa => if P (fst sa) then snd sa else []) (snd kl)) g).
  destruct (in_dec Z.eq_dec a L) as [I|I].
  - left. apply in_flat_map in I. destruct I as ([k l] & H1 & H2). cbn in H2. apply in_flat_map in H2. destruct H2 as ([s attrs] & H2 & H3). cbn [fst snd] in H3.
    destruct (P s) eqn:E; [|easy]. exists k, s. split; [apply names_in; now exists l, attrs|exact E].
  - right. intros k s H. destruct (P s) eqn:E; [|reflexivity]. exfalso. apply I. apply names_in in H. destruct H as (l & attrs & H1 & H2 & H3).
    apply in_flat_map. exists (k, l). split; [exact H1|]. apply in_flat_map. exists (s, attrs). split; [exact H2|]. cbn [fst snd]. now rewrite E.
Qed.
End Table.
Lemma known_direction s : match known2d s with Some (f, e) => forall x, direction s x = Some (f x 0%nat) | None => forall x, direction s x = None end.
Proof. unfold known2d, direction. destruct (String.eqb s "z"); [reflexivity|]. destruct (String.eqb s "-z"); [reflexivity|]. destruct (String.eqb s "box1"); [reflexivity|]. destruct (String.eqb s "box2"); reflexivity. Qed.

(** markers *)
Lemma marked_lists n l m a : marker n l = FlowOptions.Ok m -> (1 <= a <= Z.of_nat n)%Z -> marked m a = true <-> In a l.
Proof.
  unfold marker. intros E A. destruct (attrVecToArray l (repeat 0%Z n)) as [m'|] eqn:V; [|discriminate]. injection E as <-.
  assert (In' : forall a, In a l -> (1 <= a <= Z.of_nat n)%Z).
  { intros b Hb. destruct (Z_le_dec 1 b); destruct (Z_le_dec b (Z.of_nat n)); try lia;
    rewrite (attr_ub l (repeat 0%Z n) b Hb) in V by (rewrite repeat_length; lia); discriminate. }
  destruct (attr_spec l (repeat 0%Z n)) as (arr & E & L & Mk); [rewrite repeat_length; exact In'|]. rewrite V in E. injection E as <-.
  rewrite repeat_length in L. unfold marked. destruct (Z.leb_spec 1 a); [|lia]. cbn [andb]. assert (Mk' := Mk a ltac:(lia)).
  rewrite (nth_indep m' 0%Z (-1)%Z) by lia. rewrite Mk'. destruct (in_dec Z.eq_dec a l) as [I|I]; cbn; split; try easy.
Qed.
Lemma marker_in n l m : marker n l = FlowOptions.Ok m -> forall a, In a l -> (1 <= a <= Z.of_nat n)%Z.
Proof.
  unfold marker. intros E a Ha. destruct (Z_le_dec 1 a); destruct (Z_le_dec a (Z.of_nat n)); try lia;
    rewrite (attr_ub l (repeat 0%Z n) a Ha) in E by (rewrite repeat_length; lia); discriminate.
Qed.

(** assembly *)
Definition pick {A} (b : bool) (x y : A) : A := if b then x else y.
Lemma assemble_pair N keep f l v (w : melem -> vec) : (forall e i, In e l -> (i < el_n (me e))%nat -> (el_glob (me e) i < N)%nat) ->
  (forall e, In e l -> keep (me_attr e) = true -> f e = Ret (w e)) ->
  exists x, assemble keep f l = Ret x /\
    dot N v x = total (fun e => if keep (me_attr e) then rsum (el_n (me e)) (fun i => v (el_glob (me e) i) * w e i) else 0) l.
Proof.
  induction l as [|e r IH]; intros B F; cbn [assemble ThermalOptions.lsum].
  - eexists. split; [reflexivity|]. unfold dot. rewrite (rsum_ext _ _ (fun _ => 0)); [apply rsum_0|]. intros; ring.
  - destruct IH as (x & -> & X); [intros; apply B; [now right|assumption]|intros; apply F; [now right|assumption]|]. cbn [rbind].
    destruct (keep (me_attr e)) eqn:K.
    + rewrite (F e (or_introl eq_refl) K). cbn [rbind]. eexists. split; [reflexivity|]. rewrite <- X, <- (scatter_pair N) by (intros; apply B; [now left|assumption]).
      unfold dot. rewrite <- rsum_plus. apply rsum_ext. intros; ring.
    + eexists. split; [reflexivity|]. rewrite X. ring.
Qed.
Lemma at_points_all n f g : (forall q, (q < n)%nat -> f q = Ret (g q)) -> exists h, at_points n f = Ret h /\ forall q, (q < n)%nat -> h q = g q.
Proof.
  induction n as [|n IH]; intros H; [now eexists|]. destruct IH as (h & E & Hh); [intros; apply H; lia|]. cbn [at_points]. rewrite E, (H n) by lia. cbn [rbind].
  eexists. split; [reflexivity|]. intros q Hq. cbn. destruct (Nat.eqb_spec q n) as [-> |D]; [reflexivity|apply Hh; lia].
Qed.
Lemma at_points_stop n f q : (q < n)%nat -> (forall g, f q <> Ret g) -> forall h, at_points n f <> Ret h.
Proof.
  induction n as [|n IH]; intros Hq H h; [lia|]. cbn [at_points]. destruct (Nat.eq_dec q n) as [->|D].
  - destruct (at_points n f); cbn; try discriminate. destruct (f n) eqn:E; cbn; try discriminate. now destruct (H a0).
  - destruct (at_points n f) eqn:E; cbn; try discriminate. exfalso. exact (IH ltac:(lia) H a eq_refl).
Qed.

(** histories of inputs *)
Lemma history_runs S h : forall r c m, r_current r = Some (c, m) -> forall c', rruns S (map RSetInputs h) (Some c) = Ret (Some c') ->
  r_history h r = Ret {| r_form := r_form r; r_current := Some (c', m); r_magnets := r_magnets r |}.
Proof.
  induction h as [|l t IH]; intros [fm cur mg] c m E c' H; cbn in E; subst cur; cbn in *.
  - injection H as <-. reflexivity.
  - unfold r_setInputs. cbn. destruct (cd_setInputs l c) as [p| | |]; cbn in *; try discriminate. exact (IH {| r_form := fm; r_current := Some (fst p, m); r_magnets := mg |} _ _ eq_refl _ H).
Qed.
Lemma history_none h : forall r, r_current r = None -> r_history h r = Ret r.
Proof. induction h as [|l t IH]; intros r E; cbn; [reflexivity|]. unfold r_setInputs. rewrite E. cbn. now apply IH. Qed.
Lemma history_app h1 h2 r : r_history (h1 ++ h2) r = rbind (r_history h1 r) (r_history h2).
Proof. revert r. induction h1 as [|l t IH]; intros r; cbn; [reflexivity|]. destruct (r_setInputs l r); cbn; auto. Qed.
Lemma pushed_map h : pushed (map RSetInputs h) = h. Proof. induction h as [|l t IH]; cbn; [reflexivity|]. now f_equal. Qed.

Section Load.
Variables (N nattr nelem : nat) (materials : list (string * jobj)) (hasT : bool) (o : opts) (M : mmesh).
Hypothesis FT : fits N nattr (asTmesh M).
Hypothesis FA : element_attributes nelem M.
Lemma glob_bound e i : In e (melems M) -> (i < el_n (me e))%nat -> (el_glob (me e) i < N)%nat.
Proof. intros He Hi. destruct FT as (B & _). apply B; [|exact Hi]. cbn. now apply in_map. Qed.

Lemma current_load h J c m v : current_density o h J -> distinct (get o "current") -> plain_names (map fst (members (get o "current"))) ->
  List.Forall (numbers_for (map fst (members (get o "current")))) h -> currentPart nelem o = Ret (Some (c, m)) ->
  exists c', (forall r, r_current r = Some (c, m) -> r_history h r = Ret {| r_form := r_form r; r_current := Some (c', m); r_magnets := r_magnets r |}) /\
  exists x, assemble (marked m) (fun e => Ret (currentVector c' e)) (melems M) = Ret x /\ dot N v x = - total (fun e => current_work J e v) (melems M).
Proof.
  intros HJ D P Nu H. unfold currentPart in H. destruct (contains o "current") eqn:C; [|discriminate].
  destruct (sub o "current") as [j| | |] eqn:S; cbn [bind lift rbind] in H; try discriminate. rewrite (sub_get _ _ _ S) in *.
  destruct (group_object j) as [g| | |] eqn:G; cbn [lift rbind] in H; try discriminate.
  destruct (construct known2d g) as [c0| | |] eqn:K; cbn [rbind] in H; try discriminate.
  destruct (marker nelem (currentAttributes g)) as [m0| | |] eqn:Mk; cbn [lift rbind] in H; try discriminate. injection H as <- <-.
  set (S0 := Build_setup g [] (fun _ => 0) [] 1 (fun _ _ r => r) (fun _ _ => 0)).
  assert (Kg := keys_are _ _ G).
  destruct (Props_Current.C69_value S0 g c0 (map RSetInputs h) K) as (c' & Run & Val); [now rewrite Kg|now rewrite Kg|rewrite Kg, pushed_map; exact Nu|].
  rewrite pushed_map in Val. exists c'. split; [intros r Hr; exact (history_runs S0 h r c0 m0 Hr c' Run)|].
  assert (V : forall a x, cd_Eval2D c' a x = - J a x).
  { intros a x. destruct (Val a x) as [V1 V2]. destruct (HJ a x) as [J1 J2]. rewrite (sub_get _ _ _ S) in *.
    destruct (some_source j g G (fun s => match known2d s with Some _ => true | None => false end) a) as [(k & s & Hn & Ks)|None_].
    - destruct (known2d s) as [[f e]|] eqn:Es; [|discriminate]. rewrite (V1 k f) by (apply (listed_names j g G); now exists s, e).
      f_equal. symmetry. apply (J1 k s _ Hn). assert (X := known_direction s). rewrite Es in X. apply X.
    - rewrite V2, J2; [ring| |].
      + intros k s Hn. assert (X := known_direction s). specialize (None_ k s Hn). destruct (known2d s); [discriminate|apply X].
      + intros k f Hl. apply (listed_names j g G) in Hl. destruct Hl as (s & e & Hn & Ks). specialize (None_ k s Hn). now rewrite Ks in None_. }
  destruct (assemble_pair N (marked m0) (fun e => Ret (currentVector c' e)) (melems M) v (currentVector c') glob_bound ltac:(reflexivity)) as (x & E & X).
  exists x. split; [exact E|]. rewrite X. rewrite <- (Rmult_1_l (total (fun e => current_work J e v) (melems M))), <- Ropp_mult_distr_l_reverse, <- sums_scal. apply sums_ext. intros e He.
  destruct (marked m0 (me_attr e)) eqn:Me.
  - unfold currentVector, current_work. rewrite <- rsum_scal. rewrite (rsum_ext _ _ (fun i => rsum (cu_nq e) (fun q => v (el_glob (me e) i) * (cu_w e q * cd_Eval2D c' (me_attr e) (cu_x e q) * cu_N e q i)))) by (intros; now rewrite rsum_scal).
    rewrite rsum_swap. apply rsum_ext. intros q _. rewrite V. rewrite <- !rsum_scal. apply rsum_ext. intros i _. ring.
  - unfold current_work. rewrite (rsum_ext _ _ (fun _ => 0)); [rewrite rsum_0; ring|]. intros q _. assert (Z : J (me_attr e) (cu_x e q) = 0).
    { apply (proj2 (HJ (me_attr e) (cu_x e q))). intros k s Hn. exfalso. rewrite (sub_get _ _ _ S) in Hn. assert (I : marked m0 (me_attr e) = true); [|congruence].
      apply (marked_lists _ _ _ _ Mk (FA e He)). apply (current_attrs_in j g G). now exists k, s. }
    rewrite Z. ring.
Qed.
Lemma no_current h J v : current_density o h J -> currentPart nelem o = Ret None -> total (fun e => current_work J e v) (melems M) = 0.
Proof.
  intros HJ H. unfold currentPart in H. destruct (contains o "current") eqn:C.
  - destruct (lift _) as [g| | |]; cbn [rbind] in H; try discriminate. destruct (construct known2d g); cbn [rbind] in H; try discriminate. destruct (lift _); cbn [rbind] in H; discriminate.
  - rewrite (sums_ext _ (fun _ => 0)); [apply sums_0|]. intros e _. unfold current_work. rewrite (rsum_ext _ _ (fun _ => 0)); [apply rsum_0|]. intros q _.
    rewrite (proj2 (HJ (me_attr e) (cu_x e q))); [ring|]. intros k s (j & w & Hj & _). rewrite (contains_get _ _ C) in Hj. destruct Hj.
Qed.

Lemma magnet_value materials' g j t B a x T nu : group_object j = FlowOptions.Ok g -> get o "magnets" = j -> Magnet.magnets materials' g = Ret t -> remnant_density materials' o B ->
  (forall m, ~ names j m "z" a) -> exists f, nuM_eval nu t a x T = Ret f /\ forall k, f k = nu T * B a x T k.
Proof.
  intros G Gj Ht HB Nz. destruct (HB a x T) as [B1 B2]. rewrite Gj in *. destruct (Props_Magnet.C77_value materials' g t 2 a x T Ht) as [V1 V2].
  assert (Ls : forall m s, MagnetSpec.listed g m s a <-> names j m s a) by (intros m s; symmetry; apply (names_in j g G)).
  destruct (some_source j g G (fun s => if in_dec string_dec s MagnetSpec.directions then true else false) a) as [(m & s & Hn & Ds)|None_].
  - destruct (in_dec string_dec s MagnetSpec.directions) as [I|]; [|discriminate].
    assert (Md : exists d, Direction.magnetization 2 s x = Some (Ret d)).
    { destruct I as [<-|[<-|[<-|[<-|[<-|[<-|[<-|[]]]]]]]]; try (eexists; reflexivity). now destruct (Nz m). }
    destruct Md as (d & Md). destruct (V1 m s d (proj2 (Ls m s) Hn) Md) as (Br & RB & (w & Ew & Hw) & _).
    unfold nuM_eval. rewrite Ew. cbn [rbind]. eexists. split; [reflexivity|]. intros k. cbv beta. rewrite Hw, (B1 m s d Br Hn Md RB k). ring.
  - assert (NO : forall m s, names j m s a -> ~ In s MagnetSpec.directions).
    { intros m s Hn I. specialize (None_ m s Hn). destruct (in_dec string_dec s MagnetSpec.directions); [discriminate|contradiction]. }
    destruct V2 as [V2 _]; [intros m s L; apply (NO m s), Ls, L|]. unfold nuM_eval. rewrite V2. cbn [rbind]. eexists. split; [reflexivity|]. intros k. cbv beta. rewrite (B2 NO k). ring.
Qed.
Lemma magnet_load B t m v : remnant_density materials o B -> magnetPart nelem materials hasT o = Ret (Some (t, m)) ->
  (forall e mm, In e (melems M) -> ~ names (get o "magnets") mm "z" (me_attr e)) ->
  exists x, assemble (marked m) (magnetVector t) (melems M) = Ret x /\ dot N v x = - total (fun e => magnet_work B e v) (melems M).
Proof.
  intros HB H Nz. unfold magnetPart in H. destruct (contains o "magnets") eqn:C; [|discriminate].
  destruct (sub o "magnets") as [j| | |] eqn:S; cbn [bind lift rbind] in H; try discriminate. assert (Gj := sub_get _ _ _ S).
  destruct (group_object j) as [g| | |] eqn:G; cbn [lift rbind] in H; try discriminate.
  destruct (Magnet.magnets materials g) as [t0| | |] eqn:Ht; cbn [rbind] in H; try discriminate. destruct hasT; [|discriminate].
  destruct (marker nelem (currentAttributes g)) as [m0| | |] eqn:Mk; cbn [lift rbind] in H; try discriminate. injection H as <- <-.
  set (mv := fun e q k => ma_nu e (ma_T e q) * B (me_attr e) (ma_x e q) (ma_T e q) k).
  assert (W : forall e, In e (melems M) -> exists y, magnetVector t0 e = Ret y /\ forall i, y i = rsum (ma_nq e) (fun q => ma_pw e q * (mv e q 1%nat * dshapedxt 2 (ma_shape e) (fun q _ => ma_Adj e q) (fun _ _ => 0) q i 0%nat - mv e q 0%nat * dshapedxt 2 (ma_shape e) (fun q _ => ma_Adj e q) (fun _ _ => 0) q i 1%nat))).
  { intros e He. unfold magnetVector.
    assert (Fe : exists gg, forall q, (q < ma_nq e)%nat -> nuM_eval (ma_nu e) t0 (me_attr e) (ma_x e q) (ma_T e q) = Ret (gg q) /\ forall k, gg q k = mv e q k).
    { exists (fun q => match nuM_eval (ma_nu e) t0 (me_attr e) (ma_x e q) (ma_T e q) with Ret f => f | _ => fun _ => 0 end). intros q _.
      destruct (magnet_value materials g j t0 B (me_attr e) (ma_x e q) (ma_T e q) (ma_nu e) G Gj Ht HB) as (f & -> & Hf); [intros mm; rewrite <- Gj; now apply Nz|]. split; [reflexivity|exact Hf]. }
    destruct Fe as (gg & Hg). destruct (at_points_all (ma_nq e) _ gg (fun q Hq => proj1 (Hg q Hq))) as (hh & -> & Hh). cbn [rbind]. eexists. split; [reflexivity|]. intros i.
    unfold ms_vector, ms_scratch. apply rsum_ext. intros q Hq. rewrite (Hh q Hq), !(proj2 (Hg q Hq)). ring. }
  destruct (assemble_pair N (marked m0) (magnetVector t0) (melems M) v (fun e => match magnetVector t0 e with Ret y => y | _ => fun _ => 0 end) glob_bound) as (x & E & X).
  { intros e He _. destruct (W e He) as (y & -> & _). reflexivity. }
  exists x. split; [exact E|]. rewrite X. rewrite <- (Rmult_1_l (total (fun e => magnet_work B e v) (melems M))), <- Ropp_mult_distr_l_reverse, <- sums_scal. apply sums_ext. intros e He.
  destruct (marked m0 (me_attr e)) eqn:Me.
  - destruct (W e He) as (y & -> & Y). rewrite (rsum_ext _ _ (fun i => rsum (ma_nq e) (fun q => v (el_glob (me e) i) * (ma_pw e q * (mv e q 1%nat * dshapedxt 2 (ma_shape e) (fun q _ => ma_Adj e q) (fun _ _ => 0) q i 0%nat - mv e q 0%nat * dshapedxt 2 (ma_shape e) (fun q _ => ma_Adj e q) (fun _ _ => 0) q i 1%nat))))) by (intros i _; now rewrite Y, rsum_scal).
    rewrite rsum_swap. unfold magnet_work. rewrite <- rsum_scal. apply rsum_ext. intros q _. unfold weighted_gradient, dshapedxt, mv.
    rewrite (rsum_ext _ _ (fun i => (ma_pw e q * ma_nu e (ma_T e q) * B (me_attr e) (ma_x e q) (ma_T e q) 1%nat) * (rsum 2 (fun a => ma_shape e q i a * ma_Adj e q a 0%nat) * v (el_glob (me e) i)) +
      (- (ma_pw e q * ma_nu e (ma_T e q) * B (me_attr e) (ma_x e q) (ma_T e q) 0%nat)) * (rsum 2 (fun a => ma_shape e q i a * ma_Adj e q a 1%nat) * v (el_glob (me e) i)))) by (intros; ring).
    rewrite rsum_plus, !rsum_scal. ring.
  - unfold magnet_work. rewrite (rsum_ext _ _ (fun _ => 0)); [rewrite rsum_0; ring|]. intros q _. assert (Z : forall k, B (me_attr e) (ma_x e q) (ma_T e q) k = 0).
    { apply (proj2 (HB (me_attr e) (ma_x e q) (ma_T e q))). intros mm s Hn. exfalso. rewrite Gj in Hn. assert (I : marked m0 (me_attr e) = true); [|congruence].
      apply (marked_lists _ _ _ _ Mk (FA e He)). apply (current_attrs_in j g G). now exists mm, s. }
    rewrite !Z. ring.
Qed.
Lemma no_magnets B v : remnant_density materials o B -> magnetPart nelem materials hasT o = Ret None -> total (fun e => magnet_work B e v) (melems M) = 0.
Proof.
  intros HB H. unfold magnetPart in H. destruct (contains o "magnets") eqn:C.
  - destruct (lift _) as [g| | |]; cbn [rbind] in H; try discriminate. destruct (Magnet.magnets materials g); cbn [rbind] in H; try discriminate. destruct hasT; [|discriminate]. destruct (lift _); cbn [rbind] in H; discriminate.
  - rewrite (sums_ext _ (fun _ => 0)); [apply sums_0|]. intros e _. unfold magnet_work. rewrite (rsum_ext _ _ (fun _ => 0)); [apply rsum_0|]. intros q _.
    assert (Z : forall k, B (me_attr e) (ma_x e q) (ma_T e q) k = 0).
    { apply (proj2 (HB (me_attr e) (ma_x e q) (ma_T e q))). intros mm s (j & w & Hj & _). rewrite (contains_get _ _ C) in Hj. destruct Hj. }
    rewrite !Z. ring.
Qed.
End Load.
