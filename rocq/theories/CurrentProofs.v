(** Lemmas about Current.v *)
From Coq Require Import Reals String List Bool ZArith Lra Lia.
From Verif Require Import Vec Inputs Coef CoefMix Form Current CurrentSpec.
Import ListNotations.
Local Open Scope R_scope.

Definition tab (J : string -> R) (G : list string) : smap := map (fun g => (g, J g)) G.

Lemma sfind_tab J G g : sfind g (tab J G) = if in_dec string_dec g G then Some (J g) else None.
Proof.
  induction G as [|h G IH]; [reflexivity|]. unfold tab in *. cbn [map sfind].
  destruct (String.eqb_spec g h) as [E|E].
  - subst. destruct (in_dec string_dec h (h :: G)) as [|F]; [reflexivity|]. exfalso; apply F; now left.
  - rewrite IH. destruct (in_dec string_dec g G) as [I|I], (in_dec string_dec g (h :: G)) as [I'|I']; try reflexivity.
    + exfalso; apply I'; now right.
    + destruct I' as [I'|I']; [congruence|contradiction].
Qed.
Lemma sfind_tab_in J G g : In g G -> sfind g (tab J G) = Some (J g).
Proof. intros I. rewrite sfind_tab. destruct (in_dec string_dec g G); [reflexivity|contradiction]. Qed.

Lemma tab_ext J J' G : (forall g, In g G -> J g = J' g) -> tab J G = tab J' G.
Proof. intros H. apply map_ext_in. intros g I. now rewrite H. Qed.

Lemma upd_tab k v J G : upd k v (tab J G) = tab (fun g => if String.eqb k g then v else J g) G.
Proof. unfold upd, tab. rewrite map_map. apply map_ext. intros g. cbn. now destruct (String.eqb k g). Qed.

Lemma zero_tab J G : map (fun p : string * R => (fst p, 0)) (tab J G) = tab (fun _ => 0) G.
Proof. unfold tab. rewrite map_map. reflexivity. Qed.

(** an input for the key, when it is a number *)
Definition val (l : inputs) (k : string) (d : R) : R := match lookup k l with Some (Scalar v) => v | _ => d end.
Definition scalar_at (l : inputs) (k : string) : Prop := forall d s, lookup k l <> Some (Vector d s).

Lemma set_loop_tab l key J G : (forall g, In g G -> scalar_at l (key g)) ->
  exists b, set_loop l key (tab J G) = Ret (tab (fun g => val l (key g) (J g)) G, b) /\
            (b = false -> forall g, In g G -> val l (key g) (J g) = J g).
Proof.
  induction G as [|h G IH]; intros H.
  - exists false. split; [reflexivity|]. intros _ g [].
  - destruct IH as [b [E F]]. { intros g I; apply H; now right. }
    unfold tab in *. cbn [map set_loop]. unfold setValueFromInputs, val.
    assert (Hh := H h (or_introl eq_refl)). unfold scalar_at in Hh.
    destruct (lookup (key h) l) as [[v|d s]|] eqn:L.
    + rewrite E. cbn. destruct (Req_EM_T v (J h)) as [Q|Q].
      * exists b. split; [reflexivity|]. intros Hb g [I|I]; [subst g; rewrite L; exact Q | apply F; assumption].
      * exists true. split; [reflexivity|]. discriminate.
    + exfalso. now apply (Hh d s).
    + rewrite E. cbn. destruct (Req_EM_T (J h) (J h)) as [Q|Q]; [|now elim Q].
      exists b. split; [reflexivity|]. intros Hb g [I|I]; [subst g; now rewrite L | apply F; assumption].
Qed.

Lemma set_loop_throws l key J G g : In g G -> (exists d s, lookup (key g) l = Some (Vector d s)) ->
  set_loop l key (tab J G) = Throws.
Proof.
  induction G as [|h G IH]; [intros []|]. intros I [d [s L]]. unfold tab in *. cbn [map set_loop]. unfold setValueFromInputs.
  destruct I as [I|I].
  - subst. now rewrite L.
  - rewrite (IH I) by (now exists d, s). destruct (lookup (key h) l) as [[v|d' s']|]; reflexivity.
Qed.

Lemma loop_tab (f : smap -> smap -> ret smap) (Hf : f = cache_loop \/ f = reset_loop) J : forall L K G, incl L G ->
  f (tab J L) (tab K G) = Ret (tab (fun g => if in_dec string_dec g L then J g else K g) G).
Proof.
  induction L as [|h L IH]; intros K G I.
  - destruct Hf; subst f; cbn; f_equal; apply tab_ext; intros; reflexivity.
  - assert (Ih : In h G) by (apply I; now left).
    assert (E : f (tab J (h :: L)) (tab K G) = f (tab J L) (upd h (J h) (tab K G))).
    { destruct Hf; subst f; unfold tab at 1; cbn [map cache_loop reset_loop]; rewrite sfind_tab_in by exact Ih; reflexivity. }
    rewrite E, upd_tab, IH by (intros x Hx; apply I; now right). f_equal. apply tab_ext. intros g Ig.
    destruct (in_dec string_dec g L) as [A|A], (in_dec string_dec g (h :: L)) as [B|B]; try reflexivity.
    + exfalso; apply B; now right.
    + destruct B as [B|B]; [|contradiction]. subst g. now rewrite String.eqb_refl.
    + destruct (String.eqb_spec h g) as [Q|Q]; [|reflexivity]. subst. exfalso; apply B; now left.
Qed.
Lemma reset_throws J : forall L K G g, In g L -> ~ In g G -> reset_loop (tab J L) (tab K G) = Throws.
Proof.
  induction L as [|h L IH]; intros K G g I N; [destruct I|].
  unfold tab at 1. cbn [map reset_loop]. rewrite sfind_tab. destruct (in_dec string_dec h G) as [A|A]; [|reflexivity].
  rewrite upd_tab. apply IH with (g := g); [|exact N]. destruct I as [I|I]; [subst; contradiction|exact I].
Qed.

(** ---- construction ---- *)
Definition names (o : options) : list string := map fst o.
(** the entries cached_inputs holds besides the groups *)
Lemma emplace_tab k v J G : ~ In k G -> emplace k v (tab J G) = tab (fun g => if String.eqb k g then v else J g) (G ++ [k]).
Proof.
  intros N. unfold emplace. rewrite sfind_tab. destruct (in_dec string_dec k G) as [I|_]; [contradiction|].
  unfold tab. rewrite map_app. cbn. rewrite String.eqb_refl. f_equal. apply map_ext_in. intros g I.
  destruct (String.eqb_spec k g); [subst; contradiction|reflexivity].
Qed.
Lemma emplace_tab_in k v J G : In k G -> emplace k v (tab J G) = tab J G.
Proof. intros N. unfold emplace. now rewrite sfind_tab_in. Qed.

Definition entry (T : list (Z * (string * sfunc))) (a : Z) (g : string) (f : sfunc) : Prop := mfind a T = Some (g, f).

Lemma mfind_app {A} a (t : list (Z * A)) u : mfind a (t ++ u) = match mfind a t with Some v => Some v | None => mfind a u end.
Proof. induction t as [|[k v] t IH]; [reflexivity|]. cbn. destruct (Z.eqb a k); [reflexivity|exact IH]. Qed.

Lemma add_attrs_spec g s : forall attrs t t', add_attrs g s attrs t = Ret t' ->
  (forall a, mfind a t' = if in_dec Z.eq_dec a attrs then Some (g, s) else mfind a t) /\
  (forall a, In a attrs -> mfind a t = None).
Proof.
  induction attrs as [|a r IH]; intros t t' H.
  - cbn in H. injection H as H. subst. split; [reflexivity|intros a []].
  - cbn [add_attrs] in H. unfold addCoefficient in H. destruct (mfind a t) as [x|] eqn:M; [discriminate|].
    destruct (IH _ _ H) as [P Q]. split.
    + intros b. rewrite P, mfind_app. cbn [mfind].
      destruct (in_dec Z.eq_dec b r) as [I|I], (in_dec Z.eq_dec b (a :: r)) as [I'|I']; try reflexivity.
      * exfalso; apply I'; now right.
      * destruct I' as [I'|I']; [|contradiction]. subst b. rewrite M, Z.eqb_refl. reflexivity.
      * destruct (Z.eqb b a) eqn:Eb; [apply Z.eqb_eq in Eb; subst; exfalso; apply I'; now left|].
        now destruct (mfind b t).
    + intros b [I|I]; [subst; exact M|]. specialize (Q b I). rewrite mfind_app in Q. destruct (mfind b t); [discriminate|reflexivity].
Qed.

(** attribute a is listed under group g with a source the class knows *)
Definition listed (K : known) (o : options) (a : Z) (g : string) (f : sfunc) : Prop :=
  exists l s attrs e, In (g, l) o /\ In (s, attrs) l /\ In a attrs /\ K s = Some (f, e).
Definition listed1 (K : known) (l : list (string * list Z)) (a : Z) (f : sfunc) : Prop :=
  exists s attrs e, In (s, attrs) l /\ In a attrs /\ K s = Some (f, e).

Lemma add_sources_spec K g : forall l c c', add_sources K g l c = Ret c' ->
  group_map c' = group_map c /\
  (forall a v, mfind a (table c) = Some v -> mfind a (table c') = Some v) /\
  (forall a f, listed1 K l a f -> mfind a (table c') = Some (g, f)) /\
  (forall a v, mfind a (table c') = Some v -> mfind a (table c) = Some v \/ exists f, v = (g, f) /\ listed1 K l a f).
Proof.
  induction l as [|[s attrs] l IH]; intros c c' H.
  - cbn in H. injection H as H. subst. split; [reflexivity|]. split; [auto|]. split; [intros a f [s [x [e [[] _]]]]|]. auto.
  - cbn [add_sources] in H. unfold add_source in H. cbn [fst snd] in H. destruct (K s) as [[f0 e0]|] eqn:Ks.
    + destruct (add_attrs g f0 attrs (table c)) as [t| | |] eqn:A; cbn [rbind] in H; try discriminate.
      destruct (add_attrs_spec _ _ _ _ _ A) as [P Q]. destruct (IH _ _ H) as [I1 [I2 [I3 I4]]]. cbn [group_map table] in *.
      split; [exact I1|]. split; [|split].
      * intros a v M. apply I2. rewrite P. destruct (in_dec Z.eq_dec a attrs) as [Ia|Ia]; [|exact M].
        rewrite (Q a Ia) in M. discriminate.
      * intros a f [s' [x [e [[Hs|Hs] [Hx Kx]]]]].
        -- injection Hs as <- <-. rewrite Ks in Kx. injection Kx as <- <-. apply I2. rewrite P.
           destruct (in_dec Z.eq_dec a attrs); [reflexivity|contradiction].
        -- apply I3. now exists s', x, e.
      * intros a v M. destruct (I4 a v M) as [M'|[f [Ev [s' [x [e [Hs [Hx Kx]]]]]]]].
        -- rewrite P in M'. destruct (in_dec Z.eq_dec a attrs) as [Ia|Ia]; [|left; exact M'].
           injection M' as <-. right. exists f0. split; [reflexivity|]. exists s, attrs, e0. split; [now left|]. split; assumption.
        -- right. exists f. split; [exact Ev|]. exists s', x, e. split; [now right|]. split; assumption.
    + cbn [rbind] in H. destruct (IH _ _ H) as [I1 [I2 [I3 I4]]]. split; [exact I1|]. split; [exact I2|]. split.
      * intros a f [s' [x [e [[Hs|Hs] [Hx Kx]]]]]; [injection Hs as <- <-; congruence|]. apply I3. now exists s', x, e.
      * intros a v M. destruct (I4 a v M) as [M'|[f [Ev [s' [x [e [Hs [Hx Kx]]]]]]]]; [left; exact M'|].
        right. exists f. split; [exact Ev|]. exists s', x, e. split; [now right|]. split; assumption.
Qed.

Lemma add_groups_spec K : forall o c c', add_groups K o c = Ret c' ->
  (forall a v, mfind a (table c) = Some v -> mfind a (table c') = Some v) /\
  (forall a g f, listed K o a g f -> mfind a (table c') = Some (g, f)) /\
  (forall a g f, mfind a (table c') = Some (g, f) -> mfind a (table c) = Some (g, f) \/ listed K o a g f).
Proof.
  induction o as [|[g l] o IH]; intros c c' H.
  - cbn in H. injection H as H. subst. split; [auto|]. split; [intros a g f [l [s [x [e [[] _]]]]]|]. auto.
  - cbn [add_groups] in H. destruct (add_sources K g l _) as [c1| | |] eqn:A; cbn [rbind] in H; try discriminate.
    apply add_sources_spec in A. destruct A as [_ [A2 [A3 A4]]]. cbn [table] in *. destruct (IH _ _ H) as [I2 [I3 I4]].
    split; [|split].
    + intros a v M. now apply I2, A2.
    + intros a h f [l' [s [x [e [[E|E] [Hs [Hx Kx]]]]]]].
      * injection E as <- <-. apply I2, A3. now exists s, x, e.
      * apply I3. now exists l', s, x, e.
    + intros a h f M. destruct (I4 a h f M) as [M'|[l' [s [x [e [E [Hs [Hx Kx]]]]]]]].
      * destruct (A4 _ _ M') as [M''|[f' [Ev [s [x [e [Hs [Hx Kx]]]]]]]]; [left; exact M''|].
        injection Ev as <- <-. right. exists l, s, x, e. split; [now left|]. split; [exact Hs|]. split; assumption.
      * right. exists l', s, x, e. split; [now right|]. split; [exact Hs|]. split; assumption.
Qed.

(** keys of the maps after construction *)
Lemma fold_emplace : forall e C CK, exists C' CK', fold_left (fun m x => emplace (fst x) (snd x) m) e (tab C CK) = tab C' CK' /\
  (forall k, In k CK' <-> In k CK \/ In k (map fst e)).
Proof.
  induction e as [|[k v] e IH]; intros C CK.
  - exists C, CK. split; [reflexivity|]. cbn. tauto.
  - cbn [fold_left fst snd]. destruct (in_dec string_dec k CK) as [I|I].
    + rewrite emplace_tab_in by exact I. destruct (IH C CK) as [C' [CK' [E P]]]. exists C', CK'. split; [exact E|].
      intros k'. rewrite P. cbn. split; [tauto|]. intros [H|[H|H]]; [tauto|subst; tauto|tauto].
    + rewrite emplace_tab by exact I. destruct (IH (fun g => if String.eqb k g then v else C g) (CK ++ [k])) as [C' [CK' [E P]]].
      exists C', CK'. split; [exact E|]. intros k'. rewrite P, in_app_iff. cbn. tauto.
Qed.
Definition extras (K : known) (l : list (string * list Z)) (k : string) : Prop :=
  exists s attrs f e, In (s, attrs) l /\ K s = Some (f, e) /\ In k (map fst e).
Lemma add_sources_keys K g : forall l c c' C CK, cached_inputs c = tab C CK -> add_sources K g l c = Ret c' ->
  exists C' CK', cached_inputs c' = tab C' CK' /\ (forall k, In k CK' <-> In k CK \/ extras K l k).
Proof.
  induction l as [|[s attrs] l IH]; intros c c' C CK Hc H.
  - cbn in H. injection H as <-. exists C, CK. split; [exact Hc|]. intros k. split; [tauto|]. intros [I|[s [x [f [e [[] _]]]]]]; exact I.
  - cbn [add_sources] in H. unfold add_source in H. cbn [fst snd] in H. destruct (K s) as [[f0 e0]|] eqn:Ks.
    + destruct (add_attrs g f0 attrs (table c)) as [t| | |] eqn:A; cbn [rbind] in H; try discriminate.
      destruct (fold_emplace e0 C CK) as [C1 [CK1 [E1 P1]]].
      match type of H with add_sources _ _ _ ?X = _ => assert (HX : cached_inputs X = tab C1 CK1) by (cbn; rewrite Hc; exact E1) end.
      destruct (IH _ _ C1 CK1 HX H) as [C' [CK' [E' P']]]. exists C', CK'. split; [exact E'|].
      intros k. rewrite P', P1. split.
      * intros [[I|I]|[s' [x [f [e [Hs [Ke Hk]]]]]]]; [now left| |].
        -- right. exists s, attrs, f0, e0. split; [now left|]. split; assumption.
        -- right. exists s', x, f, e. split; [now right|]. split; assumption.
      * intros [I|[s' [x [f [e [[Hs|Hs] [Ke Hk]]]]]]]; [now left; left| |].
        -- injection Hs as <- <-. rewrite Ks in Ke. injection Ke as <- <-. left; now right.
        -- right. exists s', x, f, e. split; [exact Hs|]. split; assumption.
    + cbn [rbind] in H. destruct (IH _ _ _ _ Hc H) as [C' [CK' [E' P']]]. exists C', CK'. split; [exact E'|].
      intros k. rewrite P'. split.
      * intros [I|[s' [x [f [e [Hs [Ke Hk]]]]]]]; [now left|]. right. exists s', x, f, e. split; [now right|]. split; assumption.
      * intros [I|[s' [x [f [e [[Hs|Hs] [Ke Hk]]]]]]]; [now left|injection Hs as <- <-; congruence|].
        right. exists s', x, f, e. split; [exact Hs|]. split; assumption.
Qed.
Lemma add_groups_keys K : forall o c c' J G C CK, group_map c = tab J G -> cached_inputs c = tab C CK ->
  NoDup (G ++ names o) -> (forall g, In g G -> J g = 1) -> add_groups K o c = Ret c' ->
  exists C' CK', group_map c' = tab (fun _ => 1) (G ++ names o) /\ cached_inputs c' = tab C' CK' /\
    (forall k, In k CK' <-> In k CK \/ In k (names o) \/ exists g l, In (g, l) o /\ extras K l k).
Proof.
  induction o as [|[g l] o IH]; intros c c' J G C CK HG HC ND J1 H.
  - cbn in H. injection H as <-. exists C, CK. rewrite app_nil_r. split; [rewrite HG; apply tab_ext; exact J1|]. split; [exact HC|].
    intros k. cbn. split; [tauto|]. intros [I|[[]|[g [l [[] _]]]]]. exact I.
  - cbn [add_groups] in H. destruct (add_sources K g l _) as [c1| | |] eqn:A; cbn [rbind] in H; try discriminate.
    assert (Ng : ~ In g G). { cbn [names map fst] in ND. apply NoDup_remove_2 in ND. intros I. apply ND. apply in_app_iff; now left. }
    assert (A' := A). apply add_sources_spec in A'. destruct A' as [A1 _]. cbn [group_map] in A1.
    rewrite HG, emplace_tab in A1 by exact Ng.
    assert (EC : exists C0 CK0, emplace g 0 (cached_inputs c) = tab C0 CK0 /\ forall k, In k CK0 <-> In k CK \/ k = g).
    { rewrite HC. destruct (in_dec string_dec g CK) as [I|I].
      - exists C, CK. rewrite emplace_tab_in by exact I. split; [reflexivity|]. intros k. split; [tauto|]. intros [X|X]; [exact X|now subst].
      - exists (fun h => if String.eqb g h then 0 else C h), (CK ++ [g]). rewrite emplace_tab by exact I. split; [reflexivity|].
        intros k. rewrite in_app_iff. cbn. split; [intros [X|[X|[]]]; [now left|right; now symmetry]|intros [X|X]; [now left|subst; right; now left]]. }
    destruct EC as [C0 [CK0 [E0 P0]]].
    match type of A with add_sources _ _ _ ?X = _ => assert (HX : cached_inputs X = tab C0 CK0) by exact E0 end.
    destruct (add_sources_keys K g l _ c1 C0 CK0 HX A) as [C1 [CK1 [E1 P1]]].
    destruct (IH c1 c' _ (G ++ [g]) C1 CK1 A1 E1) as [C' [CK' [F1 [F2 F3]]]].
    + rewrite <- app_assoc. exact ND.
    + intros h Ih. cbn. destruct (String.eqb_spec g h) as [Q|Q]; [reflexivity|]. apply J1. apply in_app_iff in Ih.
      destruct Ih as [Ih|[Ih|[]]]; [exact Ih|congruence].
    + exact H.
    + exists C', CK'. rewrite <- app_assoc in F1. split; [exact F1|]. split; [exact F2|].
      intros k. rewrite F3, P1, P0. cbn [names map fst]. split.
      * intros [[[X|X]|X]|[X|[g' [l' [X Y]]]]].
        -- now left.
        -- right; left; now left.
        -- right; right. exists g, l. split; [now left|exact X].
        -- right; left; now right.
        -- right; right. exists g', l'. split; [now right|exact Y].
      * intros [X|[[X|X]|[g' [l' [[X|X] Y]]]]].
        -- left; left; now left.
        -- left; left; right; now symmetry.
        -- right; now left.
        -- injection X as <- <-. left; now right.
        -- right; right. exists g', l'. split; assumption.
Qed.
Lemma construct_keys K o c : NoDup (names o) -> construct K o = Ret c ->
  exists C CK, group_map c = tab (fun _ => 1) (names o) /\ cached_inputs c = tab C CK /\
    (forall k, In k CK <-> In k (names o) \/ exists g l, In (g, l) o /\ extras K l k).
Proof.
  intros ND H. unfold construct in H.
  destruct (add_groups_keys K o {| group_map := []; cached_inputs := []; table := [] |} c (fun _ => 1) [] (fun _ => 0) [] eq_refl eq_refl ND ltac:(reflexivity) H) as [C [CK [A [B D]]]].
  exists C, CK. split; [exact A|]. split; [exact B|]. intros k. rewrite D. cbn. tauto.
Qed.

(** ---- the states of a coefficient ---- *)
Definition inv (G CK : list string) T (J : string -> R) (c : cd) : Prop :=
  group_map c = tab J G /\ (exists C, cached_inputs c = tab C CK) /\ table c = T.
(** every input that the coefficient would read is a number *)
Definition numeric (G CK : list string) (l : inputs) : Prop :=
  (forall g, In g G -> scalar_at l (cd_key g)) /\ (forall k, In k CK -> scalar_at l k).

Lemma setInputs_inv G CK T J c l : inv G CK T J c -> numeric G CK l ->
  exists c' b, cd_setInputs l c = Ret (c', b) /\ inv G CK T (fun g => val l (cd_key g) (J g)) c' /\ (b = false -> forall g, In g G -> val l (cd_key g) (J g) = J g).
Proof.
  intros [HG [[C HC] HT]] [N1 N2]. unfold cd_setInputs. rewrite HG, HC.
  destruct (set_loop_tab l cd_key J G N1) as [b1 [E1 F1]]. rewrite E1. cbn [rbind].
  destruct (set_loop_tab l (fun k => k) C CK N2) as [b2 [E2 F2]]. rewrite E2. cbn [rbind fst snd].
  eexists _, _. split; [reflexivity|]. split.
  - split; [reflexivity|]. split; [eexists; reflexivity|exact HT].
  - intros Hb. apply orb_false_elim in Hb. apply F1, Hb.
Qed.

(** the coefficient between zeroing and reset, and after the reset *)
Lemma unit_inv G CK T J c wrt : inv G CK T J c -> incl G CK -> incl CK G -> ~ In wrt G ->
  exists c1 c2 b c3, cacheCurrentDensity c = Ret c1 /\
    cd_setInputs [(wrt, Scalar 1)] (zeroCurrentDensity c1) = Ret (c2, b) /\
    group_map c2 = tab (fun g => if String.eqb (cd_key g) wrt then 1 else 0) G /\ table c2 = T /\
    resetCurrentDensityFromCache c2 = Ret c3 /\ inv G CK T J c3.
Proof.
  intros [HG [[C HC] HT]] I1 I2 Nw.
  set (C1 := fun g => if in_dec string_dec g G then J g else C g).
  set (c1 := {| group_map := tab J G; cached_inputs := tab C1 CK; table := T |}).
  assert (S : forall k, scalar_at [(wrt, Scalar 1)] k). { intros k d s. cbn. destruct (String.eqb k wrt); discriminate. }
  destruct (set_loop_tab [(wrt, Scalar 1)] cd_key (fun _ => 0) G ltac:(intros; apply S)) as [b1 [E1 _]].
  destruct (set_loop_tab [(wrt, Scalar 1)] (fun k => k) C1 CK ltac:(intros; apply S)) as [b2 [E2 _]].
  cbv beta in E2.
  match type of E1 with _ = Ret (?a, _) => match type of E2 with _ = Ret (?b, _) =>
    set (c2 := {| group_map := a; cached_inputs := b; table := T |}) end end.
  set (c3 := {| group_map := tab J G; cached_inputs := cached_inputs c2; table := T |}).
  exists c1, c2, (b1 || b2)%bool, c3. split; [|split; [|split; [|split; [|split]]]].
  - unfold cacheCurrentDensity. rewrite HG, HC, HT. rewrite (loop_tab cache_loop (or_introl eq_refl)) by exact I1. reflexivity.
  - unfold cd_setInputs, zeroCurrentDensity, c1. cbn [group_map cached_inputs table]. rewrite zero_tab, E1. cbn [rbind].
    rewrite E2. reflexivity.
  - apply tab_ext. intros g _. unfold val. cbn [lookup]. now destruct (String.eqb (cd_key g) wrt).
  - reflexivity.
  - unfold resetCurrentDensityFromCache, c3, c2. cbn [group_map cached_inputs table].
    rewrite (loop_tab reset_loop (or_intror eq_refl)) by exact I2. cbn [rbind]. f_equal. f_equal.
    apply tab_ext. intros g Ig.
    destruct (in_dec string_dec g CK) as [X|X]; [|elim X; now apply I1].
    unfold val. cbn [lookup]. destruct (String.eqb_spec g wrt) as [Q|Q]; [subst; contradiction|].
    unfold C1. destruct (in_dec string_dec g G) as [Y|Y]; [reflexivity|contradiction].
  - split; [reflexivity|]. split; [eexists; reflexivity|reflexivity].
Qed.

(** ---- reading the coefficient ---- *)
Definition evalJ (T : list (Z * (string * sfunc))) (J : string -> R) (a : Z) (x : vec) (k : nat) : R :=
  match mfind a T with None => 0 | Some (g, s) => J g * s x k end.
Lemma Eval_inv G CK T J c a x k : inv G CK T J c -> (forall a g s, mfind a T = Some (g, s) -> In g G) ->
  cd_Eval c a x k = evalJ T J a x k.
Proof.
  intros [HG [_ HT]] Hin. unfold cd_Eval, evalJ. rewrite HT, HG. destruct (mfind a T) as [[g s]|] eqn:M; [|reflexivity].
  rewrite sfind_tab_in by (now apply (Hin a g s)). reflexivity.
Qed.
Lemma Eval_tab c G T J a x k : group_map c = tab J G -> table c = T -> (forall a g s, mfind a T = Some (g, s) -> In g G) ->
  cd_Eval c a x k = evalJ T J a x k.
Proof.
  intros HG HT Hin. unfold cd_Eval, evalJ. rewrite HT, HG. destruct (mfind a T) as [[g s]|] eqn:M; [|reflexivity].
  rewrite sfind_tab_in by (now apply (Hin a g s)). reflexivity.
Qed.

Lemma construct_table K o c : construct K o = Ret c ->
  (forall a g f, listed K o a g f <-> mfind a (table c) = Some (g, f)) /\
  (forall a g s, mfind a (table c) = Some (g, s) -> In g (names o)).
Proof.
  intros H. destruct (add_groups_spec K o _ _ H) as [_ [A B]].
  assert (P : forall a g f, listed K o a g f <-> mfind a (table c) = Some (g, f)).
  { intros a g f. split; [apply A|]. intros M. destruct (B a g f M) as [M'|M']; [discriminate|exact M']. }
  split; [exact P|]. intros a g s M. apply P in M. destruct M as [l [s' [x [e [I _]]]]]. apply in_map_iff. now exists (g, l).
Qed.

Lemma quad_ext qs m f g i : (forall a x, f a x = g a x) -> quad qs m f i = quad qs m g i.
Proof. intros H. induction qs as [|q qs IH]; [reflexivity|]. cbn. rewrite IH, H. reflexivity. Qed.
Lemma quad_lin qs m f f1 f2 t i : (forall a x, f a x = t * f1 a x + f2 a x) -> quad qs m f i = t * quad qs m f1 i + quad qs m f2 i.
Proof. intros H. induction qs as [|q qs IH]; cbn; [lra|]. rewrite IH, H. destruct (m (qattr q)); lra. Qed.

(** one group's value set to t is linear in t *)
Definition setJ (J : string -> R) (g0 : string) (t : R) : string -> R := fun g => if String.eqb g g0 then t else J g.
Lemma evalJ_lin T J g0 t a x k :
  evalJ T (setJ J g0 t) a x k = t * evalJ T (fun g => if String.eqb (cd_key g) (cd_key g0) then 1 else 0) a x k + evalJ T (setJ J g0 0) a x k.
Proof.
  unfold evalJ, setJ. destruct (mfind a T) as [[g s]|]; [|lra].
  assert (E : String.eqb (cd_key g) (cd_key g0) = String.eqb g g0) by reflexivity.
  rewrite E. destruct (String.eqb g g0); lra.
Qed.

Lemma val_one g0 t g d : val [(cd_key g0, Scalar t)] (cd_key g) d = if String.eqb g g0 then t else d.
Proof.
  unfold val. cbn [lookup]. assert (E : String.eqb (cd_key g) (cd_key g0) = String.eqb g g0) by reflexivity.
  rewrite E. now destruct (String.eqb g g0).
Qed.

Lemma cd_key_prefix g : String.prefix "current_density:" (cd_key g) = true.
Proof. cbn. destruct g; reflexivity. Qed.
Lemma not_prefix_not_in G w : (forall g, In g G -> String.prefix "current_density:" g = false) ->
  String.prefix "current_density:" w = true -> ~ In w G.
Proof. intros H P I. rewrite (H w I) in P. discriminate. Qed.

Lemma zero_at_ext l u v i : u i = v i -> zero_at l u i = zero_at l v i.
Proof. unfold zero_at. now destruct (memb i l). Qed.

(** ---- histories of the 2-D residual ---- *)
Definition pushed (h : list rcall) : list inputs :=
  flat_map (fun k => match k with RSetInputs l => [l] | REvaluate l _ => [l] | _ => [] end) h.

Lemma last_given_val k l h d : last_given k (l :: h) d = last_given k h (val l k d).
Proof. reflexivity. Qed.
Lemma numbers_numeric G CK l : (forall k, In k CK -> In k G) -> numbers_for G l -> numeric G CK l.
Proof.
  intros I H. split.
  - intros g Ig d s. apply (H g d s Ig).
  - intros k Ik d s. apply (H k d s (I k Ik)).
Qed.
Lemma inv_ext G CK T J J' c : (forall g, J g = J' g) -> inv G CK T J c -> inv G CK T J' c.
Proof. intros H [A [B C]]. split; [rewrite A; apply tab_ext; auto|]. split; assumption. Qed.

Lemma unit_load_inv S G CK T J c wrt : inv G CK T J c -> incl G CK -> incl CK G -> ~ In wrt G ->
  (forall a g s, mfind a T = Some (g, s) -> In g G) ->
  exists v c', unit_load S wrt (Some c) = Ret (v, Some c') /\ inv G CK T J c' /\
    forall i, v i = zero_at (edofs S) (fun i => quad (points S) (in_attrs (currentAttributes (opts S)))
      (fun a x => -1 * evalJ T (fun g => if String.eqb (cd_key g) wrt then 1 else 0) a x 0%nat) i + magnets S i) i.
Proof.
  intros I I1 I2 Nw Hin. destruct (unit_inv G CK T J c wrt I I1 I2 Nw) as [c1 [c2 [b [c3 [E1 [E2 [H1 [H2 [E3 I3]]]]]]]]].
  unfold unit_load. rewrite E1. cbn [rbind]. rewrite E2. cbn [rbind fst snd]. rewrite E3. cbn [rbind].
  eexists _, c3. split; [reflexivity|]. split; [exact I3|]. intros i. unfold addLoad2D, zero_at.
  destruct (memb i (edofs S)); [reflexivity|]. rewrite Rplus_0_l. f_equal. apply quad_ext. intros a x. unfold cd_Eval2D. f_equal.
  now apply (Eval_tab c2 G T).
Qed.

Lemma rruns_inv S G CK T : incl G CK -> incl CK G -> plain_names G -> (forall a g s, mfind a T = Some (g, s) -> In g G) ->
  forall h c J, inv G CK T J c -> Forall (numbers_for G) (pushed h) ->
  exists c', rruns S h (Some c) = Ret (Some c') /\ inv G CK T (fun g => last_given (cd_key g) (pushed h) (J g)) c'.
Proof.
  intros I1 I2 PN Hin. induction h as [|k h IH]; intros c J I N.
  - exists c. split; [reflexivity|exact I].
  - cbn [rruns].
    assert (SI : forall l, numbers_for G l -> exists c' , res_setInputs l (Some c) = Ret (Some c') /\ inv G CK T (fun g => val l (cd_key g) (J g)) c').
    { intros l Nl. destruct (setInputs_inv G CK T J c l I (numbers_numeric _ _ _ I2 Nl)) as [c' [b [E [I' _]]]].
      exists c'. split; [|exact I']. unfold res_setInputs. rewrite E. reflexivity. }
    assert (UL : forall w, String.prefix "current_density:" w = true -> exists v c', unit_load S w (Some c) = Ret (v, Some c') /\ inv G CK T J c').
    { intros w P. destruct (unit_load_inv S G CK T J c w I I1 I2 (not_prefix_not_in G w PN P) Hin) as [v [c' [E [I' _]]]]. now exists v, c'. }
    destruct k as [l|l N0|w d r|w b]; cbn [rafter pushed flat_map app] in *.
    + inversion N as [|x y Nl Nr]; subst. destruct (SI l Nl) as [c' [E I']]. rewrite E. cbn [rbind].
      destruct (IH c' _ I' Nr) as [c'' [E' I'']]. exists c''. split; assumption.
    + inversion N as [|x y Nl Nr]; subst. destruct (SI l Nl) as [c' [E I']]. unfold res_evaluate. rewrite E. cbn [rbind snd].
      destruct (IH c' _ I' Nr) as [c'' [E' I'']]. exists c''. split; assumption.
    + unfold res_jvp. destruct (String.prefix "current_density:" w) eqn:P.
      * destruct (UL w P) as [v [c' [E I']]]. rewrite E. cbn [rbind snd]. apply IH; assumption.
      * cbn [rbind snd]. apply IH; assumption.
    + unfold res_vjp. destruct (String.prefix "current_density:" w) eqn:P.
      * destruct (UL w P) as [v [c' [E I']]]. rewrite E. cbn [rbind snd]. apply IH; assumption.
      * cbn [rbind snd]. apply IH; assumption.
Qed.

(** ---- histories of the 3-D load ---- *)
Section Load3.
Variable Mesh : Type.
Variable assemble : Mesh -> (Z -> vec -> vec) -> vec.
Variable move : inputs -> Mesh -> Mesh.
Variable n : nat.
Hypothesis move_none : forall l m, lookup "mesh_coords" l = None -> move l m = m.
Definition lpushed (h : list lcall) : list inputs :=
  flat_map (fun k => match k with LSetInputs l => [l] | _ => [] end) h.
Definition moved (h : list lcall) (m : Mesh) : Mesh := fold_left (fun m l => move l m) (lpushed h) m.
Definition no_options (h : list lcall) : Prop := forall k, In k h -> match k with LSetOptions _ => False | _ => True end.

Definition linv G CK T J m E (L : cload Mesh) : Prop :=
  inv G CK T J (current Mesh L) /\ mesh Mesh L = m /\ ess_tdof_list Mesh L = E /\
  (dirty Mesh L = false -> forall i, memb i E = false -> load Mesh L i = assemble m (cd_Eval (current Mesh L)) i).

Lemma inv_false_Eval G CK T J J' c c' : inv G CK T J c -> inv G CK T J' c' -> (forall g, In g G -> J' g = J g) -> cd_Eval c' = cd_Eval c.
Proof.
  intros [A [_ B]] [A' [_ B']] H. unfold cd_Eval. rewrite B, B', A, A'. now rewrite (tab_ext J' J G H).
Qed.

Lemma lruns_inv G CK T : incl G CK -> incl CK G -> plain_names G ->
  forall h L J m E, linv G CK T J m E L -> no_options h -> Forall (numbers_for G) (lpushed h) ->
  exists L', lruns Mesh assemble move n h L = Ret L' /\ linv G CK T (fun g => last_given (cd_key g) (lpushed h) (J g)) (moved h m) E L'.
Proof.
  intros I1 I2 PN. induction h as [|k h IH]; intros L J m E HL NO N.
  - exists L. split; [reflexivity|exact HL].
  - cbn [lruns]. assert (NO' : no_options h) by (intros x Hx; apply NO; now right). destruct HL as [HI [HM [HE HD]]].
    destruct k as [l|tv|w b| |E']; cbn [lafter lpushed flat_map app] in *.
    + inversion N as [|x y Nl Nr]; subst x y.
      destruct (setInputs_inv G CK T J _ l HI (numbers_numeric _ _ _ I2 Nl)) as [c' [b [Eq [I' F]]]].
      unfold cl_setInputs. rewrite Eq. cbn [rbind fst snd].
      match goal with |- exists L', lruns _ _ _ _ _ ?X = _ /\ _ => set (L1 := X) end.
      destruct (IH L1 (fun g => val l (cd_key g) (J g)) (move l m) E) as [L' [E1 H1]].
      * split; [exact I'|]. split; [cbn; now rewrite HM|]. split; [exact HE|]. cbn. intros D i Mi.
        apply orb_false_elim in D. destruct D as [D D3]. apply orb_false_elim in D. destruct D as [D1 D2].
        rewrite (inv_false_Eval G CK T J _ _ _ HI I' (F D2)). unfold has in D3.
        destruct (lookup "mesh_coords" l) eqn:Lk; [discriminate|]. rewrite move_none by exact Lk. apply HD; assumption.
      * exact NO'.
      * exact Nr.
      * exists L'. split; [exact E1|exact H1].
    + cbn [rbind].
      match goal with |- exists L', lruns _ _ _ _ _ ?X = _ /\ _ => set (L1 := X) end.
      apply (IH L1 J m E); [|exact NO'|exact N].
      split; [exact HI|]. split; [exact HM|]. split; [exact HE|]. cbn. intros _ i Mi. unfold zero_at. rewrite HE, Mi.
      destruct (dirty Mesh L) eqn:D; [now rewrite HM|]. apply HD; [reflexivity|exact Mi].
    + unfold cl_vjp. destruct (String.prefix "current_density:" w) eqn:P.
      * destruct (unit_inv G CK T J _ w HI I1 I2 (not_prefix_not_in G w PN P)) as [c1 [c2 [b' [c3 [E1 [E2 [H1 [H2 [E3 I3]]]]]]]]].
        rewrite E1. cbn [rbind]. rewrite E2. cbn [rbind fst snd]. rewrite E3. cbn [rbind snd].
        match goal with |- exists L', lruns _ _ _ _ _ ?X = _ /\ _ => set (L1 := X) end.
        apply (IH L1 J m E); [|exact NO'|exact N].
        split; [exact I3|]. split; [exact HM|]. split; [exact HE|]. cbn. discriminate.
      * cbn [rbind snd]. apply IH; [|exact NO'|exact N]. split; [exact HI|]. split; [exact HM|]. split; [exact HE|exact HD].
    + cbn [rbind].
      match goal with |- exists L', lruns _ _ _ _ _ ?X = _ /\ _ => set (L1 := X) end.
      apply (IH L1 J m E); [|exact NO'|exact N].
      split; [exact HI|]. split; [exact HM|]. split; [exact HE|]. cbn. intros _ i Mi.
      destruct (dirty Mesh L) eqn:D; [now rewrite HM|]. apply HD; [reflexivity|exact Mi].
    + destruct (NO (LSetOptions E')). now left.
Qed.
End Load3.
