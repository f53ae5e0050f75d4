(** Proofs for the magnets. *)
From Coq Require Import Reals String List Bool ZArith Lia Lra.
From Coquelicot Require Import Coquelicot.
From Verif Require Import Vec Coef CoefMix EmCoef Current Direction EmInteg EmIntegSpec Deriv EmIntegProofs EmMeshProofs MagnetSpec Magnet.
Import ListNotations.
Local Open Scope R_scope.

Lemma known_source_spec s : known_source s = true <-> In s directions.
Proof.
  unfold known_source, magnetization, directions. split.
  - repeat match goal with |- context [String.eqb s ?x] => destruct (String.eqb_spec s x); [subst; cbn; tauto|] end. discriminate.
  - intros H. cbn [In] in H. repeat (destruct H as [<-|H]; [reflexivity|]). destruct H.
Qed.
Lemma known_source_dec s (A : Type) (x y : A) : (if known_source s then x else y) = (if in_dec string_dec s directions then x else y).
Proof.
  destruct (in_dec string_dec s directions) as [I|I].
  - apply known_source_spec in I. now rewrite I.
  - destruct (known_source s) eqn:E; [|reflexivity]. apply known_source_spec in E. tauto.
Qed.

Lemma mfind_app {A} k (l1 l2 : list (Z * A)) : mfind k (l1 ++ l2) = match mfind k l1 with Some v => Some v | None => mfind k l2 end.
Proof. induction l1 as [|[z v] l1 IH]; [reflexivity|]. cbn. destruct (Z.eqb k z); [reflexivity|exact IH]. Qed.
Lemma mfind_none {A} k (l : list (Z * A)) : mfind k l = None <-> ~ In k (map fst l).
Proof.
  induction l as [|[z v] l IH]; cbn; [tauto|]. destruct (Z.eqb_spec k z) as [->|N].
  - split; [discriminate|intros H; exfalso; apply H; now left].
  - rewrite IH. split; [intros H [E|I]; [now subst|tauto]|tauto].
Qed.

(** pairs the constructor means to register *)
Definition source_pairs (rem : remnant) (l : list (string * list Z)) : list (Z * magnet_entry) :=
  flat_map (fun s => if known_source (fst s) then map (fun a => (a, (rem, fst s))) (snd s) else []) l.

Fixpoint register (l : list (Z * magnet_entry)) (t : magnet_table) : ret magnet_table :=
  match l with
  | [] => Ret t
  | (a, e) :: r => match addCoefficient t a e with None => Aborts | Some t' => register r t' end
  end.
Lemma register_app l1 l2 t : register (l1 ++ l2) t = rbind (register l1 t) (register l2).
Proof.
  revert t. induction l1 as [|[a e] l1 IH]; intros t; [reflexivity|]. cbn. destruct (addCoefficient t a e); [apply IH|reflexivity].
Qed.
Lemma magnet_attrs_register e attrs t : magnet_attrs e attrs t = register (map (fun a => (a, e)) attrs) t.
Proof. revert t. induction attrs as [|a r IH]; intros t; [reflexivity|]. cbn. destruct (addCoefficient t a e); [apply IH|reflexivity]. Qed.
Lemma magnet_sources_register rem l t : magnet_sources rem l t = register (source_pairs rem l) t.
Proof.
  revert t. induction l as [|[s attrs] r IH]; intros t; [reflexivity|]. cbn [magnet_sources]. unfold source_pairs. cbn [flat_map fst snd].
  rewrite register_app. destruct (known_source s).
  - rewrite magnet_attrs_register. destruct (register _ t); cbn [rbind]; try reflexivity. apply IH.
  - cbn. apply IH.
Qed.
Lemma rbind_assoc {A B C} (r : ret A) (f : A -> ret B) (g : B -> ret C) : rbind (rbind r f) g = rbind r (fun a => rbind (f a) g).
Proof. now destruct r. Qed.

(** addCoefficient appends (or refuses) *)
Lemma add_spec {A} (t : list (Z * A)) a e : (mfind a t = None -> exists t', addCoefficient t a e = Some t' /\ (forall k, mfind k t' = if Z.eqb k a then Some e else mfind k t)) /\
  (mfind a t <> None -> addCoefficient t a e = None).
Proof.
  unfold addCoefficient. destruct (mfind a t) eqn:E.
  - split; [discriminate|reflexivity].
  - split; [|congruence]. intros _. eexists. split; [reflexivity|]. intros k. rewrite ?mfind_app. cbn.
    destruct (Z.eqb_spec k a) as [->|N]; [now rewrite ?E, ?Z.eqb_refl|]. destruct (mfind k t); reflexivity.
Qed.
Lemma register_spec l : forall t,
  (NoDup (map fst l) -> (forall a, In a (map fst l) -> mfind a t = None) ->
     exists t', register l t = Ret t' /\ forall k, mfind k t' = match mfind k t with Some e => Some e | None => mfind k l end) /\
  (~ (NoDup (map fst l) /\ forall a, In a (map fst l) -> mfind a t = None) -> register l t = Aborts).
Proof.
  induction l as [|[a e] r IH]; intros t; cbn [map fst register].
  - split; [intros; exists t; split; [reflexivity|intros k; now destruct (mfind k t)]|].
    intros H. exfalso. apply H. split; [constructor|intros a []].
  - destruct (add_spec t a e) as [AS AF]. destruct (mfind a t) as [x|] eqn:F.
    + rewrite AF by discriminate. split; [|reflexivity]. intros _ H. specialize (H a (or_introl eq_refl)). congruence.
    + destruct (AS eq_refl) as [t' [-> L]]. destruct (IH t') as [I1 I2]. split.
      * intros ND Hn. inversion ND as [|? ? N1 N2]; subst. destruct I1 as [t2 [E2 L2]]; [exact N2| |].
        { intros b Hb. rewrite L. destruct (Z.eqb_spec b a) as [->|_]; [tauto|]. apply Hn. now right. }
        exists t2. split; [exact E2|]. intros k. rewrite L2, L. cbn [mfind]. destruct (Z.eqb_spec k a) as [->|N]; [now rewrite F|reflexivity].
      * intros H. apply I2. intros [N2 H2]. apply H. split.
        -- constructor; [|exact N2]. intros I. specialize (H2 a I). rewrite L, Z.eqb_refl in H2. discriminate.
        -- intros b [<-|I]; [exact F|]. specialize (H2 b I). rewrite L in H2. destruct (Z.eqb b a); [discriminate|exact H2].
Qed.

Lemma number_build (o : jobj) : (exists a t b, number o "alpha_B_r" (- 12 / 100) a /\ number o "T_ref" (29315 / 100) t /\ number o "B_r_T_ref" (139 / 100) b /\
    remnant_build o = Built {| rAlpha := a; rT := t; rB := b |}) \/
  (remnant_build o = Threw /\ forall a t b, ~ (number o "alpha_B_r" (- 12 / 100) a /\ number o "T_ref" (29315 / 100) t /\ number o "B_r_T_ref" (139 / 100) b)).
Proof.
  unfold remnant_build, number. cbv zeta.
  destruct (sfind "alpha_B_r" o) as [[v| |]|] eqn:E1; cbn [bind];
  try (right; split; [reflexivity|intros a t b [[H|[H _]] _]; congruence]);
  destruct (sfind "T_ref" o) as [[v2| |]|] eqn:E2; cbn [bind];
  try (right; split; [reflexivity|intros a t b [_ [[H|[H _]] _]]; congruence]);
  destruct (sfind "B_r_T_ref" o) as [[v3| |]|] eqn:E3; cbn [bind];
  try (right; split; [reflexivity|intros a t b [_ [_ [H|[H _]]]]; congruence]);
  left; do 3 eexists; (split; [|split; [|split; [|reflexivity]]]); tauto.
Qed.
Lemma number_unique o k d v w : number o k d v -> number o k d w -> v = w.
Proof. unfold number. intros [A|[A ->]] [B|[B ->]]; congruence. Qed.

(** all pairs of the option table, once every material has been read *)
Inductive table_pairs (materials : list (string * jobj)) : options -> list (Z * magnet_entry) -> Prop :=
| tp_nil : table_pairs materials [] []
| tp_cons m l r rem ps : magnet_remnant materials m = Ret rem -> table_pairs materials r ps ->
    table_pairs materials ((m, l) :: r) (source_pairs rem l ++ ps).

Lemma groups_register materials o ps t : table_pairs materials o ps -> magnet_groups materials o t = register ps t.
Proof.
  intros H. revert t. induction H as [|m l r rem ps Hr Hp IH]; intros t; [reflexivity|].
  cbn [magnet_groups]. rewrite Hr. cbn [rbind]. rewrite magnet_sources_register, register_app. destruct (register _ t); cbn [rbind]; try reflexivity. apply IH.
Qed.
Lemma remnant_readable materials m : (exists rem, magnet_remnant materials m = Ret rem) <-> readable materials m.
Proof.
  unfold magnet_remnant, readable. destruct (sfind m materials) as [o|] eqn:E.
  - destruct (number_build o) as [(a & t & b & A & T & B & ->)|[-> N]].
    + split; [intros _; exists o, a, t, b; auto|intros _; eexists; reflexivity].
    + split; [intros [rem H]; discriminate|]. intros (o' & a & t & b & Ho & H). injection Ho as <-. exfalso. now apply (N a t b).
  - split; [intros [rem H]; discriminate|]. intros (o' & a & t & b & Ho & H). discriminate.
Qed.
Lemma pairs_exist materials o : (forall m l, In (m, l) o -> readable materials m) -> exists ps, table_pairs materials o ps.
Proof.
  induction o as [|[m l] r IH]; intros H; [exists []; constructor|].
  destruct IH as [ps Hp]; [intros m' l' I; apply (H m' l'); now right|].
  destruct (proj2 (remnant_readable materials m)) as [rem Hr]; [apply (H m l); now left|].
  eexists. econstructor; eassumption.
Qed.
Lemma pairs_keys materials o ps : table_pairs materials o ps -> map fst ps = magnetised o.
Proof.
  induction 1 as [|m l r rem ps Hr Hp IH]; [reflexivity|]. unfold magnetised. cbn [flat_map]. rewrite map_app, IH. f_equal.
  cbn [snd]. unfold source_pairs. clear. induction l as [|[s attrs] l IH]; [reflexivity|]. cbn [flat_map fst snd]. etransitivity; [apply map_app|]. f_equal; [|exact IH].
  rewrite known_source_dec. destruct (in_dec string_dec s directions); [|reflexivity]. etransitivity; [apply map_map|]. cbn. apply map_id.
Qed.
Lemma pairs_in materials o ps a rem s : table_pairs materials o ps -> In (a, (rem, s)) ps <->
  exists m, listed o m s a /\ known_source s = true /\ exists l attrs, In (m, l) o /\ In (s, attrs) l /\ In a attrs /\ magnet_remnant materials m = Ret rem.
Proof.
  induction 1 as [|m l r rem' ps Hr Hp IH]; [cbn; split; [tauto|intros (m & (l & attrs & [] & _) & _)]|].
  rewrite in_app_iff, IH. unfold source_pairs. rewrite in_flat_map. split.
  - intros [[[s' attrs] [I1 I2]]|(m' & L & K & l' & attrs & A & B & C & D)].
    + cbn [fst snd] in I2. destruct (known_source s') eqn:K; [|destruct I2]. apply in_map_iff in I2 as [a' [E I2]]. injection E as -> -> ->.
      exists m. split; [exists l, attrs; split; [now left|split; assumption]|]. split; [exact K|]. exists l, attrs. split; [now left|auto].
    + exists m'. split; [exists l', attrs; split; [now right|auto]|]. split; [exact K|]. exists l', attrs. split; [now right|auto].
  - intros (m' & L & K & l' & attrs & [E|A] & B & C & D).
    + injection E as -> ->. left. exists (s, attrs). split; [exact B|]. cbn [fst snd]. rewrite K. apply in_map_iff. exists a. split; [congruence|exact C].
    + right. exists m'. split; [exists l', attrs; auto|]. split; [exact K|]. exists l', attrs. auto.
Qed.
Lemma mfind_in {A} (l : list (Z * A)) a e : NoDup (map fst l) -> (mfind a l = Some e <-> In (a, e) l).
Proof.
  induction l as [|[z v] l IH]; cbn; intros ND; [split; [discriminate|tauto]|]. inversion ND as [|? ? N1 N2]; subst.
  destruct (Z.eqb_spec a z) as [->|N].
  - split; [intros H; injection H as ->; now left|]. intros [H|H]; [now injection H as ->|]. exfalso. apply N1. apply in_map_iff. now exists (z, e).
  - rewrite IH by exact N2. split; [tauto|]. intros [H|H]; [injection H as ->; tauto|exact H].
Qed.
Lemma groups_fail materials : forall o t t', magnet_groups materials o t = Ret t' -> forall m l, In (m, l) o -> readable materials m.
Proof.
  induction o as [|[m l] r IH]; intros t t' H m' l' I; [destruct I|]. cbn [magnet_groups] in H.
  destruct (magnet_remnant materials m) as [rem| | |] eqn:E; cbn [rbind] in H; try discriminate.
  destruct (magnet_sources rem l t) as [t1| | |] eqn:E2; cbn [rbind] in H; try discriminate.
  destruct I as [I|I]; [injection I as -> ->; apply remnant_readable; now exists rem|]. now apply (IH _ _ H m' l').
Qed.

(** ** the 2-D source integrator *)
Lemma rev_vector_entries n sdim nn f X rev V : rev_vector_at n sdim nn f X rev -> exists dM : vec,
  (forall k, (k < n)%nat -> is_derive (fun t => f (moved X V t) k) 0 (dM k)) /\ (forall b, pairing sdim nn (rev b) V = dot n b dM).
Proof.
  intros H. set (e := fun k i => if Nat.eqb i k then 1 else 0). exists (fun k => pairing sdim nn (rev (e k)) V).
  assert (D : forall k, (k < n)%nat -> is_derive (fun t => f (moved X V t) k) 0 (pairing sdim nn (rev (e k)) V)).
  { intros k Hk. apply (DV_ext (fun t => dot n (e k) (f (moved X V t)))); [|apply H]. intros t. unfold dot, e.
    rewrite (rsum_ext n _ (fun i => if Nat.eqb i k then f (moved X V t) i else 0)) by (intros i _; destruct (Nat.eqb i k); ring).
    apply (rsum_delta n (fun i => f (moved X V t) i)). exact Hk. }
  split; [exact D|]. intros b. apply (DV_unique (fun t => dot n b (f (moved X V t))) 0); [apply H|].
  unfold dot. apply (DV_sum n (fun i t => b i * f (moved X V t) i)). intros i Hi. apply DV_scal. now apply D.
Qed.

Section Source2D.
Variables (ndof nt nn nq : nat) (pw : nat -> R) (alpha : R) (shape : nat -> mat) (tsh : nat -> vec).
Variables (Adj : nat -> mat -> mat) (AdjRev : nat -> mat -> mat -> mat).
Variables (Mv : nat -> mat -> R -> vec) (MvRev : nat -> mat -> R -> vec -> mat) (Md : nat -> mat -> R -> vec).
Let S := dshapedxt 2 shape Adj.
Let sv X := ms_vector nt nq pw alpha shape tsh Adj Mv X.

Lemma ms_weighted X T psi : dot ndof psi (sv X T) =
  rsum nq (fun q => alpha * pw q * (Mv q X (ms_temp nt tsh T q) 1%nat * dot ndof psi (fun i => S X q i 0%nat)
                                    - Mv q X (ms_temp nt tsh T q) 0%nat * dot ndof psi (fun i => S X q i 1%nat))).
Proof.
  unfold sv, ms_vector, dot. rewrite (rsum_ext ndof _ (fun i => rsum nq (fun q => psi i * (alpha * pw q * ms_scratch nt shape tsh Adj Mv X T q i)))) by (intros; now rewrite rsum_scal).
  rewrite rsum_swap. apply rsum_ext. intros q _. set (m1 := Mv q X (ms_temp nt tsh T q) 1%nat). set (m0 := Mv q X (ms_temp nt tsh T q) 0%nat).
  transitivity (rsum ndof (fun i => alpha * pw q * m1 * (psi i * S X q i 0%nat) + - (alpha * pw q * m0) * (psi i * S X q i 1%nat))).
  - apply rsum_ext. intros i _. unfold ms_scratch. fold S m1 m0. ring.
  - rewrite rsum_plus, !rsum_scal. ring.
Qed.
Lemma ms_flux_bar_dot X psi q (v : vec) : dot 2 (ms_flux_bar ndof pw alpha shape Adj X psi q) v =
  alpha * pw q * (v 1%nat * dot ndof psi (fun i => S X q i 0%nat) - v 0%nat * dot ndof psi (fun i => S X q i 1%nat)).
Proof.
  unfold dot at 1. cbn [rsum]. unfold ms_flux_bar, ms_scratch_bar. fold S.
  assert (E : forall k, dot ndof (fun i => S X q i k) (fun i => 1 * (alpha * pw q) * psi i) = alpha * pw q * dot ndof psi (fun i => S X q i k)).
  { intros k. unfold dot. rewrite <- rsum_scal. apply rsum_ext; intros; ring. }
  rewrite !E. ring.
Qed.
Lemma ms_mesh X V T psi :
  (forall q, (q < nq)%nat -> rev_matrix 2 nn (Adj q) (AdjRev q)) ->
  (forall q, (q < nq)%nat -> rev_vector_at 2 2 nn (fun Y => Mv q Y (ms_temp nt tsh T q)) X (MvRev q X (ms_temp nt tsh T q))) ->
  is_derive (fun t => dot ndof psi (sv (moved X V t) T)) 0
    (pairing 2 nn (ms_mesh_bar ndof nt nq pw alpha shape tsh Adj AdjRev Mv MvRev X psi T) V).
Proof.
  intros HA HM.
  apply (DV_ext (fun t => rsum nq (fun q => alpha * pw q * (Mv q (moved X V t) (ms_temp nt tsh T q) 1%nat * dot ndof psi (fun i => S (moved X V t) q i 0%nat)
                                    - Mv q (moved X V t) (ms_temp nt tsh T q) 0%nat * dot ndof psi (fun i => S (moved X V t) q i 1%nat))))); [intros t; now rewrite ms_weighted|].
  unfold ms_mesh_bar. rewrite pairing_sum. apply (DV_sum nq (fun q t => alpha * pw q * (Mv q (moved X V t) (ms_temp nt tsh T q) 1%nat * dot ndof psi (fun i => S (moved X V t) q i 0%nat)
                                    - Mv q (moved X V t) (ms_temp nt tsh T q) 0%nat * dot ndof psi (fun i => S (moved X V t) q i 1%nat)))).
  intros q Hq. destruct (rev_matrix_entries 2 nn (Adj q) (AdjRev q) X V (HA q Hq)) as [dA [DA PA]].
  destruct (rev_vector_entries 2 2 nn _ X _ V (HM q Hq)) as [dM [DM PM]].
  rewrite pairing_plus, PA, PM, ms_flux_bar_dot. set (Tq := ms_temp nt tsh T q) in *.
  assert (DS := fun k (Hk : (k < 2)%nat) => DV_sum ndof (fun i t => psi i * S (moved X V t) q i k) (fun i => psi i * rsum 2 (fun a => shape q i a * dA a k)) 0
     (fun i Hi => DV_scal (psi i) _ 0 _ (dshape_derive ndof 2 shape Adj X V q dA DA i k Hi Hk))).
  pose (D := fun i k => rsum 2 (fun a => shape q i a * dA a k)).
  assert (AB : pairing 2 2 (ms_adj_bar ndof nt pw alpha shape tsh Mv X psi T q) dA =
     rsum 2 (fun k => rsum ndof (fun i => ms_dshapedxt_bar nt pw alpha tsh Mv X psi T q i k * D i k))) by (apply adj_bar_pair).
  assert (DS' : forall k, (k < 2)%nat -> is_derive (fun t => dot ndof psi (fun i => S (moved X V t) q i k)) 0 (rsum ndof (fun i => psi i * D i k))) by exact DS.
  clear DS. clearbody D. rename DS' into DS. rewrite AB. clear AB. cbn [rsum]. unfold ms_dshapedxt_bar, ms_scratch_bar. fold Tq.
  assert (E : forall c k, rsum ndof (fun i => c * (1 * (alpha * pw q) * psi i) * D i k) = alpha * pw q * c * rsum ndof (fun i => psi i * D i k)).
  { intros c k. rewrite <- rsum_scal. apply rsum_ext; intros; ring. }
  rewrite !E. clear E.
  apply (DV_eq _ 0 (alpha * pw q * ((dM 1%nat * dot ndof psi (fun i => S (moved X V 0) q i 0%nat) + Mv q (moved X V 0) Tq 1%nat * rsum ndof (fun i => psi i * D i 0%nat))
     - (dM 0%nat * dot ndof psi (fun i => S (moved X V 0) q i 1%nat) + Mv q (moved X V 0) Tq 0%nat * rsum ndof (fun i => psi i * D i 1%nat))))).
  - apply DV_scal. apply DV_minus; (apply DV_mult; [apply DM; lia|apply DS; lia]).
  - rewrite !moved_0'. cbn [rsum]. ring.
Qed.
Lemma ms_temperature X T V psi :
  (forall q, (q < nq)%nat -> forall k, (k < 2)%nat -> is_derive (fun s => Mv q X s k) (ms_temp nt tsh T q) (Md q X (ms_temp nt tsh T q) k)) ->
  is_derive (fun t => dot ndof psi (sv X (along T V t))) 0
    (dot nt (ms_temp_bar ndof nt nq pw alpha shape tsh Adj Md X psi T) V).
Proof.
  intros HM.
  apply (DV_ext (fun t => rsum nq (fun q => dot 2 (ms_flux_bar ndof pw alpha shape Adj X psi q) (Mv q X (ms_temp nt tsh (along T V t) q))))).
  { intros t. rewrite ms_weighted. apply rsum_ext. intros q _. now rewrite ms_flux_bar_dot. }
  unfold ms_temp_bar.
  apply (DV_eq _ 0 (rsum nq (fun q => dot 2 (ms_flux_bar ndof pw alpha shape Adj X psi q) (fun k => Md q X (ms_temp nt tsh T q) k * dot nt (tsh q) V)))).
  - apply (DV_sum nq (fun q t => dot 2 (ms_flux_bar ndof pw alpha shape Adj X psi q) (Mv q X (ms_temp nt tsh (along T V t) q)))). intros q Hq.
    unfold dot at 1 2. apply (DV_sum 2 (fun k t => ms_flux_bar ndof pw alpha shape Adj X psi q k * Mv q X (ms_temp nt tsh (along T V t) q) k)). intros k Hk.
    apply DV_scal. assert (Z : ms_temp nt tsh (along T V 0) q = ms_temp nt tsh T q) by (unfold ms_temp, dot, along; apply rsum_ext; intros; ring).
    apply (DV_comp (fun s => Mv q X s k) (fun t => ms_temp nt tsh (along T V t) q)); [rewrite Z; now apply HM|].
    unfold ms_temp, dot. apply (DV_sum nt (fun j t => tsh q j * along T V t j)). intros j _. apply DV_scal. unfold along.
    apply (DV_eq _ 0 (0 + 1 * V j)); [|ring]. apply DV_plus; [apply DV_const|apply DV_scal_r, DV_id].
  - unfold dot at 3. rewrite (rsum_ext nt _ (fun j => rsum nq (fun q => dot 2 (ms_flux_bar ndof pw alpha shape Adj X psi q) (Md q X (ms_temp nt tsh T q)) * tsh q j * V j))) by (intros; now rewrite rsum_scal_r).
    rewrite rsum_swap. apply rsum_ext. intros q _. unfold dot. cbn [rsum]. rewrite !Rplus_0_l.
    rewrite (rsum_ext nt (fun j => _ * tsh q j * V j) (fun j => (ms_flux_bar ndof pw alpha shape Adj X psi q 0%nat * Md q X (rsum nt (fun i => tsh q i * T i)) 0%nat + ms_flux_bar ndof pw alpha shape Adj X psi q 1%nat * Md q X (rsum nt (fun i => tsh q i * T i)) 1%nat) * (tsh q j * V j))) by (intros; unfold ms_temp, dot; ring).
    rewrite rsum_scal. unfold ms_temp, dot. ring.
Qed.
End Source2D.
