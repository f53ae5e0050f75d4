From Coq Require Import Reals String List ZArith Bool Lia Lra.
From Coquelicot Require Import Coquelicot.
From Verif Require Import Num Vec BdrArray BdrArrayProofs AttachSpec Attach.
Import ListNotations.
Local Open Scope R_scope.

Inductive kind := Functional | Linear | Nonlinear.
Definition add_of (K : kind) : adder := match K with Functional => fo_add | Linear => lf_add | Nonlinear => nf_add end.

Lemma fold_max_ge l : forall a, (a <= fold_left Z.max l a)%Z /\ forall b, In b l -> (b <= fold_left Z.max l a)%Z.
Proof.
  induction l as [|x l IH]; simpl; intros a; [split; [lia|easy]|].
  destruct (IH (Z.max a x)) as [H1 H2]. split; [lia|]. intros b [<-|Hb]; [lia|auto].
Qed.
Lemma arrayMax_ge l M a : arrayMax l = Some M -> In a l -> (a <= M)%Z.
Proof.
  destruct l as [|x l]; [discriminate|]. simpl. intros E H. injection E as <-. destruct (fold_max_ge l x) as [H1 H2].
  destruct H as [->|H]; auto.
Qed.
Lemma newMarker_ok size a mk : newMarker size a = Some mk ->
  exists n, size = Some n /\ (forall x, In x a -> (1 <= x <= n)%Z) /\ length mk = Z.to_nat n /\ marks mk a.
Proof.
  unfold newMarker. destruct size as [n|]; [|discriminate]. intros H. exists n. split; [reflexivity|].
  assert (HI : forall x, In x a -> (1 <= x <= Z.of_nat (length (repeat 0%Z (Z.to_nat n))))%Z).
  { intros x Hx. destruct (Z_le_dec 1 x); [destruct (Z_le_dec x (Z.of_nat (length (repeat 0%Z (Z.to_nat n)))))|]; [lia| |];
      rewrite (attr_ub a (repeat 0%Z (Z.to_nat n)) x Hx) in H by lia; discriminate. }
  destruct (attr_spec a _ HI) as (arr & E & L & M). rewrite H in E. injection E as <-. rewrite repeat_length in *. split; [|split; assumption].
  intros x Hx. specialize (HI x Hx). destruct (Z_le_dec 0 n); [|destruct n; simpl in *; lia]. rewrite Z2Nat.id in HI by lia. exact HI.
Qed.
Lemma newMarker_some n a : (forall x, In x a -> (1 <= x <= n)%Z) -> exists mk, newMarker (Some n) a = Some mk.
Proof.
  intros H. unfold newMarker. destruct (attr_spec a (repeat 0%Z (Z.to_nat n))) as (arr & E & _); [|now exists arr].
  intros x Hx. rewrite repeat_length. specialize (H x Hx). lia.
Qed.
Lemma newMarker_none size a x : In x a -> (forall n, size = Some n -> ~ (1 <= x <= n)%Z) -> newMarker size a = None.
Proof.
  intros Hx H. unfold newMarker. destruct size as [n|]; [|reflexivity]. apply (attr_ub _ _ x Hx). rewrite repeat_length. specialize (H n eq_refl). lia.
Qed.

Lemma assemble_all l f : assemble None l f = Some (part_sum None l f).
Proof. induction l as [|[a i] l IH]; simpl; [reflexivity|]. now rewrite IH. Qed.
Lemma assemble_marked mk attrs l f : marks mk attrs -> (forall it, In it l -> (1 <= fst it <= Z.of_nat (length mk))%Z) ->
  assemble (Some mk) l f = Some (part_sum (Some attrs) l f).
Proof.
  intros HM. induction l as [|[a i] l IH]; intros H; [reflexivity|]. simpl assemble. unfold read.
  pose proof (H _ (or_introl eq_refl)) as Ha. simpl in Ha. destruct (Z.leb_spec 1 a); [|lia].
  pose proof (HM a Ha) as E.
  destruct (nth_error mk (Z.to_nat (a - 1))) as [b|] eqn:N.
  2:{ apply nth_error_None in N. lia. }
  rewrite (nth_error_nth _ _ _ N) in E. rewrite IH by (intros it Hit; apply H; now right).
  simpl. destruct (in_dec Z.eq_dec a attrs); subst b; simpl; f_equal; ring.
Qed.

Definition good_mesh (m : mesh) : Prop := forall it, In it (m_elems m ++ m_bdr m ++ m_ibdr m) -> (1 <= fst it)%Z.
(** the attribute-restricted domain integrators of a nonlinear form are the exception *)
Definition regular (K : kind) (q : request) : Prop := K = Nonlinear -> rq_region q = Domain -> rq_attrs q = None.

Lemma attached K m fields nm q f f' : good_mesh m -> regular K q ->
  add_of K m fields nm (rq_region q) (rq_attrs q) (rq_integ q) f = Ok f' ->
  exists mk, attach fields nm (rq_integ q) (rq_region q) mk mk f = Ok f' /\ (rq_attrs q = None -> mk = None) /\
    forall g, assemble mk (items m (rq_region q)) g = Some (part_sum (rq_attrs q) (items m (rq_region q)) g).
Proof.
  intros HG HR. assert (HA : forall g l, assemble None l g = Some (part_sum None l g)) by (intros; apply assemble_all).
  assert (HB : forall a mk r, rq_attrs q = Some a -> r = Boundary \/ r = InternalBoundary -> newMarker (bdr_attributes_Max m) a = Some mk ->
     forall g, assemble (Some mk) (items m r) g = Some (part_sum (Some a) (items m r) g)).
  { intros a mk r Ea Hr E g. apply newMarker_ok in E as (n & E1 & E2 & E3 & E4). apply assemble_marked; [assumption|].
    intros it Hit. rewrite E3. assert (In it (m_bdr m ++ m_ibdr m)) as Hin by (apply in_or_app; destruct Hr as [-> | ->]; simpl in Hit; auto).
    assert (1 <= fst it)%Z by (apply HG; apply in_or_app; now right).
    assert (fst it <= n)%Z by (apply (arrayMax_ge _ _ _ E1); apply in_map; assumption). lia. }
  assert (HD : forall a mk, newMarker (attributes_Max m) a = Some mk ->
     forall g, assemble (Some mk) (items m Domain) g = Some (part_sum (Some a) (items m Domain) g)).
  { intros a mk E g. apply newMarker_ok in E as (n & E1 & E2 & E3 & E4). apply assemble_marked; [assumption|].
    intros it Hit. rewrite E3. simpl in Hit. assert (1 <= fst it)%Z by (apply HG; apply in_or_app; now left).
    assert (fst it <= n)%Z by (apply (arrayMax_ge _ _ _ E1); apply in_map; assumption). lia. }
  destruct q as [r attrs I]; simpl in *.
  destruct attrs as [a|].
  - unfold regular in HR; simpl in HR.
    destruct K; simpl; unfold fo_add, lf_add, nf_add, with_marker; destruct r; try discriminate; try (discriminate (HR eq_refl eq_refl));
      destruct (newMarker _ a) as [mk|] eqn:E; try discriminate; intros H; exists (Some mk); (split; [exact H|split; [discriminate|]]);
      solve [apply (HD _ _ E) | apply (HB a mk _ eq_refl (or_introl eq_refl) E) | apply (HB a mk _ eq_refl (or_intror eq_refl) E)].
  - intros H. exists None. split; [|split; [reflexivity|intros; apply HA]].
    destruct K, r; simpl in H; try discriminate; exact H.
Qed.

Definition total (m : mesh) (l : list request) (e : env) : R :=
  fold_right (fun q s => part_sum (rq_attrs q) (items m (rq_region q)) (energy (rq_integ q) e) + s) 0 l.
Lemma value_snoc m f v t r mk g e s : value m f e = Some v -> assemble mk (items m r) (g e) = Some s ->
  value m {| vals := vals f ++ [(r, mk, g)]; sens := t |} e = Some (v + s).
Proof.
  unfold value. simpl. revert v. induction (vals f) as [|[[r' mk'] g'] l IH]; simpl; intros v H1 H2.
  - rewrite H2. simpl. injection H1 as <-. f_equal. ring.
  - destruct (assemble mk' (items m r') (g' e)) as [x|]; [|discriminate].
    match type of H1 with oplus _ ?z = _ => destruct z as [y|] eqn:E; [|discriminate] end.
    simpl in H1. injection H1 as <-. erewrite IH; [|reflexivity|exact H2]. simpl. f_equal. ring.
Qed.
Lemma value_build K m fields nm l : good_mesh m -> List.Forall (regular K) l -> forall f f' v e,
  build (add_of K) m fields nm l f = Ok f' -> value m f e = Some v -> value m f' e = Some (v + total m l e).
Proof.
  intros HG HL. induction HL as [|q l HR HL IH]; simpl; intros f f' v e H1 H2.
  - injection H1 as <-. rewrite H2. f_equal. ring.
  - destruct (add_of K m fields nm (rq_region q) (rq_attrs q) (rq_integ q) f) as [g| | |] eqn:E; try discriminate.
    destruct (attached K m fields nm q f g HG HR E) as (mk & HA & _ & HS).
    unfold attach in HA. destruct (forallb _ _); [|discriminate]. injection HA as <-.
    erewrite IH; [|exact H1|eapply value_snoc; [exact H2|apply HS]]. f_equal. ring.
Qed.

(** sensitivities *)
Definition entry (m : mesh) (q : request) (n : string) (k : nat) (e : env) : R :=
  fold_right (fun p s => (if String.eqb (fst p) n then part_sum (rq_attrs q) (items m (rq_region q)) (grad (rq_integ q) (snd p) k e) else 0) + s) 0
    (ov_pairs (over (rq_integ q)) (inst (rq_integ q))).
Definition total_sens (m : mesh) (l : list request) (n : string) (k : nat) (e : env) : R :=
  fold_right (fun q s => entry m q n k e + s) 0 l.
Lemma sens_app m n k e l2 s2 : forall l1 s1 vs,
  sensitivity m {| vals := vs; sens := l1 |} n k e = Some s1 -> sensitivity m {| vals := vs; sens := l2 |} n k e = Some s2 ->
  sensitivity m {| vals := vs; sens := l1 ++ l2 |} n k e = Some (s1 + s2).
Proof.
  unfold sensitivity; simpl. induction l1 as [|[n' [[r' mk'] g']] l IH]; simpl; intros s1 vs H1 H2.
  - injection H1 as <-. rewrite H2. f_equal. ring.
  - destruct (String.eqb n' n); [|now apply IH].
    destruct (assemble mk' (items m r') (g' k e)) as [x|]; [|discriminate].
    match type of H1 with oplus _ ?z = _ => destruct z as [y|] eqn:E; [|discriminate] end.
    simpl in H1. injection H1 as <-. erewrite IH; [|exact vs|reflexivity|exact H2]. simpl. f_equal. ring.
Qed.
Lemma sens_vals m n k e v1 v2 s : sensitivity m {| vals := v1; sens := s |} n k e = sensitivity m {| vals := v2; sens := s |} n k e.
Proof. reflexivity. Qed.
Lemma sens_entry m q n k e vs mk : (forall g, assemble mk (items m (rq_region q)) g = Some (part_sum (rq_attrs q) (items m (rq_region q)) g)) ->
  sensitivity m {| vals := vs; sens := map (fun p => (fst p, (rq_region q, mk, grad (rq_integ q) (snd p)))) (ov_pairs (over (rq_integ q)) (inst (rq_integ q))) |} n k e
  = Some (entry m q n k e).
Proof.
  intros H. unfold sensitivity, entry. simpl. induction (ov_pairs (over (rq_integ q)) (inst (rq_integ q))) as [|p l IH]; simpl; [reflexivity|].
  rewrite IH. destruct (String.eqb (fst p) n); [|f_equal; ring]. rewrite H. reflexivity.
Qed.
(** the overload hands the marker on whenever there is one *)
Definition forwards (q : request) : Prop := rq_attrs q <> None -> ov_marked (over (rq_integ q)) = true.
Lemma sens_build K m fields nm l : good_mesh m -> List.Forall (regular K) l -> List.Forall forwards l -> forall f f' s n k e,
  build (add_of K) m fields nm l f = Ok f' -> sensitivity m f n k e = Some s -> sensitivity m f' n k e = Some (s + total_sens m l n k e).
Proof.
  intros HG HL. induction HL as [|q l HR HL IH]; simpl; intros HF f f' s n k e H1 H2.
  - injection H1 as <-. rewrite H2. f_equal. ring.
  - inversion_clear HF as [|? ? HF1 HF2].
    destruct (add_of K m fields nm (rq_region q) (rq_attrs q) (rq_integ q) f) as [g| | |] eqn:E; try discriminate.
    destruct (attached K m fields nm q f g HG HR E) as (mk & HA & HN & HS).
    unfold attach in HA. destruct (forallb _ _); [|discriminate]. injection HA as <-.
    assert (Emk : (if ov_marked (over (rq_integ q)) then mk else None) = mk).
    { destruct (ov_marked (over (rq_integ q))) eqn:EM; [reflexivity|]. symmetry. apply HN. destruct (rq_attrs q) eqn:EA; [|reflexivity].
      exfalso. unfold forwards in HF1. rewrite EA in HF1. rewrite HF1 in EM by discriminate. discriminate. }
    rewrite Emk in H1.
    erewrite IH; [|exact HF2|exact H1|]; [|]; cycle 1.
    + eapply sens_app; [exact H2|]. apply sens_entry. exact HS.
    + f_equal. ring.
Qed.

Lemma part_derive attrs n k e (F : env -> nat -> R) (d : nat -> R) l :
  (forall it, In it l -> is_partial (fun e' => F e' (snd it)) e n k (d (snd it))) ->
  is_partial (fun e' => part_sum attrs l (F e')) e n k (part_sum attrs l d).
Proof.
  unfold is_partial. induction l as [|it l IH]; intros H; simpl.
  - apply (@is_derive_const R_AbsRing R_NormedModule).
  - apply (is_derive_plus (fun t => if belongs attrs (fst it) then F (with_input e n k t) (snd it) else 0)).
    + destruct (belongs attrs (fst it)); [apply H; now left|apply (@is_derive_const R_AbsRing R_NormedModule)].
    + apply IH. intros; apply H; now right.
Qed.
(** what an integrator owes for input n: if its overload registers n, the kernel registered is the derivative of its
    contribution; otherwise its contribution does not depend on n *)
Definition differentiates (I : integrator) (n : string) (k : nat) (e : env) : Prop :=
  (In n (map fst (ov_pairs (over I) (inst I))) -> forall i, is_partial (fun e' => energy I e' i) e n k (grad I n k e i)) /\
  (~ In n (map fst (ov_pairs (over I) (inst I))) -> forall i, ignores (fun e' => energy I e' i) n).
Definition consistent (I : integrator) : Prop :=
  NoDup (map fst (ov_pairs (over I) (inst I))) /\ forall p, In p (ov_pairs (over I) (inst I)) -> fst p = snd p.
Lemma entry_absent m q n k e : ~ In n (map fst (ov_pairs (over (rq_integ q)) (inst (rq_integ q)))) -> entry m q n k e = 0.
Proof.
  unfold entry. induction (ov_pairs _ _) as [|p l IH]; simpl; intros H; [reflexivity|]. rewrite IH by tauto.
  destruct (String.eqb_spec (fst p) n); [tauto|]. ring.
Qed.
Lemma entry_present m q n k e : consistent (rq_integ q) -> In n (map fst (ov_pairs (over (rq_integ q)) (inst (rq_integ q)))) ->
  entry m q n k e = part_sum (rq_attrs q) (items m (rq_region q)) (grad (rq_integ q) n k e).
Proof.
  intros [HN HC]. unfold entry. revert HN HC. induction (ov_pairs _ _) as [|p l IH]; simpl; intros HN HC H; [easy|].
  inversion_clear HN as [|? ? HN1 HN2]. destruct (String.eqb_spec (fst p) n) as [Ep|Ep].
  - rewrite <- (HC p (or_introl eq_refl)), Ep. rewrite Ep in HN1.
    assert (E0 : fold_right (fun p s => (if String.eqb (fst p) n then part_sum (rq_attrs q) (items m (rq_region q)) (grad (rq_integ q) (snd p) k e) else 0) + s) 0 l = 0).
    { clear - HN1. induction l as [|x l IH]; simpl; [reflexivity|]. simpl in HN1. destruct (String.eqb_spec (fst x) n); [tauto|]. rewrite IH by tauto. ring. }
    rewrite E0. ring.
  - rewrite IH; [ring|assumption|intros; apply HC; now right|]. destruct H; [contradiction|assumption].
Qed.
Lemma total_derive m l n k e : List.Forall (fun q => consistent (rq_integ q) /\ differentiates (rq_integ q) n k e) l ->
  is_partial (total m l) e n k (total_sens m l n k e).
Proof.
  intros H. unfold is_partial. induction H as [|q l [HC [HD1 HD2]] HL IH]; simpl.
  - apply (@is_derive_const R_AbsRing R_NormedModule).
  - apply (is_derive_plus (fun t => part_sum (rq_attrs q) (items m (rq_region q)) (energy (rq_integ q) (with_input e n k t)))); [|exact IH].
    destruct (in_dec string_dec n (map fst (ov_pairs (over (rq_integ q)) (inst (rq_integ q))))) as [Hi|Hi].
    + rewrite entry_present by assumption. apply (part_derive (rq_attrs q) n k e (energy (rq_integ q))). intros it _. apply HD1, Hi.
    + rewrite entry_absent by assumption. apply (is_derive_ext (fun _ => part_sum (rq_attrs q) (items m (rq_region q)) (energy (rq_integ q) e))).
      2: apply (@is_derive_const R_AbsRing R_NormedModule).
      intros t. clear - HD2 Hi. induction (items m (rq_region q)) as [|it r IHr]; simpl; [reflexivity|]. rewrite IHr, <- (HD2 Hi (snd it) e k t). reflexivity.
Qed.

(** the registry *)
Lemma named_other base n s : (forall t, s <> base ++ t)%string -> named base n <> s.
Proof. intros H E. unfold named in E. destruct (String.eqb n ""); [apply (H ""%string)|apply (H (":" ++ n)%string)]; rewrite <- E; [|reflexivity]. clear. induction base; simpl; congruence. Qed.
Lemma registry_consistent I : In (over I) overloads -> (over I = ov_Steinmetz -> inst I = ""%string) -> consistent I.
Proof.
  intros H HS. unfold consistent. destruct I as [nm ov en gr]; simpl in *.
  repeat (destruct H as [<- | H]; [split; [simpl; repeat constructor; simpl; try (intuition discriminate); try (intros H; intuition (try discriminate))|
    simpl; intros p Hp; repeat (destruct Hp as [<- | Hp]; [try reflexivity|]); try easy]|]); try easy.
  all: try (rewrite (HS eq_refl); reflexivity).
  all: try (match goal with H0 : named ?b ?n = ?s |- _ => revert H0; apply named_other; intros t Ht; destruct t; discriminate end).
  all: match goal with H0 : named _ ?x = named _ ?x |- _ => revert H0; unfold named; destruct (String.eqb x ""); discriminate end.
Qed.
Lemma registry_forwards ov : In ov overloads -> ov = ov_Force \/ ov = ov_CurlCurl \/ ov_marked ov = true.
Proof. simpl. intros H. repeat (destruct H as [<- | H]; [first [now left | now (right; left) | now (right; right)]|]). easy. Qed.
