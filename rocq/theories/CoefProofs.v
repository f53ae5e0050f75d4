(** Specification predicates and lemmas for coefficients. *)
From Coq Require Import Reals ZArith String List Bool Lra Lia Psatz.
From Coquelicot Require Import Coquelicot.
From Verif Require Import Vec Coef MmsProofs.
Import ListNotations.
Local Open Scope R_scope.

(** ---- specification ---- *)
(** coordinate k of the mesh nodes moved to x *)
Definition upd (X : vec) (k : nat) (x : R) : vec := fun i => if Nat.eqb i k then x else X i.
(** a coefficient's derivative methods are the derivatives of its value method *)
Definition good1 (c : coef) : Prop :=
  match c with
  | One ev d dd _ => forall X s, is_derive (ev X) s (d X s) /\ is_derive (d X) s (dd X s)
  | _ => True
  end.
Definition good2 (c : coef) : Prop :=
  match c with
  | Two ev d dd _ => forall X s t,
      is_derive (fun s => ev X s t) s (d 0%nat X s t) /\ is_derive (fun t => ev X s t) t (d 1%nat X s t) /\
      forall i, is_derive (fun s => d i X s t) s (dd i 0%nat X s t) /\ is_derive (fun t => d i X s t) t (dd i 1%nat X s t)
  | _ => True
  end.
Definition good3 (c : coef) : Prop :=
  match c with
  | Three ev d dd _ => forall X s t u,
      is_derive (fun s => ev X s t u) s (d 0%nat X s t u) /\ is_derive (fun t => ev X s t u) t (d 1%nat X s t u) /\
      is_derive (fun u => ev X s t u) u (d 2%nat X s t u) /\
      forall i, is_derive (fun s => d i X s t u) s (dd i 0%nat X s t u) /\
                is_derive (fun t => d i X s t u) t (dd i 1%nat X s t u) /\
                is_derive (fun u => d i X s t u) u (dd i 2%nat X s t u)
  | _ => True
  end.
(** reverse mode: Q_bar times the gradient of the value with respect to the mesh coordinates is added to PointMat_bar *)
Definition rev_right (val : vec -> R) (rev : R -> vec -> vec -> rev_out) : Prop :=
  forall Q X P, exists P', rev Q X P = Acc P' /\ forall k, is_derive (fun x => Q * val (upd X k x)) (X k) (P' k - P k).
Definition vrev_right (n : nat) (val : vec -> vec) (rev : vec -> vec -> vec -> rev_out) : Prop :=
  forall Vb X P, exists P', rev Vb X P = Acc P' /\
    forall k, is_derive (fun x => dot n Vb (val (upd X k x))) (X k) (P' k - P k).
(** the coefficient registered for an attribute: the map's, else the default's *)
Definition chosen (m : meshcoef) (attr : Z) (c : coef) : Prop :=
  In (attr, c) (material_map m) \/ ((forall c', ~ In (attr, c') (material_map m)) /\ default_coeff m = Some c).
Definition unregistered (m : meshcoef) (attr : Z) : Prop :=
  (forall c', ~ In (attr, c') (material_map m)) /\ default_coeff m = None.
Definition unique_keys {A} (l : list (Z * A)) : Prop := NoDup (map fst l).
(** a sequence of addCoefficient calls; None: mfem_error *)
Fixpoint add_calls {A} (m : list (Z * A)) (l : list (Z * A)) : option (list (Z * A)) :=
  match l with [] => Some m | (a, c) :: r => match addCoefficient m a c with Some m' => add_calls m' r | None => None end end.

(** ---- lookup ---- *)
Lemma mfind_in {A} k (m : list (Z * A)) c : mfind k m = Some c -> In (k, c) m.
Proof.
  induction m as [|[k' v] r IH]; cbn; [discriminate|].
  destruct (Z.eqb_spec k k') as [->|]; intros H; [injection H as <-; auto|right; auto].
Qed.
Lemma mfind_none {A} k (m : list (Z * A)) : mfind k m = None -> forall c, ~ In (k, c) m.
Proof.
  induction m as [|[k' v] r IH]; cbn; intros H c; [tauto|].
  destruct (Z.eqb_spec k k') as [->|E]; [discriminate|]. intros [[= -> ->]|Hi]; [congruence|exact (IH H c Hi)].
Qed.
Lemma in_mfind {A} k (m : list (Z * A)) c : unique_keys m -> In (k, c) m -> mfind k m = Some c.
Proof.
  unfold unique_keys. induction m as [|[k' v] r IH]; cbn; intros Hu Hi; [tauto|].
  inversion Hu as [|? ? Hn Hr]; subst. destruct Hi as [[= -> ->]|Hi]; [rewrite Z.eqb_refl; reflexivity|].
  destruct (Z.eqb_spec k k') as [->|]; [|auto]. exfalso. apply Hn. apply in_map_iff. exists (k', c). auto.
Qed.
Lemma none_mfind {A} k (m : list (Z * A)) : (forall c, ~ In (k, c) m) -> mfind k m = None.
Proof. intros H. destruct (mfind k m) eqn:E; [|reflexivity]. apply mfind_in in E. exfalso. exact (H _ E). Qed.

Lemma choose_chosen {B} m attr c (f : coef -> B) z :
  unique_keys (material_map m) -> chosen m attr c -> choose m attr f z = f c.
Proof.
  intros Hu [Hi|[Hn Hd]]; unfold choose; [rewrite (in_mfind _ _ _ Hu Hi); reflexivity|].
  rewrite (none_mfind _ _ Hn), Hd. reflexivity.
Qed.
Lemma choose_unreg {B} m attr (f : coef -> B) z : unregistered m attr -> choose m attr f z = z.
Proof. intros [Hn Hd]; unfold choose. rewrite (none_mfind _ _ Hn), Hd. reflexivity. Qed.
Lemma chosen_or m attr : unregistered m attr \/ exists c, chosen m attr c.
Proof.
  destruct (mfind attr (material_map m)) eqn:E.
  - right. exists c. left. apply mfind_in; exact E.
  - pose proof (mfind_none _ _ E) as Hn. destruct (default_coeff m) eqn:D.
    + right. exists c. right. split; assumption.
    + left. split; assumption.
Qed.

Lemma add_calls_app {A} (l m m' : list (Z * A)) : add_calls m l = Some m' -> m' = m ++ l.
Proof.
  revert m; induction l as [|[a c] r IH]; cbn; intros m H; [injection H as <-; rewrite app_nil_r; reflexivity|].
  unfold addCoefficient in H. destruct (mfind a m); [discriminate|]. apply IH in H. rewrite H, <- app_assoc. reflexivity.
Qed.
Lemma add_calls_ok {A} (l m : list (Z * A)) : unique_keys m ->
  (exists m', add_calls m l = Some m') <-> unique_keys (m ++ l).
Proof.
  revert m; induction l as [|[a c] r IH]; cbn; intros m Hu.
  - rewrite app_nil_r. split; [auto|eauto].
  - unfold addCoefficient. destruct (mfind a m) eqn:E.
    + split; [intros [? H]; discriminate|]. intros H. exfalso. unfold unique_keys in H. rewrite map_app in H. cbn in H.
      apply NoDup_remove_2 in H. apply H. apply in_or_app. left. apply in_map_iff. exists (a, a0).
      split; [reflexivity|apply mfind_in; exact E].
    + assert (Hm : unique_keys (m ++ [(a, c)])).
      { unfold unique_keys. rewrite map_app. cbn. apply NoDup_rev in Hu. rewrite <- (rev_involutive (map fst m ++ [a])).
        apply NoDup_rev. rewrite rev_app_distr. cbn. constructor; [|exact Hu].
        rewrite <- in_rev. intros Hi. apply in_map_iff in Hi. destruct Hi as [[a' c'] [Ha Hi]]. cbn in Ha; subst a'.
        exact (mfind_none _ _ E _ Hi). }
      rewrite (IH _ Hm), <- app_assoc. reflexivity.
Qed.

(** ---- derivatives ---- *)
Ltac req := match goal with |- ?a = ?b => change (@eq R a b) end.
Ltac conj_split := repeat match goal with |- _ /\ _ => split | |- forall _, _ => intro end.
Ltac by_choice m attr :=
  let c := fresh "c" in let Hc := fresh "Hc" in
  destruct (chosen_or m attr) as [Hc|[c Hc]];
  [ repeat (rewrite (choose_unreg m attr) by exact Hc) | repeat (rewrite (choose_chosen m attr c) by assumption) ].

Lemma choose_fun {B C} m attr (f : coef -> B) z (g : B -> C) : g (choose m attr f z) = choose m attr (fun c => g (f c)) (g z).
Proof. unfold choose. destruct (mfind attr (material_map m)); [reflexivity|]. destruct (default_coeff m); reflexivity. Qed.

Lemma Eval3_chosen m attr c X s : unique_keys (material_map m) -> chosen m attr c ->
  Eval3 m attr X s = match c with One ev _ _ _ => ev X s | _ => eval0 c X end.
Proof. intros; unfold Eval3; rewrite (choose_chosen m attr c) by assumption; reflexivity. Qed.

Lemma is_derive_const0 (v s : R) : is_derive (fun _ : R => v) s 0.
Proof. exact (is_derive_const (v : R_NormedModule) (s : R_AbsRing)). Qed.

Lemma mesh_good1 m attr : unique_keys (material_map m) -> (forall c, chosen m attr c -> good1 c) ->
  forall X s, is_derive (Eval3 m attr X) s (EvalStateDeriv m attr X s) /\
              is_derive (EvalStateDeriv m attr X) s (EvalState2ndDeriv m attr X s).
Proof.
  intros Hu Hg X s.
  assert (Hc : match mfind attr (material_map m) with Some c => good1 c
               | None => match default_coeff m with Some c => good1 c | None => True end end).
  { destruct (mfind attr (material_map m)) eqn:E; [apply Hg; left; apply mfind_in; exact E|].
    destruct (default_coeff m) eqn:D; [|exact I]. apply Hg. right. split; [apply mfind_none; exact E|exact D]. }
  clear Hu Hg. unfold Eval3, EvalStateDeriv, EvalState2ndDeriv, choose.
  destruct (mfind attr (material_map m)) as [c|]; [|destruct (default_coeff m) as [c|]];
    [destruct c; cbn [good1] in Hc|destruct c; cbn [good1] in Hc|];
    first [ exact (Hc X s) | conj_split; apply is_derive_const0 ].
Qed.

Lemma mesh_good2 m attr : unique_keys (material_map m) -> (forall c, chosen m attr c -> good2 c) ->
  forall X s t,
    is_derive (fun s => TwoEval m attr X s t) s (TwoDeriv 0 m attr X s t) /\
    is_derive (fun t => TwoEval m attr X s t) t (TwoDeriv 1 m attr X s t) /\
    forall i, is_derive (fun s => TwoDeriv i m attr X s t) s (Two2ndDeriv i 0 m attr X s t) /\
              is_derive (fun t => TwoDeriv i m attr X s t) t (Two2ndDeriv i 1 m attr X s t).
Proof.
  intros Hu Hg X s t.
  assert (Hc : match mfind attr (material_map m) with Some c => good2 c
               | None => match default_coeff m with Some c => good2 c | None => True end end).
  { destruct (mfind attr (material_map m)) eqn:E; [apply Hg; left; apply mfind_in; exact E|].
    destruct (default_coeff m) eqn:D; [|exact I]. apply Hg. right. split; [apply mfind_none; exact E|exact D]. }
  clear Hu Hg. unfold TwoEval, TwoDeriv, Two2ndDeriv, choose.
  destruct (mfind attr (material_map m)) as [c|]; [|destruct (default_coeff m) as [c|]];
    [destruct c; cbn [good2] in Hc|destruct c; cbn [good2] in Hc|];
    first [ exact (Hc X s t) | conj_split; apply is_derive_const0 ].
Qed.

Lemma mesh_good3 m attr : unique_keys (material_map m) -> (forall c, chosen m attr c -> good3 c) ->
  forall X s t u,
    is_derive (fun s => ThreeEval m attr X s t u) s (ThreeDeriv 0 m attr X s t u) /\
    is_derive (fun t => ThreeEval m attr X s t u) t (ThreeDeriv 1 m attr X s t u) /\
    is_derive (fun u => ThreeEval m attr X s t u) u (ThreeDeriv 2 m attr X s t u) /\
    forall i, is_derive (fun s => ThreeDeriv i m attr X s t u) s (Three2ndDeriv i 0 m attr X s t u) /\
              is_derive (fun t => ThreeDeriv i m attr X s t u) t (Three2ndDeriv i 1 m attr X s t u) /\
              is_derive (fun u => ThreeDeriv i m attr X s t u) u (Three2ndDeriv i 2 m attr X s t u).
Proof.
  intros Hu Hg X s t u.
  assert (Hc : match mfind attr (material_map m) with Some c => good3 c
               | None => match default_coeff m with Some c => good3 c | None => True end end).
  { destruct (mfind attr (material_map m)) eqn:E; [apply Hg; left; apply mfind_in; exact E|].
    destruct (default_coeff m) eqn:D; [|exact I]. apply Hg. right. split; [apply mfind_none; exact E|exact D]. }
  clear Hu Hg. unfold ThreeEval, ThreeDeriv, Three2ndDeriv, choose.
  destruct (mfind attr (material_map m)) as [c|]; [|destruct (default_coeff m) as [c|]];
    [destruct c; cbn [good3] in Hc|destruct c; cbn [good3] in Hc|];
    first [ exact (Hc X s t u) | conj_split; apply is_derive_const0 ].
Qed.

(** ---- reverse mode ---- *)
Lemma mesh_rev m attr s : unique_keys (material_map m) ->
  (forall c, chosen m attr c -> rev_right (fun X => seval c X s) (fun Q X P => srev c Q X s P)) ->
  rev_right (fun X => Eval3 m attr X s) (fun Q X P => EvalRevDiff5 m attr Q X s P).
Proof.
  intros Hu Hg Q X P. unfold EvalRevDiff5.
  destruct (chosen_or m attr) as [Hc|[c Hc]].
  - rewrite choose_unreg by exact Hc. exists P. split; [reflexivity|]. intros k.
    replace (P k - P k) with 0 by ring. eapply is_derive_ext; [|apply is_derive_const0 with (v := Q * 0)].
    intros t; cbv beta. unfold Eval3. rewrite choose_unreg by exact Hc. reflexivity.
  - rewrite (choose_chosen m attr c) by assumption. destruct (Hg c Hc Q X P) as (P' & HP & HD).
    exists P'. split; [destruct c; exact HP|]. intros k. specialize (HD k).
    eapply is_derive_ext; [|exact HD]. intros t; cbv beta. unfold Eval3. rewrite (choose_chosen m attr c) by assumption.
    destruct c; reflexivity.
Qed.
Lemma mesh_rev4 m attr : unique_keys (material_map m) ->
  (forall c, chosen m attr c -> rev_right (fun X => eval0 c X) (fun Q X P => rev0 c Q X P)) ->
  rev_right (fun X => Eval2 m attr X) (fun Q X P => EvalRevDiff4 m attr Q X P).
Proof.
  intros Hu Hg Q X P. unfold EvalRevDiff4.
  destruct (chosen_or m attr) as [Hc|[c Hc]].
  - rewrite choose_unreg by exact Hc. exists P. split; [reflexivity|]. intros k.
    replace (P k - P k) with 0 by ring. eapply is_derive_ext; [|apply is_derive_const0 with (v := Q * 0)].
    intros t; cbv beta. unfold Eval2. rewrite choose_unreg by exact Hc. reflexivity.
  - rewrite (choose_chosen m attr c) by assumption. destruct (Hg c Hc Q X P) as (P' & HP & HD).
    exists P'. split; [exact HP|]. intros k. specialize (HD k).
    eapply is_derive_ext; [|exact HD]. intros t; cbv beta. unfold Eval2. rewrite (choose_chosen m attr c) by assumption.
    reflexivity.
Qed.

(** ---- product ---- *)
Lemma dot_scal n a u v : dot n (fun k => 0 + a * u k) v = a * dot n u v.
Proof. unfold dot. rewrite <- rsum_scal. apply rsum_ext; intros; ring. Qed.
Lemma dot_prod n u v a : dot n u (fun k => v k * a) = dot n u v * a.
Proof. unfold dot. rewrite <- rsum_scal_r. apply rsum_ext; intros; ring. Qed.

Lemma upd_same X k : forall i, upd X k (X k) i = X i.
Proof. intros i; unfold upd. destruct (Nat.eqb_spec i k) as [->|]; reflexivity. Qed.

Lemma prod_rev n a b s :
  (forall X Y, (forall i, X i = Y i) -> seval a X s = seval a Y s) ->
  (forall X Y, (forall i, X i = Y i) -> forall k, veval b X s k = veval b Y s k) ->
  rev_right (fun X => seval a X s) (fun Q X P => srev a Q X s P) ->
  vrev_right n (fun X => veval b X s) (fun Vb X P => vrev b Vb X s P) ->
  vrev_right n (fun X => ProdEval a b X s) (fun Vb X P => ProdRev n a b Vb X s P).
Proof.
  intros Ea Eb Ha Hb Vb X P. unfold ProdRev.
  destruct (Hb (fun k => 0 + seval a X s * Vb k) X P) as (P1 & HP1 & HD1). rewrite HP1.
  destruct (Ha (dot n Vb (veval b X s)) X P1) as (P2 & HP2 & HD2). exists P2. split; [exact HP2|]. intros k.
  destruct (Ha 1 X P) as (Pa & _ & Da). destruct (Hb Vb X P) as (Pb & _ & Db).
  specialize (HD1 k); specialize (HD2 k); specialize (Da k); specialize (Db k).
  set (g := Pb k - P k) in *. set (f' := Pa k - P k) in *.
  assert (E1 : P1 k - P k = seval a X s * g).
  { eapply is_derive_unique in HD1. rewrite <- HD1. apply is_derive_unique.
    eapply is_derive_ext; [|exact (D_scal (seval a X s) (fun x => dot n Vb (veval b (upd X k x) s)) (X k) g Db)].
    intros t; cbv beta. rewrite dot_scal. reflexivity. }
  assert (E2 : P2 k - P1 k = dot n Vb (veval b X s) * f').
  { eapply is_derive_unique in HD2. rewrite <- HD2. apply is_derive_unique.
    eapply is_derive_ext; [|exact (D_scal (dot n Vb (veval b X s)) _ (X k) f' Da)].
    intros t; cbv beta. req. ring. }
  replace (P2 k - P k) with (g * seval a X s + dot n Vb (veval b X s) * f') by lra.
  pose proof (D_mult _ _ (X k) g f' Db Da) as D. cbv beta in D.
  replace (1 * seval a (upd X k (X k)) s) with (seval a X s) in D by (rewrite (Ea (upd X k (X k)) X (upd_same X k)); ring).
  replace (dot n Vb (veval b (upd X k (X k)) s)) with (dot n Vb (veval b X s)) in D
    by (unfold dot; apply rsum_ext; intros; rewrite (Eb (upd X k (X k)) X (upd_same X k)); ring).
  eapply is_derive_ext; [|exact D]. intros t; cbv beta. unfold ProdEval. rewrite dot_prod. req. ring.
Qed.
