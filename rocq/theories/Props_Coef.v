(** C59 (coefficients by element attribute) and C60 (material tables and mixtures). *)
From Coq Require Import Reals ZArith String List Bool Lra Lia Psatz.
From Coquelicot Require Import Coquelicot.
From Verif Require Import Vec Inputs Coef CoefMix CoefProofs CoefMixProofs MmsProofs.
Import ListNotations.
Local Open Scope R_scope.

(** C59: any sequence of addCoefficient calls either registers exactly the pairs given, or aborts; it aborts exactly
    when an attribute is given twice. *)
Theorem C59_registration : forall (calls : list (Z * coef)),
  ((exists m, add_calls [] calls = Some m) <-> NoDup (map fst calls)) /\
  (forall m, add_calls [] calls = Some m -> unique_keys m /\ forall a c, In (a, c) m <-> In (a, c) calls).
Proof.
  intros calls. split.
  - apply (add_calls_ok calls []). constructor.
  - intros m H. pose proof (add_calls_app _ _ _ H) as E. cbn in E. subst m. split; [|tauto].
    apply (add_calls_ok calls []); [constructor|eauto].
Qed.
Print Assumptions C59_registration.

(** C59: value.  On an element of attribute a the coefficient registered for a is evaluated, with the state if it is a
    state coefficient; else the default one; else 0. *)
Theorem C59_value : forall m attr X, unique_keys (material_map m) ->
  (forall c, chosen m attr c -> Eval2 m attr X = eval0 c X) /\
  (forall ev d dd r s, chosen m attr (One ev d dd r) -> Eval3 m attr X s = ev X s) /\
  (forall ev r s, chosen m attr (Plain ev r) -> Eval3 m attr X s = ev X) /\
  (forall ev d dd r s t, chosen m attr (Two ev d dd r) -> TwoEval m attr X s t = ev X s t) /\
  (forall ev r s t, chosen m attr (Plain ev r) -> TwoEval m attr X s t = ev X) /\
  (forall ev d dd r s t u, chosen m attr (Three ev d dd r) -> ThreeEval m attr X s t u = ev X s t u) /\
  (forall ev r s t u, chosen m attr (Plain ev r) -> ThreeEval m attr X s t u = ev X) /\
  (unregistered m attr -> forall s t u, Eval2 m attr X = 0 /\ Eval3 m attr X s = 0 /\ TwoEval m attr X s t = 0 /\ ThreeEval m attr X s t u = 0).
Proof.
  intros m attr X Hu. unfold Eval2, Eval3, TwoEval, ThreeEval.
  repeat split; intros; try (rewrite (choose_unreg m attr) by assumption; reflexivity);
    try (rewrite (choose_chosen m attr _ _ _ Hu ltac:(eassumption)); reflexivity).
Qed.
Print Assumptions C59_value.

(** C59: derivatives.  If the derivative methods of the registered coefficient are the derivatives of its value, so are the
    derivative methods of the mesh-dependent coefficient (also when the registered coefficient has no state, or when
    nothing is registered). *)
Theorem C59_derivative : forall m attr, unique_keys (material_map m) -> (forall c, chosen m attr c -> good1 c) ->
  forall X s, is_derive (Eval3 m attr X) s (EvalStateDeriv m attr X s) /\
              is_derive (EvalStateDeriv m attr X) s (EvalState2ndDeriv m attr X s).
Proof. exact mesh_good1. Qed.
Print Assumptions C59_derivative.
Theorem C59_derivative_two : forall m attr, unique_keys (material_map m) -> (forall c, chosen m attr c -> good2 c) ->
  forall X s t,
    is_derive (fun s => TwoEval m attr X s t) s (TwoDeriv 0 m attr X s t) /\
    is_derive (fun t => TwoEval m attr X s t) t (TwoDeriv 1 m attr X s t) /\
    forall i, is_derive (fun s => TwoDeriv i m attr X s t) s (Two2ndDeriv i 0 m attr X s t) /\
              is_derive (fun t => TwoDeriv i m attr X s t) t (Two2ndDeriv i 1 m attr X s t).
Proof. exact mesh_good2. Qed.
Print Assumptions C59_derivative_two.
Theorem C59_derivative_three : forall m attr, unique_keys (material_map m) -> (forall c, chosen m attr c -> good3 c) ->
  forall X s t u,
    is_derive (fun s => ThreeEval m attr X s t u) s (ThreeDeriv 0 m attr X s t u) /\
    is_derive (fun t => ThreeEval m attr X s t u) t (ThreeDeriv 1 m attr X s t u) /\
    is_derive (fun u => ThreeEval m attr X s t u) u (ThreeDeriv 2 m attr X s t u) /\
    forall i, is_derive (fun s => ThreeDeriv i m attr X s t u) s (Three2ndDeriv i 0 m attr X s t u) /\
              is_derive (fun t => ThreeDeriv i m attr X s t u) t (Three2ndDeriv i 1 m attr X s t u) /\
              is_derive (fun u => ThreeDeriv i m attr X s t u) u (Three2ndDeriv i 2 m attr X s t u).
Proof. exact mesh_good3. Qed.
Print Assumptions C59_derivative_three.

(** C59: reverse mode, with and without a state. *)
Theorem C59_reverse : forall m attr s, unique_keys (material_map m) ->
  ((forall c, chosen m attr c -> rev_right (fun X => seval c X s) (fun Q X P => srev c Q X s P)) ->
   rev_right (fun X => Eval3 m attr X s) (fun Q X P => EvalRevDiff5 m attr Q X s P)) /\
  ((forall c, chosen m attr c -> rev_right (fun X => eval0 c X) (fun Q X P => rev0 c Q X P)) ->
   rev_right (fun X => Eval2 m attr X) (fun Q X P => EvalRevDiff4 m attr Q X P)).
Proof. intros m attr s Hu. split; [apply mesh_rev|apply mesh_rev4]; exact Hu. Qed.
Print Assumptions C59_reverse.

(** C59: nesting.  A mesh-dependent coefficient inside another one keeps its derivative property. *)
Theorem C59_nested : forall inner attr, unique_keys (material_map inner) -> (forall c, chosen inner attr c -> good1 c) ->
  good1 (mesh_as_coef inner attr).
Proof. intros inner attr Hu Hg X s. exact (mesh_good1 inner attr Hu Hg X s). Qed.
Print Assumptions C59_nested.

(** C59: scalar times vector: value, product rule and reverse pass. *)
Theorem C59_product : forall n a b,
  (forall X s k, ProdEval a b X s k = seval a X s * veval b X s k) /\
  (forall X s k, is_derive (fun s => seval a X s) s (match a with One _ d _ _ => d X s | _ => 0 end) ->
      is_derive (fun s => veval b X s k) s (vderiv b X s k) ->
      is_derive (fun s => ProdEval a b X s k) s (ProdDeriv a b X s k)) /\
  (forall s, (forall X Y, (forall i, X i = Y i) -> seval a X s = seval a Y s) ->
      (forall X Y, (forall i, X i = Y i) -> forall k, veval b X s k = veval b Y s k) ->
      rev_right (fun X => seval a X s) (fun Q X P => srev a Q X s P) ->
      vrev_right n (fun X => veval b X s) (fun Vb X P => vrev b Vb X s P) ->
      vrev_right n (fun X => ProdEval a b X s) (fun Vb X P => ProdRev n a b Vb X s P)).
Proof.
  intros n a b. split; [intros; unfold ProdEval; ring|split; [|apply prod_rev]].
  intros X s k Ha Hb. unfold ProdEval, ProdDeriv.
  eapply D_eq; [exact (D_mult _ _ s _ _ Hb Ha)|]. cbv beta zeta. req. destruct a; cbn; ring.
Qed.
Print Assumptions C59_product.

(** C59: vector coefficients by attribute: value, derivative and reverse pass of the registered one, else of the default,
    else zero. *)
Theorem C59_vector : forall m attr X s Vb P, unique_keys (vmap m) ->
  (forall b, In (attr, b) (vmap m) \/ ((forall b', ~ In (attr, b') (vmap m)) /\ vdefault m = Some b) ->
     VEval m attr X s = veval b X s /\ VDeriv m attr X s = vderiv b X s /\ VRev m attr Vb X s P = vrev b Vb X s P) /\
  ((forall b', ~ In (attr, b') (vmap m)) -> vdefault m = None ->
     (forall k, VEval m attr X s k = 0) /\ (forall k, VDeriv m attr X s k = 0) /\ VRev m attr Vb X s P = Acc P).
Proof.
  intros m attr X s Vb P Hu. unfold VEval, VDeriv, VRev, vchoose. split.
  - intros b [Hi|[Hn Hd]]; [rewrite (in_mfind _ _ _ Hu Hi)|rewrite (none_mfind _ _ Hn), Hd]; auto.
  - intros Hn Hd. rewrite (none_mfind _ _ Hn), Hd. auto.
Qed.
Print Assumptions C59_vector.

(** C59: a coefficient of another arity is accepted and silently frozen: evaluated with all its states 0, derivative 0. *)
Theorem C59_wrong_arity_refuted : exists m attr X, unique_keys (material_map m) /\
  (exists ev d dd r, chosen m attr (One ev d dd r) /\ (forall X s, is_derive (ev X) s (d X s)) /\
     forall s t, s <> 0 -> TwoEval m attr X s t <> ev X s /\ TwoDeriv 0 m attr X s t <> d X s).
Proof.
  set (c := One (fun _ s => s) (fun _ _ => 1) (fun _ _ => 0) (fun _ _ _ P => Acc P)).
  exists {| material_map := [(1%Z, c)]; default_coeff := None |}, 1%Z, (fun _ => 0).
  split; [repeat constructor; intros []|].
  exists (fun _ s => s), (fun _ _ => 1), (fun _ _ => 0), (fun _ _ _ P => Acc P). split; [left; left; reflexivity|]. split.
  - intros X s. apply (is_derive_id (s : R_AbsRing)).
  - intros s t Hs. cbn. split; lra.
Qed.
Print Assumptions C59_wrong_arity_refuted.

(** C59: parameter continuation: between the linear coefficient (lambda 0) and the nonlinear one (lambda 1), with the right
    state derivative ... *)
Theorem C59_continuation : forall lam lin ev d dd X s,
  let c := continuation lam lin ev d dd in
  seval c X s = eval0 lin X + lam * (ev X s - eval0 lin X) /\
  (lam = 0 -> seval c X s = eval0 lin X) /\ (lam = 1 -> seval c X s = ev X s) /\
  (is_derive (ev X) s (d X s) -> is_derive (fun s => seval c X s) s (match c with One _ d' _ _ => d' X s | _ => 0 end)).
Proof.
  intros lam lin ev d dd X s c. cbn. split; [ring|]. split; [intros ->; ring|]. split; [intros ->; ring|].
  intros Hd. eapply D_eq; [exact (D_plus _ _ s _ _ (D_const ((1 - lam) * eval0 lin X) s) (D_scal lam _ s _ Hd))|]. req. ring.
Qed.
Print Assumptions C59_continuation.
(** ... but the second derivative is 0 whatever the nonlinear coefficient's is, and the reverse pass aborts. *)
Theorem C59_continuation_second_refuted : forall lin P X s Q, exists ev d dd lam,
  (forall X s, is_derive (ev X) s (d X s) /\ is_derive (d X) s (dd X s)) /\
  let m := {| material_map := [(1%Z, continuation lam lin ev d dd)]; default_coeff := None |} in
  ~ is_derive (EvalStateDeriv m 1%Z X) s (EvalState2ndDeriv m 1%Z X s) /\
  EvalRevDiff5 m 1%Z Q X s P = Abort.
Proof.
  intros lin P X s Q. exists (fun _ s => s * s), (fun _ s => 2 * s), (fun _ _ => 2), 1. split; [|split].
  - intros X0 s0. split; auto_derive; trivial; ring.
  - intros H. cbn in H. apply is_derive_unique in H.
    assert (H2 : Derive (fun s : R => 1 * (2 * s)) s = 2) by (apply is_derive_unique; auto_derive; trivial; ring).
    assert (H3 : Derive (fun s : R => 1 * (2 * s)) s = 0) by exact H. lra.
  - reflexivity.
Qed.
Print Assumptions C59_continuation_second_refuted.

(** ---- C60 ---- *)
(** the Hashin-Shtrikman and the averaged mixture of two positive values lie between them, for every weight in [0,1] and
    in either order of listing; the weight is the fraction of the larger value *)
Theorem C60_mixture_value : forall v1 v2 by_ w, 0 < v1 -> 0 < v2 -> 0 <= w <= 1 ->
  let hs := mixval (with_weight (mkmix HS v1 v2 by_) w) in let avg := mixval (with_weight (mkmix Avg v1 v2 by_) w) in
  Rmin v1 v2 <= hs <= avg /\ avg <= Rmax v1 v2 /\
  avg = w * Rmax v1 v2 + (1 - w) * Rmin v1 v2 /\
  hs = hs_spec (Rmax v1 v2) (Rmin v1 v2) w /\
  (w = 0 -> hs = Rmin v1 v2 /\ avg = Rmin v1 v2) /\ (w = 1 -> hs = Rmax v1 v2 /\ avg = Rmax v1 v2) /\
  mixval (with_weight (mkmix HS v2 v1 by_) w) = hs /\ mixval (with_weight (mkmix Avg v2 v1 by_) w) = avg.
Proof.
  intros v1 v2 by_ w H1 H2 Hw hs avg.
  destruct (mkmix_sorted HS v1 v2 by_) as [Ea Eb]. destruct (mkmix_sorted Avg v1 v2 by_) as [Ec Ed].
  destruct (mkmix_sorted HS v2 v1 by_) as [Ea' Eb']. destruct (mkmix_sorted Avg v2 v1 by_) as [Ec' Ed'].
  assert (Hhs : hs = hs_spec (Rmax v1 v2) (Rmin v1 v2) w) by (subst hs; unfold mixval, with_weight, hs_spec; cbn [mkind val1 val2 weight mkmix]; rewrite <- Ea, <- Eb; reflexivity).
  assert (Havg : avg = w * Rmax v1 v2 + (1 - w) * Rmin v1 v2) by (subst avg; unfold mixval, with_weight; cbn [mkind val1 val2 weight mkmix]; rewrite <- Ec, <- Ed; reflexivity).
  assert (Hmm : 0 < Rmin v1 v2 <= Rmax v1 v2).
  { split; [apply Rmin_glb_lt; assumption|]. apply Rle_trans with v1; [apply Rmin_l|apply Rmax_l]. }
  destruct (hs_bounds _ _ w Hmm Hw) as [B1 B2]. rewrite <- Hhs, <- Havg in B1. rewrite <- Havg in B2.
  split; [exact B1|]. split; [exact B2|]. split; [exact Havg|]. split; [exact Hhs|].
  split; [|split; [|split]].
  - intros ->. rewrite Hhs, Havg. unfold hs_spec. split; field; lra.
  - intros ->. rewrite Hhs, Havg. unfold hs_spec. split; field; lra.
  - rewrite Hhs. unfold mixval, with_weight, hs_spec; cbn [mkind val1 val2 weight mkmix]. cbn [val1 val2 mkmix] in Ea', Eb'.
    rewrite Ea', Eb', (Rmax_comm v2 v1), (Rmin_comm v2 v1). reflexivity.
  - rewrite Havg. unfold mixval, with_weight; cbn [mkind val1 val2 weight mkmix]. cbn [val1 val2 mkmix] in Ec', Ed'.
    rewrite Ec', Ed', (Rmax_comm v2 v1), (Rmin_comm v2 v1). reflexivity.
Qed.
Print Assumptions C60_mixture_value.
Example C60_mixture_example : mixval (with_weight (mkmix HS 1 3 "fill") (1 / 2)) = 5 / 3.
Proof. unfold mixval, with_weight, mkmix; cbn. destruct (Rlt_dec 3 1); lra. Qed.

(** the "d" variants are the derivatives with respect to the weight *)
Theorem C60_mixture_derivative : forall v1 v2 by_ w, 0 < v1 -> 0 < v2 -> 0 <= w <= 1 ->
  is_derive (fun w => mixval (with_weight (mkmix HS v1 v2 by_) w)) w (mixval (with_weight (mkmix dHS v1 v2 by_) w)) /\
  is_derive (fun w => mixval (with_weight (mkmix Avg v1 v2 by_) w)) w (mixval (with_weight (mkmix dAvg v1 v2 by_) w)).
Proof.
  intros v1 v2 by_ w H1 H2 Hw. split.
  - apply (hs_derive (mkmix HS v1 v2 by_) w). unfold mkmix; cbn. destruct (Rlt_dec v2 v1); nra.
  - apply (avg_derive (mkmix Avg v1 v2 by_) w).
Qed.
Print Assumptions C60_mixture_derivative.

(** the weight used is the last one supplied under the name, 1/2 before the first; constants never change; every mixture of
    the table is updated *)
Theorem C60_weight_history : forall h t t' a X s, unique_keys t -> table_history h t = Ok t' ->
  (forall v, In (a, Const v) t -> Eval3 (table_mesh t') a X s = v) /\
  (forall k v1 v2 by_, In (a, Mix (mkmix k v1 v2 by_)) t ->
     Eval3 (table_mesh t') a X s = mixval (with_weight (mkmix k v1 v2 by_) (last_weight by_ h (1 / 2)))).
Proof.
  intros h t t' a X s Hu H. apply table_history_ok in H.
  assert (Hu' : unique_keys t') by (subst t'; unfold unique_keys; rewrite map_map; exact Hu).
  split.
  - intros v Hi. rewrite (table_eval t' a (rew h (Const v)) X s Hu'); [reflexivity|].
    subst t'. apply in_map_iff. exists (a, Const v). split; [reflexivity|exact Hi].
  - intros k v1 v2 by_ Hi. rewrite (table_eval t' a (rew h (Mix (mkmix k v1 v2 by_))) X s Hu'); [reflexivity|].
    subst t'. apply in_map_iff. exists (a, Mix (mkmix k v1 v2 by_)). split; [reflexivity|exact Hi].
Qed.
Print Assumptions C60_weight_history.
Example C60_weight_history_example :
  table_history [[("fill", Scalar (1 / 4))]; [("other", Scalar 7)]]%string [(3%Z, Mix (mkmix Avg 1 3 "fill"))]
  = Ok [(3%Z, Mix (with_weight (mkmix Avg 1 3 "fill") (1 / 4)))].
Proof. reflexivity. Qed.

(** a table that is built: an attribute listed by a component gets the value its material gives; an attribute no
    contributing component lists gets 0 *)
Theorem C60_table : forall name cs ms d t, constructMaterialCoefficient name cs ms d = Built t ->
  forall a X s,
  (forall c m v, In c cs -> lists_attr c a -> sfind (cmaterial c) ms = Some m -> sfind name m = Some (PNum v) ->
     Eval3 (table_mesh t) a X s = v) /\
  (forall c m l wby wt k v0 v1 vs, In c cs -> lists_attr c a -> sfind (cmaterial c) ms = Some m ->
     sfind name m = Some (PObj (Some l) wby wt) -> kind_of wt = Some k -> comp_vals ms name l = Built (v0 :: v1 :: vs) ->
     Eval3 (table_mesh t) a X s = mixval (mkmix k v0 v1 wby)) /\
  ((forall c m, In c cs -> lists_attr c a -> sfind (cmaterial c) ms = Some m -> sfind name m = None) ->
     Eval3 (table_mesh t) a X s = 0).
Proof.
  intros name cs ms d t H a X s. unfold constructMaterialCoefficient in H.
  destruct (build1_spec name ms d cs [] t H) as [Hu Hin]; [constructor|]. split; [|split].
  - intros c m v Hc Ha Hm Hv. rewrite (table_eval t a (Const v) X s Hu); [reflexivity|].
    apply Hin. right. exists c. split; [exact Hc|]. split; [exact Ha|]. eapply c_const; eassumption.
  - intros c m l wby wt k v0 v1 vs Hc Ha Hm Hv Hk Hl. rewrite (table_eval t a (Mix (mkmix k v0 v1 wby)) X s Hu); [reflexivity|].
    apply Hin. right. exists c. split; [exact Hc|]. split; [exact Ha|]. eapply c_mix; eassumption.
  - intros Hn. apply table_eval_none. intros e He. apply Hin in He. destruct He as [[]|(c & Hc & Ha & He)].
    inversion He as [m v Hm Hv|m l wby wt k v0 v1 vs Hm Hv]; subst; rewrite (Hn c m Hc Ha Hm) in Hv; discriminate.
Qed.
Print Assumptions C60_table.
Example C60_table_example :
  constructMaterialCoefficient "kappa" [{| cmaterial := "steel"; cattr := Some 2%Z; cattrs := None |};
     {| cmaterial := "winding"; cattr := None; cattrs := Some [5; 6]%Z |}]
     [("steel", [("kappa", PNum 30)]); ("copper", [("kappa", PNum 400)]); ("resin", [("kappa", PNum 1)]);
      ("winding", [("kappa", PObj (Some ["copper"; "resin"]) "fill_factor" "Hashin-Shtrikman")])]%string 7
  = Built [(2%Z, Const 30); (5%Z, Mix (mkmix HS 400 1 "fill_factor")); (6%Z, Mix (mkmix HS 400 1 "fill_factor"))].
Proof. reflexivity. Qed.

(** the two- and three-state builders: the material's number (for ks, alpha, beta the one of core_loss.steinmetz), or the
    default when it is missing *)
Theorem C60_table_state : forall name cs ms d t, constructMaterialStateCoefficient name cs ms d = Built t ->
  forall a X s1 s2 s3 c v, In c cs -> lists_attr c a -> contrib2 name ms d c v ->
  TwoEval (table_mesh t) a X s1 s2 = v /\ ThreeEval (table_mesh t) a X s1 s2 s3 = v.
Proof.
  intros name cs ms d t H a X s1 s2 s3 c v Hc Ha Hv. unfold constructMaterialStateCoefficient in H.
  destruct (build2_spec name ms d cs [] t H) as [Hu Hin]; [constructor|].
  assert (Hi : In (a, Const v) t) by (apply Hin; right; exists c, v; auto).
  assert (Hch : chosen (table_mesh t) a (entry_coef (Const v))).
  { left. cbn. apply in_map_iff. exists (a, Const v). split; [reflexivity|exact Hi]. }
  unfold TwoEval, ThreeEval. rewrite !(choose_chosen _ a _ _ _ (table_mesh_keys t Hu) Hch). split; reflexivity.
Qed.
Print Assumptions C60_table_state.
Example C60_table_state_example :
  constructMaterialStateCoefficient "ks" [{| cmaterial := "steel"; cattr := Some 2%Z; cattrs := None |}]
    [("steel", {| props := [("ks", PNum 1)]; steinmetz := Some [("ks", PNum (1 / 10))] |})]%string 0
  = Built [(2%Z, Const (1 / 10))].
Proof. reflexivity. Qed.

(** "the default value is used when the material does not give the property" fails for constructMaterialCoefficient: its
    default argument has no effect whatsoever, the coefficient is 0 there *)
Theorem C60_default_refuted :
  (forall name cs ms d d', constructMaterialCoefficient name cs ms d = constructMaterialCoefficient name cs ms d') /\
  exists cs ms t, constructMaterialCoefficient "rho" cs ms 1000 = Built t /\
    (exists c, In c cs /\ lists_attr c 1%Z) /\ forall X s, Eval3 (table_mesh t) 1%Z X s = 0.
Proof.
  split; [intros; apply build1_default|].
  exists [{| cmaterial := "steel"; cattr := Some 1%Z; cattrs := None |}]%string, [("steel", [("kappa", PNum 3)])]%string, [].
  split; [reflexivity|]. split; [|reflexivity].
  eexists. split; [left; reflexivity|]. reflexivity.
Qed.
Print Assumptions C60_default_refuted.

(** "an unknown mixing rule is reported" fails: it leaves the attributes without a coefficient, i.e. 0 *)
Theorem C60_unknown_rule_refuted : forall wt, kind_of wt = None ->
  exists cs ms t, constructMaterialCoefficient "kappa" cs ms 1 = Built t /\
    (exists c l wby m, In c cs /\ lists_attr c 1%Z /\ sfind (cmaterial c) ms = Some m /\ sfind "kappa" m = Some (PObj (Some l) wby wt)) /\
    forall X s, Eval3 (table_mesh t) 1%Z X s = 0.
Proof.
  intros wt Hk.
  exists [{| cmaterial := "w"; cattr := Some 1%Z; cattrs := None |}]%string,
    [("w", [("kappa", PObj (Some ["a"; "a"]) "f" wt)]); ("a", [("kappa", PNum 3)])]%string, [].
  split; [unfold constructMaterialCoefficient, build1, step1; cbn; rewrite Hk; reflexivity|]. split; [|reflexivity].
  eexists _, _, _, _. split; [left; reflexivity|]. cbn. repeat split; reflexivity.
Qed.
Print Assumptions C60_unknown_rule_refuted.
Example C60_unknown_rule_example : kind_of "harmonic" = None. Proof. reflexivity. Qed.

(** fewer than two composing materials: undefined behaviour (vals[1] past the end) for every rule *)
Theorem C60_single_material_refuted : forall wt k v, kind_of wt = Some k ->
  constructMaterialCoefficient "kappa" [{| cmaterial := "w"; cattr := Some 1%Z; cattrs := None |}]
    [("w", [("kappa", PObj (Some ["a"]) "f" wt)]); ("a", [("kappa", PNum v)])]%string 1 = Undefined.
Proof. intros wt k v Hk. unfold constructMaterialCoefficient, build1, step1; cbn. rewrite Hk. reflexivity. Qed.
Print Assumptions C60_single_material_refuted.

(** hypotheses of C59 are met: a quadratic state coefficient on attribute 1, default 7 elsewhere *)
Definition C59_ex : meshcoef :=
  {| material_map := [(1%Z, One (fun X s => X 0%nat * (s * s)) (fun X s => X 0%nat * (2 * s)) (fun X _ => X 0%nat * 2)
        (fun Q X s P => Acc (fun k => P k + if Nat.eqb k 0 then Q * (s * s) else 0)))];
     default_coeff := Some (Plain (fun _ => 7) (fun _ _ P => Acc P)) |}.
Example C59_example_hyps : unique_keys (material_map C59_ex) /\ (forall attr c, chosen C59_ex attr c -> good1 c) /\
  (forall attr s c, chosen C59_ex attr c -> rev_right (fun X => seval c X s) (fun Q X P => srev c Q X s P)).
Proof.
  assert (Hc : forall attr c, chosen C59_ex attr c -> c = snd (hd (0%Z, Plain (fun _ => 0) (fun _ _ P => Acc P)) (material_map C59_ex))
                 \/ c = Plain (fun _ => 7) (fun _ _ P => Acc P)).
  { intros attr c [[[= <- <-]|[]]|[_ [= <-]]]; [left|right]; reflexivity. }
  split; [repeat constructor; intros []|]. split.
  - intros attr c H. destruct (Hc attr c H) as [->| ->]; cbn; [|exact I].
    intros X s. split; auto_derive; trivial; ring.
  - intros attr s c H Q X P. destruct (Hc attr c H) as [->| ->]; cbn.
    + eexists; split; [reflexivity|]. intros k. cbv beta. unfold upd. destruct k as [|k]; cbn.
      * auto_derive; [trivial|]. ring.
      * apply D_eq with 0; [apply D_const|]. req. ring.
    + eexists; split; [reflexivity|]. intros k. apply D_eq with 0; [apply D_const|]. req. ring.
Qed.
Example C59_example_values : forall X s, Eval3 C59_ex 1 X s = X 0%nat * (s * s) /\ Eval3 C59_ex 2 X s = 7 /\
  EvalStateDeriv C59_ex 1 X s = X 0%nat * (2 * s) /\ EvalStateDeriv C59_ex 2 X s = 0.
Proof. intros; cbn. auto. Qed.
