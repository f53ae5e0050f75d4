(** C69 and C70: current density in the 2-D residual and in the 3-D load. *)
From Coq Require Import Reals String List Bool ZArith Lra Lia FunctionalExtensionality.
From Coquelicot Require Import Coquelicot.
From Verif Require Import Vec Inputs Coef CoefMix Form Current CurrentSpec CurrentProofs Direction.
Import ListNotations.
Local Open Scope R_scope.

(** C69: after any sequence of calls on a residual built from options o, the current density on an element is minus the
    source of its group times the last number given for that group (1 before any), and 0 where o lists no known source. *)
Theorem C69_value : forall (S : setup) (o : options) c0 (h : list rcall),
  construct known2d o = Ret c0 -> NoDup (map fst o) -> plain_names (map fst o) -> List.Forall (numbers_for (map fst o)) (pushed h) ->
  exists c, rruns S h (Some c0) = Ret (Some c) /\ forall (attr : Z) (x : vec),
    (forall g f, listed known2d o attr g f ->
       cd_Eval2D c attr x = - (last_given (append "current_density:" g) (pushed h) 1 * f x 0%nat)) /\
    ((forall g f, ~ listed known2d o attr g f) -> cd_Eval2D c attr x = 0).
Proof.
  intros S o c0 h Hc ND PN N. destruct (construct_keys _ _ _ ND Hc) as [C [CK [HG [HC HK]]]].
  destruct (construct_table _ _ _ Hc) as [HT Hin].
  assert (NX : forall l k, ~ extras known2d l k).
  { intros l k [s [a [f [e [_ [K I]]]]]]. unfold known2d in K.
    destruct (String.eqb s "z"); [injection K as <- <-; destruct I|].
    destruct (String.eqb s "-z"); [injection K as <- <-; destruct I|].
    destruct (String.eqb s "box1"); [injection K as <- <-; destruct I|].
    destruct (String.eqb s "box2"); [injection K as <- <-; destruct I|discriminate]. }
  assert (I1 : incl (names o) CK) by (intros k I; apply HK; now left).
  assert (I2 : incl CK (names o)). { intros k I. apply HK in I. destruct I as [I|[g [l [_ X]]]]; [exact I|now elim (NX l k)]. }
  destruct (rruns_inv S (names o) CK (table c0) I1 I2 PN Hin h c0 (fun _ => 1)) as [c [E I]].
  { split; [exact HG|]. split; [now exists C|reflexivity]. }
  { exact N. }
  exists c. split; [exact E|]. intros attr x. unfold cd_Eval2D. rewrite (Eval_inv _ _ _ _ _ attr x 0%nat I Hin).
  unfold evalJ. split.
  - intros g f L. apply HT in L. rewrite L. unfold cd_key. lra.
  - intros NL. destruct (mfind attr (table c0)) as [[g f]|] eqn:M; [|lra]. elim (NL g f). now apply HT.
Qed.
Print Assumptions C69_value.
(** C69: the sources of the two-dimensional residual are the four named ones, with these values; no other name is one. *)
Theorem C69_named_sources : forall s f, (exists e, known2d s = Some (f, e)) <->
  (s = "z"%string /\ f = (fun _ _ => 1)) \/ (s = "-z"%string /\ f = (fun _ _ => -1)) \/
  (s = "box1"%string /\ f = (fun (x : vec) _ => -6 * (x 1%nat - 1 / 2))) \/ (s = "box2"%string /\ f = (fun (x : vec) _ => 6 * (x 1%nat - 1 / 2))).
Proof.
  intros s f. unfold known2d. split.
  - intros [e K].
    destruct (String.eqb_spec s "z"); [injection K as <- <-; tauto|]. destruct (String.eqb_spec s "-z"); [injection K as <- <-; tauto|].
    destruct (String.eqb_spec s "box1"); [injection K as <- <-; tauto|]. destruct (String.eqb_spec s "box2"); [injection K as <- <-; tauto|discriminate].
  - intros [[-> ->]|[[-> ->]|[[-> ->]|[-> ->]]]]; eexists; reflexivity.
Qed.
Print Assumptions C69_named_sources.

Definition o_ex : options := [("a"%string, [("z"%string, [1; 2]%Z); ("junk"%string, [9]%Z)]); ("b"%string, [("box1"%string, [3]%Z)])].
Example C69_met : exists c0, construct known2d o_ex = Ret c0 /\ NoDup (map fst o_ex) /\ plain_names (map fst o_ex) /\
  listed known2d o_ex 2 "a" (fun _ _ => 1) /\
  List.Forall (numbers_for (map fst o_ex)) (pushed [RSetInputs [("current_density:a"%string, Scalar 5)]; RVjp "current_density:b" (fun _ => 0)]).
Proof.
  eexists. split; [reflexivity|]. split.
  { repeat constructor; cbn; intros H; [destruct H as [H|[]]; discriminate|exact H]. }
  split. { intros g [E|[E|[]]]; subst; reflexivity. }
  split. { exists [("z"%string, [1; 2]%Z); ("junk"%string, [9]%Z)], "z"%string, [1; 2]%Z, [].
    split; [now left|]. split; [now left|]. split; [right; now left|reflexivity]. }
  constructor; [|constructor]. intros g d s [E|[E|[]]]; subst; split; discriminate.
Qed.

(** C69: an attribute used twice stops the program when the residual is built. *)
Theorem C69_duplicate : forall K g s f e a rest more c,
  K s = Some (f, e) -> mfind a (table c) <> None -> add_sources K g ((s, a :: rest) :: more) c = Aborts.
Proof.
  intros K g s f e a rest more c Ks M. cbn [add_sources]. unfold add_source. cbn [fst snd]. rewrite Ks. cbn [add_attrs].
  unfold addCoefficient. destruct (mfind a (table c)); [reflexivity|now elim M].
Qed.
Print Assumptions C69_duplicate.
Example C69_duplicate_met : construct known2d [("a"%string, [("z"%string, [1]%Z)]); ("b"%string, [("-z"%string, [1]%Z)])] = Aborts.
Proof. reflexivity. Qed.

(** C69: with no magnets, both products with respect to "current_density:g" are made with the derivative of the residual
    in that number, and the coefficient is left with the currents it had. *)
Theorem C69_sensitivity_partial : forall (S : setup) (o : options) c0 (h : list rcall) (g0 : string),
  construct known2d o = Ret c0 -> NoDup (map fst o) -> plain_names (map fst o) -> List.Forall (numbers_for (map fst o)) (pushed h) ->
  (forall i, magnets S i = 0) ->
  exists c D, rruns S h (Some c0) = Ret (Some c) /\
    (forall N : vec, exists r : R -> vec,
       (forall t, exists v c', res_evaluate S [(append "current_density:" g0, Scalar t)] N (Some c) = Ret (v, c') /\ forall i, v i = r t i) /\
       (forall t i, is_derive (fun t => r t i) t (D i))) /\
    (forall wrt_dot res_dot, exists v c', res_jvp S (append "current_density:" g0) wrt_dot res_dot (Some c) = Ret (v, Some c') /\
       (forall i, v i = res_dot i + wrt_dot 0%nat * D i) /\ (forall a x, cd_Eval2D c' a x = cd_Eval2D c a x)) /\
    (forall res_bar, exists c', res_vjp S (append "current_density:" g0) res_bar (Some c) = Ret (dot (ndofs S) D res_bar, Some c') /\
       (forall a x, cd_Eval2D c' a x = cd_Eval2D c a x)).
Proof.
  intros S o c0 h g0 Hc ND PN N M0. destruct (construct_keys _ _ _ ND Hc) as [C [CK [HG [HC HK]]]].
  destruct (construct_table _ _ _ Hc) as [HT Hin].
  assert (NX : forall l k, ~ extras known2d l k).
  { intros l k [s [a [f [e [_ [K I]]]]]]. unfold known2d in K.
    destruct (String.eqb s "z"); [injection K as <- <-; destruct I|].
    destruct (String.eqb s "-z"); [injection K as <- <-; destruct I|].
    destruct (String.eqb s "box1"); [injection K as <- <-; destruct I|].
    destruct (String.eqb s "box2"); [injection K as <- <-; destruct I|discriminate]. }
  assert (I1 : incl (names o) CK) by (intros k I; apply HK; now left).
  assert (I2 : incl CK (names o)). { intros k I. apply HK in I. destruct I as [I|[g [l [_ X]]]]; [exact I|now elim (NX l k)]. }
  destruct (rruns_inv S (names o) CK (table c0) I1 I2 PN Hin h c0 (fun _ => 1)) as [c [E I]].
  { split; [exact HG|]. split; [now exists C|reflexivity]. }
  { exact N. }
  set (J := fun g => last_given (cd_key g) (pushed h) 1) in I. set (T := table c0) in *. set (G := names o) in *.
  set (mk := in_attrs (currentAttributes (opts S))).
  set (U := fun i => quad (points S) mk (fun a x => -1 * evalJ T (fun g => if String.eqb (cd_key g) (cd_key g0) then 1 else 0) a x 0%nat) i).
  exists c, (zero_at (edofs S) U). split; [exact E|].
  assert (Nw : ~ In (cd_key g0) G) by (apply not_prefix_not_in; [exact PN|apply cd_key_prefix]).
  assert (UL : exists v c', unit_load S (cd_key g0) (Some c) = Ret (v, Some c') /\ (forall i, v i = zero_at (edofs S) U i) /\
     (forall a x, cd_Eval2D c' a x = cd_Eval2D c a x)).
  { destruct (unit_load_inv S G CK T J c (cd_key g0) I I1 I2 Nw Hin) as [v [c' [E' [I' V]]]]. exists v, c'. split; [exact E'|].
    split. - intros i. rewrite V. apply zero_at_ext. rewrite M0, Rplus_0_r. reflexivity.
    - intros a x. unfold cd_Eval2D. rewrite (Eval_inv _ _ _ _ _ a x 0%nat I' Hin), (Eval_inv _ _ _ _ _ a x 0%nat I Hin). reflexivity. }
  split; [|split].
  - intros N0.
    exists (fun t i => N0 i + zero_at (edofs S) (fun i => t * U i + quad (points S) mk (fun a x => -1 * evalJ T (setJ J g0 0) a x 0%nat) i) i).
    split.
    + intros t. assert (NU : numeric G CK [(cd_key g0, Scalar t)]).
      { split; intros k _ d s; cbn [lookup]; [destruct (String.eqb (cd_key k) (cd_key g0))|destruct (String.eqb k (cd_key g0))]; discriminate. }
      destruct (setInputs_inv G CK T J c _ I NU) as [c' [b [E' [I' _]]]]. unfold res_evaluate, res_setInputs. change (append "current_density:" g0) with (cd_key g0).
      rewrite E'. cbn [rbind fst]. eexists _, _. split; [reflexivity|]. intros i. unfold addLoad2D. f_equal. apply zero_at_ext.
      rewrite M0, Rplus_0_r. unfold U. apply quad_lin. intros a x. unfold cd_Eval2D.
      rewrite (Eval_inv _ _ _ _ _ a x 0%nat I' Hin).
      assert (Q : evalJ T (fun g => val [(cd_key g0, Scalar t)] (cd_key g) (J g)) a x 0%nat = evalJ T (setJ J g0 t) a x 0%nat).
      { unfold evalJ, setJ. destruct (mfind a T) as [[g s]|]; [|reflexivity]. rewrite val_one. reflexivity. }
      rewrite Q, evalJ_lin. lra.
    + intros t i. unfold zero_at. destruct (memb i (edofs S)).
      * auto_derive; [exact Logic.I|ring].
      * auto_derive; [exact Logic.I|ring].
  - intros wd rd. destruct UL as [v [c' [E' [V V']]]]. exists (fun i => rd i + wd 0%nat * v i), c'. unfold res_jvp.
    change (append "current_density:" g0) with (cd_key g0). rewrite cd_key_prefix, E'. cbn [rbind fst snd].
    split; [reflexivity|]. split; [|exact V']. intros i. now rewrite V.
  - intros rb. destruct UL as [v [c' [E' [V V']]]]. exists c'. unfold res_vjp.
    change (append "current_density:" g0) with (cd_key g0). rewrite cd_key_prefix, E'. cbn [rbind fst snd]. split; [|exact V'].
    f_equal. f_equal. unfold dot. apply rsum_ext. intros i _. now rewrite V.
Qed.
Print Assumptions C69_sensitivity_partial.

(** C69, the rest of the claim is false.  With magnets the products contain the load of the magnets, whatever it is. *)
Definition one_group : options := [("a"%string, [("z"%string, [1]%Z)])].
Definition c_one : cd := Build_cd [("a"%string, 1)] [("a"%string, 0)] [(1%Z, ("a"%string, fun _ _ => 1))].
Definition c_one_cached : cd := Build_cd [("a"%string, 1)] [("a"%string, 1)] [(1%Z, ("a"%string, fun _ _ => 1))].
Theorem C69_magnets_refuted : forall (m : R), m <> 0 ->
  let S := Build_setup one_group [] (fun _ => m) [] 1 (fun _ _ r => r) (fun _ _ => 0) in
  exists c v c', construct known2d one_group = Ret c /\
    (forall t, exists c'', res_evaluate S [("current_density:a"%string, Scalar t)] (fun _ => 0) (Some c) = Ret (addLoad2D S (Some c) (fun _ => 0), c'')) /\
    res_jvp S "current_density:a" (fun _ => 1) (fun _ => 0) (Some c) = Ret (v, c') /\ v 0%nat = m /\
    exists c3, res_vjp S "current_density:a" (fun _ => 1) (Some c) = Ret (m, c3).
Proof.
  intros m Hm S.
  assert (U : exists v, unit_load S "current_density:a" (Some c_one) = Ret (v, Some c_one_cached) /\ v 0%nat = m).
  { unfold unit_load, cacheCurrentDensity, cd_setInputs, resetCurrentDensityFromCache, zeroCurrentDensity, c_one. cbn.
    destruct (Req_EM_T 1 0) as [X|_]; [lra|]. destruct (Req_EM_T 1 1) as [_|X]; [|lra].
    cbn. eexists. split; [reflexivity|]. unfold zero_at, addLoad2D. cbn. unfold zero_at. cbn. lra. }
  destruct U as [v [U V]]. exists c_one. eexists _, _. split; [reflexivity|]. split.
  { intros t. eexists. reflexivity. }
  unfold res_jvp, res_vjp. cbn [String.prefix append]. rewrite U. cbn [rbind fst snd].
  split; [reflexivity|]. split; [rewrite V; lra|]. eexists. unfold dot. cbn. rewrite V. f_equal. f_equal. lra.
Qed.
Print Assumptions C69_magnets_refuted.

(** Without a "current" option, or on a 3-D mesh, current_coeff is null and both products dereference it. *)
Theorem C69_no_current_refuted : forall S g wrt_dot res_dot res_bar,
  res_jvp S (append "current_density:" g) wrt_dot res_dot None = UB /\ res_vjp S (append "current_density:" g) res_bar None = UB.
Proof. intros. unfold res_jvp, res_vjp. change (append "current_density:" g) with (cd_key g). rewrite cd_key_prefix. split; reflexivity. Qed.
Print Assumptions C69_no_current_refuted.

(** A group named "current_density:a" beside a group "a" has its current changed to 1 by a product for "a". *)
Theorem C69_names_refuted : forall S, exists o c c5 v6 c6,
  construct known2d o = Ret c /\ NoDup (map fst o) /\
  cd_setInputs [("current_density:current_density:a"%string, Scalar 5)] c = Ret (c5, true) /\ cd_Eval2D c5 2 (fun _ => 0) = -5 /\
  res_vjp S "current_density:a" (fun _ => 0) (Some c5) = Ret (v6, Some c6) /\ cd_Eval2D c6 2 (fun _ => 0) = -1.
Proof.
  intros S. exists [("a"%string, [("z"%string, [1]%Z)]); ("current_density:a"%string, [("z"%string, [2]%Z)])].
  set (T := [(1%Z, ("a"%string, fun _ _ => 1)); (2%Z, ("current_density:a"%string, fun _ _ => 1))] : list (Z * (string * sfunc))).
  exists (Build_cd [("a"%string, 1); ("current_density:a"%string, 1)] [("a"%string, 0); ("current_density:a"%string, 0)] T),
         (Build_cd [("a"%string, 1); ("current_density:a"%string, 5)] [("a"%string, 0); ("current_density:a"%string, 0)] T).
  eexists. exists (Build_cd [("a"%string, 1); ("current_density:a"%string, 1)] [("a"%string, 1); ("current_density:a"%string, 1)] T).
  split; [reflexivity|]. split.
  { repeat constructor; cbn; intros H; [destruct H as [H|[]]; discriminate|exact H]. }
  split; [|split; [|split]].
  - unfold cd_setInputs. cbn. destruct (Req_EM_T 1 1) as [_|X]; [|now elim X]. destruct (Req_EM_T 5 1) as [X|_]; [lra|]. cbn. reflexivity.
  - unfold T, cd_Eval2D, cd_Eval. cbn. lra.
  - unfold res_vjp. cbn [String.prefix append]. unfold unit_load, cacheCurrentDensity, cd_setInputs, resetCurrentDensityFromCache, zeroCurrentDensity. cbn.
    reflexivity.
  - unfold T, cd_Eval2D, cd_Eval. cbn. lra.
Qed.
Print Assumptions C69_names_refuted.

(** C70: the 3-D load.  After any sequence of calls that does not change the essential boundaries, addLoad subtracts the
    assembly, on the mesh as last moved, of the current density with the last number given for every group; essential
    entries are left alone. *)
Theorem C70_load_partial : forall (Mesh : Type) (assemble : Mesh -> (Z -> vec -> vec) -> vec) (move : inputs -> Mesh -> Mesh) n,
  (forall l m, lookup "mesh_coords" l = None -> move l m = m) ->
  forall K o c0 m E junk h,
  construct K o = Ret c0 -> NoDup (map fst o) -> plain_names (map fst o) ->
  (forall s f e, K s = Some (f, e) -> (exists g l a, In (g, l) o /\ In (s, a) l) -> e = []) ->
  no_options h -> List.Forall (numbers_for (map fst o)) (lpushed h) ->
  exists L cur, lruns Mesh assemble move n h (cl_make Mesh c0 m E junk) = Ret L /\
    (forall tv i, fst (cl_addLoad Mesh assemble tv L) i =
        tv i - (if in_dec Nat.eq_dec i E then 0 else assemble (fold_left (fun m l => move l m) (lpushed h) m) cur i)) /\
    (forall attr x k,
       (forall g f, listed K o attr g f -> cur attr x k = last_given (append "current_density:" g) (lpushed h) 1 * f x k) /\
       ((forall g f, ~ listed K o attr g f) -> cur attr x k = 0)).
Proof.
  intros Mesh assemble move n MN K o c0 m E junk h Hc ND PN NX NO N.
  destruct (construct_keys _ _ _ ND Hc) as [C [CK [HG [HC HK]]]]. destruct (construct_table _ _ _ Hc) as [HT Hin].
  assert (I1 : incl (names o) CK) by (intros k I; apply HK; now left).
  assert (I2 : incl CK (names o)). { intros k I. apply HK in I. destruct I as [I|[g [l [Ig [s [a [f [e [Is [Ke Ik]]]]]]]]]]; [exact I|].
    rewrite (NX s f e Ke) in Ik by (now exists g, l, a). destruct Ik. }
  destruct (lruns_inv Mesh assemble move n MN (names o) CK (table c0) I1 I2 PN h (cl_make Mesh c0 m E junk) (fun _ => 1) m E) as [L [EL [HI [HM [HE HD]]]]].
  { split; [split; [exact HG|split; [now exists C|reflexivity]]|]. split; [reflexivity|]. split; [reflexivity|]. cbn. discriminate. }
  { exact NO. }
  { exact N. }
  exists L, (cd_Eval (current Mesh L)). split; [exact EL|]. split.
  - intros tv i. unfold cl_addLoad. cbn [fst]. f_equal. unfold zero_at. rewrite HE.
    destruct (in_dec Nat.eq_dec i E) as [I|I].
    + assert (B : memb i E = true). { unfold memb. apply existsb_exists. exists i. split; [exact I|apply Nat.eqb_refl]. } now rewrite B.
    + assert (B : memb i E = false). { unfold memb. apply not_true_is_false. intros X. apply existsb_exists in X. destruct X as [j [Ij Ej]].
        apply Nat.eqb_eq in Ej. now subst. }
      rewrite B. fold (moved Mesh move h m). destruct (dirty Mesh L) eqn:D; [now rewrite HM|]. apply HD; [reflexivity|exact B].
  - intros attr x k. rewrite (Eval_inv _ _ _ _ _ attr x k HI Hin). unfold evalJ. split.
    + intros g f Lg. apply HT in Lg. now rewrite Lg.
    + intros NL. destruct (mfind attr (table c0)) as [[g f]|] eqn:M; [|reflexivity]. elim (NL g f). now apply HT.
Qed.
Print Assumptions C70_load_partial.

(** C70: the number returned for "current_density:g" is the derivative of the product of load_bar with what addLoad leaves. *)
Theorem C70_sensitivity_partial : forall (Mesh : Type) (assemble : Mesh -> (Z -> vec -> vec) -> vec) (move : inputs -> Mesh -> Mesh) n,
  (forall l m, lookup "mesh_coords" l = None -> move l m = m) ->
  (forall m f f1 f2 t, (forall a x k, f a x k = t * f1 a x k + f2 a x k) -> forall i, assemble m f i = t * assemble m f1 i + assemble m f2 i) ->
  forall K o c0 m E junk h g0 (tv load_bar : vec),
  construct K o = Ret c0 -> NoDup (map fst o) -> plain_names (map fst o) ->
  (forall s f e, K s = Some (f, e) -> (exists g l a, In (g, l) o /\ In (s, a) l) -> e = []) ->
  no_options h -> List.Forall (numbers_for (map fst o)) (lpushed h) ->
  exists L d L1, lruns Mesh assemble move n h (cl_make Mesh c0 m E junk) = Ret L /\
    cl_vjp Mesh assemble n (append "current_density:" g0) load_bar L = Ret (d, L1) /\
    exists r : R -> R,
      (forall t, exists Lt, cl_setInputs Mesh move [(append "current_density:" g0, Scalar t)] L = Ret Lt /\
                 dot n (fst (cl_addLoad Mesh assemble tv Lt)) load_bar = r t) /\
      (forall t, is_derive r t d).
Proof.
  intros Mesh assemble move n MN LIN K o c0 m E junk h g0 tv lb Hc ND PN NX NO N.
  destruct (construct_keys _ _ _ ND Hc) as [C [CK [HG [HC HK]]]]. destruct (construct_table _ _ _ Hc) as [HT Hin].
  assert (I1 : incl (names o) CK) by (intros k I; apply HK; now left).
  assert (I2 : incl CK (names o)). { intros k I. apply HK in I. destruct I as [I|[g [l [Ig [s [a [f [e [Is [Ke Ik]]]]]]]]]]; [exact I|].
    rewrite (NX s f e Ke) in Ik by (now exists g, l, a). destruct Ik. }
  destruct (lruns_inv Mesh assemble move n MN (names o) CK (table c0) I1 I2 PN h (cl_make Mesh c0 m E junk) (fun _ => 1) m E) as [L [EL [HI [HM [HE HD]]]]].
  { split; [split; [exact HG|split; [now exists C|reflexivity]]|]. split; [reflexivity|]. split; [reflexivity|]. cbn. discriminate. }
  { exact NO. }
  { exact N. }
  set (J := fun g => last_given (cd_key g) (lpushed h) 1) in HI. set (T := table c0) in *. set (G := names o) in *. set (m1 := moved Mesh move h m) in *.
  assert (Nw : ~ In (cd_key g0) G) by (apply not_prefix_not_in; [exact PN|apply cd_key_prefix]).
  destruct (unit_inv G CK T J _ (cd_key g0) HI I1 I2 Nw) as [c1 [c2 [b' [c3 [E1 [E2 [H1 [H2 [E3 I3]]]]]]]]].
  exists L. eexists _, _. split; [exact EL|]. split.
  { unfold cl_vjp. change (append "current_density:" g0) with (cd_key g0). rewrite cd_key_prefix, E1. cbn [rbind]. rewrite E2. cbn [rbind fst snd].
    rewrite E3. cbn [rbind]. reflexivity. }
  set (U := assemble (mesh Mesh L) (cd_Eval c2)). set (B := assemble m1 (evalJ T (setJ J g0 0))).
  assert (A : forall Jt t c', inv G CK T Jt c' -> (forall g, Jt g = setJ J g0 t g) -> forall i, assemble m1 (cd_Eval c') i = t * U i + B i).
  { intros Jt t c' I' HJ i. unfold U, B. rewrite HM. apply LIN. intros a x k. rewrite (Eval_inv _ _ _ _ _ a x k I' Hin).
    rewrite (Eval_tab c2 G T _ a x k H1 H2 Hin). rewrite <- evalJ_lin. unfold evalJ. destruct (mfind a T) as [[g s]|]; [|reflexivity]. now rewrite HJ. }
  assert (MV : forall t, move [(cd_key g0, Scalar t)] (mesh Mesh L) = m1). { intros t. rewrite MN; [exact HM|]. reflexivity. }
  exists (fun t => dot n (fun i => tv i - zero_at E (fun i => t * U i + B i) i) lb). split.
  - intros t. assert (NU : numeric G CK [(cd_key g0, Scalar t)]).
    { split; intros k _ d s; cbn [lookup]; [destruct (String.eqb (cd_key k) (cd_key g0))|destruct (String.eqb k (cd_key g0))]; discriminate. }
    destruct (setInputs_inv G CK T J _ _ HI NU) as [c' [b [E' [I' F]]]]. unfold cl_setInputs. change (append "current_density:" g0) with (cd_key g0).
    rewrite E'. cbn [rbind fst snd]. eexists. split; [reflexivity|]. unfold dot. apply rsum_ext. intros i _. f_equal. unfold cl_addLoad. cbn [fst ess_tdof_list dirty mesh current load].
    f_equal. rewrite HE. unfold zero_at. destruct (memb i E) eqn:Mi; [reflexivity|]. rewrite (MV t).
    assert (HJ : forall g, val [(cd_key g0, Scalar t)] (cd_key g) (J g) = setJ J g0 t g) by (intros g; apply val_one).
    assert (HA := A _ t c' I' HJ i).
    destruct ((dirty Mesh L || b) || has "mesh_coords" [(cd_key g0, Scalar t)])%bool eqn:D; [exact HA|].
    apply orb_false_elim in D. destruct D as [D _]. apply orb_false_elim in D. destruct D as [D1 D2].
    rewrite (HD D1 i Mi). rewrite <- HA. f_equal. symmetry. exact (inv_false_Eval G CK T J _ _ _ HI I' (F D2)).
  - intros t. unfold dot. rewrite HE.
    assert (G1 : forall k, is_derive (fun t => rsum k (fun i => (tv i - zero_at E (fun i => t * U i + B i) i) * lb i)) t
                         (- rsum k (fun i => zero_at E U i * lb i))).
    { induction k as [|k IH].
      - cbn. rewrite Ropp_0. apply (is_derive_const (V := R_NormedModule) 0 t).
      - cbn [rsum]. rewrite Ropp_plus_distr. apply (is_derive_plus (V := R_NormedModule)); [exact IH|].
        unfold zero_at. destruct (memb k E); auto_derive; [exact Logic.I|ring|exact Logic.I|ring]. }
    exact (G1 n).
Qed.
Print Assumptions C70_sensitivity_partial.

Example C70_met : exists c0, construct known3d [("a"%string, [("z"%string, [1]%Z)])] = Ret c0 /\
  (forall s f e, known3d s = Some (f, e) -> (exists g l a, In (g, l) [("a"%string, [("z"%string, [1]%Z)])] /\ In (s, a) l) -> e = []) /\
  exists assemble : unit -> (Z -> vec -> vec) -> vec,
   (forall m f f1 f2 t, (forall a x k, f a x k = t * f1 a x k + f2 a x k) -> forall i, assemble m f i = t * assemble m f1 i + assemble m f2 i) /\
   (forall L, lruns unit assemble (fun _ m => m) 1 [LSetInputs [("current_density:a"%string, Scalar 3)]; LAddLoad (fun _ => 0); LVjp "current_density:a" (fun _ => 1)]
               (cl_make unit c0 tt [] (fun _ => 7)) = Ret L -> fst (cl_addLoad unit assemble (fun _ => 0) L) 0%nat = -3).
Proof.
  eexists. split; [reflexivity|]. split.
  { intros s f e K [g [l [a [[I|[]] J]]]]. injection I as <- <-. destruct J as [J|[]]. injection J as <- <-. cbn in K. now injection K as <- <-. }
  exists (fun _ f _ => f 1%Z (fun _ => 0) 2%nat). split.
  { intros m f f1 f2 t H i. apply H. }
  intros L H. cbn in H. destruct (Req_EM_T 3 1) as [X|_] in H; [lra|]. cbn in H. injection H as <-. cbn. unfold zero_at; cbn. lra.
Qed.

(** The rest of the claim is false.  Essential boundaries that are taken away again keep a zero load. *)
Theorem C70_options_refuted : forall assemble : unit -> (Z -> vec -> vec) -> vec,
  (forall f, assemble tt f 0%nat = f 1%Z (fun _ => 0) 2%nat) ->
  exists c0 L, construct known3d [("a"%string, [("z"%string, [1]%Z)])] = Ret c0 /\
   lruns unit assemble (fun _ m => m) 1 [LSetOptions [0%nat]; LAddLoad (fun _ => 0); LSetOptions []] (cl_make unit c0 tt [] (fun _ => 0)) = Ret L /\
   ess_tdof_list unit L = [] /\ assemble tt (cd_Eval (current unit L)) 0%nat = 1 /\
   fst (cl_addLoad unit assemble (fun _ => 0) L) 0%nat = 0.
Proof.
  intros assemble H. eexists _, _. split; [reflexivity|]. split; [reflexivity|]. split; [reflexivity|]. split.
  - rewrite H. cbn. lra.
  - cbn. unfold zero_at. cbn. lra.
Qed.
Print Assumptions C70_options_refuted.

(** With a stator source the sensitivity is never returned: the call throws. *)
Theorem C70_stator_refuted : forall (Mesh : Type) (assemble : Mesh -> (Z -> vec -> vec) -> vec) n o c0 m E junk g l s a load_bar w,
  construct known3d o = Ret c0 -> NoDup (map fst o) -> ~ In "n_slots"%string (map fst o) ->
  In (g, l) o -> In (s, a) l -> s = "cwStator"%string \/ s = "ccwStator"%string ->
  cl_vjp Mesh assemble n (append "current_density:" w) load_bar (cl_make Mesh c0 m E junk) = Throws.
Proof.
  intros Mesh assemble n o c0 m E junk g l s a lb w Hc ND Nn Ig Is Hs.
  destruct (construct_keys _ _ _ ND Hc) as [C [CK [HG [HC HK]]]].
  assert (In "n_slots"%string CK). { apply HK. right. exists g, l. split; [exact Ig|]. destruct Hs as [-> | ->].
    - exists "cwStator"%string, a, (cw_stator 24 (345 / 1000)), stator_inputs. split; [exact Is|]. split; [reflexivity|now left].
    - exists "ccwStator"%string, a, (ccw_stator 24 (345 / 1000)), stator_inputs. split; [exact Is|]. split; [reflexivity|now left]. }
  assert (I1 : incl (names o) CK) by (intros k I; apply HK; now left).
  unfold cl_vjp. change (append "current_density:" w) with (cd_key w). rewrite cd_key_prefix. cbn [current cl_make].
  unfold cacheCurrentDensity. rewrite HG, HC. rewrite (loop_tab cache_loop (or_introl eq_refl)) by exact I1. cbn [rbind].
  unfold cd_setInputs, zeroCurrentDensity. cbn [group_map cached_inputs table]. rewrite zero_tab.
  assert (S : forall k, scalar_at [(cd_key w, Scalar 1)] k). { intros k d' s'. cbn [lookup]. destruct (String.eqb k (cd_key w)); discriminate. }
  destruct (set_loop_tab [(cd_key w, Scalar 1)] cd_key (fun _ => 0) (names o) ltac:(intros; apply S)) as [b1 [E1 _]].
  match goal with |- context [set_loop _ (fun k => k) (tab ?X CK)] =>
    destruct (set_loop_tab [(cd_key w, Scalar 1)] (fun k => k) X CK ltac:(intros; apply S)) as [b2 [E2 _]] end.
  rewrite E1. cbn [rbind]. rewrite E2. cbn [rbind fst snd]. unfold resetCurrentDensityFromCache. cbn [group_map cached_inputs].
  rewrite (reset_throws _ CK _ (names o) "n_slots"%string); [reflexivity|assumption|exact Nn].
Qed.
Print Assumptions C70_stator_refuted.
Example C70_stator_met : exists c0, construct known3d [("a"%string, [("cwStator"%string, [1]%Z)])] = Ret c0 /\
  cl_vjp unit (fun _ _ _ => 0) 1 "current_density:a" (fun _ => 1) (cl_make unit c0 tt [] (fun _ => 0)) = Throws.
Proof.
  eexists. split; [reflexivity|].
  apply (C70_stator_refuted unit (fun _ _ _ => 0) 1 [("a"%string, [("cwStator"%string, [1]%Z)])] _ tt [] (fun _ => 0) "a"%string
           [("cwStator"%string, [1]%Z)] "cwStator"%string [1]%Z (fun _ => 1) "a"%string).
  - reflexivity.
  - repeat constructor. intros [].
  - intros [H|[]]. discriminate.
  - now left.
  - now left.
  - now left.
Qed.
