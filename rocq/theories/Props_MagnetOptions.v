(** C146: the equations a set of two-dimensional magnetostatic options stands for. *)
From Coq Require Import Reals List String Bool ZArith Lra Lia.
From Verif Require Import Vec Inputs Options CoefMix EmCoef EmInteg Current CurrentSpec CurrentProofs Magnet FlowOptions ThermalOptions ThermalOptionsSpec ThermalOptionsProofs Props_ThermalOptions.
From Verif Require Import MagnetOptions MagnetOptionsSpec MagnetOptionsProofs.
From Verif Require MagnetSpec DgFace DgFaceSpec.
Import ListNotations.
Local Open Scope R_scope.
Local Open Scope string_scope.

Lemma part_none nelem o c : currentPart nelem o = Ret c -> c <> None -> contains o "current" = true.
Proof. unfold currentPart. destruct (contains o "current"); [reflexivity|]. intros H N. injection H as <-. now destruct N. Qed.
Lemma parts nattr nelem materials hasT o r : residual2D nattr nelem materials hasT o = Ret r ->
  magnetConfig nattr o = FlowOptions.Ok (r_form r) /\ currentPart nelem o = Ret (r_current r) /\ magnetPart nelem materials hasT o = Ret (r_magnets r).
Proof.
  unfold residual2D. intros H. destruct (magnetConfig nattr o) as [f| | |]; cbn [lift rbind] in H; try discriminate.
  destruct (currentPart nelem o) as [c| | |]; cbn [rbind] in H; try discriminate. destruct (magnetPart nelem materials hasT o) as [m| | |]; cbn [rbind] in H; try discriminate.
  injection H as <-. now repeat split.
Qed.

(** C146: a residual built from options, after any history of inputs, tested with v, is Ampere's law: nu grad A . grad v, less
    the current of each listed group times v, less nu times the remnant flux density of each listed magnet times curl v, with the
    coupling of a discontinuous space and the conditions on the listed parts of the boundary. *)
Theorem C146_equations : forall N nattr nelem materials hasT o M r0 h l J B u v,
  residual 2 nattr nelem materials hasT o = Ret (Some r0) -> fits N nattr (asTmesh M) -> element_attributes nelem M ->
  distinct (get o "current") -> plain_names (map fst (members (get o "current"))) -> List.Forall (numbers_for (map fst (members (get o "current")))) (h ++ [l]) ->
  (forall e m, In e (melems M) -> ~ names (get o "magnets") m "z" (me_attr e)) ->
  current_density o (h ++ [l]) J -> remnant_density materials o B ->
  exists r w r1, r_history h r0 = Ret r /\ r_evaluate M l u r = Ret (w, r1) /\
    dot N v w = total (fun e => conduction (me e) u v) (melems M) - total (fun e => current_work J e v) (melems M) - total (fun e => magnet_work B e v) (melems M) +
      total (fun f => strong_or_weak 3 o f u v) (mouter M) + total (fun f => when (discontinuous o) (coupling (penalty_of 3 o) f u v)) (minner M).
Proof.
  intros N nattr nelem materials hasT o M r0 h l J B u v H F A D P Nu Nz HJ HB. unfold residual in H. cbn [Nat.eqb] in H.
  destruct (residual2D nattr nelem materials hasT o) as [r'| | |] eqn:E; cbn [rbind] in H; try discriminate. injection H as ->. destruct (parts _ _ _ _ _ _ E) as (Ec & Ecur & Emag).
  assert (Hh : exists cur, r_history (h ++ [l]) r0 = Ret {| r_form := r_form r0; r_current := cur; r_magnets := r_magnets r0 |} /\
    exists a, (match cur with None => Ret (fun _ => 0) | Some (c, m) => assemble (marked m) (fun e => Ret (currentVector c e)) (melems M) end) = Ret a /\ dot N v a = - total (fun e => current_work J e v) (melems M)).
  { destruct (r_current r0) as [[c m]|] eqn:R.
    - destruct (current_load N nattr nelem o M F A (h ++ [l]) J c m v HJ D P Nu Ecur) as (c' & Hc & x & Ex & X). exists (Some (c', m)). split; [exact (Hc r0 R)|]. now exists x.
    - exists None. rewrite (history_none _ _ R). split; [destruct r0 as [a b d]; cbn in R; rewrite R; reflexivity|]. eexists. split; [reflexivity|].
      rewrite (no_current nelem o M (h ++ [l]) J v HJ Ecur). rewrite Ropp_0. unfold dot. rewrite (rsum_ext _ _ (fun _ => 0)); [apply rsum_0|]. intros; ring. }
  destruct Hh as (cur & Hr & a & Ea & Xa).
  assert (Hm : exists b, (match r_magnets r0 with None => Ret (fun _ => 0) | Some (t, m) => assemble (marked m) (magnetVector t) (melems M) end) = Ret b /\ dot N v b = - total (fun e => magnet_work B e v) (melems M)).
  { destruct (r_magnets r0) as [[t m]|] eqn:R.
    - exact (magnet_load N nattr nelem materials hasT o M F A B t m v HB Emag Nz).
    - eexists. split; [reflexivity|]. rewrite (no_magnets nelem materials hasT o M B v HB Emag). rewrite Ropp_0. unfold dot. rewrite (rsum_ext _ _ (fun _ => 0)); [apply rsum_0|]. intros; ring. }
  destruct Hm as (b & Eb & Xb). rewrite history_app in Hr. destruct (r_history h r0) as [r| | |]; cbn [rbind] in Hr; try discriminate.
  cbn [r_history] in Hr. destruct (r_setInputs l r) as [r1| | |] eqn:E1; cbn [rbind r_history] in Hr; try discriminate. injection Hr as ->.
  exists r. assert (Fr : r_form r = r_form r0).
  { clear - E1. unfold r_setInputs in E1. destruct (r_current r) as [[c m]|]; [destruct (cd_setInputs l c); cbn in E1; try discriminate; now injection E1|now injection E1 as ->]. }
  unfold r_evaluate. rewrite E1. cbn [rbind]. unfold loadVector. cbn [r_current r_magnets]. rewrite Ea. cbn [rbind]. rewrite Eb. cbn [rbind]. eexists. eexists. split; [reflexivity|]. split; [reflexivity|].
  rewrite Fr. transitivity (dot N v (formVector (asTmesh M) (r_form r0) u) + dot N v a + dot N v b); [unfold dot; rewrite <- !rsum_plus; apply rsum_ext; intros; ring|].
  rewrite Xa, Xb, (form_pair N nattr (asTmesh M) _ u v F), (magnet_means N nattr (asTmesh M) o u v F _ Ec). cbn [elems outer inner asTmesh].
  assert (Mp : total (fun e => conduction e u v) (map me (melems M)) = total (fun e => conduction (me e) u v) (melems M)) by (clear; induction (melems M) as [|e t IH]; cbn; [reflexivity|now rewrite IH]).
  rewrite Mp. ring.
Qed.
Print Assumptions C146_equations.

(** C146: Ampere's law for the whole body: the entries of the residual sum to the circulation of H along the held part of the
    boundary less the current through the body; magnets contribute nothing.  So where the residual vanishes, the two are equal. *)
Theorem C146_circulation : forall N nattr nelem materials hasT o M r0 h l J B u,
  residual 2 nattr nelem materials hasT o = Ret (Some r0) -> fits N nattr (asTmesh M) -> element_attributes nelem M -> mcomplete M ->
  distinct (get o "current") -> plain_names (map fst (members (get o "current"))) -> List.Forall (numbers_for (map fst (members (get o "current")))) (h ++ [l]) ->
  (forall e m, In e (melems M) -> ~ names (get o "magnets") m "z" (me_attr e)) ->
  current_density o (h ++ [l]) J -> remnant_density materials o B ->
  exists r w r1, r_history h r0 = Ret r /\ r_evaluate M l u r = Ret (w, r1) /\
    rsum N w = total (fun f => INR (held 3 o f) * prescribed_heat (penalty_of 3 o) f u) (mouter M) - total (current_through J) (melems M) /\
    ((forall d, (d < N)%nat -> w d = 0) -> total (fun f => INR (held 3 o f) * prescribed_heat (penalty_of 3 o) f u) (mouter M) = total (current_through J) (melems M)).
Proof.
  intros N nattr nelem materials hasT o M r0 h l J B u H F A ((C1 & C2) & C3) D P Nu Nz HJ HB.
  destruct (C146_equations N nattr nelem materials hasT o M r0 h l J B u (fun _ => 1) H F A D P Nu Nz HJ HB) as (r & w & r1 & Hr & He & X). exists r, w, r1. split; [exact Hr|]. split; [exact He|].
  assert (S : rsum N w = total (fun f => INR (held 3 o f) * prescribed_heat (penalty_of 3 o) f u) (mouter M) - total (current_through J) (melems M)).
  { transitivity (dot N (fun _ => 1) w); [apply rsum_ext; intros; ring|]. rewrite X.
    rewrite (sums_ext (fun e => conduction (me e) u _) (fun _ => 0)) by (intros e Hin; apply conduction_1; intros; apply C1; cbn; now apply in_map).
    rewrite (sums_ext (fun e => magnet_work B e _) (fun _ => 0)).
    - rewrite (sums_ext (fun e => current_work J e _) (current_through J)).
      + rewrite (sums_ext (fun f => when _ _) (fun _ => 0)).
        * rewrite !sums_0. rewrite (sums_ext (fun f => strong_or_weak 3 o f u _) (fun f => INR (held 3 o f) * prescribed_heat (penalty_of 3 o) f u)); [ring|].
          intros f Hf. destruct (C2 f ltac:(apply in_or_app; now right)) as (P1 & P2 & U). unfold strong_or_weak. rewrite prescribed_1 by assumption. apply (held_sum 3).
        * intros f Hf. destruct (C2 f ltac:(apply in_or_app; now left)) as (P1 & P2 & U). rewrite coupling_1 by assumption. now destruct (discontinuous o).
      + intros e Hin. unfold current_work, current_through. apply rsum_ext. intros q _. rewrite (rsum_ext _ _ (fun i => cu_N e q i)) by (intros; ring). rewrite (proj1 (C3 e Hin)). ring.
    - intros e Hin. unfold magnet_work. rewrite (rsum_ext _ _ (fun _ => 0)); [apply rsum_0|]. intros q _.
      assert (Z : forall k, weighted_gradient e q (fun _ => 1) k = 0).
      { intros k. unfold weighted_gradient. rewrite (rsum_ext _ _ (fun i => rsum 2 (fun a => ma_shape e q i a * ma_Adj e q a k))) by (intros; ring). rewrite rsum_swap.
        rewrite (rsum_ext _ _ (fun _ => 0)); [apply rsum_0|]. intros a _. rewrite (rsum_ext _ _ (fun i => ma_Adj e q a k * ma_shape e q i a)) by (intros; ring). rewrite rsum_scal, (proj2 (C3 e Hin)). ring. }
      rewrite !Z. ring. }
  split; [exact S|]. intros Z. assert (S0 : rsum N w = 0) by (rewrite (rsum_ext _ _ (fun _ => 0)) by (intros; now apply Z); apply rsum_0). lra.
Qed.
Print Assumptions C146_circulation.

(** C146: what is accepted: two or three dimensions; every attribute listed exists; no attribute carries two known currents or two
    magnetisations; magnets come with a temperature. *)
Theorem C146_accepted : forall dim nattr nelem materials hasT o,
  (dim <> 2%nat -> dim <> 3%nat -> residual dim nattr nelem materials hasT o = Throws) /\
  (forall r, residual 2 nattr nelem materials hasT o = Ret r ->
    (forall k s a, names (get o "current") k s a \/ names (get o "magnets") k s a -> (1 <= a <= Z.of_nat nelem)%Z) /\
    (contains o "magnets" = true -> hasT = true) /\
    (forall key, key = "weak-essential" \/ (key = "essential" /\ discontinuous o = true) -> in_range nattr (ints (get (get o "bcs") key)) /\
      (contains (get o "bcs") key = true -> exists l, get (get o "bcs") key = JLeaf (LInts l)))).
Proof.
  intros dim nattr nelem materials hasT o. split.
  - intros H2 H3. unfold residual. destruct (Nat.eqb_spec dim 3); [contradiction|]. destruct (Nat.eqb_spec dim 2); [contradiction|reflexivity].
  - intros r H. unfold residual in H. cbn [Nat.eqb] in H. destruct (residual2D nattr nelem materials hasT o) as [r0| | |] eqn:E; cbn [rbind] in H; try discriminate. clear H.
    destruct (parts _ _ _ _ _ _ E) as (Ec & Ecur & Emag). split; [|split].
    + intros k s a [Hn|Hn].
      * unfold currentPart in Ecur. destruct (contains o "current") eqn:C; [|rewrite (contains_get _ _ C) in Hn; destruct Hn as (j & w & [] & _)].
        destruct (sub o "current") as [j| | |] eqn:S; cbn [bind lift rbind] in Ecur; try discriminate. rewrite (sub_get _ _ _ S) in Hn.
        destruct (group_object j) as [g| | |] eqn:G; cbn [lift rbind] in Ecur; try discriminate. destruct (construct known2d g) as [c0| | |]; cbn [rbind] in Ecur; try discriminate.
        destruct (marker nelem (currentAttributes g)) as [m0| | |] eqn:Mk; cbn [lift rbind] in Ecur; try discriminate. apply (marker_in _ _ _ Mk). apply (current_attrs_in j g G). now exists k, s.
      * unfold magnetPart in Emag. destruct (contains o "magnets") eqn:C; [|rewrite (contains_get _ _ C) in Hn; destruct Hn as (j & w & [] & _)].
        destruct (sub o "magnets") as [j| | |] eqn:S; cbn [bind lift rbind] in Emag; try discriminate. rewrite (sub_get _ _ _ S) in Hn.
        destruct (group_object j) as [g| | |] eqn:G; cbn [lift rbind] in Emag; try discriminate. destruct (Magnet.magnets materials g) as [c0| | |]; cbn [rbind] in Emag; try discriminate. destruct hasT; [|discriminate].
        destruct (marker nelem (currentAttributes g)) as [m0| | |] eqn:Mk; cbn [lift rbind] in Emag; try discriminate. apply (marker_in _ _ _ Mk). apply (current_attrs_in j g G). now exists k, s.
    + intros C. unfold magnetPart in Emag. rewrite C in Emag. destruct (lift _) as [g| | |]; cbn [rbind] in Emag; try discriminate. destruct (Magnet.magnets materials g); cbn [rbind] in Emag; try discriminate. now destruct hasT.
    + intros key K. unfold magnetConfig in Ec. step Ec sd S. step Ec b Bs. step Ec basis Ba. assert (Db := basis_dg _ _ _ _ S Bs Ba). rewrite Db in Ec. step Ec t1 T1. step Ec t2 T2. clear Ec T1.
      destruct (contains o "bcs") eqn:C.
      * step T2 bcs Sb. step T2 e Ce. step T2 w Cw. rewrite (sub_get _ _ _ Sb). destruct K as [->|[-> Dc]]; [exact (weak_range _ _ _ _ _ _ Cw)|]. rewrite Dc in Ce. exact (weak_range _ _ _ _ _ _ Ce).
      * rewrite (contains_get _ _ C). split; [apply nil_range|discriminate].
Qed.
Print Assumptions C146_accepted.

(** The attribute under an unknown source is accepted and carries no current. *)
Definition misspelt : opts := JObj [("space-dis", JObj [("basis-type", JLeaf (LStr "H1"))]); ("current", JObj [("coil", JObj [("up", JLeaf (LInts [1]%Z))])])].
Theorem C146_unknown_source_refuted : exists r0, residual 2 3 2 [] true misspelt = Ret (Some r0) /\
  (forall h J, current_density misspelt h J -> forall x, J 1%Z x = 0) /\ names (get misspelt "current") "coil" "up" 1.
Proof.
  eexists. split; [reflexivity|]. split.
  - intros h J HJ x. apply (proj2 (HJ 1%Z x)). intros g s (j & w & [E|[]] & Hw & Ha). injection E as <- <-. destruct Hw as [E|[]]. injection E as <- <-. reflexivity.
  - exists (JObj [("up", JLeaf (LInts [1]%Z))]), (JLeaf (LInts [1]%Z)). split; [now left|]. split; now left.
Qed.
Print Assumptions C146_unknown_source_refuted.

(** Magnets without a temperature field are undefined behaviour, not an exception. *)
Theorem C146_temperature_refuted : forall nattr nelem materials o f j g t, magnetConfig nattr o = FlowOptions.Ok f -> currentPart nelem o = Ret None ->
  sub o "magnets" = FlowOptions.Ok j -> group_object j = FlowOptions.Ok g -> Magnet.magnets materials g = Ret t ->
  residual 2 nattr nelem materials false o = UB.
Proof.
  intros nattr nelem materials o f j g t Hf Hc Hs Hg Ht. unfold residual, residual2D. cbn [Nat.eqb]. rewrite Hf. cbn [lift rbind]. rewrite Hc. cbn [rbind]. unfold magnetPart.
  assert (C : contains o "magnets" = true).
  { unfold sub in Hs. unfold contains. destruct o as [|x|m]; try discriminate. destruct (find "magnets" m); [reflexivity|discriminate]. }
  rewrite C, Hs. cbn [bind]. rewrite Hg. cbn [lift rbind]. now rewrite Ht.
Qed.
Print Assumptions C146_temperature_refuted.

(** A magnet along z is accepted and stops the program at the first evaluation. *)
Lemma assemble_stop keep f l e : In e l -> keep (me_attr e) = true -> (forall x, f e <> Ret x) -> forall x, assemble keep f l <> Ret x.
Proof.
  induction l as [|a r IH]; intros I K H x; [easy|]. cbn [assemble]. destruct (assemble keep f r) as [w| | |] eqn:E; cbn [rbind]; try discriminate.
  destruct I as [->|I]; [|exfalso; exact (IH I K H w eq_refl)]. rewrite K. destruct (f e) as [y| | |] eqn:Fe; cbn [rbind]; try discriminate. now destruct (H y).
Qed.
Definition upright : opts := JObj [("space-dis", JObj [("basis-type", JLeaf (LStr "H1"))]); ("magnets", JObj [("NdFeB", JObj [("z", JLeaf (LInts [2]%Z))])])].
Theorem C146_out_of_plane_magnet_refuted : let materials := [("NdFeB"%string, [("B_r_T_ref"%string, VNum (6 / 5))])] in
  exists r0, residual 2 3 2 materials true upright = Ret (Some r0) /\
    forall M e l u x, In e (melems M) -> me_attr e = 2%Z -> (0 < ma_nq e)%nat -> r_evaluate M l u r0 <> Ret x.
Proof.
  intros materials. eexists. split; [reflexivity|]. intros M e l u x He Ha Hq H. unfold r_evaluate, loadVector in H. cbn [r_setInputs r_current rbind r_magnets] in H.
  match type of H with context [assemble ?k ?f ?l] => destruct (assemble k f l) as [y| | |] eqn:E; cbn [rbind] in H; try discriminate; refine (assemble_stop k f l e He _ _ y E) end.
  - rewrite Ha. reflexivity.
  - intros y0 Y. unfold magnetVector in Y. match type of Y with context [at_points ?n ?f] => destruct (at_points n f) as [z| | |] eqn:Ez; cbn [rbind] in Y; try discriminate; refine (at_points_stop n f 0 Hq _ z Ez) end.
    intros g G. rewrite Ha in G. unfold nuM_eval, mag_eval, mag_apply in G. cbn in G. discriminate.
Qed.
Print Assumptions C146_out_of_plane_magnet_refuted.

(** the rod of C145 with a current out of the plane on the left, a magnet on the right, held at both ends *)
Definition coil (a : Z) (w : R) (first : nat) : melem := {| me := piece w first; me_attr := a;
  cu_nq := 1; cu_w := fun _ => w; cu_x := fun _ _ => 0; cu_N := fun _ _ => 1 / 2;
  ma_nq := 1; ma_pw := fun _ => 1; ma_shape := fun _ i k => match k, i with O, O => -1 | O, _ => 1 | _, _ => 0 end; ma_Adj := fun _ a b => if Nat.eqb a b then 1 else 0;
  ma_x := fun _ _ => 0; ma_T := fun _ => 29315 / 100; ma_nu := fun _ => 1 |}.
Definition machine : mmesh := {| melems := [coil 1 1 0; coil 2 2 2]; minner := inner rod; mouter := outer rod |}.
Definition machine_options : opts := JObj [("space-dis", JObj [("basis-type", JLeaf (LStr "DG")); ("degree", JLeaf (LInt 1))]);
  ("bcs", JObj [("essential", JLeaf (LInts [1]%Z)); ("weak-essential", JLeaf (LInts [2]%Z))]);
  ("current", JObj [("phase", JObj [("z", JLeaf (LInts [1]%Z))])]); ("magnets", JObj [("NdFeB", JObj [("y", JLeaf (LInts [2]%Z))])])].
Definition magnet_materials : list (string * jobj) := [("NdFeB"%string, [("B_r_T_ref"%string, VNum (6 / 5))])].
Definition machine_J : Z -> vec -> R := fun a _ => if Z.eqb a 1 then 7 else 0.
Definition machine_B : Z -> vec -> R -> vec := fun a _ T k => if Z.eqb a 2 then (6 / 5 * (1 + - (12 / 100) / 100 * (T - 29315 / 100))) * Direction.v3 0 1 0 k else 0.
Lemma machine_tmesh : asTmesh machine = rod. Proof. reflexivity. Qed.
Lemma machine_ok : fits 4 3 (asTmesh machine) /\ element_attributes 2 machine /\ mcomplete machine /\ distinct (get machine_options "current") /\
  plain_names (map fst (members (get machine_options "current"))) /\
  List.Forall (numbers_for (map fst (members (get machine_options "current")))) ([] ++ [[("current_density:phase", Scalar 7)]]) /\
  (forall e m, In e (melems machine) -> ~ names (get machine_options "magnets") m "z" (me_attr e)) /\
  current_density machine_options ([] ++ [[("current_density:phase", Scalar 7)]]) machine_J /\ remnant_density magnet_materials machine_options machine_B.
Proof.
  destruct rod_fits as (F & C & _). rewrite machine_tmesh. split; [exact F|]. split; [intros e [<-|[<-|[]]]; cbn; lia|]. split.
  { split; [exact C|]. intros e [<-|[<-|[]]]; (split; [intros q; cbn; lra|intros q [|a]; cbn; ring]). }
  split; [repeat constructor; intros []|]. split; [intros g [<-|[]]; reflexivity|]. split.
  { constructor; [|constructor]. intros g d s [<-|[]]; split; discriminate. }
  split. { intros e m _ (j & w & [E|[]] & Hw & _). injection E as <- <-. destruct Hw as [E|[]]. discriminate. }
  split.
  - intros a x. split.
    + intros g s d (j & w & [E|[]] & Hw & Ha) Hd. injection E as <- <-. destruct Hw as [E|[]]. injection E as <- <-. destruct Ha as [<-|[]]. cbn in Hd. injection Hd as <-. unfold machine_J. cbn. ring.
    + intros Hn. unfold machine_J. destruct (Z.eqb_spec a 1) as [->|]; [|reflexivity]. exfalso.
      assert (X := Hn "phase" "z"). cbn [direction String.eqb Ascii.eqb Bool.eqb] in X. discriminate X.
      exists (JObj [("z", JLeaf (LInts [1]%Z))]), (JLeaf (LInts [1]%Z)). split; [now left|]. split; now left.
  - intros a x T. split.
    + intros m s d Br (j & w & [E|[]] & Hw & Ha) Hd HB k. injection E as <- <-. destruct Hw as [E|[]]. injection E as <- <-. destruct Ha as [<-|[]]. cbn in Hd. injection Hd as <-.
      destruct HB as (ob & al & t & b & Ho & A1 & A2 & A3 & ->). cbn in Ho. injection Ho as <-. unfold machine_B. cbn [Z.eqb Pos.eqb].
      destruct A1 as [X|[_ ->]]; [discriminate X|]. destruct A2 as [X|[_ ->]]; [discriminate X|]. destruct A3 as [X|[X _]]; [injection X as <-|discriminate X].
      f_equal. field.
    + intros Hn k. unfold machine_B. destruct (Z.eqb_spec a 2) as [->|]; [|reflexivity]. exfalso. apply (Hn "NdFeB" "y").
      * exists (JObj [("y", JLeaf (LInts [2]%Z))]), (JLeaf (LInts [2]%Z)). split; [now left|]. split; now left.
      * unfold MagnetSpec.directions. cbn. tauto.
Qed.
Example C146_equations_met : exists r0, residual 2 3 2 magnet_materials true machine_options = Ret (Some r0) /\ penalty_of 3 machine_options = 8.
Proof.
  split with (x := {| r_form := [(OnDomain, Diffusion); (OnInterior, Sipg ((1 + 1) ^ 3) 1); (OnBoundary [1; 0; 0]%Z, Weak ((1 + 1) ^ 3)); (OnBoundary [0; 1; 0]%Z, Weak ((1 + 1) ^ 3))];
    r_current := Some ({| group_map := [("phase", 1)]; cached_inputs := [("phase", 0)]; table := [(1%Z, ("phase", fun _ _ => 1))] |}, [1; 0]%Z);
    r_magnets := Some (match Magnet.magnets magnet_materials [("NdFeB", [("y", [2]%Z)])] with Ret t => t | _ => [] end, [0; 1]%Z) |}). split.
  - assert (Pe : penalty 3 machine_options = FlowOptions.Ok ((1 + 1) ^ 3)) by (unfold penalty; cbn; destruct (Rlt_dec (-1) 0); [reflexivity|exfalso; lra]).
    unfold residual, residual2D, magnetConfig, interiorTerm, weakTerm. cbn [Nat.eqb]. rewrite Pe. reflexivity.
  - unfold penalty_of. cbn. destruct (Rlt_dec (-1) 0); [ring|exfalso; lra].
Qed.
(** with phase current 7 the sum of the entries at potential (0, 1, 2, 3) is the circulation less the current 7 * 1 *)
Example C146_circulation_met : exists r0 w r1, residual 2 3 2 magnet_materials true machine_options = Ret (Some r0) /\
  r_evaluate machine [("current_density:phase", Scalar 7)] (fun i => INR i) r0 = Ret (w, r1) /\
  rsum 4 w = total (fun f => INR (held 3 machine_options f) * prescribed_heat 8 f (fun i => INR i)) (outer rod) - 7.
Proof.
  destruct C146_equations_met as (r0 & E & Pn). destruct machine_ok as (F & A & C & D & P & Nu & Nz & HJ & HB).
  destruct (C146_circulation 4 3 2 magnet_materials true machine_options machine r0 [] _ machine_J machine_B (fun i => INR i) E F A C D P Nu Nz HJ HB) as (r & w & r1 & Hr & He & S & _).
  cbn in Hr. injection Hr as <-. exists r0, w, r1. split; [exact E|]. split; [exact He|]. rewrite S, Pn. cbn [mouter machine]. f_equal. unfold current_through, machine_J. cbn. ring.
Qed.
