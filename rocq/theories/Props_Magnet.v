(** C77: magnets. *)
From Coq Require Import Reals String List Bool ZArith Lia Lra ListDec.
From Coquelicot Require Import Coquelicot.
From Verif Require Import Vec Coef CoefMix EmCoef Current Direction EmInteg EmIntegSpec Deriv EmIntegProofs EmMeshProofs IsoGeom MagnetSpec Magnet MagnetProofs.
Import ListNotations.
Local Open Scope R_scope.

(** C77: the constructor succeeds exactly when every material named can be read and no attribute is magnetised twice. *)
Theorem C77_construction : forall materials (o : magnet_options),
  (exists t, magnets materials o = Ret t) <-> (forall m l, In (m, l) o -> readable materials m) /\ NoDup (magnetised o).
Proof.
  intros materials o. split.
  - intros [t H]. assert (R := groups_fail _ _ _ _ H). split; [exact R|].
    destruct (pairs_exist _ _ R) as [ps P]. unfold magnets in H. rewrite (groups_register _ _ _ _ P) in H.
    rewrite <- (pairs_keys _ _ _ P). destruct (ListDec.NoDup_dec Z.eq_dec (map fst ps)) as [N|N]; [exact N|].
    destruct (register_spec ps []) as [_ F]. rewrite F in H; [discriminate|tauto].
  - intros [R N]. destruct (pairs_exist _ _ R) as [ps P]. unfold magnets. rewrite (groups_register _ _ _ _ P).
    destruct (register_spec ps []) as [S _]. destruct S as [t [E _]]; [now rewrite (pairs_keys _ _ _ P)|reflexivity|]. now exists t.
Qed.
Print Assumptions C77_construction.

(** C77: on an element of attribute a, listed under material m and direction s, the magnetisation at temperature T is the
    remnant flux density of m at T times the direction; its derivative is reported; on attributes that are not listed under
    one of the directions it is zero. *)
Theorem C77_value : forall materials (o : magnet_options) t vdim a x T, magnets materials o = Ret t ->
  (forall m s d, listed o m s a -> magnetization vdim s x = Some (Ret d) ->
     exists Br, remnant_flux materials m T Br /\
       (exists v, mag_eval vdim t a x T = Ret v /\ forall k, v k = Br * d k) /\
       (exists v', mag_deriv vdim t a x T = Ret v' /\
          forall k w, (forall s', exists u, mag_eval vdim t a x s' = Ret u /\ u k = w s') -> is_derive w T (v' k))) /\
  ((forall m s, listed o m s a -> ~ In s directions) ->
     mag_eval vdim t a x T = Ret (fun _ => 0) /\ mag_deriv vdim t a x T = Ret (fun _ => 0)).
Proof.
  intros materials o t vdim a x T H. assert (R := groups_fail _ _ _ _ H). destruct (pairs_exist _ _ R) as [ps P].
  assert (N : NoDup (map fst ps)).
  { rewrite (pairs_keys _ _ _ P). apply C77_construction with (materials := materials). now exists t. }
  unfold magnets in H. rewrite (groups_register _ _ _ _ P) in H. destruct (register_spec ps []) as [S _].
  destruct (S N ltac:(reflexivity)) as [t' [E L]]. rewrite E in H. injection H as ->. cbn [mfind] in L. split.
  - intros m s d (l & attrs & I1 & I2 & I3) D.
    destruct (proj2 (remnant_readable materials m) (R _ _ I1)) as [rem Hr].
    assert (K : known_source s = true).
    { apply known_source_spec. revert D. unfold magnetization, directions.
      repeat match goal with |- context [String.eqb s ?y] => destruct (String.eqb_spec s y); [subst; cbn; tauto|] end. discriminate. }
    assert (F : mfind a t = Some (rem, s)).
    { rewrite L. apply (mfind_in ps a (rem, s) N). apply (pairs_in materials o ps a rem s P). exists m. split; [exists l, attrs; auto|]. split; [exact K|]. exists l, attrs. auto. }
    unfold magnet_remnant in Hr. destruct (sfind m materials) as [ob|] eqn:Em; [|discriminate].
    destruct (number_build ob) as [(al & tr & b & A & B & C & Hb)|[Hb _]]; rewrite Hb in Hr; [|discriminate]. injection Hr as <-.
    exists (b * (1 + al / 100 * (T - tr))). split; [exists ob, al, tr, b; auto|].
    unfold mag_eval, mag_deriv, mag_apply. rewrite F, D. cbn [rbind]. split.
    + eexists. split; [reflexivity|]. intros k. unfold r_eval. cbn. ring.
    + eexists. split; [reflexivity|]. intros k w Hw.
      apply (DV_ext (fun s' => d k * r_eval {| rAlpha := al; rT := tr; rB := b |} s')).
      { intros s'. destruct (Hw s') as [u [Eu <-]]. injection Eu as <-. reflexivity. }
      apply DV_scal. unfold r_eval, r_d. cbn [rAlpha rT rB]. apply DV_scal.
      apply (DV_eq _ T (0 + al / 100 * (1 - 0))); [|ring]. apply DV_plus; [apply DV_const|]. apply DV_scal. apply DV_minus; [apply DV_id|apply DV_const].
  - intros U. assert (F : mfind a t = None).
    { rewrite L. apply mfind_none. intros I. apply in_map_iff in I as [[a' [rem s]] [Ea I]]. cbn in Ea. subst a'.
      apply (pairs_in materials o ps a rem s P) in I as (m & Li & K & _). apply known_source_spec in K. exact (U m s Li K). }
    unfold mag_eval, mag_deriv, mag_apply. rewrite F. auto.
Qed.
Print Assumptions C77_value.

Definition my_materials : list (string * jobj) := [("NdFeB"%string, [("B_r_T_ref"%string, VNum (6 / 5))])].
Definition my_magnets : magnet_options := [("NdFeB"%string, [("north"%string, [3%Z; 4%Z]); ("x"%string, [5%Z])])].
Example C77_met : (exists t, magnets my_materials my_magnets = Ret t) /\ listed my_magnets "NdFeB" "x" 5 /\
  magnetization 2 "x" (fun _ => 0) = Some (Ret (v3 1 0 0)) /\ remnant_flux my_materials "NdFeB" (29315 / 100) (6 / 5).
Proof.
  split; [|split; [|split]].
  - apply C77_construction. split.
    + intros m l [E|[]]. injection E as <- <-. eexists; exists (- 12 / 100), (29315 / 100), (6 / 5). split; [reflexivity|]. unfold number. cbn. auto.
    + cbn. repeat constructor; cbn; intros H; repeat (destruct H as [H|H]; [discriminate|]); exact H.
  - do 2 eexists. split; [left; reflexivity|]. split; [right; left; reflexivity|left; reflexivity].
  - reflexivity.
  - eexists; exists (- 12 / 100), (29315 / 100), (6 / 5). split; [reflexivity|]. unfold number. cbn. repeat (split; [auto|]). field.
Qed.

(** C77: a direction that is not one of the seven names is accepted and gives no magnetisation, and a material that is not in
    the library is undefined behaviour. *)
Theorem C77_unknown_refuted : forall materials s,
  (~ In s directions -> readable materials "m" ->
     exists t, magnets materials [("m"%string, [(s, [1%Z])])] = Ret t /\ forall x T, mag_eval 2 t 1 x T = Ret (fun _ => 0)) /\
  (forall m, sfind m materials = None -> magnets materials [(m, [("x"%string, [1%Z])])] = UB).
Proof.
  intros materials s. split.
  - intros N R. apply remnant_readable in R as [rem E]. exists []. split.
    + unfold magnets. cbn [magnet_groups]. rewrite E. cbn [rbind magnet_sources]. rewrite known_source_dec.
      destruct (in_dec string_dec s directions); [tauto|reflexivity].
    + reflexivity.
  - intros m E. unfold magnets. cbn [magnet_groups]. unfold magnet_remnant. now rewrite E.
Qed.
Print Assumptions C77_unknown_refuted.

(** C77: equilibrium.  In 2-D, with a reluctivity that does not depend on the flux density, the magnet's load on an element
    cancels the diffusion term exactly when the flux density curl A = (dA/dy, -dA/dx) equals the magnetisation. *)
Theorem C77_equilibrium_partial : forall ndof nt nq pw W shape tsh Adj X (nu : R) (mag : nat -> R -> vec) u T,
  (forall q, (q < nq)%nat -> W q <> 0) ->
  (forall q, (q < nq)%nat -> let b := field ndof (dshapedxt 2 shape Adj X q) (W q) u in
     b 1%nat = mag q (ms_temp nt tsh T q) 0%nat /\ - b 0%nat = mag q (ms_temp nt tsh T q) 1%nat) ->
  forall i, elem_vector ndof 2 nq pw W (dshapedxt 2 shape Adj X) (fun _ _ => nu) 1 u i
          + ms_vector nt nq pw 1 shape tsh Adj (fun q _ s k => mag q s k * nu) X T i = 0.
Proof.
  intros ndof nt nq pw W shape tsh Adj X nu mag u T HW HB i. unfold elem_vector, ms_vector. rewrite <- rsum_plus.
  rewrite (rsum_ext nq _ (fun _ => 0)); [apply rsum_0|]. intros q Hq. destruct (HB q Hq) as [B0 B1]. specialize (HW q Hq).
  unfold ms_scratch. rewrite <- B0, <- B1. unfold field, wq, flux. cbn [rsum]. field. exact HW.
Qed.
Print Assumptions C77_equilibrium_partial.
Example C77_equilibrium_met : let shape := fun (_ i a : nat) => match i, a with O, O => -1 | O, 1%nat => -1 | 1%nat, O => 1 | 2%nat, 1%nat => 1 | _, _ => 0 end in
  let Adj := fun (_ : nat) (_ : mat) (a k : nat) => if Nat.eqb a k then 1 else 0 in
  let u := fun i => match i with 1%nat => 1 | 2%nat => 2 | _ => 0 end in
  let b := field 3 (dshapedxt 2 shape Adj (fun _ _ => 0) O) 1 u in b 1%nat = 2 /\ - b 0%nat = -1.
Proof. cbv zeta. unfold field, dshapedxt. cbn. split; field. Qed.

(** C77: but the 2-D load evaluates the reluctivity at the temperature: the magnet's load differs from the reluctivity at the
    element's flux density times the magnetisation, so with a reluctivity that depends on the flux density a field equal to
    the magnetisation is not an equilibrium. *)
Theorem C77_reluctivity_refuted : forall (nu : R -> R) t a x T m k, mag_eval 2 t a x T = Ret m -> m k <> 0 ->
  nu T <> nu (norm 2 m) ->
  exists v, nuM_eval nu t a x T = Ret v /\ v k = nu T * m k /\ v k <> nu (norm 2 m) * m k.
Proof.
  intros nu t a x T m k E Hm Hn. unfold nuM_eval. rewrite E. cbn [rbind]. eexists. split; [reflexivity|]. split; [ring|].
  intros H. apply Hn. apply (Rmult_eq_reg_l (m k)); [|exact Hm]. rewrite H. ring.
Qed.
Print Assumptions C77_reluctivity_refuted.
Example C77_reluctivity_met : exists t, magnets my_materials my_magnets = Ret t /\
  exists m, mag_eval 2 t 5 (fun _ => 0) (29315 / 100) = Ret m /\ m 0%nat = 6 / 5 /\ 1 + 29315 / 100 <> 1 + norm 2 m.
Proof.
  destruct (proj1 C77_met) as [t E]. exists t. split; [exact E|].
  destruct (proj1 (C77_value _ _ t 2 5 (fun _ => 0) (29315 / 100) E) "NdFeB"%string "x"%string (v3 1 0 0)) as [Br [(o & al & tr & b & So & A & B & C & EB) [(v & Ev & Hv) _]]].
  - exact (proj1 (proj2 C77_met)). - reflexivity.
  - exists v. split; [exact Ev|]. cbn in So. injection So as <-. unfold number in *. cbn in A, B, C.
    destruct A as [A|[_ ->]]; [discriminate|]. destruct B as [B|[_ ->]]; [discriminate|]. destruct C as [C|[C _]]; [|discriminate]. injection C as <-.
    assert (V0 : v 0%nat = 6 / 5) by (rewrite Hv, EB; cbn; field). assert (V1 : v 1%nat = 0) by (rewrite Hv; cbn; ring).
    split; [exact V0|]. unfold norm, dot. cbn [rsum]. rewrite V0, V1.
    replace (0 + 6 / 5 * (6 / 5) + 0 * 0) with ((6 / 5) * (6 / 5)) by ring. rewrite sqrt_square by lra. lra.
Qed.

(** C77: in 3-D the magnetisation does not depend on the temperature: it is the remnant flux at 0 degrees, which for a
    material with a temperature coefficient is the wrong one at every other temperature (by a third at room temperature for
    the default material). *)
Theorem C77_temperature_3d_refuted : forall nu materials (o : magnet_options) t a m s x d, magnets materials o = Ret t ->
  listed o m s a -> magnetization 3 s x = Some (Ret d) ->
  (exists Br0 v, remnant_flux materials m 0 Br0 /\ nuM3_eval nu t a x = Ret v /\ forall k, v k = Br0 * d k * nu 0) /\
  (forall ob, sfind m materials = Some ob -> sfind "alpha_B_r" ob = None -> sfind "T_ref" ob = None -> sfind "B_r_T_ref" ob = None ->
     remnant_flux materials m (29315 / 100) (139 / 100) /\ exists v, nuM3_eval nu t a x = Ret v /\ forall k, v k = 1351780 / 1000000 * (139 / 100) * d k * nu 0).
Proof.
  intros nu materials o t a m s x d H L D.
  destruct (proj1 (C77_value materials o t 3 a x 0 H) m s d L D) as [Br [RB [(v & Ev & Hv) _]]].
  assert (V : nuM3_eval nu t a x = Ret (fun k => v k * nu 0)) by (unfold nuM3_eval, mag_eval_nostate; now rewrite Ev).
  split.
  - exists Br, (fun k => v k * nu 0). split; [exact RB|]. split; [exact V|]. intros k. now rewrite Hv.
  - intros ob Eo A B C. split.
    + exists ob, (- 12 / 100), (29315 / 100), (139 / 100). split; [exact Eo|]. unfold number. repeat (split; [auto|]). field.
    + exists (fun k => v k * nu 0). split; [exact V|]. intros k. rewrite Hv. destruct RB as (ob' & al & tr & b & Eo' & HA & HT & HB & ->).
      rewrite Eo in Eo'. injection Eo' as <-. unfold number in *. rewrite A in HA. rewrite B in HT. rewrite C in HB.
      destruct HA as [HA|[_ ->]]; [discriminate|]. destruct HT as [HT|[_ ->]]; [discriminate|]. destruct HB as [HB|[_ ->]]; [discriminate|]. field.
Qed.
Print Assumptions C77_temperature_3d_refuted.

(** C77: the sensitivities of the 2-D load.  Along every motion of the nodes and every change of the temperature field, the
    vectors returned by the two sensitivity integrators are the derivatives of psi . load. *)
Theorem C77_sensitivities : forall ndof nt nn nq pw alpha shape tsh Adj AdjRev Mv MvRev Md X V T dT psi,
  (forall q, (q < nq)%nat -> rev_matrix 2 nn (Adj q) (AdjRev q)) ->
  (forall q s, (q < nq)%nat -> rev_vector_at 2 2 nn (fun Y => Mv q Y s) X (MvRev q X s)) ->
  (forall q s k, (q < nq)%nat -> (k < 2)%nat -> is_derive (fun s' => Mv q X s' k) s (Md q X s k)) ->
  is_derive (fun t => dot ndof psi (ms_vector nt nq pw alpha shape tsh Adj Mv (moved X V t) T)) 0
    (pairing 2 nn (ms_mesh_bar ndof nt nq pw alpha shape tsh Adj AdjRev Mv MvRev X psi T) V) /\
  is_derive (fun t => dot ndof psi (ms_vector nt nq pw alpha shape tsh Adj Mv X (along T dT t))) 0
    (dot nt (ms_temp_bar ndof nt nq pw alpha shape tsh Adj Md X psi T) dT).
Proof.
  intros ndof nt nn nq pw alpha shape tsh Adj AdjRev Mv MvRev Md X V T dT psi HA HR HD. split.
  - apply ms_mesh; [exact HA|]. intros q Hq. now apply HR.
  - apply ms_temperature. intros q Hq k Hk. now apply HD.
Qed.
Print Assumptions C77_sensitivities.

(** C77: the hypotheses on the coefficient hold for the magnets of the option table: the product with the reluctivity has the
    temperature derivative it reports. *)
Theorem C77_coefficient : forall materials (o : magnet_options) t a m s, magnets materials o = Ret t -> listed o m s a ->
  (forall nu dnu x T k w w' d, magnetization 2 s x = Some (Ret d) -> is_derive nu T (dnu T) ->
     (forall T', exists u, nuM_eval nu t a x T' = Ret u /\ u k = w T') -> (exists u, nuM_deriv nu dnu t a x T = Ret u /\ u k = w') -> is_derive w T w').
Proof.
  intros materials o t a m s H L nu dnu x T k w w' d D Hnu Hw [u' [E' <-]].
  assert (V := fun T' => proj1 (C77_value materials o t 2 a x T' H) m s d L D).
  destruct (V T) as [Br [_ [(v & Ev & Hv) (v' & Ev' & Hd)]]].
  unfold nuM_deriv in E'. rewrite Ev, Ev' in E'. cbn [rbind] in E'. injection E' as <-.
  set (g := fun T' => match mag_eval 2 t a x T' with Ret u => u k | _ => 0 end).
  apply (DV_ext (fun T' => g T' * nu T')).
  - intros T'. destruct (Hw T') as [u [Eu <-]]. destruct (V T') as [Br' [_ [(v2 & Ev2 & _) _]]]. unfold nuM_eval in Eu. unfold g. rewrite Ev2 in *. cbn [rbind] in Eu. injection Eu as <-. reflexivity.
  - apply (DV_eq _ T (v' k * nu T + g T * dnu T)); [|unfold g; rewrite Ev; ring]. apply DV_mult; [|exact Hnu].
    apply Hd. intros T'. destruct (V T') as [Br' [_ [(v2 & Ev2 & _) _]]]. exists v2. split; [exact Ev2|]. unfold g. now rewrite Ev2.
Qed.
Print Assumptions C77_coefficient.
(** the hypotheses of C77_sensitivities: an isoparametric triangle, magnet along the diagonal of the position (x0, x1) itself
    (a direction that depends on the nodes), remnant flux linear in the temperature *)
Example C77_sensitivities_met : let dN := fun j a => match j, a with O, _ => -1 | 1%nat, O => 1 | 2%nat, 1%nat => 1 | _, _ => 0 end in
  let N := fun j : nat => 1 / 3 in
  let pos := fun (Y : mat) k => rsum 3 (fun j => N j * Y k j) in
  rev_matrix 2 3 (IsoGeom.adjm2 3 dN) (IsoGeom.adjm2_rev dN) /\
  (forall s X, rev_vector_at 2 2 3 (fun Y k => pos Y k * (2 - s)) X (fun b k j => b k * (2 - s) * N j)) /\
  (forall X s k, is_derive (fun s' => pos X k * (2 - s')) s (- pos X k)).
Proof.
  cbv zeta. split; [|split].
  - apply IsoGeom.adjm2_ok.
  - intros s X V b. unfold dot, pairing.
    apply (DV_sum 2 (fun k t => b k * (rsum 3 (fun j => 1 / 3 * moved X V t k j) * (2 - s)))). intros k _.
    apply (DV_eq _ 0 (b k * (rsum 3 (fun j => 1 / 3 * V k j) * (2 - s)))).
    + apply DV_scal, DV_scal_r. apply (DV_sum 3 (fun j t => 1 / 3 * moved X V t k j)). intros j _. apply DV_scal. unfold moved.
      apply (DV_eq _ 0 (0 + 1 * V k j)); [|ring]. apply DV_plus; [apply DV_const|apply DV_scal_r, DV_id].
    + rewrite <- rsum_scal_r, <- rsum_scal. apply rsum_ext. intros; ring.
  - intros X s k. apply (DV_eq _ s (rsum 3 (fun j => 1 / 3 * X k j) * (0 - 1))); [|ring]. apply DV_scal. apply DV_minus; [apply DV_const|apply DV_id].
Qed.
