(** C114, C115: mesh sensitivities of the flow residual. *)
From Coq Require Import Reals Lra Lia List Bool Arith.
From Coquelicot Require Import Coquelicot.
From Verif Require Import Num Vec Deriv EmIntegSpec IsoGeom Force ForceProofs Euler Sbp SbpSpec SbpProofs SbpMesh FlowSens FlowSensSpec FlowSensProofs.
Import ListNotations.
Local Open Scope R_scope.

(** only the volume term: no boundary faces *)
Definition volume_only (es : list selem) : smesh := {| sm_els := es; sm_bnd := [] |}.
Definition no_flux : vec -> vec -> vec -> vec := fun _ _ _ _ => 0.
Definition no_bar : vec -> vec -> vec -> vec -> vec := fun _ _ _ _ _ => 0.

(** ** C114: the Ismail-Roe volume term, for every mesh, state, adjoint and motion of the nodes *)
Theorem C114_mesh_derivative : forall three entvar alpha es N NN X V u psi,
  numbered N NN (volume_only es) ->
  is_derive (fun t => weighted N (gdim three + 2) psi
      (flow_res three (gdim three + 2) alpha (irFlux (gdim three) entvar) no_flux (volume_only es) (moved X V t) u)) 0
    (along NN (gdim three) (flow_sens three (gdim three + 2) alpha (ir_sens_flux (gdim three) entvar) no_bar (volume_only es) X u psi) V).
Proof. intros. now apply (flow_derive_vol three _ alpha (irFlux (gdim three) entvar)). Qed.
Print Assumptions C114_mesh_derivative.
(** the same for any two-point flux *)
Theorem C114_any_flux : forall three ns alpha flux es N NN X V u psi, numbered N NN (volume_only es) ->
  is_derive (fun t => weighted N ns psi (flow_res three ns alpha flux no_flux (volume_only es) (moved X V t) u)) 0
    (along NN (gdim three) (flow_sens three ns alpha flux no_bar (volume_only es) X u psi) V).
Proof. intros. now apply flow_derive_vol. Qed.
Print Assumptions C114_any_flux.
Lemma gdadj_0 three J E a b : (forall k l, (k < gdim three)%nat -> (l < gdim three)%nat -> E k l = 0) -> (a < gdim three)%nat -> (b < gdim three)%nat -> gdadj three J E a b = 0.
Proof.
  intros H Ha Hb. rewrite dadj_sum. rewrite (rsum_ext (gdim three) _ (fun _ => 0)); [apply rsum_0|]. intros k Hk.
  rewrite (rsum_ext (gdim three) _ (fun _ => 0)); [apply rsum_0|]. intros l Hl. rewrite (H k l Hk Hl). ring.
Qed.
(** translating the whole mesh does not change the residual: the sensitivity sums to zero over the nodes in each direction *)
Theorem C114_translation : forall three ns alpha flux es N NN X u psi k, numbered N NN (volume_only es) -> (k < gdim three)%nat ->
  (forall e i l, In e es -> (i < se_n e)%nat -> (l < gdim three)%nat -> rsum (se_nn e) (fun j => se_dN e i j l) = 0) ->
  rsum NN (fun J => flow_sens three ns alpha flux no_bar (volume_only es) X u psi J k) = 0.
Proof.
  intros three ns alpha flux es N NN X u psi k HM Hk HS.
  assert (E : rsum NN (fun J => flow_sens three ns alpha flux no_bar (volume_only es) X u psi J k) =
    along NN (gdim three) (flow_sens three ns alpha flux no_bar (volume_only es) X u psi) (fun c _ => if Nat.eqb c k then 1 else 0)).
  { unfold along. apply rsum_ext. intros J _. rewrite (rsum_ext (gdim three) _ (fun c => if Nat.eqb c k then flow_sens three ns alpha flux no_bar (volume_only es) X u psi J c else 0)) by (intros c _; destruct (Nat.eqb c k); ring). now rewrite rsum_delta. }
  rewrite E, (sens_test three ns alpha flux no_bar N NN (volume_only es) u psi HM). cbn [sm_els sm_bnd volume_only].
  assert (Z : lsum (fun e => pairing (gdim three) (se_nn e) (vol_sens three ns alpha flux e (el_nodes e X) (fun i => u (se_glob e i)) (fun i => psi (se_glob e i))) (el_nodes e (fun c _ => if Nat.eqb c k then 1 else 0))) es = 0); [|rewrite Z; unfold lsum; cbn; ring].
  clear HM E. induction es as [|e es IH]; [reflexivity|]. unfold lsum in *. cbn [fold_right]. rewrite IH by (intros; eapply HS; eauto; now right). rewrite vol_sens_pair, Rplus_0_r.
  rewrite (rsum_ext (se_n e) _ (fun _ => 0)); [apply rsum_0|]. intros i Hi. rewrite (rsum_ext (se_n e) _ (fun _ => 0)); [apply rsum_0|]. intros j Hj.
  destruct (Nat.ltb i j); [|reflexivity]. rewrite (rsum_ext (gdim three) _ (fun _ => 0)); [apply rsum_0|]. intros di Hd. unfold dS.
  rewrite (rsum_ext (gdim three) _ (fun _ => 0)); [rewrite rsum_0; ring|]. intros c Hc.
  assert (T : forall i' a l, (i' < se_n e)%nat -> (a < gdim three)%nat -> (l < gdim three)%nat -> iso_jac (se_nn e) (se_dN e i') (el_nodes e (fun c _ => if Nat.eqb c k then 1 else 0)) a l = 0).
  { intros i' a l Hi' Ha Hl. unfold iso_jac, el_nodes. rewrite rsum_scal, (HS e i' l (or_introl eq_refl) Hi' Hl). ring. }
  rewrite !gdadj_0; try assumption; [ring| |]; intros; now apply T.
Qed.
Print Assumptions C114_translation.

(** ** C115: with the slip wall *)
Theorem C115_slip_wall : forall three entvar alpha M N NN X V u psi, numbered N NN M -> invertible three M X ->
  is_derive (fun t => weighted N (gdim three + 2) psi
      (flow_res three (gdim three + 2) alpha (irFlux (gdim three) entvar) (slip_flux (gdim three) entvar) M (moved X V t) u)) 0
    (along NN (gdim three) (flow_sens three (gdim three + 2) alpha (ir_sens_flux (gdim three) entvar) (slip_flux_bar (gdim three) entvar) M X u psi) V).
Proof. intros. apply (flow_derive three _ alpha (irFlux (gdim three) entvar)); [assumption|apply slip_bar|assumption]. Qed.
Print Assumptions C115_slip_wall.
(** any boundary flux that does not depend on the position and whose fluxBar is right *)
Theorem C115_any_flux : forall three ns alpha flux bflux bfluxBar M N NN X V u psi, numbered N NN M -> invertible three M X ->
  is_flux_bar (gdim three) ns bflux bfluxBar ->
  is_derive (fun t => weighted N ns psi (flow_res three ns alpha flux bflux M (moved X V t) u)) 0
    (along NN (gdim three) (flow_sens three ns alpha flux bfluxBar M X u psi) V).
Proof. intros. now apply flow_derive. Qed.
Print Assumptions C115_any_flux.

(** a unit triangle with linear mapping, first-order SBP operators at the vertices and its bottom edge as boundary *)
Definition tri_grad : mat := fun j l => match j, l with O, _ => -1 | S O, O => 1 | S O, _ => 0 | _, O => 0 | _, _ => 1 end.
Definition tri : selem := {| se_n := 3; se_Q := fun k a _ => / 6 * tri_grad a k; se_glob := fun i => i; se_nn := 3; se_node := fun j => j; se_dN := fun _ => tri_grad |}.
Definition bottom : sface := {| sf_el := tri; sf_nf := 2; sf_idx := fun f => f; sf_wt := fun _ => / 2; sf_loc := fun _ c _ => match c with O => 1 | _ => 0 end;
  sf_N := fun f j => if Nat.eqb j f then 1 else 0; sf_dN := fun _ => tri_grad |}.
Definition tri_mesh : smesh := {| sm_els := [tri]; sm_bnd := [bottom] |}.
Definition tri_X : mat := fun k j => match k, j with O, S O => 1 | S O, S (S O) => 1 | _, _ => 0 end.
Example C115_tri_ok : numbered 3 3 tri_mesh /\ invertible false tri_mesh tri_X /\ numbered 3 3 (volume_only [tri]) /\
  (forall i l, (l < 2)%nat -> rsum (se_nn tri) (fun j => se_dN tri i j l) = 0).
Proof.
  split; [|split; [|split]].
  - split; [intros e [<-|[]]|intros b [<-|[]]]; cbn; repeat split; intros; lia.
  - intros b f [<-|[]] Hf. cbn. unfold det2, iso_jac, el_nodes. cbn. lra.
  - split; [intros e [<-|[]]|intros b []]; cbn; repeat split; intros; lia.
  - intros i l Hl. cbn. destruct l as [|[|l]]; [lra|lra|lia].
Qed.
(** the sensitivity is not trivially zero: raising node 0 of the wall, at pressure 2/5 *)
Example C115_tri_value : along 3 2 (flow_sens false 4 1 (fun _ _ _ _ => 0) (slip_flux_bar 2 false) tri_mesh tri_X
   (fun _ m => match m with O => 1 | S (S (S O)) => 1 | _ => 0 end) (fun _ m => match m with S (S O) => 1 | _ => 0 end)) (fun k J => match k, J with O, S O => 1 | _, _ => 0 end) = - (2 / 5).
Proof.
  destruct C115_tri_ok as [HN [HI _]].
  rewrite (sens_test false 4 1 (fun _ _ _ _ => 0) (slip_flux_bar 2 false) 3 3 tri_mesh _ _ HN). cbn [sm_els sm_bnd tri_mesh].
  unfold lsum. cbn [fold_right]. rewrite vol_sens_pair. rewrite (bnd_pair false 1 (slip_flux_bar 2 false) bottom).
  2:{ intros f Hf. exact (HI bottom f (or_introl eq_refl) Hf). }
  rewrite (rsum_ext (se_n tri) _ (fun _ => 0)).
  2:{ intros i _. rewrite (rsum_ext (se_n tri) _ (fun _ => 0)); [apply rsum_0|]. intros j _. destruct (Nat.ltb i j); [|reflexivity].
      rewrite (rsum_ext (gdim false) _ (fun _ => 0)); [apply rsum_0|]. intros di _. unfold s_bar, dot. rewrite (rsum_ext 4 _ (fun _ => 0)) by (intros; ring). rewrite rsum_0. ring. }
  rewrite rsum_0. unfold pairing, calc_ortho_rev, slip_flux_bar, pressure, face_jac, el_jac, iso_jac, el_nodes, dot, mom, gami, gamma, tri_X. cbn. field.
Qed.
(** a boundary flux that depends on the position: fluxBar is the derivative with respect to the normal, but the sensitivity is
    zero while the residual changes, because the derivative through the position is not propagated *)
Theorem C115_position_refuted : exists bflux bfluxBar,
  (forall x u b (c : R -> vec) (v : vec), (forall k, (k < 2)%nat -> is_derive (fun t => c t k) 0 (v k)) ->
     is_derive (fun t => rsum 1 (fun m => b m * bflux x (c t) u m)) 0 (rsum 2 (fun k => bfluxBar x (c 0) u b k * v k))) /\
  exists M X V u psi, numbered 3 3 M /\ invertible false M X /\
    along 3 2 (flow_sens false 1 1 (fun _ _ _ _ => 0) bfluxBar M X u psi) V = 0 /\
    is_derive (fun t => weighted 3 1 psi (flow_res false 1 1 (fun _ _ _ _ => 0) bflux M (moved X V t) u)) 0 1.
Proof.
  exists (fun x _ _ _ => x 0%nat), no_bar. split.
  { intros x u b c v H. unfold no_bar. cbn [rsum]. apply (DV_eq _ 0 0); [|ring]. apply (DV_const (0 + b 0%nat * x 0%nat)). }
  exists tri_mesh, tri_X, (fun k _ => match k with O => 1 | _ => 0 end), (fun _ _ => 0), (fun _ _ => 1).
  destruct C115_tri_ok as [HN [HI _]]. split; [exact HN|]. split; [exact HI|]. split.
  - rewrite (sens_test false 1 1 (fun _ _ _ _ => 0) no_bar 3 3 tri_mesh _ _ HN). unfold lsum. cbn [sm_els sm_bnd tri_mesh fold_right]. rewrite vol_sens_pair.
 rewrite (bnd_pair false 1 no_bar bottom).
    2:{ intros f Hf. exact (HI bottom f (or_introl eq_refl) Hf). }
    rewrite (rsum_ext (se_n tri) _ (fun _ => 0)).
    2:{ intros i _. rewrite (rsum_ext (se_n tri) _ (fun _ => 0)); [apply rsum_0|]. intros j _. destruct (Nat.ltb i j); [|reflexivity].
        rewrite (rsum_ext (gdim false) _ (fun _ => 0)); [apply rsum_0|]. intros di _. unfold s_bar, dot. cbn [rsum]. ring. }
    rewrite rsum_0. unfold pairing, calc_ortho_rev, no_bar. cbn. ring.
  - apply (DV_ext (fun t => / 2 + t)).
    + intros t. rewrite (res_test false 1 1 _ _ 3 3 tri_mesh _ _ HN). unfold lsum. cbn [sm_els sm_bnd tri_mesh fold_right].
      unfold vol_vector. rewrite dyadic_test. rewrite (rsum_ext (se_n tri) _ (fun _ => 0)).
      2:{ intros i _. rewrite (rsum_ext (se_n tri) _ (fun _ => 0)); [apply rsum_0|]. intros j _. destruct (Nat.ltb i j); [|reflexivity].
          rewrite (rsum_ext (gdim false) _ (fun _ => 0)); [apply rsum_0|]. intros di _. unfold dot. cbn [rsum]. ring. }
      rewrite rsum_0. unfold bnd_vector, boundaryVector, face_pos, el_nodes, moved, test, dot, add2, zero2, tri_X. cbn. field.
    + apply (DV_eq _ 0 (0 + 1)); [|ring]. apply DV_plus; [apply DV_const|apply DV_id].
Qed.
Print Assumptions C115_position_refuted.
