(** C80: field magnitude outputs. *)
From Coq Require Import Reals List Bool Lia Lra.
From Coquelicot Require Import Coquelicot.
From Verif Require Import Vec Deriv EmInteg EmIntegSpec EmMeshProofs IsoGeom SbpSpec SbpMeshProofs CommonFun CommonFunSpec CommonFunProofs
  FieldFun FieldFunSpec FieldFunProofs Props_CommonFun.
Import ListNotations.
Local Open Scope R_scope.

Section C80.
Variables (sdim : nat) (shape : elem -> nat -> mat) (Adj Jac : elem -> nat -> mat -> mat) (AdjRev JacRev : elem -> nat -> mat -> mat -> mat) (three : bool).
Notation A := (if three then Jac else Adj).
Notation ARev := (if three then JacRev else AdjRev).
Notation fs := (field_samples sdim three shape A).

(** C80: the average magnitude is the sum of |B| w over the volume; between the smallest and largest magnitude when the two
    rules measure the same volume. *)
Theorem C80_average : forall (Q B : list elem) X u, weights_ok Q X ->
  curl_average sdim shape Adj Jac three Q B X u = lsum (fun p => fst p * snd p) (fs Q X u) / measure (samples B X u) /\
  forall lo hi, weights_positive (fs Q X u) -> measure (samples B X u) = measure (fs Q X u) ->
    (forall g w, In (g, w) (fs Q X u) -> lo <= g <= hi) -> lo <= curl_average sdim shape Adj Jac three Q B X u <= hi.
Proof.
  intros Q B X u H.
  assert (E : curl_average sdim shape Adj Jac three Q B X u = lsum (fun p => fst p * snd p) (fs Q X u) / measure (samples B X u)).
  { unfold curl_average. rewrite magnitude_samples by exact H. now rewrite (vol_samples B X u u). }
  split; [exact E|]. intros lo hi P M L. rewrite E, M. change (lo <= mean (fs Q X u) <= hi). rewrite <- ie_zero. now apply ie_bounds.
Qed.

(** C80: the aggregate is the induced exponential of the magnitudes: between smallest and largest, not decreasing in rho,
    the mean for rho = 0 and within volume / (w rho) of the maximum. *)
Theorem C80_aggregate : forall (M : list elem) X u, weights_ok M X -> weights_positive (fs M X u) ->
  (forall rho, curl_agg sdim shape Adj Jac three M X u rho = induced_exponential rho (fs M X u)) /\
  (forall rho lo hi, (forall g w, In (g, w) (fs M X u) -> lo <= g <= hi) -> lo <= curl_agg sdim shape Adj Jac three M X u rho <= hi) /\
  (forall rho1 rho2, rho1 <= rho2 -> curl_agg sdim shape Adj Jac three M X u rho1 <= curl_agg sdim shape Adj Jac three M X u rho2) /\
  curl_agg sdim shape Adj Jac three M X u 0 = mean (fs M X u) /\
  (forall rho m w, 0 < rho -> In (m, w) (fs M X u) -> is_maximum m (fs M X u) ->
     m - measure (fs M X u) / (w * rho) <= curl_agg sdim shape Adj Jac three M X u rho).
Proof.
  intros M X u H P. assert (E : forall rho, curl_agg sdim shape Adj Jac three M X u rho = induced_exponential rho (fs M X u)) by (intros; now apply agg_induced).
  split; [exact E|]. split; [intros rho lo hi L; rewrite E; now apply ie_bounds|]. split; [intros rho1 rho2 L; rewrite !E; now apply ie_monotone|].
  split; [rewrite E; apply ie_zero|]. intros rho m w R0 I [_ L]. rewrite E. assert (G := ie_gap rho _ m w R0 P I L). lra.
Qed.

(** the functionals the theorems below speak of *)
Definition magnitude_functional (F : pointfun) : Prop :=
  F = curl_magnitude \/ (exists rho amax, amax <> 0 /\ (F = curl_numerator rho amax \/ F = curl_denominator rho amax)).
Lemma magnitude_ok F : magnitude_functional F -> partials_ok F.
Proof. intros [E|H]; [subst F; apply curl_magnitude_ok|]. destruct H as (rho & amax & Z & H). destruct H as [E|E]; subst F; [now apply curl_numerator_ok|now apply curl_denominator_ok]. Qed.

(** C80: gradient and mesh sensitivity are reported as numbers exactly when the field vanishes at no quadrature point, and
    then they are the derivatives. *)
Theorem C80_derivatives : forall N NN (M : list elem) F X V u v, magnitude_functional F -> mesh_ok sdim N NN M -> matrices_ok sdim A ARev M -> weights_ok M X ->
  (no_zero_field (fs M X u) ->
     (exists g, ff_gradient sdim shape Adj Jac three F M X u = Some g /\
        is_derive (fun t => total (ff_energy sdim shape Adj Jac three F) M X (along u v t)) 0 (dot N g v)) /\
     (exists g, ff_mesh_gradient sdim shape Adj Jac AdjRev JacRev three F M X u = Some g /\
        is_derive (fun t => total (ff_energy sdim shape Adj Jac three F) M (moved X V t) u) 0 (pairing sdim NN g V))) /\
  (~ no_zero_field (fs M X u) -> ff_gradient sdim shape Adj Jac three F M X u = None /\ ff_mesh_gradient sdim shape Adj Jac AdjRev JacRev three F M X u = None).
Proof.
  intros N NN M F X V u v PF H HA HW. apply magnitude_ok in PF. assert (D := defined_nonzero sdim shape Adj Jac three M X u HW). split.
  - intros Z. assert (Z' := nonzero_samples sdim shape Adj Jac three M X u HW Z). unfold ff_gradient, ff_mesh_gradient. rewrite (proj2 D Z). split.
    + eexists. split; [reflexivity|]. apply total_state_at; [intros e He; apply (H e He)|]. intros e He.
      apply ff_state_derive; [exact PF|intros q Hq; exact (HW e q He Hq)|intros q Hq; now apply Z'].
    + eexists. split; [reflexivity|]. apply total_mesh_at; [intros e He; apply (H e He)|]. intros e He.
      apply ff_mesh_derive; [exact PF|apply (H e He)| |intros q Hq; exact (HW e q He Hq)|intros q Hq; now apply Z'].
      clear -HA He. unfold matrices_ok in HA. destruct three; intros q Hq; exact (HA e q He Hq).
  - intros Z. unfold ff_gradient, ff_mesh_gradient. destruct (ff_defined sdim shape Adj Jac three M X u); [elim Z; now apply D|auto].
Qed.

(** C80: the reverse products of the average and of the aggregate are the derivatives, where the field vanishes nowhere. *)
Theorem C80_products : forall N NN (Q B : list elem) X V u v rho out_bar wrt_bar wrt_bar',
  mesh_ok sdim N NN Q -> mesh_ok sdim N NN B -> matrices_ok sdim A ARev Q -> weights_ok Q X -> no_zero_field (fs Q X u) ->
  weights_positive (fs Q X u) -> total (vol_energy NoRho) B X u <> 0 ->
  (exists r d, curl_average_state_vjp sdim shape Adj Jac three Q B X u out_bar wrt_bar = Some r /\
     is_derive (fun t => curl_average sdim shape Adj Jac three Q B X (along u v t)) 0 d /\ dot N r v = dot N wrt_bar v + out_bar * d) /\
  (exists r d, curl_average_mesh_vjp sdim shape Adj Jac AdjRev JacRev three Q B X u out_bar wrt_bar' = Some r /\
     is_derive (fun t => curl_average sdim shape Adj Jac three Q B (moved X V t) u) 0 d /\ pairing sdim NN r V = pairing sdim NN wrt_bar' V + out_bar * d) /\
  (exists r d, curl_agg_state_vjp sdim shape Adj Jac three Q X u rho out_bar wrt_bar = Some r /\
     is_derive (fun t => curl_agg sdim shape Adj Jac three Q X (along u v t) rho) 0 d /\ dot N r v = dot N wrt_bar v + out_bar * d) /\
  (exists r d, curl_agg_mesh_vjp sdim shape Adj Jac AdjRev JacRev three Q X u rho out_bar wrt_bar' = Some r /\
     is_derive (fun t => curl_agg sdim shape Adj Jac three Q (moved X V t) u rho) 0 d /\ pairing sdim NN r V = pairing sdim NN wrt_bar' V + out_bar * d).
Proof.
  intros N NN Q B X V u v rho ob wb wb' H HB HA HW Z P ZB.
  destruct (proj1 (C80_derivatives N NN Q curl_magnitude X V u v (or_introl eq_refl) H HA HW) Z) as [(g1 & E1 & D1) (m1 & F1 & K1)].
  assert (O : 1 <> 0) by lra.
  destruct (proj1 (C80_derivatives N NN Q (curl_numerator rho 1) X V u v ltac:(right; exists rho, 1; auto) H HA HW) Z) as [(g2 & E2 & D2) (m2 & F2 & K2)].
  destruct (proj1 (C80_derivatives N NN Q (curl_denominator rho 1) X V u v ltac:(right; exists rho, 1; auto) H HA HW) Z) as [(g3 & E3 & D3) (m3 & F3 & K3)].
  assert (L0 : forall F, total (ff_energy sdim shape Adj Jac three F) Q X (along u v 0) = total (ff_energy sdim shape Adj Jac three F) Q X u).
  { intros F. unfold total, ff_energy. apply lsum_ext. intros e _. apply rsum_ext. intros q _. f_equal.
    exact (EmIntegProofs.nrm_along_0 (e_ndof e) sdim _ q (gather (e_ndof e) (e_dof e) u) (gather (e_ndof e) (e_dof e) v)). }
  assert (ZD : total (ff_energy sdim shape Adj Jac three (curl_denominator rho 1)) Q X u <> 0).
  { rewrite denominator_samples by exact HW. assert (D := den_pos (rho / 1) _ P). unfold mat_of in *. intros E. apply (Rlt_irrefl 0). rewrite <- E at 2. exact D. }
  assert (G0 : forall x, dot N (assembled vol_grad B X u) x = 0).
  { intros x. unfold dot. rewrite (rsum_ext N _ (fun _ => 0)); [apply rsum_0|]. intros J _. unfold assembled.
    rewrite (lsum_ext _ (fun _ => 0)); [rewrite lsum_0; ring|]. intros e _. unfold scatter_to, vol_grad.
    rewrite (rsum_ext _ _ (fun _ => 0)); [apply rsum_0|]. intros i _. now destruct (Nat.eqb J (e_dof e i)). }
  split; [|split; [|split]].
  - unfold curl_average_state_vjp. rewrite E1. cbv zeta. eexists. eexists. split; [reflexivity|].
    assert (D4 : is_derive (fun t => total (vol_energy NoRho) B X (along u v t)) 0 0) by exact (DV_const (total (vol_energy NoRho) B X u) 0).
    assert (Y := quotient_vjp _ _ _ _ D1 D4). cbv beta in Y. rewrite L0 in Y. change (total (vol_energy NoRho) B X (along u v 0)) with (total (vol_energy NoRho) B X u) in Y. specialize (Y ZB).
    split; [exact Y|]. set (s := total (ff_energy sdim shape Adj Jac three curl_magnitude) Q X u) in *. set (w := total (vol_energy NoRho) B X u) in *.
    transitivity (dot N wb v + ob / w * dot N g1 v + - s / w ^ 2 * ob * dot N (assembled vol_grad B X u) v).
    * unfold dot. rewrite <- !rsum_scal, <- !rsum_plus. apply rsum_ext. intros; unfold Rdiv; ring.
    * rewrite G0. unfold Rdiv. ring.
  - unfold curl_average_mesh_vjp. rewrite F1. cbv zeta. eexists. eexists. split; [reflexivity|].
    assert (K4 := C78_volume_mesh sdim N NN B NoRho X V u HB ltac:(discriminate) ltac:(discriminate)).
    assert (Y := quotient_vjp _ _ _ _ K1 K4). cbv beta in Y. rewrite moved_0' in Y. specialize (Y ZB).
    split; [exact Y|]. set (s := total (ff_energy sdim shape Adj Jac three curl_magnitude) Q X u) in *. set (w := total (vol_energy NoRho) B X u) in *.
    unfold pairing. rewrite <- !rsum_scal, <- !rsum_plus, <- rsum_scal, <- rsum_plus. apply rsum_ext. intros k _.
    rewrite <- !rsum_scal, <- rsum_plus, <- rsum_scal, <- rsum_plus. apply rsum_ext. intros j _. unfold Rdiv. ring.
  - unfold curl_agg_state_vjp. rewrite E2, E3. cbv zeta. eexists. eexists. split; [reflexivity|].
    assert (Y := quotient_vjp _ _ _ _ D2 D3). cbv beta in Y. rewrite !L0 in Y. specialize (Y ZD). split; [exact Y|].
    set (a := total (ff_energy sdim shape Adj Jac three (curl_numerator rho 1)) Q X u) in *. set (b := total (ff_energy sdim shape Adj Jac three (curl_denominator rho 1)) Q X u) in *.
    unfold dot. rewrite <- !rsum_scal, <- !rsum_plus, <- rsum_scal, <- rsum_plus. apply rsum_ext. intros i _. unfold Rdiv. ring.
  - unfold curl_agg_mesh_vjp. rewrite F2, F3. cbv zeta. eexists. eexists. split; [reflexivity|].
    assert (Y := quotient_vjp _ _ _ _ K2 K3). cbv beta in Y. rewrite !moved_0' in Y. specialize (Y ZD). split; [exact Y|].
    set (a := total (ff_energy sdim shape Adj Jac three (curl_numerator rho 1)) Q X u) in *. set (b := total (ff_energy sdim shape Adj Jac three (curl_denominator rho 1)) Q X u) in *.
    unfold pairing. rewrite <- !rsum_scal, <- !rsum_plus, <- rsum_scal, <- rsum_plus. apply rsum_ext. intros k _.
    rewrite <- !rsum_scal, <- rsum_plus, <- rsum_scal, <- rsum_plus. apply rsum_ext. intros j _. unfold Rdiv. ring.
Qed.
End C80.
Print Assumptions C80_average.
Print Assumptions C80_aggregate.
Print Assumptions C80_derivatives.
Print Assumptions C80_products.

(** the potential x on the reference triangle: |B| = 1; and the potential 0 *)
Definition tri_A : elem -> nat -> mat -> mat := fun _ _ => adjm2 3 tri_dN.
Definition tri_ARev : elem -> nat -> mat -> mat -> mat := fun _ _ => adjm2_rev tri_dN.
Lemma tri_field : forall c, 0 <= c -> field_samples 2 false (fun _ _ => tri_dN) tri_A [tri (fun j => j)] ref_tri (fun i => c * ref_tri 0%nat i) = [(c, 1 / 2)].
Proof.
  intros c C. unfold field_samples. cbn [flat_map seq map app tri e_nq e_pw e_W e_node e_ndof e_dof].
  assert (W1 : 1 / 2 * wt2 3 tri_dN (fun k j => ref_tri k j) = 1 / 2) by (unfold wt2, det2, iso_jac, ref_tri, tri_dN; cbn; lra).
  rewrite W1. do 2 f_equal. unfold field_magnitude. transitivity (sqrt (Rsqr c)); [f_equal|now apply sqrt_Rsqr]. unfold Rsqr, field, physical, tri_A, adjm2, adj2, iso_jac, wt2, det2, iso_jac, ref_tri, tri_dN. cbn. field.
Qed.
Example C80_nonvacuous : mesh_ok 2 3 3 [tri (fun j => j)] /\ matrices_ok 2 tri_A tri_ARev [tri (fun j => j)] /\ weights_ok [tri (fun j => j)] ref_tri /\
  no_zero_field (field_samples 2 false (fun _ _ => tri_dN) tri_A [tri (fun j => j)] ref_tri (fun i => 1 * ref_tri 0%nat i)) /\
  weights_positive (field_samples 2 false (fun _ _ => tri_dN) tri_A [tri (fun j => j)] ref_tri (fun i => 1 * ref_tri 0%nat i)) /\
  curl_average 2 (fun _ _ => tri_dN) tri_A tri_A false [tri (fun j => j)] [tri (fun j => j)] ref_tri (fun i => 1 * ref_tri 0%nat i) = 1 /\
  ~ no_zero_field (field_samples 2 false (fun _ _ => tri_dN) tri_A [tri (fun j => j)] ref_tri (fun i => 0 * ref_tri 0%nat i)).
Proof.
  assert (W : weights_ok [tri (fun j => j)] ref_tri) by (intros e q [<-|[]] _; cbn [tri e_W e_node]; unfold wt2, det2, iso_jac, ref_tri, tri_dN; cbn; lra).
  split; [apply tri_ok; auto|]. split; [intros e q [<-|[]] _; apply adjm2_ok|]. split; [exact W|].
  rewrite !tri_field by lra. split; [intros g w [E|[]]; injection E as <- <-; lra|]. split; [split; [discriminate|intros g w [E|[]]; injection E as <- <-; lra]|]. split.
  - rewrite (proj1 (C80_average 2 (fun _ _ => tri_dN) tri_A tri_A false [tri (fun j => j)] [tri (fun j => j)] ref_tri _ W)).
    rewrite tri_field by lra. rewrite <- (vol_samples _ ref_tri (fun _ => 0)), (proj2 C78_volume_nonvacuous). unfold lsum. cbn [fold_right fst snd]. lra.
  - intros K. apply (K 0 (1 / 2)); [now left|reflexivity].
Qed.
