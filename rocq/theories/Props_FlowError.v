(** C142: the solution error a flow solver reports. *)
From Coq Require Import Reals Arith List ZArith Bool Lia Lra Psatz Permutation.
From Verif Require Import Num Vec Euler EulerSpec Sbp SbpSpec SbpMesh SbpMeshSpec SbpMeshProofs SbpMeshProofs2 FlowJacSpec FluxSmooth2 ViscWallProofs2 EntropyRateSpec EntropyRateProofs2 FlowError FlowErrorSpec FlowErrorProofs Props_ViscWall Props_EntropyRate.
Import ListNotations.
Local Open Scope R_scope.

(** the reported error is the quadrature norm of the difference of the conservative states: of all components, or of the one asked for;
    however the elements are spread over the processes *)
Theorem C142_error_is_distance :
  forall d entvar entry N M ranks xg u u_exact g g', well_formed N M -> positive_mesh M -> Permutation (concat ranks) (els M) ->
  valid_gas d entvar N u g -> valid_gas d entvar N (fun i => u_exact (xg i)) g' -> (entry < Z.of_nat (d + 2))%Z ->
  l2Error d entvar entry ranks xg u u_exact = Some (sqrt (mesh_integral M (fun i =>
    let diff m := conserved d g i m - conserved d g' i m in
    if (entry <? 0)%Z then rsum (d + 2) (fun m => diff m * diff m) else diff (Z.to_nat entry) * diff (Z.to_nat entry)))).
Proof. exact error_value. Qed.
Print Assumptions C142_error_is_distance.

(** so it does not depend on which variables the solver stores *)
Theorem C142_either_variables :
  forall d entry N M ranks xg u u_exact w w_exact g g', well_formed N M -> positive_mesh M -> Permutation (concat ranks) (els M) ->
  valid_gas d false N u g -> valid_gas d false N (fun i => u_exact (xg i)) g' -> valid_gas d true N w g -> valid_gas d true N (fun i => w_exact (xg i)) g' ->
  (entry < Z.of_nat (d + 2))%Z -> l2Error d true entry ranks xg w w_exact = l2Error d false entry ranks xg u u_exact.
Proof.
  intros d entry N M ranks xg u u_exact w w_exact g g' WF PM PR A A' B B' HE.
  rewrite (C142_error_is_distance d true entry N M ranks xg w w_exact g g'), (C142_error_is_distance d false entry N M ranks xg u u_exact g g') by assumption. reflexivity.
Qed.
Print Assumptions C142_either_variables.

(** zero exactly when the gas is the exact one at every node of every element *)
Theorem C142_zero_iff_exact :
  forall d entvar entry N M ranks xg u u_exact g g', well_formed N M -> positive_mesh M -> covered N M -> Permutation (concat ranks) (els M) ->
  valid_gas d entvar N u g -> valid_gas d entvar N (fun i => u_exact (xg i)) g' -> (entry < 0)%Z ->
  (l2Error d entvar entry ranks xg u u_exact = Some 0 <->
   forall i, (i < N)%nat -> g_rho g i = g_rho g' i /\ (forall c, (c < d)%nat -> g_u g i c = g_u g' i c) /\ g_p g i = g_p g' i).
Proof.
  intros d entvar entry N M ranks xg u u_exact g g' WF PM CV PR VG VG' HE.
  rewrite (C142_error_is_distance d entvar entry N M ranks xg u u_exact g g') by (assumption || lia). cbv zeta. destruct (Z.ltb_spec entry 0); [|lia].
  set (f := fun i => rsum (d + 2) (fun m => (conserved d g i m - conserved d g' i m) * (conserved d g i m - conserved d g' i m))).
  assert (F0 : forall i, 0 <= f i) by (intros i; apply rsum_nonneg; intros; apply Rle_0_sqr).
  assert (I0 : 0 <= mesh_integral M f) by (apply integral_nonneg; assumption). split.
  - intros E. injection E as E. apply sqrt_eq_0 in E; [|exact I0]. intros i Hi.
    assert (Fi : f i = 0) by exact (integral_zero N M f PM CV F0 E i Hi).
    assert (Q : forall m, (m < d + 2)%nat -> conserved d g i m = conserved d g' i m).
    { intros m Hm. pose proof (rsum_nonneg_zero _ _ (fun m _ => Rle_0_sqr _) Fi m Hm) as Z. cbv beta in Z. unfold Rsqr in Z. apply Rmult_integral in Z. lra. }
    destruct (VG i Hi) as (? & ? & _), (VG' i Hi) as (? & ? & _); apply (conserved_inj d g g' i); [tauto|tauto|exact Q].
  - intros E. apply f_equal. replace (mesh_integral M f) with 0; [apply sqrt_0|]. symmetry. rewrite (mesh_integral_ext N M f (fun _ => 0) WF).
    + unfold mesh_integral. rewrite (lsum_ext _ (fun _ => 0)), lsum_0; [reflexivity|]. intros e He. rewrite (rsum_ext _ _ (fun _ => 0)), rsum_0; [reflexivity|]. intros; ring.
    + intros i Hi. destruct (E i Hi) as (A & B & C). unfold f. rewrite (rsum_ext _ _ (fun _ => 0)), rsum_0; [reflexivity|]. intros m Hm.
      replace (conserved d g i m) with (conserved d g' i m); [ring|]. unfold conserved. rewrite A, C. destruct m as [|m]; [reflexivity|]. destruct (Nat.ltb_spec m d); [rewrite B by assumption; reflexivity|].
      f_equal. f_equal. unfold dot. apply rsum_ext. intros c Hc. rewrite B by exact Hc. reflexivity.
Qed.
Print Assumptions C142_zero_iff_exact.

(** the squared error is the sum of the squared errors of the components *)
Theorem C142_components :
  forall d entvar entry N M ranks xg u u_exact g g', well_formed N M -> positive_mesh M -> Permutation (concat ranks) (els M) ->
  valid_gas d entvar N u g -> valid_gas d entvar N (fun i => u_exact (xg i)) g' -> (entry < 0)%Z ->
  exists err errs, l2Error d entvar entry ranks xg u u_exact = Some err /\ (forall m, (m < d + 2)%nat -> l2Error d entvar (Z.of_nat m) ranks xg u u_exact = Some (errs m)) /\
  0 <= err /\ (forall m, (m < d + 2)%nat -> 0 <= errs m) /\ err * err = rsum (d + 2) (fun m => errs m * errs m).
Proof.
  intros d entvar entry N M ranks xg u u_exact g g' WF PM PR VG VG' HE.
  set (df := fun m i => (conserved d g i m - conserved d g' i m) * (conserved d g i m - conserved d g' i m)).
  exists (sqrt (mesh_integral M (fun i => rsum (d + 2) (fun m => df m i)))), (fun m => sqrt (mesh_integral M (df m))).
  assert (P : forall m, 0 <= mesh_integral M (df m)) by (intros m; apply integral_nonneg; [exact PM|]; intros i; apply Rle_0_sqr).
  split; [|split; [|split; [|split]]].
  - rewrite (C142_error_is_distance d entvar entry N M ranks xg u u_exact g g') by (assumption || lia). cbv zeta. destruct (Z.ltb_spec entry 0); [|lia]. reflexivity.
  - intros m Hm. rewrite (C142_error_is_distance d entvar (Z.of_nat m) N M ranks xg u u_exact g g') by (assumption || lia). cbv zeta. destruct (Z.ltb_spec (Z.of_nat m) 0); [lia|]. rewrite Nat2Z.id. reflexivity.
  - apply sqrt_pos.
  - intros m Hm. apply sqrt_pos.
  - rewrite mesh_integral_rsum. rewrite sqrt_sqrt by (apply rsum_nonneg; intros; apply P). apply rsum_ext. intros m Hm. rewrite sqrt_sqrt by apply P. reflexivity.
Qed.
Print Assumptions C142_components.

(** triangle inequality: the error against one exact solution is at most the error against another plus their distance *)
Theorem C142_triangle :
  forall d entvar entry N M ranks xg u v w g g1 g2, well_formed N M -> positive_mesh M -> Permutation (concat ranks) (els M) ->
  valid_gas d entvar N u g -> valid_gas d entvar N (fun i => v (xg i)) g1 -> valid_gas d entvar N (fun i => w (xg i)) g2 -> (entry < Z.of_nat (d + 2))%Z ->
  exists a b c, l2Error d entvar entry ranks xg u w = Some a /\ l2Error d entvar entry ranks xg u v = Some b /\
  l2Error d entvar entry ranks xg (fun i => v (xg i)) w = Some c /\ 0 <= a <= b + c.
Proof.
  intros d entvar entry N M ranks xg u v w g g1 g2 WF PM PR VG V1 V2 HE.
  rewrite (C142_error_is_distance d entvar entry N M ranks xg u w g g2), (C142_error_is_distance d entvar entry N M ranks xg u v g g1), (C142_error_is_distance d entvar entry N M ranks xg _ w g1 g2) by assumption. cbv zeta.
  eexists _, _, _. split; [reflexivity|]. split; [reflexivity|]. split; [reflexivity|]. split; [apply sqrt_pos|]. destruct (Z.ltb_spec entry 0).
  - pose proof (minkowski M (d + 2) (fun i m => conserved d g i m - conserved d g1 i m) (fun i m => conserved d g1 i m - conserved d g2 i m) PM) as K. eapply Rle_trans; [|exact K].
    right. apply f_equal. apply (mesh_integral_ext N _ _ _ WF). intros i Hi. apply rsum_ext. intros; ring.
  - pose proof (minkowski M 1 (fun i _ => conserved d g i (Z.to_nat entry) - conserved d g1 i (Z.to_nat entry)) (fun i _ => conserved d g1 i (Z.to_nat entry) - conserved d g2 i (Z.to_nat entry)) PM) as K.
    assert (R1 : forall f, rsum 1 f = f 0%nat) by (intros; cbn; ring).
    rewrite (mesh_integral_ext N _ _ _ WF (fun i _ => R1 _)), (mesh_integral_ext N _ (fun i => rsum 1 (fun m => _)) _ WF (fun i _ => R1 _)), (mesh_integral_ext N _ (fun i => rsum 1 (fun m => _)) _ WF (fun i _ => R1 _)) in K. cbv beta in K.
    eapply Rle_trans; [|exact K]. right. apply f_equal. apply (mesh_integral_ext N _ _ _ WF). intros i Hi. ring.
Qed.
Print Assumptions C142_triangle.

(** a component number past the last one is not refused: it is an out-of-bounds read at the first node *)
Theorem C142_bad_component_refuted :
  forall d entvar entry ranks xg u u_exact, (Z.of_nat (d + 2) <= entry)%Z ->
  (l2Error d entvar entry ranks xg u u_exact = None <-> exists e, In e (concat ranks) /\ (0 < e_n e)%nat).
Proof. exact bad_entry. Qed.
Print Assumptions C142_bad_component_refuted.

(** * Non-vacuity: the two-node box of moving gas against a gas at rest; both processes' shares *)
Example C142_case : well_formed 2 slip_box /\ positive_mesh slip_box /\ covered 2 slip_box /\ Permutation (concat [[]; [seg0 0]]) (els slip_box) /\
  valid_gas 1 false 2 moving_state moving_gas /\ valid_gas 1 false 2 (fun i => (fun _ : vec => moving_state 0%nat) (fun _ => INR i)) {| g_rho := fun _ => g_rho moving_gas 0; g_u := fun _ => g_u moving_gas 0%nat; g_p := fun _ => g_p moving_gas 0 |}.
Proof.
  destruct C137_case as (WF & _ & _ & PM & _ & CV & VG & _). split; [exact WF|]. split; [exact PM|]. split; [exact CV|]. split; [apply Permutation_refl|]. split; [exact VG|].
  intros j Hj. cbn. exact (VG 0%nat ltac:(lia)).
Qed.
