(** C128: the system matrix of the flow residual is its derivative, for the actual fluxes. *)
From Coq Require Import Reals Arith Lia Lra List.
From Coquelicot Require Import Coquelicot.
From Verif Require Import Num Vec SbpSpec Sbp SbpProofs2 SbpMesh SbpMeshSpec SbpMeshProofs2 Euler EulerSpec EulerProofs Vortex SmoothCalc FlowJacSpec FlowJac FluxSmooth2 FlowJacProofs.
Import ListNotations.
Local Open Scope R_scope.

(** Any number of dimensions, either variable set, with or without stabilisation, viscous terms and interface fluxes,
    any mesh, any of the inviscid boundary conditions: at every positive gas state at which the residual is
    differentiable, the assembled matrix is the derivative of the assembled residual in every direction. *)
Theorem C128_flow_jacobian :
  forall d N entvar lps viscous ifc M u g J, well_formed N M -> valid_gas d entvar N u g -> differentiable d lps viscous ifc M g ->
  (viscous <> None -> entvar = false) ->
  (forall b, In b (bfs M) -> exists c, b_flux b = bcFlux d entvar c /\ forall pos, c = Vortex pos -> d = 2%nat) ->
  flowJacobian d entvar lps viscous ifc M u = Some J ->
  is_derivative N (d + 2) (flowResidual d entvar lps viscous ifc M) u J.
Proof. intros d N entvar lps visc ifc M u g J WF VG DF VC BC HJ. exact (flow_jacobian d N entvar lps visc ifc M WF u g VG DF VC BC J HJ). Qed.
Print Assumptions C128_flow_jacobian.
(** residual and matrix exist together *)
Theorem C128_matrix_exists :
  forall d entvar lps viscous ifc M u v, (exists r, flowResidual d entvar lps viscous ifc M u = Some r) <-> (exists J, flowJacobian d entvar lps viscous ifc M v = Some J).
Proof. intros d entvar lps visc ifc M u v. unfold flowResidual, flowJacobian. destruct ifc, visc; split; intros [x E]; try discriminate E; eexists; reflexivity. Qed.
Print Assumptions C128_matrix_exists.
(** each boundary condition's own Jacobian is exact at every gas state: no kink is excluded *)
Theorem C128_boundary_conditions :
  forall d entvar b f dir q rho u p, 0 < rho -> 0 < p -> describes d entvar q rho u p -> (forall pos, b = Vortex pos -> d = 2%nat) ->
  has_jac (d + 2) (bcFlux d entvar b f dir) q (fun m k => partial (fun q => bcFlux d entvar b f dir q m) q k).
Proof. exact bc_has_jac. Qed.
Print Assumptions C128_boundary_conditions.
(** the plain divergence form with the Euler flux, and the mass term of the time integrators *)
Theorem C128_euler_form :
  forall n d Q alpha adj u, (forall i, (i < n)%nat -> physical d (u i)) ->
  is_jacobian n (d + 2) (inviscidVector n d Q alpha adj (calcEulerFlux d)) u (inviscidGrad n d Q (d + 2) alpha adj (eulerFluxJac d) u).
Proof. intros n d Q alpha adj u H. apply inviscid_is_jacobian. intros di i Hd Hi. apply euler_has_jac. apply H. exact Hi. Qed.
Print Assumptions C128_euler_form.
Theorem C128_mass :
  forall n d entvar alpha weight u, (forall i, (i < n)%nat -> exists rho v p, 0 < rho /\ 0 < p /\ describes d entvar (u i) rho v p) ->
  is_jacobian n (d + 2) (massVector alpha weight (calcConservativeVars d entvar)) u
    (massGrad n (d + 2) alpha weight (fun q m k => partial (fun q => calcConservativeVars d entvar q m) q k) u).
Proof. intros n d entvar alpha weight u H. apply mass_is_jacobian. intros i Hi. destruct (H i Hi) as (rho & v & p & A & B & C). exact (cons_has_jac d entvar _ rho v p A B C). Qed.
Print Assumptions C128_mass.
(** the stabilisation's derivative in the projected variables may be taken anywhere (the code takes it at q) *)
Theorem C128_linear_in_v :
  forall d entvar adjJ q v m k, partial (fun v => lpsScaling d entvar adjJ q v m) v k = partial (fun v => lpsScaling d entvar adjJ q v m) q k.
Proof. intros. apply lps_jacV_anywhere. Qed.
Print Assumptions C128_linear_in_v.
(** gas at rest: the stabilisation has no derivative at all, so no matrix can be one *)
Theorem C128_at_rest_not_differentiable :
  exists adj q v rho p, 0 < rho /\ 0 < p /\ describes 1 false q rho (fun _ => 0) p /\
  ~ exists J1 J2, has_jac2 3 (lpsScaling 1 false adj) q v J1 J2.
Proof.
  exists (fun _ _ => 1), (fun i => match i with O => 1 | 1%nat => 0 | _ => 5/2 end), (fun i => match i with O => 1 | _ => 0 end), 1, 1.
  split; [lra|]. split; [lra|]. split.
  { repeat split; try (intros i Hi; destruct i; [|lia]); unfold dot; simpl; lra. }
  intros (J1 & J2 & H).
  set (q0 := fun i => match i with O => 1 | 1%nat => 0 | _ => 5/2 end) in *. set (v0 := fun i => match i with O => 1 | _ => 0 end) in *.
  assert (C1 : curve 3 (fun s => axpy q0 s (fun i => match i with 1%nat => 1 | _ => 0 end)) q0 (fun i => match i with 1%nat => 1 | _ => 0 end)) by apply curve_axpy.
  assert (C2 : curve 3 (fun s => axpy v0 s (fun _ => 0)) v0 (fun _ => 0)) by apply curve_axpy.
  specialize (H _ _ _ _ C1 C2 0%nat ltac:(lia)).
  set (l := rsum 3 _ + rsum 3 _) in H. clearbody l.
  assert (D : is_derive (fun s : R => Rabs s) 0 (l - 0)).
  { apply (is_derive_ext (fun s => lpsScaling 1 false (fun _ _ => 1) (axpy q0 s (fun i => match i with 1%nat => 1 | _ => 0 end)) (axpy v0 s (fun _ => 0)) 0%nat
        - sqrt (7/5 * (2/5 * (5/2 - 1/2 * (s * s)))))).
    - intros s. unfold lpsScaling, applyLPSScaling, calcSpectralRadius, calcConservativeVars, calcdQdWProduct, pressure, mk, dot, mom, axpy, q0, v0, gamma, gami. cbv zeta. simpl.
      replace (1 + s * 0) with 1 by ring. replace (5 / 2 + s * 0) with (5 / 2) by ring. assert (E1 : 0 + s * 1 = s) by lra. rewrite E1. assert (E2 : 0 + s * 0 = 0) by lra. rewrite ?E2. rewrite ?E1.
      replace (s / 1) with s by (unfold Rdiv; lra).
      replace (0 + 1 * 1) with 1 by ring. rewrite sqrt_1.
      replace (7 / 5 * (2 / 5 * (5 / 2 - 1 / 2 * (0 + s * s) / 1)) / 1) with (7 / 5 * (2 / 5 * (5 / 2 - 1 / 2 * (s * s)))) by (unfold Rdiv; lra).
      lra.
    - apply (is_derive_minus _ _ 0 l 0); [exact H|]. auto_derive; [lra|]. simpl. ring. }
  rewrite Rminus_0_r in D. apply is_derive_Reals in D. destruct (D (1/2) ltac:(lra)) as [[dl Hd] HD]. cbn [pos] in HD.
  assert (B1 : Rabs ((Rabs (0 + dl / 2) - Rabs 0) / (dl / 2) - l) < 1/2) by (apply HD; [lra|rewrite Rabs_pos_eq; lra]).
  assert (B2 : Rabs ((Rabs (0 + - (dl / 2)) - Rabs 0) / (- (dl / 2)) - l) < 1/2) by (apply HD; [lra|rewrite Rabs_Ropp, Rabs_pos_eq; lra]).
  rewrite Rplus_0_l, Rabs_R0, (Rabs_pos_eq (dl / 2)) in B1 by lra. rewrite Rplus_0_l, Rabs_R0, Rabs_Ropp, (Rabs_pos_eq (dl / 2)) in B2 by lra.
  replace ((dl / 2 - 0) / (dl / 2)) with 1 in B1 by (field; lra). replace ((dl / 2 - 0) / - (dl / 2)) with (-1) in B2 by (field; lra).
  apply Rabs_def2 in B1. apply Rabs_def2 in B2. lra.
Qed.
Print Assumptions C128_at_rest_not_differentiable.

(** non-vacuity: two elements, an interface and two slip walls; states all different *)
Definition sample_gas : gas := {| g_rho := fun j => INR (S j) * INR (S j); g_u := fun _ _ => 1; g_p := fun _ => 1 |}.
Definition sample_state (j : nat) : vec := fun i => match i with O => INR (S j) * INR (S j) | 1%nat => INR (S j) * INR (S j) | _ => 5/2 + 1/2 * (INR (S j) * INR (S j)) end.
Example C128_case : well_formed 4 duct /\ valid_gas 1 false 4 sample_state sample_gas /\ differentiable 1 (1/10) None (Some 1) duct sample_gas /\
  (forall b, In b (bfs duct) -> exists c, b_flux b = bcFlux 1 false c /\ forall pos, c = Vortex pos -> 1%nat = 2%nat) /\
  exists J, flowJacobian 1 false (1/10) None (Some 1) duct sample_state = Some J.
Proof.
  assert (SQ : forall j, sqrt (INR (S j) * INR (S j) / 1) = INR (S j) /\ sqrt (INR (S j) * INR (S j) * 1) = INR (S j)).
  { intros j. replace (INR (S j) * INR (S j) / 1) with (INR (S j) * INR (S j)) by field. rewrite Rmult_1_r. split; apply sqrt_square, pos_INR. }
  assert (OS : forall a b, (INR (S a) - INR (S b)) / (INR (S a) + INR (S b)) * ((INR (S a) - INR (S b)) / (INR (S a) + INR (S b))) <> 1/1000 -> off_switch sample_gas a b).
  { intros a b H. unfold off_switch, sample_gas, g_rho, g_p. destruct (SQ a) as (-> & ->). destruct (SQ b) as (-> & ->). split; exact H. }
  split; [apply duct_valid|]. split; [|split; [|split]].
  - intros j Hj. assert (0 < INR (S j)) by (apply lt_0_INR; lia). assert (0 < INR (S j) * INR (S j)) by (apply Rmult_lt_0_compat; assumption).
    split; [exact H0|]. split; [simpl; lra|]. repeat split; try (intros i Hi; destruct i; [|lia]); unfold sample_state, sample_gas, g_rho, g_u, g_p, dot; cbn [rsum]; lra.
  - split; [|split; [|split]].
    + intros e [<-|[<-|[]]] i j Hij Hj; cbn [e_n seg0] in Hj; assert (i = 0%nat) as -> by lia; assert (j = 1%nat) as -> by lia; apply OS; simpl; lra.
    + intros _ e [<-|[<-|[]]] i di Hi Hd; unfold dot; cbn [rsum g_u sample_gas e_adj seg0]; lra.
    + intros H. congruence.
    + intros c Ec f [<-|[]] k Hk. injection Ec as <-. cbn [f_nf face0] in Hk. cbv zeta. split.
      * apply OS. unfold lnode, rnode. simpl. lra.
      * right. unfold dot, lnode, rnode. cbn [rsum g_rho g_u sample_gas f_nrm f_wt face0 f_globL f_globR f_idxL f_idxR]. simpl. lra.
  - intros b [<-|[<-|[]]]; exists SlipWall; split; try discriminate; reflexivity.
  - eexists. reflexivity.
Qed.
