(** C131-C133: drag and lift, inviscid and viscous; boundary entropy and far-field supply rate. *)
From Coq Require Import Reals Arith Lia Lra Psatz List Bool FunctionalExtensionality.
From Coquelicot Require Import Coquelicot.
From Verif Require Import Num Vec SbpSpec Sbp SbpProofs SbpProofs2 SbpProofs3 SbpMesh SbpMeshSpec SbpMeshProofs SbpMeshProofs2 Euler EulerSpec EulerProofs EulerDeriv BoundaryProofs NavierStokes NavierStokesProofs
  SmoothCalc FluxSmooth FluxSmooth2 FlowJacSpec FlowJac FlowJacProofs ViscWall ViscWallSpec ViscWallProofs ViscWallProofs2 Aero AeroSpec AeroProofs AeroProofs2 Props_ViscWall.
Import ListNotations.
Local Open Scope R_scope.

(** * C131: directions and the inviscid force *)
(** drag is measured along the free stream and lift across it, both scaled by 1/Mach^2 *)
Theorem C131_directions :
  forall d mach aoa iroll ipitch fd fl, (1 < d)%nat -> iroll <> ipitch -> mach <> 0 ->
  dragDir d mach aoa iroll ipitch = Some fd -> liftDir d mach aoa iroll ipitch = Some fl ->
  let qfs := getFreeStreamQ d mach aoa iroll ipitch in
  (forall i, (i < d)%nat -> fd i = mom qfs i / mach ^ 3) /\ dot d fl (mom qfs) = 0 /\ dot d fd fl = 0 /\
  dot d fd fd = (1 / mach ^ 2) ^ 2 /\ dot d fl fl = (1 / mach ^ 2) ^ 2.
Proof. intros d mach aoa ir ip fd fl Hd NE Hm ED EL. cbv zeta. destruct (dir_products d mach aoa ir ip fd fl ED EL NE Hd Hm) as (A & B & C & D & E). repeat split; assumption. Qed.
Print Assumptions C131_directions.
(** in the plane, with roll axis 0 and pitch axis 1: a quarter turn takes drag to lift *)
Theorem C131_lift_is_drag_turned :
  forall mach aoa fd fl, dragDir 2 mach aoa 0 1 = Some fd -> liftDir 2 mach aoa 0 1 = Some fl -> fl 0%nat = - fd 1%nat /\ fl 1%nat = fd 0%nat.
Proof. intros mach aoa fd fl ED EL. injection ED as <-. injection EL as <-. cbn. split; ring. Qed.
Print Assumptions C131_lift_is_drag_turned.
Theorem C131_one_dimension :
  forall mach aoa iroll ipitch, exists fd fl, dragDir 1 mach aoa iroll ipitch = Some fd /\ liftDir 1 mach aoa iroll ipitch = Some fl /\ fd 0%nat = 1 / mach ^ 2 /\ fl 0%nat = 0.
Proof. intros. eexists. eexists. split; [reflexivity|]. split; [reflexivity|]. cbv beta. simpl Nat.eqb. cbv iota. split; unfold Rdiv; ring. Qed.
Print Assumptions C131_one_dimension.
(** the directions can be formed exactly when both axes are axes of the space *)
Theorem C131_axes :
  forall d mach aoa iroll ipitch, (0 < d)%nat ->
  (dragDir d mach aoa iroll ipitch <> None <-> (d = 1%nat \/ ((iroll < d)%nat /\ (ipitch < d)%nat))) /\
  (liftDir d mach aoa iroll ipitch <> None <-> (d = 1%nat \/ ((iroll < d)%nat /\ (ipitch < d)%nat))).
Proof. exact dirs_defined. Qed.
Print Assumptions C131_axes.
(** ... which the option checks (distinct, between 0 and 2) do not ensure in the plane: a write outside the vector *)
Theorem C131_axes_checked_refuted :
  exists iroll ipitch, iroll <> ipitch /\ (iroll <= 2)%nat /\ (ipitch <= 2)%nat /\ forall mach aoa, dragDir 2 mach aoa iroll ipitch = None /\ liftDir 2 mach aoa iroll ipitch = None.
Proof. exists 0%nat, 2%nat. repeat split; lia. Qed.
Print Assumptions C131_axes_checked_refuted.
(** the output is the pressure of the gas integrated over the listed boundaries against the direction, in either set of
    variables *)
Theorem C131_pressure_force :
  forall d entvar force N faces u g, (forall b, In b faces -> face_fits N b) -> valid_gas d entvar N u g ->
  pressureForce d entvar force faces u = osum faces (fun b k => g_p g (bnode b k) * dot d (b_nrm b k) force).
Proof. exact force_val. Qed.
Print Assumptions C131_pressure_force.
(** only faces on the listed boundaries count, each as often as it occurs in the mesh *)
Theorem C131_boundaries :
  forall (F : Type) bdrs (l : list (tagged F)) f, In f (onBoundaries bdrs l) <-> exists t, In t l /\ t_face t = f /\ In (t_attr t) bdrs.
Proof.
  intros F bdrs l f. split; [apply on_in|]. intros (t & A & B & C). unfold onBoundaries. apply in_map_iff. exists t. split; [exact B|]. apply filter_In. split; [exact A|].
  apply existsb_exists. exists (t_attr t). split; [exact C|apply Nat.eqb_refl].
Qed.
Print Assumptions C131_boundaries.
(** it is the momentum that the slip-wall condition takes out of the flow residual: summed over the nodes, the momentum
    residual along the direction is the output on the wall boundaries plus the momentum flux through the others *)
Theorem C131_momentum_balance :
  forall d entvar force N lps visc ifc M (tags : list (tagged bface)) bdrs u r, well_formed N M -> gcl d M -> positive_mesh M -> proj_kills_constants M ->
  bfs M = map t_face tags -> (forall t, In t tags -> In (t_attr t) bdrs -> b_flux (t_face t) = bcFlux d entvar SlipWall) ->
  flowResidual d entvar lps visc ifc M u = Some r ->
  dot d force (fun m => rsum N (fun i => r i (S m))) =
  pressureForce d entvar force (onBoundaries bdrs tags) u + osum (elsewhere bdrs tags) (fun b k => dot d force (mom (b_flux b k (b_nrm b k) (u (bnode b k))))).
Proof. exact balance. Qed.
Print Assumptions C131_momentum_balance.
(** so at a converged steady state the force on the body is the momentum that the far field loses *)
Theorem C131_converged_force :
  forall d entvar force N lps visc ifc M (tags : list (tagged bface)) bdrs u r, well_formed N M -> gcl d M -> positive_mesh M -> proj_kills_constants M ->
  bfs M = map t_face tags -> (forall t, In t tags -> In (t_attr t) bdrs -> b_flux (t_face t) = bcFlux d entvar SlipWall) ->
  flowResidual d entvar lps visc ifc M u = Some r -> (forall i m, (i < N)%nat -> (m < d + 2)%nat -> r i m = 0) ->
  pressureForce d entvar force (onBoundaries bdrs tags) u = - osum (elsewhere bdrs tags) (fun b k => dot d force (mom (b_flux b k (b_nrm b k) (u (bnode b k))))).
Proof.
  intros d ev force N lps visc ifc M tags bdrs u r WF HG HP HK EB HS ER HZ. pose proof (balance d ev force N lps visc ifc M tags bdrs u r WF HG HP HK EB HS ER) as B.
  assert (Z : dot d force (fun m => rsum N (fun i => r i (S m))) = 0).
  { unfold dot. rewrite (rsum_ext d _ (fun _ => 0)), rsum_0; [reflexivity|]. intros m Hm. rewrite (rsum_ext N _ (fun _ => 0)), rsum_0; [ring|]. intros i Hi. apply HZ; lia. }
  lra.
Qed.
Print Assumptions C131_converged_force.
(** d'Alembert for a uniform pressure: no force on a closed surface, in any direction *)
Theorem C131_uniform_pressure :
  forall d entvar force N faces u g p, (forall b, In b faces -> face_fits N b) -> valid_gas d entvar N u g -> (forall j, (j < N)%nat -> g_p g j = p) ->
  closed_surface d faces -> pressureForce d entvar force faces u = 0.
Proof.
  intros d ev force N faces u g p HF HG HP HC. rewrite (force_val d ev force N faces u g HF HG).
  transitivity (p * dot d force (fun i => osum faces (fun b k => b_nrm b k i))).
  - rewrite dot_osum. unfold osum. rewrite <- lsum_scal. apply lsum_ext. intros b Hb. rewrite <- rsum_scal. apply rsum_ext. intros k Hk. destruct (HF b Hb) as (A & B).
    rewrite (HP (bnode b k) (A _ (B k Hk))), (dot_comm d force). change (fun i : nat => b_nrm b k i) with (b_nrm b k). ring.
  - unfold dot. rewrite (rsum_ext d _ (fun _ => 0)), rsum_0; [ring|]. intros i Hi. rewrite HC by exact Hi. ring.
Qed.
Print Assumptions C131_uniform_pressure.
(** the assembled gradient is the gradient, in either set of variables *)
Theorem C131_gradient :
  forall d entvar force N faces u g, (forall b, In b faces -> face_fits N b) -> valid_gas d entvar N u g ->
  is_gradient N (d + 2) (pressureForce d entvar force faces) u (pressureForceGradient d entvar force faces u).
Proof. exact pressure_force_gradient. Qed.
Print Assumptions C131_gradient.
(** the same gas described in the two sets of variables gives the same force *)
Theorem C131_variables_agree :
  forall d force N faces u w g, (forall b, In b faces -> face_fits N b) -> valid_gas d false N u g -> valid_gas d true N w g ->
  pressureForce d true force faces w = pressureForce d false force faces u.
Proof. intros d force N faces u w g HF HU HW. rewrite (force_val d true force N faces w g HF HW), (force_val d false force N faces u g HF HU). reflexivity. Qed.
Print Assumptions C131_variables_agree.
(** the code calls the scaled result a coefficient; with D the force along the flow it is D / (rho U^2), half of the
    usual coefficient D / (rho U^2 / 2) *)
Theorem C131_half_the_usual_coefficient :
  forall d entvar mach aoa iroll ipitch fd faces u, (1 < d)%nat -> iroll <> ipitch -> 0 < mach -> dragDir d mach aoa iroll ipitch = Some fd ->
  exists (rho : R) (v : vec) (p : R), 0 < rho /\ 0 < p /\ is_state d (getFreeStreamQ d mach aoa iroll ipitch) rho v p /\ dot d v v = mach * mach /\
    let D := pressureForce d entvar (fun i => v i / sqrt (dot d v v)) faces u in
    pressureForce d entvar fd faces u = 1/2 * (D / (1/2 * rho * dot d v v)).
Proof.
  intros d ev mach aoa ir ip fd faces u Hd NE Hm ED. destruct (drag_val _ _ _ _ _ _ 0%nat ED NE ltac:(lia)) as (_ & A & B).
  destruct (fs_nd d mach aoa ir ip Hd A B NE) as (X & Y). eexists. eexists. eexists. split; [|split; [|split; [exact X|split; [exact Y|]]]]; [lra|lra|]. cbv zeta. rewrite Y, sqrt_square by lra.
  rewrite !force_sum. unfold Rdiv at 2. rewrite (Rmult_comm _ (/ _)), <- Rmult_assoc. unfold osum. rewrite <- lsum_scal. apply lsum_ext. intros b _. rewrite <- rsum_scal. apply rsum_ext. intros k _.
  set (F := mom _).
  replace (dot d fd F) with (/ (mach ^ 2) * dot d (fun i => (if Nat.eqb i ir then mach * cos aoa else if Nat.eqb i ip then mach * sin aoa else 0) / mach) F); [field; lra|].
  unfold dot. rewrite <- rsum_scal. apply rsum_ext. intros i Hi. destruct (drag_val _ _ _ _ _ _ i ED NE ltac:(lia)) as (-> & _ & _).
  destruct (Nat.eqb_spec i ir), (Nat.eqb_spec i ip); try lia; field; lra.
Qed.
Print Assumptions C131_half_the_usual_coefficient.

(** * C132: the viscous force *)
(** on no-slip walls the output is the momentum flux of the wall condition: pressure, minus viscous traction, plus the
    penalty *)
Theorem C132_wall_momentum :
  forall d vp qfs force faces u, (forall f, In f faces -> w_bc f = NoSlip qfs) ->
  surfaceForce d vp qfs force 1 faces u = wsum faces (fun f k => dot d force (mom (wall_flux d vp f u k))).
Proof. intros d vp qfs force faces u H. rewrite (surface_sum d vp qfs force faces u 1 H). ring. Qed.
Print Assumptions C132_wall_momentum.
Theorem C132_pressure_and_traction :
  forall d vp qfs force faces u, (forall f, In f faces -> w_bc f = NoSlip qfs /\ normals_nonzero d f) -> physical d qfs ->
  (forall f k, In f faces -> (k < w_nf f)%nat -> exists rho p v, 0 < rho /\ 0 < p /\ is_state d (u (wnode f k)) rho v p /\ forall i, (i < d)%nat -> v i = 0) ->
  surfaceForce d vp qfs force 1 faces u = wsum faces (fun f k => pressure d (u (wnode f k)) * dot d (w_nrm f k) force - dot d force (traction d vp u f k)).
Proof.
  intros d vp qfs force faces u HN PQ HU. rewrite C132_wall_momentum by (intros; apply HN; assumption). unfold wsum. apply lsum_ext. intros f Hf. apply rsum_ext. intros k Hk. f_equal.
  destruct (HN f Hf) as (Ew & Nz). destruct (HU f k Hf Hk) as (rho & p & v & Hr & Hp & Hq & Hv). rewrite (state_pressure d _ rho v p ltac:(lra) Hq).
  assert (SO : solid d f) by (unfold solid; rewrite Ew; exact PQ).
  assert (WF : forall i, (i < d)%nat -> wall_flux d vp f u k (S i) = p * w_nrm f k i - traction d vp u f k i).
  { intros i Hi. unfold wall_flux, traction. rewrite Ew. unfold wallFlux, noSlipFlux. rewrite (slip_flux_S d _ _ rho p v Hr Hq i Hi).
    destruct PQ as (r0 & v0 & p0 & Hr0 & Hp0 & H0). unfold calcNoSlipPenaltyFlux. cbv zeta. rewrite (state_pressure d (u (wnode f k)) rho v p ltac:(lra) Hq).
    destruct (penalty_form d (sqrt (dot d (w_nrm f k) (w_nrm f k)) / e_detJ (w_el f) (w_idx f k)) (muRe d vp (u (wnode f k))) (v_Pr vp) qfs (mk d 0 (fun e => u (wnode f k) (S e) / p) 0) r0 v0 p0) as (_ & F1 & _); [lra|exact H0|apply mk_E|].
    rewrite F1, mk_S, (proj1 (proj2 Hq)), (Hv i Hi) by exact Hi. unfold Rdiv. ring. }
  unfold dot. rewrite <- rsum_scal, <- rsum_minus. apply rsum_ext. intros i Hi. unfold mom. rewrite WF by exact Hi. ring.
Qed.
Print Assumptions C132_pressure_and_traction.
Theorem C132_momentum_balance :
  forall d vp qfs force N lps M (tags : list (tagged vface)) bdrs u r, well_formed N M -> (forall t, In t tags -> wall_fits N (t_face t)) -> gcl d M -> positive_mesh M -> proj_kills_constants M ->
  (forall t, In t tags -> In (t_attr t) bdrs -> w_bc (t_face t) = NoSlip qfs) ->
  viscousFlowResidual d lps vp M (map t_face tags) u = Some r ->
  dot d force (fun m => rsum N (fun i => r i (S m))) =
  surfaceForce d vp qfs force 1 (onBoundaries bdrs tags) u + wsum (elsewhere bdrs tags) (fun f k => dot d force (mom (wall_flux d vp f u k)))
  + osum (bfs M) (fun b k => dot d force (mom (b_flux b k (b_nrm b k) (u (bnode b k))))).
Proof. exact surface_balance. Qed.
Print Assumptions C132_momentum_balance.
Theorem C132_converged_force :
  forall d vp qfs force N lps M (tags : list (tagged vface)) bdrs u r, well_formed N M -> (forall t, In t tags -> wall_fits N (t_face t)) -> gcl d M -> positive_mesh M -> proj_kills_constants M ->
  (forall t, In t tags -> In (t_attr t) bdrs -> w_bc (t_face t) = NoSlip qfs) -> (forall t, In t tags -> In (t_attr t) bdrs) ->
  viscousFlowResidual d lps vp M (map t_face tags) u = Some r -> (forall i m, (i < N)%nat -> (m < d + 2)%nat -> r i m = 0) ->
  surfaceForce d vp qfs force 1 (onBoundaries bdrs tags) u = - osum (bfs M) (fun b k => dot d force (mom (b_flux b k (b_nrm b k) (u (bnode b k))))).
Proof.
  intros d vp qfs force N lps M tags bdrs u r WF WW HG HP HK HS HA ER HZ. pose proof (surface_balance d vp qfs force N lps M tags bdrs u r WF WW HG HP HK HS ER) as B.
  assert (Z : dot d force (fun m => rsum N (fun i => r i (S m))) = 0).
  { unfold dot. rewrite (rsum_ext d _ (fun _ => 0)), rsum_0; [reflexivity|]. intros m Hm. rewrite (rsum_ext N _ (fun _ => 0)), rsum_0; [ring|]. intros i Hi. apply HZ; lia. }
  assert (EL : elsewhere bdrs tags = []).
  { unfold elsewhere. clear - HA. induction tags as [|t l IH]; [reflexivity|]. simpl.
    assert (existsb (Nat.eqb (t_attr t)) bdrs = true) as -> by (apply existsb_exists; exists (t_attr t); split; [apply HA; left; reflexivity|apply Nat.eqb_refl]). simpl. apply IH. intros; apply HA; right; assumption. }
  rewrite EL in B. unfold wsum in B. cbn [lsum fold_right] in B. lra.
Qed.
Print Assumptions C132_converged_force.
(** the assembled gradient -- through the wall state and through the derivatives of the entropy variables -- is exact *)
Theorem C132_gradient :
  forall d vp qfs force N faces u g, (forall f, In f faces -> wall_fits N f) -> qfs 0%nat <> 0 -> valid_gas d false N u g ->
  is_gradient N (d + 2) (surfaceForce d vp qfs force 1 faces) u (surfaceForceGradient d vp qfs force 1 faces u).
Proof. exact surface_force_gradient. Qed.
Print Assumptions C132_gradient.

(** * C133: boundary entropy and far-field supply rate *)
(** the weight is the documented squared exponential of the distance to the actuator when the actuator position has at
    least as many entries as the space has dimensions, the others being zero *)
Theorem C133_weight :
  forall n nc len xc x, (n <= nc)%nat -> (forall i, (n <= i < nc)%nat -> xc i = 0) -> len <> 0 ->
  squaredExponential n nc len xc x = Some (exp (- (rsum n (fun i => (x i - xc i) ^ 2) / len ^ 2))).
Proof. exact sqexp_form. Qed.
Print Assumptions C133_weight.
Theorem C133_weight_in_unit_interval :
  forall n nc len xc x s, (forall i, (n <= i < nc)%nat -> xc i = 0) -> len <> 0 -> squaredExponential n nc len xc x = Some s -> 0 < s <= 1.
Proof.
  intros n nc len xc x s Z L E. unfold squaredExponential in E. destruct (Nat.leb_spec n nc) as [H|]; [|discriminate].
  assert (E' : squaredExponential n nc len xc x = Some s) by (unfold squaredExponential; destruct (Nat.leb_spec n nc); [exact E|lia]).
  rewrite (sqexp_form n nc len xc x H Z L) in E'. assert (ES : s = exp (- (rsum n (fun i => (x i - xc i) ^ 2) / len ^ 2))) by congruence. rewrite ES. split; [apply exp_pos|].
  assert (0 <= rsum n (fun i => (x i - xc i) ^ 2)) by (apply rsum_nonneg; intros; apply pow2_ge_0).
  assert (0 < len ^ 2) by (pose proof (Rsqr_pos_lt len L) as P; unfold Rsqr in P; lra).
  assert (0 <= rsum n (fun i => (x i - xc i) ^ 2) / len ^ 2) by (apply Rmult_le_pos; [assumption|left; apply Rinv_0_lt_compat; assumption]).
  set (a := rsum n (fun i => (x i - xc i) ^ 2) / len ^ 2) in *. clearbody a. clear ES. rewrite <- exp_0. destruct (Req_dec a 0) as [He|Hn]; [right; rewrite He; f_equal; ring|left; apply exp_increasing; lra].
Qed.
Print Assumptions C133_weight_in_unit_interval.
(** the actuator position is two-dimensional whatever the mesh: in space it is read outside its storage *)
Theorem C133_weight_in_space_refuted : forall len x, squaredExponential 3 2 len x_actuator x = None.
Proof. reflexivity. Qed.
Print Assumptions C133_weight_in_space_refuted.
(** what the boundary-entropy output integrates, for conservative variables *)
Theorem C133_boundary_entropy_value :
  forall d scale k dir q rho u p, 0 < rho -> 0 < p -> is_state d q rho u p ->
  boundaryEntropyFun d false scale k dir q = scale k * (math_entropy rho p + rho_ref * (p - press_ref) / press_ref) * sqrt (dot d dir dir).
Proof. intros d scale k dir q rho u p Hr Hp H. unfold boundaryEntropyFun. cbv zeta. rewrite (entropy_prim d q rho u p Hr Hp H), (state_pressure d q rho u p ltac:(lra) H). reflexivity. Qed.
Print Assumptions C133_boundary_entropy_value.
(** ... so it is not the weighted entropy its documentation promises, unless the pressure is the reference pressure *)
Theorem C133_weighted_entropy_partial :
  forall d scale k dir q rho u, 0 < rho -> is_state d q rho u press_ref -> boundaryEntropyFun d false scale k dir q = scale k * math_entropy rho press_ref * sqrt (dot d dir dir).
Proof.
  intros d scale k dir q rho u Hr H. assert (Hp : 0 < press_ref) by (unfold press_ref, Rpower, gamma; apply Rdiv_lt_0_compat; [apply exp_pos|lra]).
  rewrite (C133_boundary_entropy_value d scale k dir q rho u press_ref Hr Hp H). unfold Rdiv. rewrite Rminus_diag_eq by reflexivity. ring.
Qed.
Print Assumptions C133_weighted_entropy_partial.
Theorem C133_weighted_entropy_refuted :
  forall rho u p, 0 < rho -> 0 < p -> p <> press_ref -> exists q, is_state 1 q rho u p /\ boundaryEntropyFun 1 false (fun _ => 1) 0 (fun _ => 1) q <> math_entropy rho p.
Proof.
  intros rho u p Hr Hp Hne. set (q := fun i : nat => match i with O => rho | 1%nat => rho * u 0%nat | _ => p / (2/5) + 1/2 * rho * (u 0%nat * u 0%nat) end).
  assert (ST : is_state 1 q rho u p) by (repeat split; try (intros i Hi; destruct i; [|lia]); unfold q, dot; cbn [rsum]; lra).
  exists q. split; [exact ST|]. rewrite (C133_boundary_entropy_value 1 _ _ _ q rho u p Hr Hp ST).
  replace (dot 1 (fun _ => 1) (fun _ => 1)) with 1 by (unfold dot; cbn [rsum]; ring). rewrite sqrt_1.
  assert (P : 0 < press_ref) by (unfold press_ref, Rpower, gamma; apply Rdiv_lt_0_compat; [apply exp_pos|lra]). assert (Q : 0 < rho_ref) by apply exp_pos.
  intros E. assert (Z : rho_ref * (p - press_ref) / press_ref = 0) by lra. unfold Rdiv in Z. apply Rmult_integral in Z. destruct Z as [Z|Z]; [apply Rmult_integral in Z; destruct Z; lra|].
  pose proof (Rinv_0_lt_compat _ P). lra.
Qed.
Print Assumptions C133_weighted_entropy_refuted.
(** with entropy variables its pressure is wrong: the two descriptions of one gas (density and pressure 1, at rest) give
    different values *)
Theorem C133_boundary_entropy_variables_refuted :
  exists q w, is_state 1 q 1 (fun _ => 0) 1 /\ describes 1 true w 1 (fun _ => 0) 1 /\
  boundaryEntropyFun 1 true (fun _ => 1) 0 (fun _ => 1) w <> boundaryEntropyFun 1 false (fun _ => 1) 0 (fun _ => 1) q.
Proof.
  set (w := fun i : nat => match i with O => 7/2 | 1%nat => 0 | _ => -1 end).
  assert (T1 : thermo 1 1 = 0) by (unfold thermo; replace (1 / Rpower 1 (7/5)) with 1; [rewrite ?ln_1; lra|unfold Rpower; rewrite ln_1, Rmult_0_r, exp_0; lra]).
  assert (DW : describes 1 true w 1 (fun _ => 0) 1).
  { unfold describes. rewrite T1. unfold w, dot. cbn [rsum]. split; [lra|]. split; [intros i Hi; assert (i = 0%nat) as -> by lia; lra|lra]. }
  exists rest_q, w. split; [exact rest_state|]. split; [exact DW|]. rewrite (C133_boundary_entropy_value 1 _ _ _ rest_q 1 (fun _ => 0) 1 ltac:(lra) ltac:(lra) rest_state).
  unfold boundaryEntropyFun. cbv zeta. rewrite (entropy_ent_prim 1 w 1 (fun _ => 0) 1 ltac:(lra) ltac:(lra) DW).
  replace (pressure 1 w) with (- (2/5)) by (unfold pressure, w, mom, dot, gami; cbn [rsum]; field).
  replace (dot 1 (fun _ => 1) (fun _ => 1)) with 1 by (unfold dot; cbn [rsum]; ring). rewrite sqrt_1.
  assert (P : 0 < press_ref) by (unfold press_ref, Rpower, gamma; apply Rdiv_lt_0_compat; [apply exp_pos|lra]). assert (Q : 0 < rho_ref) by apply exp_pos.
  intros E. assert (Z : rho_ref * (- (2/5) - press_ref) / press_ref = rho_ref * (1 - press_ref) / press_ref) by lra.
  apply (Rmult_eq_compat_r press_ref) in Z. unfold Rdiv in Z. rewrite !Rmult_assoc, Rinv_l, !Rmult_1_r in Z by lra. nra.
Qed.
Print Assumptions C133_boundary_entropy_variables_refuted.
(** the supply rate in closed form: an outflow (of the far-field velocity) carries the entropy of the gas away with the
    far-field speed; an inflow brings in what the far-field state is worth in the entropy variables of the gas *)
Theorem C133_supply_rate_outflow :
  forall d qfs q dir k, physical d q -> 0 < qfs 0%nat -> 0 <= dot d dir (mom qfs) ->
  supplyRateFun d qfs k dir q = - (dot d dir (mom qfs) / qfs 0%nat) * entropy d false q.
Proof. exact supply_outflow. Qed.
Print Assumptions C133_supply_rate_outflow.
Theorem C133_supply_rate_inflow :
  forall d qfs q dir k rho u p, 0 < rho -> 0 < p -> is_state d q rho u p -> 0 < qfs 0%nat -> dot d dir (mom qfs) <= 0 ->
  supplyRateFun d qfs k dir q = - (dot d dir (mom qfs) / qfs 0%nat) * (dot (d + 2) (calcEntropyVars d false q) qfs - rho * (pressure d qfs / p)).
Proof. exact supply_inflow. Qed.
Print Assumptions C133_supply_rate_inflow.
(** an inflow supplies at most the entropy of the far-field state, corrected by the pressure difference *)
Theorem C133_supply_rate_bounded :
  forall d qfs q dir k rho u p, 0 < rho -> 0 < p -> is_state d q rho u p -> physical d qfs -> dot d dir (mom qfs) <= 0 ->
  supplyRateFun d qfs k dir q <= - (dot d dir (mom qfs) / qfs 0%nat) * (entropy d false qfs + rho * (1 - pressure d qfs / p)).
Proof.
  intros d qfs q dir k rho u p Hr Hp H PF HU. assert (Q0 : 0 < qfs 0%nat) by (destruct PF as (r & v & pp & A & _ & B & _); rewrite B; exact A).
  rewrite (supply_inflow d qfs q dir k rho u p Hr Hp H Q0 HU). apply Rmult_le_compat_l.
  - unfold Rdiv. pose proof (Rinv_0_lt_compat _ Q0). nra.
  - assert (PQ : physical d q) by (exists rho, u, p; auto). pose proof (entropy_first_order d qfs q PF PQ) as C. pose proof (w_dot_q d q PQ) as W.
    assert (E : rsum (d + 2) (fun i => calcEntropyVars d false q i * (qfs i - q i)) = dot (d + 2) (calcEntropyVars d false q) qfs - dot (d + 2) (calcEntropyVars d false q) q)
      by (unfold dot; rewrite <- rsum_minus; apply rsum_ext; intros; ring).
    rewrite E, W in C. rewrite (proj1 H) in C. lra.
Qed.
Print Assumptions C133_supply_rate_bounded.
(** where the gas is the free stream it is the source of the entropy balance that the residual's far-field condition
    produces (the two fluxes agree), namely minus the entropy flux *)
Theorem C133_supply_rate_at_free_stream :
  forall d qfs dir k, physical d qfs ->
  supplyRateFun d qfs k dir qfs = - (dot (d + 2) (calcEntropyVars d false qfs) (calcFarFieldFlux d false dir qfs qfs) - dot d (mom qfs) dir) /\
  supplyRateFun d qfs k dir qfs = - (dot d dir (mom qfs) / qfs 0%nat) * entropy d false qfs.
Proof.
  intros d qfs dir k PF. pose proof PF as (rho & u & p & Hr & Hp & H). assert (Q0 : 0 < qfs 0%nat) by (rewrite (proj1 H); exact Hr).
  assert (V : supplyRateFun d qfs k dir qfs = - (dot d dir (mom qfs) / qfs 0%nat) * entropy d false qfs).
  { destruct (Rle_or_lt 0 (dot d dir (mom qfs))) as [HU|HU]; [apply supply_outflow; assumption|].
    rewrite (supply_inflow d qfs qfs dir k rho u p Hr Hp H Q0) by lra. rewrite (w_dot_q d qfs PF), (state_pressure d qfs rho u p ltac:(lra) H), (proj1 H). field. lra. }
  split; [|exact V]. rewrite V.
  assert (BF : calcFarFieldFlux d false dir qfs qfs = calcBoundaryFlux d dir qfs qfs) by reflexivity.
  assert (SE : same d (calcBoundaryFlux d dir qfs qfs) (calcEulerFlux d dir qfs)).
  { apply same_intro; unfold calcBoundaryFlux; cbv zeta.
    - rewrite mk_0. unfold Rminus. rewrite !Rplus_opp_r. replace (dot d (mom qfs) (mom (fun i => qfs i + - qfs i))) with 0; [replace (dot d dir (mom (fun i => qfs i + - qfs i))) with 0; [ring|]|]; unfold dot; rewrite (rsum_ext d _ (fun _ => 0)), ?rsum_0; try reflexivity; intros; unfold mom; ring.
    - intros i Hi. rewrite mk_S by exact Hi. unfold Rminus. rewrite !Rplus_opp_r. replace (dot d (mom qfs) (mom (fun i => qfs i + - qfs i))) with 0; [replace (dot d dir (mom (fun i => qfs i + - qfs i))) with 0; [ring|]|]; unfold dot; rewrite (rsum_ext d _ (fun _ => 0)), ?rsum_0; try reflexivity; intros; unfold mom; ring.
    - rewrite mk_E. unfold Rminus. rewrite !Rplus_opp_r. replace (dot d (mom qfs) (mom (fun i => qfs i + - qfs i))) with 0; [replace (dot d dir (mom (fun i => qfs i + - qfs i))) with 0; [ring|]|]; unfold dot; rewrite (rsum_ext d _ (fun _ => 0)), ?rsum_0; try reflexivity; intros; unfold mom; ring. }
  rewrite BF, (dot_ext (d + 2) _ (calcEntropyVars d false qfs) _ _ (veq_refl _ _) SE), (euler_entropy d dir qfs PF), (dot_comm d dir (mom qfs)). unfold Rdiv. ring.
Qed.
Print Assumptions C133_supply_rate_at_free_stream.
(** elsewhere it is not: the residual applies another far-field flux *)
Theorem C133_supply_rate_refuted :
  exists qfs q, physical 1 qfs /\ physical 1 q /\
  supplyRateFun 1 qfs 0 (fun _ => 1) q <> - (dot 3 (calcEntropyVars 1 false q) (calcFarFieldFlux 1 false (fun _ => 1) qfs q) - dot 1 (mom q) (fun _ => 1)).
Proof.
  set (qf := fun i : nat => match i with O => 1 | 1%nat => 2 | _ => 25/14 + 2 end).
  set (q := fun i : nat => match i with O => 1 | 1%nat => 3 | _ => 5 + 9/2 end).
  assert (SF : is_state 1 qf 1 (fun _ => 2) (5/7)) by (repeat split; try (intros i Hi; destruct i; [|lia]); unfold qf, dot; cbn [rsum]; lra).
  assert (SQ : is_state 1 q 1 (fun _ => 3) 2) by (repeat split; try (intros i Hi; destruct i; [|lia]); unfold q, dot; cbn [rsum]; lra).
  assert (PF : physical 1 qf) by (exists 1, (fun _ => 2), (5/7); split; [lra|split; [lra|exact SF]]).
  assert (PQ : physical 1 q) by (exists 1, (fun _ => 3), 2; split; [lra|split; [lra|exact SQ]]).
  exists qf, q. split; [exact PF|]. split; [exact PQ|].
  assert (U : dot 1 (fun _ => 1) (mom qf) / qf 0%nat = 2) by (unfold dot, mom, qf; cbn [rsum]; field).
  rewrite (supply_outflow 1 qf q (fun _ => 1) 0%nat PQ) by (unfold dot, mom, qf; cbn [rsum]; lra). rewrite U.
  change (calcFarFieldFlux 1 false (fun _ => 1) qf q) with (calcBoundaryFlux 1 (fun _ => 1) qf q).
  assert (SE : same 1 (calcBoundaryFlux 1 (fun _ => 1) qf q) (calcEulerFlux 1 (fun _ => 1) q)).
  { apply (bnd_outflow 1 (fun _ => 1) qf q 1 (fun _ => 2) (5/7)); [lra|lra|exact SF|]. replace (dot 1 (fun _ => 1) (fun _ => 1)) with 1 by (unfold dot; cbn [rsum]; ring). rewrite sqrt_1.
    unfold sound. replace (7 / 5 * (5 / 7) / 1) with 1 by field. rewrite sqrt_1. unfold dot. cbn [rsum]. lra. }
  change 3%nat with (1 + 2)%nat. rewrite (dot_ext (1 + 2) _ (calcEntropyVars 1 false q) _ _ (veq_refl _ _) SE), (euler_entropy 1 (fun _ => 1) q PQ), (entropy_prim 1 q 1 (fun _ => 3) 2 ltac:(lra) ltac:(lra) SQ).
  replace (dot 1 (mom q) (fun _ => 1)) with 3 by (unfold dot, mom, q; cbn [rsum]; ring). change (q 0%nat) with 1.
  assert (M : math_entropy 1 2 = - (5/2) * ln 2).
  { unfold math_entropy, thermo. replace (2 / Rpower 1 (7/5)) with 2; [rewrite ?ln_1; field|unfold Rpower; rewrite ln_1, Rmult_0_r, exp_0; lra]. }
  rewrite M. assert (0 < ln 2) by (rewrite <- ln_1; apply ln_increasing; lra). lra.
Qed.
Print Assumptions C133_supply_rate_refuted.
(** the gradient either class assembles does not depend on the state at all: it is whatever was left in a work vector,
    so no contents make it right at every state *)
Theorem C133_boundary_entropy_gradient_refuted :
  forall buf, exists q, physical 1 q /\
  ~ is_gradient 1 3 (boundaryEnergy 1 1 (fun _ => 0%nat) (fun _ => 1) (fun _ _ => 1) (boundaryEntropyFun 1 false (fun _ => 1))) (fun _ => q)
      (snd (staleVector 1 3 1 (fun _ => 0%nat) (fun _ => 1) buf)).
Proof.
  intros buf. set (qp := fun (p : R) (i : nat) => match i with O => 1 | 1%nat => 0 | _ => p / (2/5) end).
  assert (ST : forall p, is_state 1 (qp p) 1 (fun _ => 0) p) by (intros p; repeat split; try (intros i Hi; destruct i; [|lia]); unfold qp, dot; cbn [rsum]; lra).
  set (v := fun (_ i : nat) => match i with 2%nat => 1 | _ => 0 end).
  assert (D : forall p, 0 < p -> is_derive (fun s => boundaryEnergy 1 1 (fun _ => 0%nat) (fun _ => 1) (fun _ _ => 1) (boundaryEntropyFun 1 false (fun _ => 1)) (fun j => axpy (qp p) s (v j))) 0 (- (1 / p) + rho_ref * (2/5) / press_ref)).
  { intros p Hp. pose proof (entropy_derive 1 (qp p) (v 0%nat) ltac:(exists 1, (fun _ => 0), p; split; [lra|split; [lra|apply ST]])) as DE.
    destruct (entvars_prim 1 (qp p) 1 (fun _ => 0) p ltac:(lra) Hp (ST p)) as (_ & _ & WE).
    assert (EW : dot (1 + 2) (calcEntropyVars 1 false (qp p)) (v 0%nat) = - (1 / p)) by (rewrite dot_state, WE; unfold dot, v, mom; cbn [rsum]; field; lra).
    rewrite EW in DE.
    apply (is_derive_ext (fun s => entropy 1 false (axpy (qp p) s (v 0%nat)) + rho_ref * ((p + 2/5 * s) - press_ref) / press_ref)).
    - intros s. unfold boundaryEnergy, boundaryEntropyFun. cbn [rsum]. cbv zeta. replace (dot 1 (fun _ => 1) (fun _ => 1)) with 1 by (unfold dot; cbn [rsum]; ring). rewrite sqrt_1.
      replace (pressure 1 (axpy (qp p) s (v 0%nat))) with (p + 2/5 * s); [lra|]. unfold pressure, axpy, qp, v, dot, mom, gami. cbn [rsum]. field.
    - apply (is_derive_plus (fun s => entropy 1 false (axpy (qp p) s (v 0%nat)))); [exact DE|]. assert (P : 0 < press_ref) by (unfold press_ref, Rpower, gamma; apply Rdiv_lt_0_compat; [apply exp_pos|lra]).
      auto_derive; [lra|field; lra]. }
  assert (NO : forall p, 0 < p -> is_gradient 1 3 (boundaryEnergy 1 1 (fun _ => 0%nat) (fun _ => 1) (fun _ _ => 1) (boundaryEntropyFun 1 false (fun _ => 1))) (fun _ => qp p) (snd (staleVector 1 3 1 (fun _ => 0%nat) (fun _ => 1) buf)) ->
      - (1 / p) + rho_ref * (2/5) / press_ref = buf 2%nat).
  { intros p Hp G. specialize (G v). fold (test 1 3 v (snd (staleVector 1 3 1 (fun _ => 0%nat) (fun _ => 1) buf))) in G. rewrite stale_one in G.
    pose proof (is_derive_unique _ _ _ (D p Hp)) as U1. pose proof (is_derive_unique _ _ _ G) as U2. rewrite U1 in U2. rewrite U2. unfold dot, v. cbn [rsum]. ring. }
  destruct (Req_dec (- (1 / 1) + rho_ref * (2/5) / press_ref) (buf 2%nat)) as [E|E].
  - exists (qp 2). split; [exists 1, (fun _ => 0), 2; split; [lra|split; [lra|apply ST]]|]. intros G. apply (NO 2 ltac:(lra)) in G. lra.
  - exists (qp 1). split; [exists 1, (fun _ => 0), 1; split; [lra|split; [lra|apply ST]]|]. intros G. apply (NO 1 ltac:(lra)) in G. contradiction.
Qed.
Print Assumptions C133_boundary_entropy_gradient_refuted.

(** * Non-vacuity *)
(** a tube between two slip walls, of which boundary 2 (on the right) is the output's; gas of varying pressure *)
Definition end_face (i : nat) (s : R) (b : bc) : bface :=
  {| b_n := 2; b_nf := 1; b_idx := fun _ => i; b_wt := fun _ => 1; b_nrm := fun _ _ => s; b_glob := fun j => j; b_flux := bcFlux 1 false b |}.
Definition tube_tags : list (tagged bface) := [Build_tagged 1%nat (end_face 0 (-1) SlipWall); Build_tagged 2%nat (end_face 1 1 SlipWall)].
Definition tube : mesh := {| els := [seg0 0]; ifs := []; bfs := map t_face tube_tags |}.
Example C131_case : well_formed 2 tube /\ gcl 1 tube /\ positive_mesh tube /\ proj_kills_constants tube /\
  (forall b, In b (map t_face tube_tags) -> face_fits 2 b) /\ (forall t, In t tube_tags -> In (t_attr t) [2%nat] -> b_flux (t_face t) = bcFlux 1 false SlipWall) /\
  closed_surface 1 (map t_face tube_tags) /\ valid_gas 1 false 2 moving_state moving_gas /\
  (exists r, flowResidual 1 false 0 None None tube moving_state = Some r) /\
  pressureForce 1 false (fun _ => 3) (onBoundaries [2%nat] tube_tags) moving_state = 3.
Proof.
  destruct duct_valid as (A & B & _ & D & E). destruct C129_case as (_ & _ & VG & _).
  assert (FF : forall b, In b (map t_face tube_tags) -> face_fits 2 b) by (intros b [<-|[<-|[]]]; (split; [intros i Hi; simpl in *; lia|intros k Hk; simpl in *; lia])).
  split; [|split; [|split; [|split; [|split; [|split; [|split; [|split; [|split]]]]]]]].
  - split; [intros e [<-|[]] i Hi; simpl in *; lia|]. split; [intros f []|exact FF].
  - intros e [<-|[]]. apply B. left. reflexivity.
  - intros e [<-|[]]. apply D. left. reflexivity.
  - intros e [<-|[]]. apply E. left. reflexivity.
  - exact FF.
  - intros t [<-|[<-|[]]]; reflexivity.
  - intros i Hi. unfold osum. cbn. lra.
  - exact VG.
  - eexists. reflexivity.
  - rewrite (force_val 1 false (fun _ => 3) 2 _ moving_state moving_gas); [unfold osum, onBoundaries, dot; cbn; lra| |exact VG].
    intros b [<-|[]]. apply FF. right. left. reflexivity.
Qed.
(** viscous: the box of C130 with its no-slip wall as boundary 5 *)
Definition box_tags : list (tagged vface) := [Build_tagged 5%nat (end_wall 0 (-1) (NoSlip rest_q)); Build_tagged 6%nat (end_wall 1 1 ViscSlip)].
Example C132_case : well_formed 2 box /\ (forall t, In t box_tags -> wall_fits 2 (t_face t)) /\ gcl 1 box /\ positive_mesh box /\ proj_kills_constants box /\
  (forall t, In t box_tags -> In (t_attr t) [5%nat] -> w_bc (t_face t) = NoSlip rest_q) /\ valid_gas 1 false 2 moving_state moving_gas /\
  (exists r, viscousFlowResidual 1 0 {| v_mu := 1; v_Re := 1; v_Pr := 1 |} box (map t_face box_tags) moving_state = Some r).
Proof.
  destruct C130_case as (A & B & C & _ & D & E). destruct C129_case as (_ & _ & VG & _). split; [exact A|]. split; [intros t [<-|[<-|[]]]; [apply (proj1 (B (end_wall 0 (-1) (NoSlip rest_q)) ltac:(left; reflexivity)))|apply (proj1 (B (end_wall 1 1 ViscSlip) ltac:(right; left; reflexivity)))]|].
  split; [exact C|]. split; [exact D|]. split; [exact E|]. split; [intros t [<-|[<-|[]]]; [reflexivity|intros [X|[]]; discriminate]|]. split; [exact VG|]. eexists. reflexivity.
Qed.
