(** C137: the entropy and the entropy change a flow residual reports.  C138: the mass matrix and the balance laws of the time-dependent flow equations. *)
From Coq Require Import Reals Arith Lia Lra Psatz List Bool FunctionalExtensionality.
From Coquelicot Require Import Coquelicot.
From Verif Require Import Num Vec SbpSpec Sbp SbpProofs SbpProofs2 SbpMesh SbpMeshSpec SbpMeshProofs SbpMeshProofs2 Euler EulerSpec EulerProofs EulerDeriv BoundaryProofs NavierStokes
  FlowJacSpec FluxSmooth2 FlowJac FlowJacProofs ViscWall ViscWallSpec ViscWallProofs2 EntropyRate EntropyRateSpec EntropyRateProofs EntropyRateProofs2 Props_ViscWall.
Import ListNotations.
Local Open Scope R_scope.

(** * C137 *)
(** the reported entropy is the quadrature of -rho s/(gamma-1), whichever variables the solver stores *)
Theorem C137_entropy_is_integral :
  forall d entvar N M u g, well_formed N M -> valid_gas d entvar N u g ->
  calcEntropy d entvar M u = mesh_integral M (fun i => math_entropy (g_rho g i) (g_p g i)).
Proof. exact entropy_is_integral. Qed.
Print Assumptions C137_entropy_is_integral.
(** the change is reported for exactly the configurations in which the residual is defined *)
Theorem C137_reported_when_defined :
  forall d entvar lps visc ifc M bcs walls time dt u udot,
  (calcEntropyChange d entvar lps visc ifc M bcs walls time dt u udot = None <-> residualAt d entvar lps visc ifc M bcs walls (time + dt) u = None) /\
  (residualAt d entvar lps visc ifc M bcs walls (time + dt) u = None <-> visc <> None /\ ifc <> None).
Proof.
  intros. unfold calcEntropyChange, formOutput, residualAt, flowResidual. cbv zeta. destruct visc, ifc; repeat split; intros; try discriminate; try (destruct H; congruence); try congruence; reflexivity.
Qed.
Print Assumptions C137_reported_when_defined.
(** the reported change is the residual at the given state and at the end of the interval, weighted with the entropy
    variables of that state: every integrator contributes its share *)
Theorem C137_change_is_weighted_residual :
  forall d N entvar lps visc ifc M bcs walls u g w time dt udot rate r, well_formed N M -> (visc <> None -> entvar = false) ->
  valid_gas d entvar N u g -> entropy_variables d N g w -> (forall f, In f (walls (time + dt)) -> wall_fits N f) ->
  residualAt d entvar lps visc ifc M bcs walls (time + dt) u = Some r ->
  calcEntropyChange d entvar lps visc ifc M bcs walls time dt u udot = Some rate ->
  rate = rsum N (fun i => dot (d + 2) (w i) (r i)).
Proof.
  intros d N entvar lps visc ifc M bcs walls u g w time dt udot rate r WF VE VG EW WW ER EC.
  rewrite (change_is_weighted_residual d N entvar lps visc ifc M bcs walls u g time dt udot rate r WF VE VG WW ER EC). unfold test. apply rsum_ext. intros i Hi.
  destruct (VG i Hi) as (Hr & Hp & D). apply dot_same. apply (ent_unique d _ _ (g_rho g i) (g_u g i) (g_p g i)); [apply describes_ent; assumption|exact (EW i Hi)].
Qed.
Print Assumptions C137_change_is_weighted_residual.
(** the entropy-conserving boundary condition writes its flux over its own boundary state when the change is evaluated;
    the entropy it reports is nevertheless that of the flux the residual uses, and is the prescribed one: potential plus entropy flux *)
Theorem C137_entropy_conserving_boundary :
  forall d entvar qb k dir q rho v p, 0 < rho -> 0 < p -> describes d entvar q rho v p ->
  let w := calcEntropyVars d entvar q in
  bcFun d entvar (EntropyConserve qb) k dir q = dot (d + 2) w (bcFlux d entvar (EntropyConserve qb) k dir q) /\
  bcFun d entvar (EntropyConserve qb) k dir q = rho * dot d v dir + dot d (mom (qb k)) dir / qb k 0%nat * entropy d false (qb k).
Proof.
  intros d entvar qb k dir q rho v p Hr Hp D w. split; [apply (bcFun_rate d entvar (EntropyConserve qb) k dir q rho v p Hr Hp D)|].
  destruct (describes_cons d entvar q rho v p Hr Hp D) as (_ & ST).
  assert (P : physical d (calcConservativeVars d entvar q)) by (exists rho, v, p; tauto).
  unfold bcFun. cbv zeta. rewrite (dot_same d _ _ _ (conv_same d entvar q rho v p Hr Hp D)), in_place_rate by exact P. f_equal.
  unfold dot. rewrite <- rsum_scal. apply rsum_ext. intros i Hi. destruct ST as (_ & ST & _). unfold mom. rewrite (ST i Hi). ring.
Qed.
Print Assumptions C137_entropy_conserving_boundary.
(** inside slip walls the inviscid change is the dissipation: never below minus the allowance of the logarithmic average *)
Theorem C137_closed_box_change :
  forall d N lps ifc M bcs walls time dt u udot rate, well_formed N M -> (forall i, (i < N)%nat -> physical d (u i)) ->
  gcl d M -> divergence_theorem d (match ifc with Some _ => true | None => false end) M -> positive_mesh M -> (forall c, ifc = Some c -> 0 <= c) ->
  (forall b, In b (bfs M) -> bcs (time + dt) b = SlipWall) ->
  calcEntropyChange d false lps None ifc M bcs walls time dt u udot = Some rate ->
  - allowance d (match ifc with Some _ => true | None => false end) M u <= rate /\
  (lps <= 0 -> (ifc = None \/ ifc = Some 0) -> Rabs rate <= allowance d (match ifc with Some _ => true | None => false end) M u).
Proof.
  intros d N lps ifc M bcs walls time dt u udot rate WF HU HG HD HP Hc HB EC.
  destruct (residualAt d false lps None ifc M bcs walls (time + dt) u) as [r|] eqn:ER; [|unfold residualAt, flowResidual in ER; destruct ifc; discriminate].
  assert (rate = test N (d + 2) (fun i => calcEntropyVars d false (u i)) r) as ->.
  { unfold residualAt in ER. cbv zeta in ER.
    rewrite (flow_test d N false lps None ifc _ (fluxes_fit N M WF _) u r _ ER). unfold calcEntropyChange, formOutput in EC.
    assert (X : rate = lsum (fun e => lsum (fun E : element -> (nat -> vec) -> R => E e (fun i => u (e_glob e i))) (domainEnergies d false lps None)) (els M)
      + match ifc with None => 0 | Some c => lsum (fun f => ifaceEnergy d false c f (fun i => u (f_globL f i)) (fun i => u (f_globR f i))) (ifs M) end
      + lsum (fun b => boundaryEnergy d false (bcs (time + dt) b) b (fun i => u (b_glob b i))) (bfs M)) by (destruct ifc; injection EC as EC; rewrite <- EC; apply Rplus_0_r).
    rewrite X. apply f_equal2; [apply f_equal2|].
    - cbn [els with_fluxes]. apply lsum_ext. intros e He. apply (domain_rate d false lps None M ltac:(congruence) u e He).
    - unfold fsum, dsbp, ic. destruct ifc as [c|]; [|reflexivity]. cbn [ifs with_fluxes]. reflexivity.
    - unfold bsum. cbn [bfs with_fluxes]. rewrite lsum_map. apply lsum_ext. intros b Hb. unfold boundaryEnergy. apply rsum_ext. intros k Hk.
      unfold bnode, set_flux. cbn [b_wt b_glob b_idx b_flux b_nrm b_nf]. rewrite (HB b Hb). unfold bcFun. ring. }
  unfold residualAt in ER. cbv zeta in ER.
  assert (HD' : divergence_theorem d (dsbp ifc) (with_fluxes M (fun b => bcFlux d false (bcs (time + dt) b)))).
  { intros di psi Hdi. specialize (HD di psi Hdi). cbn [els with_fluxes]. fold (dsbp ifc) in HD. rewrite HD. unfold bsum, fsum. cbn [bfs ifs with_fluxes]. rewrite lsum_map. reflexivity. }
  destruct (entropy_balance d N lps None ifc _ u (fluxes_fit N M WF _) HU r HG HD' HP ltac:(congruence) ltac:(congruence) Hc ER) as (S & E & A & HS & HE & HZ).
  assert (B0 : boundaryRate d (with_fluxes M (fun b => bcFlux d false (bcs (time + dt) b))) u = 0).
  { unfold boundaryRate, bsum. cbn [bfs with_fluxes]. rewrite lsum_map. rewrite (lsum_ext _ (fun _ => 0)), lsum_0; [reflexivity|]. intros b Hb. rewrite (rsum_ext _ _ (fun _ => 0)), rsum_0; [reflexivity|]. intros k Hk.
    unfold set_flux, bnode. cbn [b_wt b_glob b_idx b_flux b_nrm b_nf] in *. rewrite (HB b Hb). unfold bcFlux. rewrite slip_entropy; [ring|]. destruct WF as (_ & _ & Wb). destruct (Wb b Hb) as (W1 & W2). apply HU, W1, W2, Hk. }
  change (allowance d (dsbp ifc) (with_fluxes M (fun b => bcFlux d false (bcs (time + dt) b))) u) with (allowance d (dsbp ifc) M u) in HE.
  rewrite A, B0. unfold dsbp in HE. split.
  - apply Rabs_le_between in HE. lra.
  - intros Hl Hi. rewrite (HZ Hl eq_refl Hi). replace (0 + 0 + E) with E by ring. exact HE.
Qed.
Print Assumptions C137_closed_box_change.
(** with the "Euler" flux option the same report leaves the volume terms out: its integrator's energy is zero, its
    entropy-weighted residual is not *)
Theorem C137_euler_flux_refuted :
  exists e u, (forall i, (i < e_n e)%nat -> physical 1 (u i)) /\ eulerEnergy e u = 0 /\
  weightedResidual (e_n e) 3 (calcEntropyVars 1 false) u (inviscidVector (e_n e) 1 (e_Q e) 1 (e_adj e) (calcEulerFlux 1) u) = 5 / 4.
Proof.
  set (q0 := fun i : nat => match i with O => 1 | 1%nat => 1 | _ => 3 end). set (q1 := fun i : nat => match i with O => 1 | 1%nat => 0 | _ => 5/2 end).
  assert (S0 : is_state 1 q0 1 (fun _ => 1) 1) by (repeat split; try (intros i Hi; destruct i; [|lia]); unfold q0, dot; simpl; lra).
  assert (S1 : is_state 1 q1 1 (fun _ => 0) 1) by (repeat split; try (intros i Hi; destruct i; [|lia]); unfold q1, dot; simpl; lra).
  exists (seg0 0), (fun i => match i with O => q0 | _ => q1 end). split; [|split].
  - intros [|i] _; [exists 1, (fun _ => 1), 1|exists 1, (fun _ => 0), 1]; split; try lra; split; try lra; assumption.
  - unfold eulerEnergy, volumeEnergy. simpl. ring.
  - pose proof (entvars_prim 1 q0 1 _ 1 ltac:(lra) ltac:(lra) S0) as (A0 & A1 & A2). pose proof (entvars_prim 1 q1 1 _ 1 ltac:(lra) ltac:(lra) S1) as (B0 & B1 & B2).
    specialize (A1 0%nat ltac:(lia)). specialize (B1 0%nat ltac:(lia)).
    unfold thermo, dot in A0, B0. cbn [rsum] in A0, B0. rewrite ln_1 in A0, B0.
    unfold weightedResidual. cbn [e_n seg0 rsum]. unfold dot. cbn [rsum]. rewrite A0, A1, A2, B0, B1, B2.
    rewrite !inviscid_entry. cbn [rsum]. unfold getQ. cbn [e_Q e_adj seg0].
    unfold calcEulerFlux, pressure, mk, mom, dot, gami, q0, q1. simpl. field.
Qed.
Print Assumptions C137_euler_flux_refuted.

(** * C138 *)
(** the mass matrix acts on each component as the quadrature weight (times the Jacobian) of the node: tested with any
    field it integrates the product *)
Theorem C138_mass_integrates :
  forall d N ns M (f v : nat -> vec), well_formed N M ->
  rsum N (fun i => dot ns (f i) (massMult N ns (massMatrix d ns false M) v i)) = mesh_integral M (fun i => dot ns (f i) (v i)).
Proof. intros d N ns M f v WF. exact (mass_test d N ns false M WF f v). Qed.
Print Assumptions C138_mass_integrates.
(** it is diagonal and positive, so a time derivative exists, exactly one, for every residual; also with the local time
    steps of steady problems (weight divided by the element's length scale) *)
Theorem C138_rate_exists :
  forall d N ns steady M (r : nat -> nat -> R), well_formed N M -> positive_mesh M -> covered N M ->
  exists mass : nat -> R, (forall i, (i < N)%nat -> 0 < mass i) /\
  (forall v i m, (i < N)%nat -> (m < ns)%nat -> massMult N ns (massMatrix d ns steady M) v i m = mass i * v i m) /\
  (exists k, forall i m, (i < N)%nat -> (m < ns)%nat -> massMult N ns (massMatrix d ns steady M) k i m = - r i m) /\
  (forall k k', (forall i m, (i < N)%nat -> (m < ns)%nat -> massMult N ns (massMatrix d ns steady M) k i m = - r i m) ->
     (forall i m, (i < N)%nat -> (m < ns)%nat -> massMult N ns (massMatrix d ns steady M) k' i m = - r i m) ->
     forall i m, (i < N)%nat -> (m < ns)%nat -> k i m = k' i m).
Proof.
  intros d N ns steady M r WF HP HC. exists (nodeMass d steady M).
  assert (P : forall i, (i < N)%nat -> 0 < nodeMass d steady M i) by (intros i Hi; apply nodeMass_pos; [exact HP|apply HC; exact Hi]).
  assert (MM : forall v i m, (i < N)%nat -> (m < ns)%nat -> massMult N ns (massMatrix d ns steady M) v i m = nodeMass d steady M i * v i m) by (intros; apply mass_mult; assumption).
  split; [exact P|]. split; [exact MM|]. split.
  - exists (fun i m => - r i m / nodeMass d steady M i). intros i m Hi Hm. rewrite MM by assumption. specialize (P i Hi). field. lra.
  - intros k k' A B i m Hi Hm. specialize (A i m Hi Hm). specialize (B i m Hi Hm). rewrite MM in A, B by assumption. specialize (P i Hi). apply (Rmult_eq_reg_l (nodeMass d steady M i)); lra.
Qed.
Print Assumptions C138_rate_exists.
(** the entries: quadrature weight times Jacobian, divided by the d-th root of the Jacobian for steady problems *)
Theorem C138_local_time_step :
  forall d N ns steady M v i m, well_formed N M -> (i < N)%nat -> (m < ns)%nat ->
  massMult N ns (massMatrix d ns steady M) v i m =
  lsum (fun e => rsum (e_n e) (fun a => if Nat.eqb (e_glob e a) i then
     e_H e a * e_detJ e a / (if steady then Rpower (e_detJ e a) (1 / INR d) else 1) else 0)) (els M) * v i m.
Proof.
  intros d N ns steady M v i m WF Hi Hm. rewrite (mass_mult d N ns steady M WF v i m Hi Hm). f_equal. unfold nodeMass. apply lsum_ext. intros e He. apply rsum_ext. intros a Ha.
  unfold delta, massEntry. destruct (Nat.eqb _ _), steady; try ring. field.
Qed.
Print Assumptions C138_local_time_step.
(** rate of the total of each conserved quantity along the semi-discrete equations: what crosses the boundary *)
Theorem C138_total_rate :
  forall d N lps visc ifc M bcs walls t u r k m, well_formed N M -> (forall f, In f (walls t) -> wall_fits N f) -> (m < d + 2)%nat ->
  gcl d M -> positive_mesh M -> proj_kills_constants M ->
  residualAt d false lps visc ifc M bcs walls t u = Some r ->
  (forall i m, (i < N)%nat -> (m < d + 2)%nat -> massMult N (d + 2) (massMatrix d (d + 2) false M) k i m = - r i m) ->
  mesh_integral M (fun i => k i m) =
  - (bsum M (fun b j => bcFlux d false (bcs t b) j (b_nrm b j) (u (bnode b j)) m) + match visc with None => 0 | Some vp => wsum (walls t) (fun f j => wall_flux d vp f u j m) end).
Proof.
  intros d N lps visc ifc M bcs walls t u r k m WF WW Hm HG HP HK ER EQ. rewrite (slope_content d N (d + 2) M WF k r EQ m Hm).
  rewrite (residual_total d N lps visc ifc M bcs walls t u r m WF WW Hm HG HP HK ER). reflexivity.
Qed.
Print Assumptions C138_total_rate.
(** and over one step of any scheme that updates with a combination of such rates (explicit or implicit, relaxed or
    not): the change of the total is the combination of the stages' boundary fluxes *)
Theorem C138_step_conserves :
  forall d N lps visc ifc M bcs walls s (b tj : nat -> R) dt (y : nat -> nat -> vec) (rj : nat -> nat -> nat -> R) (kj : nat -> nat -> vec) (u unew : nat -> vec) m, well_formed N M ->
  (forall j f, (j < s)%nat -> In f (walls (tj j)) -> wall_fits N f) -> (m < d + 2)%nat -> gcl d M -> positive_mesh M -> proj_kills_constants M ->
  (forall j, (j < s)%nat -> residualAt d false lps visc ifc M bcs walls (tj j) (y j) = Some (rj j) /\
     forall i m, (i < N)%nat -> (m < d + 2)%nat -> massMult N (d + 2) (massMatrix d (d + 2) false M) (kj j) i m = - rj j i m) ->
  (forall i, (i < N)%nat -> unew i m = u i m + dt * rsum s (fun j => b j * kj j i m)) ->
  mesh_integral M (fun i => unew i m) = mesh_integral M (fun i => u i m)
  - dt * rsum s (fun j => b j * (bsum M (fun f k => bcFlux d false (bcs (tj j) f) k (b_nrm f k) (y j (bnode f k)) m) + match visc with None => 0 | Some vp => wsum (walls (tj j)) (fun f k => wall_flux d vp f (y j) k m) end)).
Proof.
  intros d N lps visc ifc M bcs walls s b tj dt y rj kj u unew m WF WW Hm HG HP HK ST UP.
  rewrite (update_content N M kj b s dt u unew m WF UP). rewrite (rsum_ext s _ (fun j => - (b j * outflow d visc M (bcs (tj j)) (walls (tj j)) (y j) m))).
  - rewrite rsum_opp. unfold outflow. lra.
  - intros j Hj. destruct (ST j Hj) as (ER & EQ). rewrite (slope_content d N (d + 2) M WF (kj j) (rj j) EQ m Hm).
    rewrite (residual_total d N lps visc ifc M bcs walls (tj j) (y j) (rj j) m WF (fun f Hf => WW j f Hj Hf) Hm HG HP HK ER). ring.
Qed.
Print Assumptions C138_step_conserves.
(** a box of slip walls keeps its mass and its energy exactly under any such step, whatever the stage states are *)
Theorem C138_closed_box_conserves :
  forall d N lps ifc M bcs walls s (b tj : nat -> R) dt (y : nat -> nat -> vec) (rj : nat -> nat -> nat -> R) (kj : nat -> nat -> vec) (u unew : nat -> vec) m, well_formed N M ->
  (m = 0 \/ m = S d)%nat -> gcl d M -> positive_mesh M -> proj_kills_constants M -> (forall t f, In f (bfs M) -> bcs t f = SlipWall) ->
  (forall j, (j < s)%nat -> residualAt d false lps None ifc M bcs walls (tj j) (y j) = Some (rj j) /\
     forall i m, (i < N)%nat -> (m < d + 2)%nat -> massMult N (d + 2) (massMatrix d (d + 2) false M) (kj j) i m = - rj j i m) ->
  (forall i, (i < N)%nat -> unew i m = u i m + dt * rsum s (fun j => b j * kj j i m)) ->
  mesh_integral M (fun i => unew i m) = mesh_integral M (fun i => u i m).
Proof.
  intros d N lps ifc M bcs walls s b tj dt y rj kj u unew m WF Hm HG HP HK HB ST UP.
  assert (ST' : forall j, (j < s)%nat -> residualAt d false lps None ifc M bcs (fun _ => []) (tj j) (y j) = Some (rj j) /\
     forall i m, (i < N)%nat -> (m < d + 2)%nat -> massMult N (d + 2) (massMatrix d (d + 2) false M) (kj j) i m = - rj j i m) by (intros j Hj; exact (ST j Hj)).
  rewrite (C138_step_conserves d N lps None ifc M bcs (fun _ => []) s b tj dt y rj kj u unew m WF ltac:(intros j f _ []) ltac:(lia) HG HP HK ST' UP).
  rewrite (rsum_ext s _ (fun _ => 0)); [rewrite rsum_0; ring|]. intros j Hj. unfold bsum. rewrite (lsum_ext _ (fun _ => 0)), lsum_0; [ring|]. intros f Hf.
  rewrite (rsum_ext _ _ (fun _ => 0)), rsum_0; [reflexivity|]. intros k Hk. rewrite HB by exact Hf. unfold bcFlux, calcSlipWallFlux. destruct Hm as [-> | ->]; [rewrite mk_0|rewrite mk_E]; ring.
Qed.
Print Assumptions C138_closed_box_conserves.
(** along the semi-discrete equations the reported entropy falls at the reported rate *)
Theorem C138_entropy_rate :
  forall d N lps visc ifc M bcs walls u udot k time dt r rate, well_formed N M -> (forall i, (i < N)%nat -> physical d (u i)) ->
  (forall f, In f (walls (time + dt)) -> wall_fits N f) ->
  residualAt d false lps visc ifc M bcs walls (time + dt) u = Some r ->
  (forall i m, (i < N)%nat -> (m < d + 2)%nat -> massMult N (d + 2) (massMatrix d (d + 2) false M) k i m = - r i m) ->
  calcEntropyChange d false lps visc ifc M bcs walls time dt u udot = Some rate ->
  is_derive (fun s => calcEntropy d false M (fun i => axpy (u i) s (k i))) 0 (- rate).
Proof.
  intros d N lps visc ifc M bcs walls u udot k time dt r rate WF HU WW ER EQ EC.
  set (g := {| g_rho := fun i => u i 0%nat; g_u := fun i c => u i (S c) / u i 0%nat; g_p := fun i => pressure d (u i) |}).
  assert (VG : valid_gas d false N u g).
  { intros i Hi. destruct (HU i Hi) as (rho & v & p & Hr & Hp & ST). unfold g. cbn [g_rho g_u g_p]. rewrite (state_pressure d _ rho v p) by (lra || exact ST).
    destruct ST as (A & B & C). rewrite A. split; [exact Hr|]. split; [exact Hp|]. split; [exact A|]. split; [intros c Hc; field; lra|]. rewrite C. f_equal. f_equal.
    unfold dot. apply rsum_ext. intros c Hc. rewrite B by exact Hc. field. lra. }
  rewrite (change_is_weighted_residual d N false lps visc ifc M bcs walls u g time dt udot rate r WF ltac:(reflexivity) VG WW ER EC).
  rewrite <- (slope_test d N (d + 2) M WF k r EQ). apply (calcEntropy_derive d N M u k WF HU).
Qed.
Print Assumptions C138_entropy_rate.

(** * Non-vacuity: the two-node box with slip walls at both ends and moving gas *)
Definition slip_end (i : nat) (s : R) : bface :=
  {| b_n := 2; b_nf := 1; b_idx := fun _ => i; b_wt := fun _ => 1; b_nrm := fun _ _ => s; b_glob := fun j => j; b_flux := fun _ _ _ _ => 0 |}.
Definition slip_box : mesh := {| els := [seg0 0]; ifs := []; bfs := [slip_end 0 (-1); slip_end 1 1] |}.
Example C137_case : well_formed 2 slip_box /\ gcl 1 slip_box /\ divergence_theorem 1 false slip_box /\ positive_mesh slip_box /\ proj_kills_constants slip_box /\ covered 2 slip_box /\
  valid_gas 1 false 2 moving_state moving_gas /\ entropy_variables 1 2 moving_gas (fun i => calcEntropyVars 1 false (moving_state i)) /\
  (forall lps t dt, exists r k rate, residualAt 1 false lps None None slip_box (fun _ _ => SlipWall) (fun _ => []) (t + dt) moving_state = Some r /\
     (forall i m, (i < 2)%nat -> (m < 1 + 2)%nat -> massMult 2 (1 + 2) (massMatrix 1 (1 + 2) false slip_box) k i m = - r i m) /\
     calcEntropyChange 1 false lps None None slip_box (fun _ _ => SlipWall) (fun _ => []) t dt moving_state (fun _ _ => 0) = Some rate).
Proof.
  destruct duct_valid as (A & B & _ & D & E). destruct C129_case as (_ & _ & VG & _).
  assert (WF : well_formed 2 slip_box).
  { split; [intros e [<-|[]] i Hi; simpl in *; lia|]. split; [intros f []|]. intros b [<-|[<-|[]]]; (split; [intros i Hi; simpl in *; lia|intros k Hk; simpl in *; lia]). }
  assert (PM : positive_mesh slip_box) by (intros e [<-|[]]; apply D; left; reflexivity).
  assert (CV : covered 2 slip_box) by (intros i Hi; exists (seg0 0), i; repeat split; [left; reflexivity|exact Hi]).
  split; [exact WF|]. split; [intros e [<-|[]]; apply B; left; reflexivity|]. split.
  { intros di psi Hdi. destruct di; [|lia]. unfold lsum, bsum, fsum, bnode, getSymEntry. simpl. lra. }
  split; [exact PM|]. split; [intros e [<-|[]]; apply E; left; reflexivity|]. split; [exact CV|]. split; [exact VG|]. split.
  - intros i Hi. destruct (VG i Hi) as (Hr & Hp & X). exact (entvars_prim 1 _ _ _ _ Hr Hp X).
  - intros lps t dt. destruct (residualAt 1 false lps None None slip_box (fun _ _ => SlipWall) (fun _ => []) (t + dt) moving_state) as [r|] eqn:ER; [|discriminate].
    destruct (C138_rate_exists 1 2 (1 + 2) false slip_box r WF PM CV) as (mass & _ & _ & (k & K) & _). eexists r, k, _. split; [reflexivity|]. split; [exact K|]. reflexivity.
Qed.
