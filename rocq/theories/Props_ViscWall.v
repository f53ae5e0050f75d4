(** C129, C130: viscous boundary conditions -- exact system matrix, conservation, entropy, rest states. *)
From Coq Require Import Reals Arith Lia Lra Psatz List FunctionalExtensionality.
From Coquelicot Require Import Coquelicot.
From Verif Require Import Num Vec SbpSpec Sbp SbpProofs SbpProofs2 SbpProofs3 SbpMesh SbpMeshSpec SbpMeshProofs SbpMeshProofs2 Euler EulerSpec EulerProofs EulerDeriv NavierStokes NavierStokesProofs
  SmoothCalc FlowJacSpec FlowJac FluxSmooth2 FlowJacProofs ViscWall ViscWallSpec ViscWallProofs ViscWallProofs2.
Import ListNotations.
Local Open Scope R_scope.

(** The matrix of the viscous flow residual, with no-slip, viscous slip, manufactured and control boundaries besides
    the far field, is the derivative of the residual at every positive gas state (off the kinks of the volume terms). *)
Theorem C129_viscous_jacobian :
  forall d N lps vp M walls u g J, well_formed N M -> (forall f, In f walls -> wall_fits N f) -> valid_gas d false N u g -> differentiable d lps (Some vp) None M g ->
  (forall b, In b (bfs M) -> exists c, b_flux b = bcFlux d false c /\ forall pos, c = Vortex pos -> d = 2%nat) ->
  viscousFlowJacobian d lps vp M walls u = Some J ->
  is_derivative N (d + 2) (viscousFlowResidual d lps vp M walls) u J.
Proof. intros d N lps vp M walls u g J WF WW VG DF BC HJ. exact (viscous_jacobian d N lps vp M walls WF WW u g VG DF BC J HJ). Qed.
Print Assumptions C129_viscous_jacobian.
(** both always exist: no interface terms are requested *)
Theorem C129_assembles :
  forall d lps vp M walls u, (exists r, viscousFlowResidual d lps vp M walls u = Some r) /\ (exists J, viscousFlowJacobian d lps vp M walls u = Some J).
Proof. intros. split; eexists; reflexivity. Qed.
Print Assumptions C129_assembles.
(** each wall flux is differentiable at every positive gas state, for any derivatives of the entropy variables, and its
    two Jacobians (in the state and in the derivatives) are exact *)
Theorem C129_wall_conditions :
  forall d vp w k dir jac q D rho u p, 0 < rho -> 0 < p -> is_state d q rho u p -> wall_ok w ->
  has_jac_cols (d + 2) d (wallFlux d vp w k dir jac) q D
    (fun m c => partial (fun q => wallFlux d vp w k dir jac q D m) q c)
    (fun e m c => partial (fun col => wallFlux d vp w k dir jac q (setcol D e col) m) (D e) c).
Proof. exact wall_has_jac. Qed.
Print Assumptions C129_wall_conditions.
(** the integrator in general: any flux, variable change and test-derivative flux with exact Jacobians; the scale factor
    must be one *)
Theorem C129_unscaled :
  forall n d ns H Q adj detJ nf idx wt nrm convert convJac flux fluxDv jacState jacDw dvJac u,
  (forall k, (k < nf)%nat -> (idx k < n)%nat) ->
  let D := fun (u : nat -> vec) i e s => rsum n (fun j => getQEntry d Q e i j (adj i) (adj j) * convert (u j) s) * (1 / (H i * detJ i)) in
  (forall j, (j < n)%nat -> has_jac ns convert (u j) (convJac (u j))) ->
  (forall k, (k < nf)%nat -> has_jac_cols ns d (flux k (nrm k) (detJ (idx k))) (u (idx k)) (D u (idx k))
       (jacState k (nrm k) (detJ (idx k)) (u (idx k)) (D u (idx k))) (jacDw k (nrm k) (detJ (idx k)) (u (idx k)) (D u (idx k)))) ->
  (forall k di, (k < nf)%nat -> (di < d)%nat -> has_jac ns (fun q => fluxDv k (nrm k) q di) (u (idx k)) (dvJac k (nrm k) (u (idx k)) di)) ->
  is_jacobian n ns (wallVector n d ns H Q adj detJ 1 nf idx wt nrm convert flux fluxDv) u
    (wallGrad n d ns H Q adj detJ nf idx wt nrm convert convJac jacState jacDw dvJac u).
Proof. intros n d ns H Q adj detJ nf idx wt nrm cv cj fl fd js jd dj u Hi D. exact (wall_is_jacobian n d ns H Q adj detJ 1 nf idx wt nrm cv cj Hi fl fd js jd dj u eq_refl). Qed.
Print Assumptions C129_unscaled.
(** what the residual of a wall face is, tested with any W: the scale multiplies the flux but not the terms that test
    the derivative *)
Theorem C129_residual_form :
  forall n d ns H Q adj detJ alpha nf idx wt nrm convert flux fluxDv u (W : nat -> vec), (forall k, (k < nf)%nat -> (idx k < n)%nat) ->
  let D := fun (V : nat -> vec) i e s => rsum n (fun j => getQEntry d Q e i j (adj i) (adj j) * V j s) * (1 / (H i * detJ i)) in
  rsum n (fun i => dot ns (W i) (wallVector n d ns H Q adj detJ alpha nf idx wt nrm convert flux fluxDv u i)) =
  rsum nf (fun k => wt k * (alpha * dot ns (W (idx k)) (flux k (nrm k) (detJ (idx k)) (u (idx k)) (D (fun j => convert (u j)) (idx k)))
                            + rsum d (fun di => dot ns (D W (idx k) di) (fluxDv k (nrm k) (u (idx k)) di)))).
Proof. intros n d ns H Q adj detJ a nf idx wt nrm cv fl fd u W Hi D. exact (wall_test n d ns H Q adj detJ a nf idx wt nrm cv Hi W fl fd u). Qed.
Print Assumptions C129_residual_form.
(** with another scale factor (the constructors accept one) the matrix ignores it: a slip wall in one dimension *)
Theorem C129_scaled_wall_refuted :
  exists vp u, physical 1 (u 0%nat) /\ let z := fun _ _ : nat => 0 in
  ~ is_jacobian 1 3 (wallVector 1 1 3 (fun _ => 1) (fun _ => z) (fun _ => z) (fun _ => 1) 2 1 (fun _ => 0%nat) (fun _ => 1) (fun _ _ => 1) (calcEntropyVars 1 false) (wallFlux 1 vp ViscSlip) noDv) u
    (wallGrad 1 1 3 (fun _ => 1) (fun _ => z) (fun _ => z) (fun _ => 1) 1 (fun _ => 0%nat) (fun _ => 1) (fun _ _ => 1) (calcEntropyVars 1 false) (viscConvJac 1) (wallJacState 1 vp ViscSlip) (wallJacDw 1 vp ViscSlip) noDvJac u).
Proof.
  set (q := fun i : nat => match i with O => 1 | 1%nat => 0 | _ => 5/2 end).
  assert (ST : is_state 1 q 1 (fun _ => 0) 1) by (repeat split; try (intros i Hi; destruct i; [|lia]); unfold q, dot; simpl; lra).
  exists {| v_mu := 1; v_Re := 1; v_Pr := 1 |}, (fun _ => q). split; [exists 1, (fun _ => 0), 1; split; [lra|split; [lra|exact ST]]|]. cbv zeta. intros J2. set (vp := {| v_mu := 1; v_Re := 1; v_Pr := 1 |}) in *. set (z := fun _ _ : nat => 0) in *.
  assert (J1 : is_jacobian 1 3 (wallVector 1 1 3 (fun _ => 1) (fun _ => z) (fun _ => z) (fun _ => 1) 1 1 (fun _ => 0%nat) (fun _ => 1) (fun _ _ => 1) (calcEntropyVars 1 false) (wallFlux 1 vp ViscSlip) noDv) (fun _ => q)
    (wallGrad 1 1 3 (fun _ => 1) (fun _ => z) (fun _ => z) (fun _ => 1) 1 (fun _ => 0%nat) (fun _ => 1) (fun _ _ => 1) (calcEntropyVars 1 false) (viscConvJac 1) (wallJacState 1 vp ViscSlip) (wallJacDw 1 vp ViscSlip) noDvJac (fun _ => q))).
  { apply wall_is_jacobian; [intros; lia|reflexivity| | |].
    - intros j Hj. apply (conv_has_jac 1 false q 1 (fun _ => 0) 1); [lra|lra|exact ST].
    - intros k Hk. apply (wall_has_jac 1 vp ViscSlip k _ _ q _ 1 (fun _ => 0) 1); [lra|lra|exact ST|exact I].
    - intros k di Hk Hdi. apply noDv_has_jac. }
  set (v := fun (_ i : nat) => match i with 2%nat => 1 | _ => 0 end).
  specialize (J1 v 0%nat 1%nat ltac:(lia) ltac:(lia)). specialize (J2 v 0%nat 1%nat ltac:(lia) ltac:(lia)).
  set (A := rsum 1 _) in J1. change (is_derive (fun s : R => wallVector 1 1 3 (fun _ => 1) (fun _ => z) (fun _ => z) (fun _ => 1) 2 1 (fun _ => 0%nat) (fun _ => 1) (fun _ _ => 1) (calcEntropyVars 1 false) (wallFlux 1 vp ViscSlip) noDv
     (fun j => axpy q s (v j)) 0%nat 1%nat) 0 A) in J2. clearbody A.
  assert (E : forall a s, wallVector 1 1 3 (fun _ => 1) (fun _ => z) (fun _ => z) (fun _ => 1) a 1 (fun _ => 0%nat) (fun _ => 1) (fun _ _ => 1) (calcEntropyVars 1 false) (wallFlux 1 vp ViscSlip) noDv (fun j => axpy q s (v j)) 0%nat 1%nat =
     a * (1 + 2/5 * s)).
  { intros a s. rewrite <- (test_point 1 3 _ 0%nat 1%nat ltac:(lia) ltac:(lia)). rewrite wall_test by (intros; lia).
    assert (SS : is_state 1 (axpy q s (v 0%nat)) 1 (fun _ => 0) (1 + 2/5 * s)).
    { repeat split; try (intros i Hi; destruct i; [|lia]); unfold q, v, axpy, dot; cbn [rsum]; lra. }
    cbn [rsum]. rewrite Rplus_0_l. unfold dot at 2. cbn [rsum]. unfold noDv, dot. cbn [rsum]. unfold delta. simpl Nat.eqb. cbv iota.
    unfold wallFlux, viscousSlipFlux.
    assert (TZ : forall D : nat -> vec, (forall e t, (e < 1)%nat -> (t < 1 + 2)%nat -> D e t = 0) -> tangentialFlux 1 vp (fun _ => 1) (axpy q s (v 0%nat)) D 1%nat = 0).
    { intros D HD. apply (tan_zero 1 vp (fun _ => 1) _ D 1 (fun _ => 0) (1 + 2/5 * s)); [lra|exact SS|unfold dot; cbn [rsum]; lra|exact HD|lia]. }
    rewrite TZ by (intros e t He Ht; unfold SbpProofs3.grad, getQEntry, getSymEntry, getQ, getSkewEntry, z; cbn [rsum]; simpl Nat.eqb; cbv iota; cbn [rsum]; lra).
    rewrite (slip_flux_S 1 (fun _ => 1) (axpy q s (v 0%nat)) 1 (1 + 2/5 * s) (fun _ => 0) ltac:(lra) SS 0%nat ltac:(lia)). ring. }
  assert (D1 : is_derive (fun s : R => 1 * (1 + 2/5 * s)) 0 A) by (apply (is_derive_ext (fun s => wallVector 1 1 3 (fun _ => 1) (fun _ => z) (fun _ => z) (fun _ => 1) 1 1 (fun _ => 0%nat) (fun _ => 1) (fun _ _ => 1) (calcEntropyVars 1 false) (wallFlux 1 vp ViscSlip) noDv (fun j => axpy q s (v j)) 0%nat 1%nat)); [intros s; apply E|exact J1]).
  assert (D2 : is_derive (fun s : R => 2 * (1 + 2/5 * s)) 0 A) by (apply (is_derive_ext (fun s => wallVector 1 1 3 (fun _ => 1) (fun _ => z) (fun _ => z) (fun _ => 1) 2 1 (fun _ => 0%nat) (fun _ => 1) (fun _ _ => 1) (calcEntropyVars 1 false) (wallFlux 1 vp ViscSlip) noDv (fun j => axpy q s (v j)) 0%nat 1%nat)); [intros s; apply E|exact J2]).
  assert (D1' : is_derive (fun s : R => 1 * (1 + 2/5 * s)) 0 (2/5)) by (auto_derive; [trivial|lra]).
  assert (D2' : is_derive (fun s : R => 2 * (1 + 2/5 * s)) 0 (4/5)) by (auto_derive; [trivial|lra]).
  pose proof (is_derive_unique _ _ _ D1). pose proof (is_derive_unique _ _ _ D1'). pose proof (is_derive_unique _ _ _ D2). pose proof (is_derive_unique _ _ _ D2'). lra.
Qed.
Print Assumptions C129_scaled_wall_refuted.

(** * Conservation and entropy *)
(** the sum of each conserved component over the nodes is the flux through the far field and through the walls *)
Theorem C130_conservation :
  forall d N lps vp M walls u r m, well_formed N M -> (forall f, In f walls -> wall_fits N f) -> (m < d + 2)%nat -> gcl d M -> positive_mesh M -> proj_kills_constants M ->
  viscousFlowResidual d lps vp M walls u = Some r ->
  rsum N (fun i => r i m) = bsum M (fun b k => b_flux b k (b_nrm b k) (u (bnode b k)) m) + wsum walls (fun f k => wall_flux d vp f u k m).
Proof. intros d N lps vp M walls u r m WF WW. exact (viscous_conservation d N lps vp M walls WF WW u r m). Qed.
Print Assumptions C130_conservation.
(** no mass crosses a no-slip or a viscous slip wall, whatever the state *)
Theorem C130_no_mass_through_walls :
  forall d vp u f k, solid d f -> wall_flux d vp f u k 0%nat = 0.
Proof. exact solid_mass. Qed.
Print Assumptions C130_no_mass_through_walls.
(** the momentum through a solid wall is pressure minus a traction T, plus the no-slip penalty, which is proportional to
    the wall velocity; the energy is exactly the work of T on the wall velocity (no heat: the walls are adiabatic), so
    none crosses a wall where the gas is at rest *)
Theorem C130_wall_momentum_and_energy :
  forall d vp u f k rho v p, solid d f -> normals_nonzero d f -> (k < w_nf f)%nat -> 0 < rho -> 0 < p -> is_state d (u (wnode f k)) rho v p ->
  exists T c, (forall i, (i < d)%nat -> wall_flux d vp f u k (S i) = p * w_nrm f k i - T i + c * v i) /\ wall_flux d vp f u k (S d) = - dot d v T /\
    (w_bc f = ViscSlip -> c = 0) /\ (0 < v_Re vp -> 0 < e_detJ (w_el f) (w_idx f k) -> 0 <= c).
Proof.
  intros d vp u f k rho v p HS HN Hk Hr Hp Hq. pose proof (solid_energy d vp u f k rho v p HS HN Hk Hr Hq) as HE.
  exists (traction d vp u f k).
  exists (match w_bc f with NoSlip qfs => sqrt (dot d (w_nrm f k) (w_nrm f k)) / e_detJ (w_el f) (w_idx f k) * muRe d vp (u (wnode f k)) * (pressure d qfs / qfs 0%nat) * (INR d + 1/3) * (rho / p) | _ => 0 end).
  split; [|split; [exact HE|split]].
  - intros i Hi. unfold wall_flux, traction, solid in *. destruct (w_bc f) as [qfs| | |]; [| |contradiction|contradiction]; unfold wallFlux.
    + unfold noSlipFlux. rewrite (slip_flux_S d _ _ rho p v Hr Hq i Hi).
      destruct HS as (r0 & v0 & p0 & Hr0 & Hp0 & H0). rewrite (state_pressure d qfs r0 v0 p0 ltac:(lra) H0), (proj1 H0).
      unfold calcNoSlipPenaltyFlux. cbv zeta. rewrite (state_pressure d (u (wnode f k)) rho v p ltac:(lra) Hq).
      destruct (penalty_form d (sqrt (dot d (w_nrm f k) (w_nrm f k)) / e_detJ (w_el f) (w_idx f k)) (muRe d vp (u (wnode f k))) (v_Pr vp) qfs (mk d 0 (fun e => u (wnode f k) (S e) / p) 0) r0 v0 p0) as (_ & F1 & _); [lra|exact H0|apply mk_E|].
      rewrite F1, mk_S, (proj1 (proj2 Hq)) by exact Hi. unfold Rdiv. ring.
    + unfold viscousSlipFlux. rewrite (slip_flux_S d _ _ rho p v Hr Hq i Hi). ring.
  - intros ->. reflexivity.
  - intros HRe HJ. unfold solid in HS. destruct (w_bc f) as [qfs| | |]; try lra. destruct HS as (r0 & v0 & p0 & Hr0 & Hp0 & H0). rewrite (state_pressure d qfs r0 v0 p0 ltac:(lra) H0), (proj1 H0).
    assert (0 <= muRe d vp (u (wnode f k))) by (apply muRe_nonneg; [exists rho, v, p; auto|exact HRe]). pose proof (pos_INR d).
    assert (0 <= rho / p) by (left; apply Rdiv_lt_0_compat; assumption). assert (0 <= p0 / r0) by (left; apply Rdiv_lt_0_compat; assumption).
    apply Rmult_le_pos; [|assumption]. apply Rmult_le_pos; [|lra]. apply Rmult_le_pos; [|assumption]. apply Rmult_le_pos; [|assumption]. apply Rmult_le_pos; [apply sqrt_pos|]. left. apply Rinv_0_lt_compat. exact HJ.
Qed.
Print Assumptions C130_wall_momentum_and_energy.
(** a box closed by solid walls keeps its mass, and keeps its energy if the gas is at rest at the wall nodes *)
Theorem C130_closed_box :
  forall d N lps vp M walls u r, well_formed N M -> (forall f, In f walls -> wall_fits N f) -> gcl d M -> positive_mesh M -> proj_kills_constants M ->
  bfs M = [] -> (forall f, In f walls -> solid d f /\ normals_nonzero d f) -> viscousFlowResidual d lps vp M walls u = Some r ->
  rsum N (fun i => r i 0%nat) = 0 /\
  ((forall f k, In f walls -> (k < w_nf f)%nat -> exists rho v p, 0 < rho /\ 0 < p /\ is_state d (u (wnode f k)) rho v p /\ forall i, (i < d)%nat -> v i = 0) -> rsum N (fun i => r i (S d)) = 0).
Proof.
  intros d N lps vp M walls u r WF WW HG HP HK HB HS ER. split.
  - rewrite (viscous_conservation d N lps vp M walls WF WW u r 0%nat) by (auto; lia). unfold bsum, wsum. rewrite HB. cbn [lsum fold_right]. rewrite Rplus_0_l.
    rewrite (lsum_ext _ (fun _ => 0)), lsum_0; [reflexivity|]. intros f Hf. rewrite (rsum_ext _ _ (fun _ => 0)), rsum_0; [reflexivity|]. intros k Hk. rewrite solid_mass by (apply HS; exact Hf). ring.
  - intros HV. rewrite (viscous_conservation d N lps vp M walls WF WW u r (S d)) by (auto; lia). unfold bsum, wsum. rewrite HB. cbn [lsum fold_right]. rewrite Rplus_0_l.
    rewrite (lsum_ext _ (fun _ => 0)), lsum_0; [reflexivity|]. intros f Hf. rewrite (rsum_ext _ _ (fun _ => 0)), rsum_0; [reflexivity|]. intros k Hk.
    destruct (HV f k Hf Hk) as (rho & v & p & Hr & Hp & Hq & Hv). destruct (HS f Hf) as (S1 & S2).
    rewrite (solid_energy d vp u f k rho v p S1 S2 Hk Hr Hq). unfold dot. rewrite (rsum_ext d _ (fun _ => 0)), rsum_0; [ring|]. intros i Hi. rewrite Hv by exact Hi. ring.
Qed.
Print Assumptions C130_closed_box.
(** entropy: the residual tested with the entropy variables is the far-field rate plus the rate at the walls, plus a
    non-negative dissipation, up to the allowance of the logarithmic average; solid walls never produce a negative
    rate, and viscous slip walls none at all *)
Theorem C130_entropy_balance :
  forall d N lps vp M walls u r, well_formed N M -> (forall f, In f walls -> wall_fits N f) -> (forall i, (i < N)%nat -> physical d (u i)) ->
  gcl d M -> divergence_theorem d false (with_walls M walls) -> positive_mesh M -> (d <= 3)%nat -> 0 < v_Re vp -> 0 < v_Pr vp ->
  viscousFlowResidual d lps vp M walls u = Some r ->
  let w := fun i => calcEntropyVars d false (u i) in
  let rate := fun f k => dot (d + 2) (w (wnode f k)) (wall_flux d vp f u k) - dot d (mom (u (wnode f k))) (w_nrm f k) in
  exists S E,
    rsum N (fun i => dot (d + 2) (w i) (r i)) =
      bsum M (fun b k => dot (d + 2) (w (bnode b k)) (b_flux b k (b_nrm b k) (u (bnode b k))) - dot d (mom (u (bnode b k))) (b_nrm b k)) + wsum walls rate + S + E /\
    0 <= S /\ Rabs E <= allowance d false M u /\
    (forall f k, In f walls -> In (w_el f) (els M) -> solid d f -> normals_nonzero d f -> (k < w_nf f)%nat -> 0 <= rate f k /\ (w_bc f = ViscSlip -> rate f k = 0)).
Proof.
  intros d N lps vp M walls u r WF WW HU HG HD HP H3 HRe HPr ER w rate.
  destruct (viscous_entropy d N lps vp M walls WF WW u r HU HG HD HP H3 HRe HPr ER) as (S & E & A & HS & HE). exists S, E. split; [exact A|]. split; [exact HS|]. split; [exact HE|].
  intros f k Hf HI Sf Nf Hk. destruct (WW f Hf) as (W1 & W2 & W3).
  destruct (solid_rate d N vp u f k HU (WW f Hf) Sf Nf Hk HRe (proj2 (HP _ HI _ (W2 k Hk)))) as (R1 & R2). split; [exact R1|]. intros Hw. unfold rate, w. rewrite (R2 Hw). ring.
Qed.
Print Assumptions C130_entropy_balance.
(** hence in a box closed by solid walls the total entropy does not grow along mass_i du_i/dt = - R_i, up to the allowance *)
Theorem C130_closed_box_entropy :
  forall d N lps vp M walls u r (mass : nat -> R) (v : nat -> vec), well_formed N M -> (forall f, In f walls -> wall_fits N f) -> (forall i, (i < N)%nat -> physical d (u i)) ->
  gcl d M -> divergence_theorem d false (with_walls M walls) -> positive_mesh M -> (d <= 3)%nat -> 0 < v_Re vp -> 0 < v_Pr vp ->
  bfs M = [] -> (forall f, In f walls -> In (w_el f) (els M) /\ solid d f /\ normals_nonzero d f /\ forall k, (k < w_nf f)%nat -> 0 <= w_wt f k) ->
  viscousFlowResidual d lps vp M walls u = Some r ->
  (forall i m, (i < N)%nat -> (m < d + 2)%nat -> mass i * v i m = - r i m) ->
  exists rate, is_derive (fun s => rsum N (fun i => mass i * entropy d false (axpy (u i) s (v i)))) 0 rate /\ rate <= allowance d false M u.
Proof.
  intros d N lps vp M walls u r mass v WF WW HU HG HD HP H3 HRe HPr HB HS ER HV.
  destruct (C130_entropy_balance d N lps vp M walls u r WF WW HU HG HD HP H3 HRe HPr ER) as (S & E & A & S0 & HE & HW). cbv zeta in A, HW.
  unfold bsum in A. rewrite HB in A. cbn [lsum fold_right] in A. set (WR := wsum walls _) in A.
  assert (W0 : 0 <= WR).
  { unfold WR, wsum. assert (G : forall l g, (forall f : vface, In f l -> 0 <= g f) -> 0 <= lsum g l).
    { intros l g. induction l as [|f l IH]; intros Hl; simpl; [lra|]. specialize (Hl f (or_introl eq_refl)) as H1. assert (0 <= lsum g l) by (apply IH; intros; apply Hl; right; assumption). unfold lsum in *. lra. }
    apply G. intros f Hf. apply rsum_nonneg. intros k Hk. destruct (HS f Hf) as (B1 & B2 & B3 & B4). apply Rmult_le_pos; [apply B4; exact Hk|]. apply (HW f k Hf B1 B2 B3 Hk). }
  exists (- (WR + S + E)). split.
  - replace (- (WR + S + E)) with (rsum N (fun i => mass i * dot (d + 2) (calcEntropyVars d false (u i)) (v i))).
    + apply is_derive_rsum. intros i Hi. apply is_derive_scal'. apply entropy_derive, HU, Hi.
    + transitivity (- rsum N (fun i => dot (d + 2) (calcEntropyVars d false (u i)) (r i))); [|rewrite A; ring].
      rewrite <- rsum_opp. apply rsum_ext. intros i Hi. unfold dot. rewrite <- rsum_scal, <- rsum_opp. apply rsum_ext. intros m Hm.
      transitivity (calcEntropyVars d false (u i) m * (mass i * v i m)); [ring|]. rewrite (HV i m Hi Hm). ring.
  - apply Rabs_le_between in HE. lra.
Qed.
Print Assumptions C130_closed_box_entropy.
(** a uniform gas that slides along the slip walls, rests at the no-slip walls and matches the far field is exactly
    steady: the residual is zero at every node *)
Theorem C130_uniform_flow_is_steady :
  forall d N lps vp M walls q rho v p r, well_formed N M -> (forall f, In f walls -> wall_fits N f) -> 0 < rho -> 0 < p -> is_state d q rho v p ->
  gcl d M -> divergence_theorem d false (with_walls M walls) -> positive_mesh M -> proj_kills_constants M ->
  (forall b k, In b (bfs M) -> (k < b_nf b)%nat -> euler_flux d (b_nrm b k) rho v p (b_flux b k (b_nrm b k) q)) ->
  (forall f, In f walls -> In (w_el f) (els M) /\ solid d f /\ normals_nonzero d f /\ (forall k, (k < w_nf f)%nat -> dot d v (w_nrm f k) = 0) /\
     (forall qfs, w_bc f = NoSlip qfs -> forall i, (i < d)%nat -> v i = 0)) ->
  viscousFlowResidual d lps vp M walls (fun _ => q) = Some r ->
  forall i m, (i < N)%nat -> (m < d + 2)%nat -> r i m = 0.
Proof. intros d N lps vp M walls q rho v p r WF WW. exact (viscous_uniform d N lps vp M walls WF WW q rho v p r). Qed.
Print Assumptions C130_uniform_flow_is_steady.
(** ... but only for conservative variables: the wall conditions read the unknowns as conservative even when the flow is
    solved in entropy variables (nothing refuses the combination), so that gas at rest, density and pressure 1, pushes
    a no-slip wall the wrong way *)
Theorem C130_entropy_variables_refuted :
  exists vp qfs q w, is_state 1 q 1 (fun _ => 0) 1 /\ same 1 w (calcEntropyVars 1 false q) /\ physical 1 qfs /\
  (forall jac, wallFlux 1 vp (NoSlip qfs) 0 (fun _ => 1) jac q (fun _ _ => 0) 1%nat = 1) /\
  (forall jac, wallFlux 1 vp (NoSlip qfs) 0 (fun _ => 1) jac w (fun _ _ => 0) 1%nat = - (2/5)).
Proof.
  set (q := fun i : nat => match i with O => 1 | 1%nat => 0 | _ => 5/2 end).
  assert (ST : is_state 1 q 1 (fun _ => 0) 1) by (repeat split; try (intros i Hi; destruct i; [|lia]); unfold q, dot; simpl; lra).
  assert (PQ : physical 1 q) by (exists 1, (fun _ => 0), 1; split; [lra|split; [lra|exact ST]]).
  set (w := fun i : nat => match i with O => 7/2 | 1%nat => 0 | _ => -1 end).
  assert (SW : is_state 1 w (7/2) (fun _ => 0) (- (2/5))) by (repeat split; try (intros i Hi; destruct i; [|lia]); unfold w, dot; simpl; lra).
  assert (DD : 0 < dot 1 (fun _ => 1) (fun _ => 1)) by (unfold dot; cbn [rsum]; lra).
  assert (PEN : forall jac x, x 1%nat = 0 -> calcNoSlipPenaltyFlux 1 (fun _ => 1) jac (muRe 1 {| v_mu := 1; v_Re := 1; v_Pr := 1 |} x) 1 q x 1%nat = 0).
  { intros jac x Hx. unfold calcNoSlipPenaltyFlux. cbv zeta.
    destruct (penalty_form 1 (sqrt (dot 1 (fun _ => 1) (fun _ => 1)) / jac) (muRe 1 {| v_mu := 1; v_Re := 1; v_Pr := 1 |} x) 1 q (mk 1 0 (fun e => x (S e) / pressure 1 x) 0) 1 (fun _ => 0) 1) as (_ & F1 & _); [lra|exact ST|apply mk_E|].
    rewrite (F1 0%nat ltac:(lia)), mk_S by lia. rewrite Hx. unfold Rdiv. ring. }
  exists {| v_mu := 1; v_Re := 1; v_Pr := 1 |}, q, q, w. split; [exact ST|]. split; [|split; [exact PQ|split]].
  - destruct (entvars_prim 1 q 1 (fun _ => 0) 1 ltac:(lra) ltac:(lra) ST) as (E0 & E1 & E2). apply same_intro.
    + rewrite E0. unfold thermo, w, dot. cbn [rsum]. replace (1 / Rpower 1 (7/5)) with 1; [rewrite ?ln_1; lra|]. unfold Rpower. rewrite ln_1, Rmult_0_r, exp_0. lra.
    + intros i Hi. assert (i = 0%nat) as -> by lia. rewrite E1 by lia. unfold w. lra.
    + rewrite E2. unfold w. lra.
  - intros jac. unfold wallFlux, noSlipFlux. cbn [v_Pr]. rewrite PEN by reflexivity. rewrite (adia_zero 1 _ _ _ q (fun _ _ => 0) 1 (fun _ => 0) 1) by (auto; lra || lia).
    rewrite (slip_flux_S 1 (fun _ => 1) q 1 1 (fun _ => 0) ltac:(lra) ST 0%nat ltac:(lia)). ring.
  - intros jac. unfold wallFlux, noSlipFlux. cbn [v_Pr]. rewrite PEN by reflexivity. rewrite (adia_zero 1 _ _ _ w (fun _ _ => 0) (7/2) (fun _ => 0) (- (2/5))) by (auto; lra || lia).
    rewrite (slip_flux_S 1 (fun _ => 1) w (7/2) (- (2/5)) (fun _ => 0) ltac:(lra) SW 0%nat ltac:(lia)). ring.
Qed.
Print Assumptions C130_entropy_variables_refuted.

(** non-vacuity: one element, a no-slip wall on the left and a slip wall on the right *)
Definition end_wall (i : nat) (s : R) (w : ViscWall.wall) : vface := {| w_el := seg0 0; w_nf := 1; w_idx := fun _ => i; w_wt := fun _ => 1; w_nrm := fun _ _ => s; w_bc := w |}.
Definition box : mesh := {| els := [seg0 0]; ifs := []; bfs := [] |}.
Definition rest_q : vec := fun i => match i with O => 1 | 1%nat => 0 | _ => 5/2 end.
Definition box_walls : list vface := [end_wall 0 (-1) (NoSlip rest_q); end_wall 1 1 ViscSlip].
Lemma rest_state : is_state 1 rest_q 1 (fun _ => 0) 1.
Proof. repeat split; try (intros i Hi; destruct i; [|lia]); unfold rest_q, dot; simpl; lra. Qed.
Example C130_case : well_formed 2 box /\ (forall f, In f box_walls -> wall_fits 2 f /\ In (w_el f) (els box) /\ solid 1 f /\ normals_nonzero 1 f /\ forall k, (k < w_nf f)%nat -> 0 <= w_wt f k) /\
  gcl 1 box /\ divergence_theorem 1 false (with_walls box box_walls) /\ positive_mesh box /\ proj_kills_constants box.
Proof.
  destruct duct_valid as (A & B & _ & D & E).
  split; [|split; [|split; [|split; [|split]]]].
  - split; [intros e [<-|[]] i Hi; simpl in *; lia|]. split; [intros f []|intros b []].
  - intros f [<-|[<-|[]]]; (split; [|split; [left; reflexivity|split; [|split]]]).
    + split; [intros i Hi; simpl in *; lia|]. split; [intros k Hk; simpl in *; lia|simpl; lra].
    + exists 1, (fun _ => 0), 1. split; [lra|split; [lra|exact rest_state]].
    + intros k Hk. unfold dot. simpl. lra.
    + intros k Hk. simpl. lra.
    + split; [intros i Hi; simpl in *; lia|]. split; [intros k Hk; simpl in *; lia|exact I].
    + exact I.
    + intros k Hk. unfold dot. simpl. lra.
    + intros k Hk. simpl. lra.
  - intros e [<-|[]]. apply B. left. reflexivity.
  - intros di psi Hdi. assert (di = 0%nat) as -> by lia. unfold bsum, fsum, getSymEntry, bnode, getQ. cbn. lra.
  - intros e [<-|[]]. apply D. left. reflexivity.
  - intros e [<-|[]]. apply E. left. reflexivity.
Qed.
Definition moving_gas : gas := {| g_rho := fun j => INR (S j) * INR (S j); g_u := fun _ _ => 1; g_p := fun _ => 1 |}.
Definition moving_state (j : nat) : vec := fun i => match i with O => INR (S j) * INR (S j) | 1%nat => INR (S j) * INR (S j) | _ => 5/2 + 1/2 * (INR (S j) * INR (S j)) end.
Example C129_case : well_formed 2 box /\ (forall f, In f box_walls -> wall_fits 2 f) /\ valid_gas 1 false 2 moving_state moving_gas /\
  differentiable 1 (1/10) (Some {| v_mu := -1; v_Re := 100; v_Pr := 7/10 |}) None box moving_gas.
Proof.
  destruct C130_case as (A & B & _). split; [exact A|]. split; [intros f Hf; apply B; exact Hf|]. split.
  - intros j Hj. assert (0 < INR (S j)) by (apply lt_0_INR; lia). assert (0 < INR (S j) * INR (S j)) by (apply Rmult_lt_0_compat; assumption).
    split; [exact H0|]. split; [simpl; lra|]. repeat split; try (intros i Hi; destruct i; [|lia]); unfold moving_state, moving_gas, g_rho, g_u, g_p, dot; cbn [rsum]; lra.
  - assert (SQ : forall j, sqrt (INR (S j) * INR (S j) / 1) = INR (S j) /\ sqrt (INR (S j) * INR (S j) * 1) = INR (S j)).
    { intros j. replace (INR (S j) * INR (S j) / 1) with (INR (S j) * INR (S j)) by field. rewrite Rmult_1_r. split; apply sqrt_square, pos_INR. }
    split; [|split; [|split]].
    + intros e [<-|[]] i j Hij Hj; cbn [e_n seg0] in Hj; assert (i = 0%nat) as -> by lia; assert (j = 1%nat) as -> by lia.
      unfold off_switch, moving_gas, g_rho, g_p. destruct (SQ (e_glob (seg0 0) 0)) as (-> & ->). destruct (SQ (e_glob (seg0 0) 1)) as (-> & ->). unfold spread. simpl. split; lra.
    + intros _ e [<-|[]] i di Hi Hd; unfold dot; cbn [rsum g_u moving_gas e_adj seg0]; lra.
    + intros _ e [<-|[]] i Hi. simpl. lra.
    + intros c Ec. discriminate.
Qed.
