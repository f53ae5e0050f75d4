(** Properties C56 (manufactured solutions) and C57 (isentropic vortex). *)
From Coq Require Import Reals Arith Lra Lia Psatz.
From Coquelicot Require Import Coquelicot.
From Verif Require Import Num Vec EulerSpec Euler EulerProofs BoundaryProofs MmsSpec Mms MmsProofs Vortex VortexProofs.
Local Open Scope R_scope.

(** C56, 2-D viscous case: for every viscosity and Prandtl number the source term is, at every point, the divergence of
    the compressible Navier-Stokes flux of the exact solution, and that solution is physical everywhere. *)
Theorem C56_viscous_2d :
  forall mu Pr, Pr <> 0 -> exists q src, (forall m x, viscousMMSExact 2 m x = Filled (q x)) /\
  (forall n x, (4 <= n)%nat -> calcViscousMMS 2 n mu Pr x = Filled (src x)) /\
  exists rho u T,
  carries everywhere 2 q rho u T /\
  (forall x, 0 < rho x /\ 0 < T x) /\
  is_source everywhere 2 4 mu (mu * (7/5) / (2/5) / Pr) rho u T src.
Proof.
  intros mu Pr HP. exists viscous_exact2, (viscous_src2 mu Pr). split; [reflexivity|]. split.
  { intros n x Hn. unfold calcViscousMMS. cbn [Nat.eqb]. destruct (Nat.ltb_spec n 4); [lia|reflexivity]. }
  exists v_rho, v_u, v_T. split; [|split].
  - intros x _. unfold viscous_exact2, v_rho, v_u, v_T. cbv zeta. split; [lra|]. split.
    + intros i Hi. two i; field.
    + unfold dot. cbn [rsum]. unfold gami. field.
  - intros x. split.
    + unfold v_rho. pose proof (SIN_bound (PI * x 0%nat)). pose proof (SIN_bound (PI * x 1%nat)).
      set (a := sin (PI * x 0%nat)) in *. set (b := sin (PI * x 1%nat)) in *. nra.
    + unfold v_T. generalize (x 0%nat) (x 1%nat). intros a b. assert (0 <= (a * a - a) * (a * a - a)) by apply Rle_0_sqr.
      assert (0 <= (b * b - b) * (b * b - b)) by apply Rle_0_sqr. nra.
  - apply (source_ok everywhere 2 mu _ v_rho v_T v_u v_gr v_gT v_ggT v_gu v_ggu); intros; auto using v_r_ok, v_T_ok, v_gT_ok, v_u_ok, v_gu_ok, v_alg.
Qed.
Print Assumptions C56_viscous_2d.

(** 3-D inviscid case: the source is the divergence of the Euler flux of some physical flow ... *)
Theorem C56_inviscid_3d_partial :
  exists src, (forall n x, (5 <= n)%nat -> calcInviscidMMS 3 n x = Filled (src x)) /\
  exists rho u T, (forall x, 0 < rho x /\ 0 < T x) /\ is_source everywhere 3 5 0 0 rho u T src.
Proof.
  exists inviscid_src3. split. { intros n x Hn. unfold calcInviscidMMS. destruct (Nat.ltb_spec n 5); [lia|reflexivity]. }
  exists i_rho, i_u, i_T. split.
  - intros x. split.
    + unfold i_rho. pose proof (SIN_bound (PI * x 0%nat)). pose proof (SIN_bound (PI * x 1%nat)).
      set (a := sin (PI * x 0%nat)) in *. set (b := sin (PI * x 1%nat)) in *. nra.
    + unfold i_T. generalize (x 0%nat) (x 1%nat). intros a b. assert (0 <= (a * a - a) * (a * a - a)) by apply Rle_0_sqr.
      assert (0 <= (b * b - b) * (b * b - b)) by apply Rle_0_sqr. nra.
  - apply (source_ok_inviscid everywhere 3 0 0 i_rho i_T i_u i_gr i_gT i_gu); intros; auto using i_r_ok, i_T_ok, i_u_ok, i_alg; try lia.
Qed.
Print Assumptions C56_inviscid_3d_partial.

(** ... but not of the exact solution the code compares with (it puts the square inside the sine). *)
Theorem C56_inviscid_3d_refuted :
  exists q src, (forall n x, (5 <= n)%nat -> InviscidMMSExact 3 n x = Filled (q x) /\ calcInviscidMMS 3 n x = Filled (src x)) /\
  (exists rho u T, carries everywhere 3 q rho u T) /\
  forall rho u T, carries everywhere 3 q rho u T -> ~ is_source everywhere 3 1 0 0 rho u T src.
Proof.
  exists inviscid_exact3, inviscid_src3. split; [|split].
  - intros n x Hn. unfold InviscidMMSExact, calcInviscidMMS. destruct (Nat.ltb_spec n 5); [lia|]. split; reflexivity.
  - set (r := fun x : vec => inviscid_exact3 x 0%nat).
    set (u := fun (i : nat) (x : vec) => match i with
      | 0%nat => 4 * (1/10) * ((x 1%nat + 0) / 1) * (1 - ((x 1%nat + 0) / 1)) + 1/10 * sin (2 * PI * (x 1%nat + 0) / 1) * (sin (PI * ((x 0%nat + 0) / 1) ^ 2))
      | 1%nat => - (1/10) * (sin (2 * PI * ((x 0%nat + 0) / 1) ^ 2)) * sin (PI * (x 1%nat + 0) / 1) | _ => 0 end).
    set (T := fun x : vec => 1 + 1/10 * (((x 0%nat + 0) / 1) ^ 4 - 2 * ((x 0%nat + 0) / 1) ^ 3 + ((x 0%nat + 0) / 1) ^ 2
                        + ((x 1%nat + 0) / 1) ^ 4 - 2 * ((x 1%nat + 0) / 1) ^ 3 + ((x 1%nat + 0) / 1) ^ 2)).
    exists r, u, T. intros x _. split; [reflexivity|]. split.
    + intros i Hi. unfold r, u. destruct i as [|[|[|]]]; try lia; unfold inviscid_exact3; cbv zeta; ring.
    + unfold dot. cbn [rsum]. unfold r, u, T, inviscid_exact3, gami. cbv zeta. field.
  - exact i_not_source.
Qed.
Print Assumptions C56_inviscid_3d_refuted.

(** In two dimensions the inviscid source and exact solution write five values into the caller's four. *)
Theorem C56_inviscid_2d_refuted :
  forall x, calcInviscidMMS 2 4 x = OutOfBounds /\ InviscidMMSExact 2 4 x = OutOfBounds.
Proof. split; reflexivity. Qed.
Print Assumptions C56_inviscid_2d_refuted.

(** 3-D viscous case: mass and momentum sources are right for a physical flow with constant temperature ... *)
Theorem C56_viscous_3d_partial :
  forall mu Pr kappa, exists src, (forall n x, (5 <= n)%nat -> calcViscousMMS 3 n mu Pr x = Filled (src x)) /\
  (forall x, 0 < w_rho x /\ 0 < w_T x) /\
  is_source everywhere 3 4 mu kappa w_rho w_u w_T src.
Proof.
  intros mu Pr kappa. exists (viscous_src3 mu Pr). split.
  { intros n x Hn. unfold calcViscousMMS. cbn [Nat.eqb]. destruct (Nat.ltb_spec n 5); [lia|reflexivity]. } split.
  - intros x. split; [|unfold w_T; lra]. unfold w_rho. pose proof (SIN_bound (2 * PI * x 0%nat)). pose proof (SIN_bound (2 * PI * x 1%nat)). pose proof (SIN_bound (2 * PI * x 2%nat)).
    set (a := sin (2 * PI * x 0%nat)) in *. set (b := sin (2 * PI * x 1%nat)) in *. set (c := sin (2 * PI * x 2%nat)) in *.
    assert (-1 <= a * b <= 1) by nra. nra.
  - apply (source_ok everywhere 3 mu kappa w_rho w_T w_u w_gr w_gT (fun _ _ => 0) w_gu w_ggu); intros; auto using w_r_ok, w_T_ok, w_gT_ok, w_u_ok, w_gu_ok, w_alg; try lia.
Qed.
Print Assumptions C56_viscous_3d_partial.

(** ... the energy source is not, whatever the conductivity, and the exact solution reads a fourth coordinate that a
    3-D point does not have; given w_rho's third coordinate there it would be that flow. *)
Theorem C56_viscous_3d_refuted :
  (forall mu Pr kappa, ~ is_source everywhere 3 5 mu kappa w_rho w_u w_T (viscous_src3 mu Pr)) /\
  (forall x, viscousMMSExact 3 3 x = OutOfBounds) /\
  carries everywhere 3 (fun x => viscous_exact3 x (x 2%nat)) w_rho w_u w_T.
Proof.
  split; [exact w_not_source|]. split; [reflexivity|].
  intros x _. unfold viscous_exact3, w_rho, w_u, w_T, w_s. cbv zeta. replace (2 * 1 * PI) with (2 * PI) by ring. split; [ring|]. split.
  - intros i Hi. destruct i as [|[|[|]]]; try lia; field.
  - unfold dot. cbn [rsum]. unfold gami. field.
Qed.
Print Assumptions C56_viscous_3d_refuted.

(** The element term subtracts (quadrature weight) x (source) at each node: added to weight x divergence of the flux
    it leaves nothing, and it does not depend on the state, so its Jacobian is zero. *)
Theorem C56_element_term :
  forall D d K mu kappa rho u T src, is_source D d K mu kappa rho u T src ->
  forall xnode w i k, D (xnode i) -> (k < K)%nat ->
  mms_element_grad i k = 0 /\
  exists dF : vec, mms_element (-1) src xnode w i k + w i * rsum d dF = 0 /\
    exists gu gT, forall j, (j < d)%nat ->
      is_partial (fun y => inviscid_flux d (rho y) (fun i => u i y) (T y) j k
                    - viscous_flux d mu kappa (fun i => u i y) (fun i l => gu i l y) (fun l => gT l y) j k) j (xnode i) (dF j).
Proof.
  intros D d K mu kappa rho u T src (gu & gT & _ & _ & H) xnode w i k Hx Hk. split; [reflexivity|].
  destruct (H (xnode i) k Hk Hx) as (dF & HD & E). exists dF. split; [|exists gu, gT; exact HD].
  unfold mms_element. rewrite E. ring.
Qed.
Print Assumptions C56_element_term.

(** C57: at every point right of the y axis and outside the vacuum core (r^2 > 1/21) the vortex state is physical, has
    the entropy of the reference state (rho = 2, p = 1/gamma), the total enthalpy of a Mach-1/2 flow, and a velocity
    tangential to the circle about the origin, counter-clockwise. *)
Theorem C57_vortex_state :
  forall x, 1 / 10 ^ 15 < x 0%nat -> 1 / 21 < x 0%nat * x 0%nat + x 1%nat * x 1%nat ->
  exists rho u p, 0 < rho /\ 0 < p /\ is_state 2 (calcIsentropicVortexState x) rho u p /\
  p = 1 / (7/5) * Rpower (rho / 2) (7/5) /\
  enthalpy 2 rho u p = 7/2 * (1 / (7/5)) / 2 * (1 + (7/5 - 1) / 2 * (1/2 * (1/2))) /\
  x 0%nat * u 0%nat + x 1%nat * u 1%nat = 0 /\
  0 < x 0%nat * u 1%nat - x 1%nat * u 0%nat.
Proof.
  intros x H1 H2. assert (Hx : region x) by (split; assumption). destruct (vortex_state x Hx) as (S & PR & PT). pose proof (region_pos x Hx) as (X0 & R2 & M).
  exists (o_rho x), (fun i => o_u i x), (o_rho x * o_T x). split; [assumption|]. split; [now apply Rmult_lt_0_compat|]. split; [assumption|].
  assert (Q : 0 < sqrt (1/8)) by (apply sqrt_lt_R0; lra). assert (QQ : sqrt (1/8) * sqrt (1/8) = 1/8) by (apply sqrt_sqrt; lra).
  split; [|split; [|split]].
  - unfold o_rho, o_T. replace (2 * Rpower (vm x) (5/2) / 2) with (Rpower (vm x) (5/2)) by field. rewrite Rpower_mult.
    replace (5/2 * (7/5)) with (5/2 + 1) by field. rewrite Rpower_plus, (Rpower_1 (vm x)) by assumption. field.
  - unfold enthalpy. replace (7/2 * (o_rho x * o_T x) / o_rho x) with (7/2 * o_T x) by (field; lra).
    unfold dot, o_u, o_T, vm. cbn [rsum].
    replace (0 + - sqrt (1/8) * x 1%nat / r2 x * (- sqrt (1/8) * x 1%nat / r2 x) + sqrt (1/8) * x 0%nat / r2 x * (sqrt (1/8) * x 0%nat / r2 x))
      with (sqrt (1/8) * sqrt (1/8) * r2 x / (r2 x * r2 x)) by (unfold r2; field; unfold r2 in R2; lra). rewrite QQ. field. lra.
  - unfold o_u. field. lra.
  - unfold o_u. replace (x 0%nat * (sqrt (1/8) * x 0%nat / r2 x) - x 1%nat * (- sqrt (1/8) * x 1%nat / r2 x)) with (sqrt (1/8)); [assumption|].
    unfold r2. field. unfold r2 in R2. lra.
Qed.
Print Assumptions C57_vortex_state.

(** On that region it is a steady solution of the Euler equations: the divergence of its flux vanishes. *)
Theorem C57_vortex_is_steady :
  exists rho u T, carries region 2 calcIsentropicVortexState rho u T /\ (forall x, region x -> 0 < rho x /\ 0 < T x) /\
  is_source region 2 4 0 0 rho u T (fun _ _ => 0).
Proof.
  exists o_rho, o_u, o_T. split; [|split].
  - intros x Hx. now destruct (vortex_state x Hx).
  - intros x Hx. now destruct (vortex_state x Hx) as (_ & ? & ?).
  - apply (source_ok_inviscid region 2 0 0 o_rho o_T o_u o_gr o_gT o_gu); intros; auto using o_r_ok, o_T_ok, o_u_ok, o_alg.
Qed.
Print Assumptions C57_vortex_is_steady.

(** the boundary flux at the vortex state itself is the exact flux, in either set of variables *)
Theorem C57_vortex_boundary_flux :
  forall x dir rho u p, 0 < rho -> 0 < p -> is_state 2 (calcIsentropicVortexState x) rho u p ->
  euler_flux 2 dir rho u p (calcIsentropicVortexFlux false x dir (calcIsentropicVortexState x)) /\
  forall w, (forall i, (i < 4)%nat -> w i = calcEntropyVars 2 false (calcIsentropicVortexState x) i) ->
    euler_flux 2 dir rho u p (calcIsentropicVortexFlux true x dir w).
Proof.
  intros x dir rho u p Hr Hp S. split; [apply bnd_consistent; assumption|]. intros w Hw. apply bnd_consistent; try assumption.
  apply cons_prim; try assumption. destruct (entvars_prim 2 _ rho u p Hr Hp S) as (A & B & C).
  split; [rewrite Hw by lia; exact A|]. split; [intros i Hi; rewrite Hw by lia; exact (B i Hi)|rewrite Hw by lia; exact C].
Qed.
Print Assumptions C57_vortex_boundary_flux.

(** Left of the y axis (mirrored meshes) the angle is wrong: the velocity is never tangential. *)
Theorem C57_left_half_refuted :
  forall x, x 0%nat < 0 -> 1 / 21 < x 0%nat * x 0%nat + x 1%nat * x 1%nat ->
  x 0%nat * calcIsentropicVortexState x 1%nat + x 1%nat * calcIsentropicVortexState x 2%nat <> 0.
Proof.
  intros x H1 H2. destruct (vortex_polar x H2) as (_ & -> & -> & _).
  assert (TH : theta_of x = PI / 2).
  { unfold theta_of. rewrite (proj2 (Rltb_false (1 / 10 ^ 15) (x 0%nat))); [reflexivity|]. assert (0 < 1 / 10 ^ 15) by (apply Rdiv_lt_0_compat; [lra|apply pow_lt; lra]). lra. }
  rewrite TH, sin_PI2, cos_PI2.
  assert (Q : 0 < sqrt (1/8)) by (apply sqrt_lt_R0; lra). assert (S : 0 < sqrt (r2 x)) by (apply sqrt_lt_R0; unfold r2; lra).
  assert (PR : 0 < o_rho x) by (unfold o_rho; pose proof (Rpower_pos (vm x) (5/2)); lra).
  assert (P : 0 < sqrt (1/8) / sqrt (r2 x)) by (apply Rdiv_lt_0_compat; assumption).
  assert (0 < o_rho x * (sqrt (1/8) / sqrt (r2 x))) by (apply Rmult_lt_0_compat; assumption). nra.
Qed.
Print Assumptions C57_left_half_refuted.

(** the reference circle: at (1,0) the state is rho = 2, p = 1/gamma moving up *)
Example C57_reference : region (fun i => match i with 0%nat => 1 | _ => 0 end) /\
  calcIsentropicVortexState (fun i => match i with 0%nat => 1 | _ => 0 end) 0%nat = 2.
Proof.
  set (x := fun i : nat => match i with 0%nat => 1 | _ => 0 end). assert (R : r2 x = 1) by (unfold r2, x; ring).
  assert (H : region x).
  { split; [|rewrite R; lra]. unfold x. apply Rlt_div_l; [apply pow_lt; lra|]. rewrite Rmult_1_l. apply Rlt_pow_R1; [lra|lia]. }
  split; [exact H|]. destruct H as [_ H]. destruct (vortex_polar x H) as (-> & _). unfold o_rho, vm. rewrite R.
  replace (21/20 - 1 / (20 * 1)) with 1 by field. unfold Rpower. rewrite ln_1, Rmult_0_r, exp_0. ring.
Qed.
