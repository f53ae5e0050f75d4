(** Viscous walls: entropy, conservation, states at rest (proof file). *)
From Coq Require Import Reals Arith Lia Lra Psatz List FunctionalExtensionality.
From Coquelicot Require Import Coquelicot.
From Verif Require Import Num Vec SbpSpec Sbp SbpProofs SbpProofs2 SbpProofs3 SbpMesh SbpMeshSpec SbpMeshProofs SbpMeshProofs2 Euler EulerSpec EulerProofs EulerDeriv BoundaryProofs
  NavierStokes NavierStokesSpec NavierStokesProofs SmoothCalc FlowJacSpec FlowJac FlowJacProofs ViscWall ViscWallSpec ViscWallProofs.
Import ListNotations.
Local Open Scope R_scope.

(** ** one face node *)
Section Node.
Context (d : nat) (vp : viscosity) (dir : vec) (jac : R) (q : vec) (D : nat -> vec) (rho p : R) (u : vec).
Context (Hr : 0 < rho) (Hp : 0 < p) (Hq : is_state d q rho u p) (Hn : 0 < dot d dir dir).
Let Hr' : rho <> 0 := Rgt_not_eq _ _ Hr.
Notation Z := (setZeroNormalDeriv d dir (flatten d D)).
Notation mu := (muRe d vp q).
(** momentum flux of the viscous stress through the face *)
Definition zgrad : nat -> nat -> R := vgrad d rho p u (fun j => col d j (flatten d Z)).
Lemma tan_0 : tangentialFlux d vp dir q D 0%nat = 0.
Proof. unfold tangentialFlux. rewrite (rsum_ext d _ (fun _ => 0)); [apply rsum_0|]. intros e He. rewrite visc_row, row_0. ring. Qed.
Lemma tan_S k : (k < d)%nat -> tangentialFlux d vp dir q D (S k) = rsum d (fun e => dir e * stress d mu zgrad e k).
Proof.
  intros Hk. unfold tangentialFlux. apply rsum_ext. intros e He. rewrite visc_row, (row_S d (v_Pr vp) rho p u q Hr' Hq e mu _ k He Hk). apply Rmult_comm.
Qed.
Lemma tan_normal : rsum d (fun e => Z e (S d) * dir e) = 0.
Proof. exact (proj1 (zero_normal d dir (flatten d D) (S d) Hn)). Qed.
Lemma tan_E : tangentialFlux d vp dir q D (S d) = rsum d (fun k => u k * tangentialFlux d vp dir q D (S k)).
Proof.
  transitivity (rsum d (fun e => rsum d (fun k => u k * (dir e * stress d mu zgrad e k)) + heat (v_Pr vp) rho p mu * (Z e (S d) * dir e))).
  - unfold tangentialFlux. apply rsum_ext. intros e He. rewrite visc_row, (row_E d (v_Pr vp) rho p u q Hr' Hq e mu _ He), col_flatten by lia.
    rewrite Rmult_plus_distr_r. f_equal; [|ring]. rewrite <- rsum_scal_r. apply rsum_ext. intros; unfold zgrad; ring.
  - rewrite rsum_plus, rsum_scal, tan_normal, Rmult_0_r, Rplus_0_r, (rsum_swap d d). apply rsum_ext. intros k Hk. rewrite tan_S, <- rsum_scal by exact Hk. reflexivity.
Qed.
Lemma tan_entropy : dot (d + 2) (calcEntropyVars d false q) (tangentialFlux d vp dir q D) = 0.
Proof.
  pose proof (entvars_prim d q rho u p Hr Hp Hq) as (_ & W1 & W2).
  rewrite dot_state, tan_0, tan_E, W2. unfold dot.
  rewrite <- rsum_scal, Rmult_0_r, Rplus_0_l, <- rsum_plus. rewrite <- (rsum_0 d). apply rsum_ext. intros k Hk. unfold mom. rewrite W1 by exact Hk. field. lra.
Qed.
Lemma slip_flux_0 : calcSlipWallFlux d false dir q 0%nat = 0. Proof. reflexivity. Qed.
Lemma slip_flux_S k : (k < d)%nat -> calcSlipWallFlux d false dir q (S k) = p * dir k.
Proof. intros Hk. unfold calcSlipWallFlux. cbv zeta. rewrite mk_S, (state_pressure d q rho u p Hr' Hq) by exact Hk. ring. Qed.
Lemma slip_flux_E : calcSlipWallFlux d false dir q (S d) = 0. Proof. unfold calcSlipWallFlux. cbv zeta. apply mk_E. Qed.
Lemma phys : physical d q. Proof. exists rho, u, p. auto. Qed.
Lemma dot_sub3 (w a b c : vec) : dot (d + 2) w (fun s => a s - b s + c s) = dot (d + 2) w a - dot (d + 2) w b + dot (d + 2) w c.
Proof. unfold dot. rewrite <- rsum_minus, <- rsum_plus. apply rsum_ext. intros; ring. Qed.
Lemma dot_sub2 (w a b : vec) : dot (d + 2) w (fun s => a s - b s) = dot (d + 2) w a - dot (d + 2) w b.
Proof. unfold dot. rewrite <- rsum_minus. apply rsum_ext. intros; ring. Qed.
Lemma noslip_rate qfs : dot (d + 2) (calcEntropyVars d false q) (noSlipFlux d vp qfs dir jac q D) =
  dot d (mom q) dir + dot (d + 2) (calcEntropyVars d false q) (calcNoSlipPenaltyFlux d dir jac mu (v_Pr vp) qfs q).
Proof. unfold noSlipFlux. rewrite dot_sub3, slip_entropy, adiabatic_entropy by (try exact phys; exact Hn). ring. Qed.
Lemma slip_rate : dot (d + 2) (calcEntropyVars d false q) (viscousSlipFlux d vp dir q D) = dot d (mom q) dir.
Proof. unfold viscousSlipFlux. rewrite dot_sub2, slip_entropy, tan_entropy by exact phys. ring. Qed.
Lemma penalty_0 qfs : calcNoSlipPenaltyFlux d dir jac mu (v_Pr vp) qfs q 0%nat = 0.
Proof.
  unfold calcNoSlipPenaltyFlux, penalty. cbv zeta. rewrite mk_0. rewrite (accum_sum d _ (fun _ _ => 0)); [rewrite rsum_0; unfold zeros; ring|].
  intros e a He. rewrite cij_0. ring.
Qed.
Lemma penalty_E qfs : calcNoSlipPenaltyFlux d dir jac mu (v_Pr vp) qfs q (S d) = 0.
Proof. unfold calcNoSlipPenaltyFlux, penalty. cbv zeta. apply mk_E. Qed.
Lemma noslip_0 qfs : noSlipFlux d vp qfs dir jac q D 0%nat = 0.
Proof. unfold noSlipFlux. rewrite penalty_0, adia_0, slip_flux_0. ring. Qed.
Lemma noslip_E qfs : noSlipFlux d vp qfs dir jac q D (S d) = - rsum d (fun k => u k * calcAdiabaticWallFlux d dir mu (v_Pr vp) q (flatten d D) (S k)).
Proof. unfold noSlipFlux. rewrite penalty_E, (adia_E d dir (flatten d D) mu (v_Pr vp) rho p u q Hr' Hq Hn), slip_flux_E. ring. Qed.
Lemma vslip_0 : viscousSlipFlux d vp dir q D 0%nat = 0.
Proof. unfold viscousSlipFlux. rewrite tan_0, slip_flux_0. ring. Qed.
Lemma vslip_E : viscousSlipFlux d vp dir q D (S d) = - rsum d (fun k => u k * tangentialFlux d vp dir q D (S k)).
Proof. unfold viscousSlipFlux. rewrite tan_E, slip_flux_E. ring. Qed.
End Node.

Lemma zero_flat d (D : nat -> vec) dir e s : (forall e s, (e < d)%nat -> (s < d + 2)%nat -> D e s = 0) -> (e < d)%nat -> (s < d + 2)%nat ->
  setZeroNormalDeriv d dir (flatten d D) e s = 0.
Proof.
  intros HD He Hs. assert (F : forall j, (j < d)%nat -> flatten d D (s + j * (d + 2))%nat = 0).
  { intros j Hj. rewrite Nat.add_comm, flat_entry by exact Hs. apply HD; assumption. }
  unfold setZeroNormalDeriv. cbv zeta. rewrite F by exact He. rewrite (rsum_ext d _ (fun _ => 0)); [rewrite rsum_0; ring|]. intros j Hj. rewrite F by exact Hj. ring.
Qed.
Lemma stress_zero d mu G i k : (i < d)%nat -> (k < d)%nat -> (forall a b, (a < d)%nat -> (b < d)%nat -> G a b = 0) -> stress d mu G i k = 0.
Proof.
  intros Hi Hk H. unfold stress, divergence. rewrite (H k i), (H i k), (rsum_ext d _ (fun _ => 0)), rsum_0 by auto. destruct (Nat.eqb k i); ring.
Qed.
Lemma tan_zero d vp dir q (D : nat -> vec) rho u p : 0 < rho -> is_state d q rho u p -> 0 < dot d dir dir ->
  (forall e s, (e < d)%nat -> (s < d + 2)%nat -> D e s = 0) -> forall s, (s < d + 2)%nat -> tangentialFlux d vp dir q D s = 0.
Proof.
  intros Hr Hq Hn HD.
  assert (T : forall k, (k < d)%nat -> tangentialFlux d vp dir q D (S k) = 0).
  { intros k Hk. rewrite (tan_S d vp dir q D rho p u Hr Hq k Hk), (rsum_ext d _ (fun _ => 0)); [apply rsum_0|]. intros e He.
    rewrite stress_zero; [ring|exact He|exact Hk|]. intros a b Ha Hb. unfold zgrad, vgrad, sa. rewrite !col_flatten, !zero_flat by (auto; lia). ring. }
  apply state_ind.
  - apply tan_0.
  - exact T.
  - rewrite (tan_E d vp dir q D rho p u Hr Hq Hn), (rsum_ext d _ (fun _ => 0)); [apply rsum_0|]. intros k Hk. rewrite T by exact Hk. ring.
Qed.
Lemma adia_zero d dir mu Pr q (D : nat -> vec) rho u p : 0 < rho -> is_state d q rho u p -> 0 < dot d dir dir ->
  (forall e s, (e < d)%nat -> (s < d + 2)%nat -> D e s = 0) -> forall s, (s < d + 2)%nat -> calcAdiabaticWallFlux d dir mu Pr q (flatten d D) s = 0.
Proof.
  intros Hr Hq Hn HD. assert (Hr' : rho <> 0) by lra.
  assert (C : forall j s, (j < d)%nat -> (s < d + 2)%nat -> col d j (flatten d D) s = 0) by (intros; rewrite col_flatten by assumption; auto).
  assert (T : forall k, (k < d)%nat -> calcAdiabaticWallFlux d dir mu Pr q (flatten d D) (S k) = 0).
  { intros k Hk. rewrite (adia_S d dir (flatten d D) mu Pr rho p u q Hr' Hq k Hk), (rsum_ext d _ (fun _ => 0)); [apply rsum_0|]. intros e He.
    rewrite stress_zero; [ring|exact He|exact Hk|]. intros a b Ha Hb. unfold vgrad, sa. rewrite bnd_cols_S, bnd_cols_E by exact Ha.
    rewrite !C by lia. rewrite (rsum_ext d _ (fun _ => 0)); [rewrite rsum_0; ring|]. intros j Hj. rewrite C by lia. ring. }
  apply state_ind.
  - apply adia_0.
  - exact T.
  - rewrite (adia_E d dir (flatten d D) mu Pr rho p u q Hr' Hq Hn), (rsum_ext d _ (fun _ => 0)); [apply rsum_0|]. intros k Hk. rewrite T by exact Hk. ring.
Qed.

Lemma muRe_nonneg d vp q : physical d q -> 0 < v_Re vp -> 0 <= muRe d vp q.
Proof.
  intros Hq HRe. unfold muRe. apply Rdiv_le_0_compat; [|exact HRe]. destruct (Rlt_dec (v_mu vp) 0); [|lra].
  destruct Hq as (rho & u & p & Hr & Hp & H). pose proof (proj2 (sutherland d q rho u p Hr Hp H)). lra.
Qed.
(** ** the wall faces as boundary faces with frozen derivatives *)
Definition freeze (d : nat) (vp : viscosity) (u : nat -> vec) (f : vface) : bface :=
  {| b_n := e_n (w_el f); b_nf := w_nf f; b_idx := w_idx f; b_wt := w_wt f; b_nrm := w_nrm f; b_glob := e_glob (w_el f);
     b_flux := fun k dir q => wallFlux d vp (w_bc f) k dir (e_detJ (w_el f) (w_idx f k)) q (wall_grad d f u k) |}.
Definition frozen (d : nat) (vp : viscosity) (u : nat -> vec) (M : mesh) (walls : list vface) : mesh :=
  {| els := els M; ifs := ifs M; bfs := bfs M ++ map (freeze d vp u) walls |}.
Lemma lsum_app {A} (f : A -> R) l1 l2 : lsum f (l1 ++ l2) = lsum f l1 + lsum f l2.
Proof. induction l1 as [|a l IH]; simpl; [ring|]. rewrite IH. ring. Qed.
Lemma lsum_map {A B} (f : B -> R) (g : A -> B) l : lsum f (map g l) = lsum (fun a => f (g a)) l.
Proof. induction l as [|a l IH]; simpl; [reflexivity|]. rewrite IH. reflexivity. Qed.
Section Mesh.
Context (d N : nat) (lps : R) (vp : viscosity) (M : mesh) (walls : list vface) (WF : well_formed N M) (WW : forall f, In f walls -> wall_fits N f).
Lemma frozen_fits u : well_formed N (frozen d vp u M walls).
Proof.
  destruct WF as (A & B & C). split; [exact A|]. split; [exact B|]. intros b Hb. simpl in Hb. apply in_app_or in Hb. destruct Hb as [Hb|Hb]; [apply C; exact Hb|].
  apply in_map_iff in Hb. destruct Hb as (f & <- & Hf). destruct (WW f Hf) as (P1 & P2 & _). split; assumption.
Qed.
Lemma face_test' W u f : wall_fits N f -> test (e_n (w_el f)) (d + 2) (fun i => W (e_glob (w_el f) i)) (faceResidual d vp f (fun i => u (e_glob (w_el f) i))) =
  rsum (w_nf f) (fun k => w_wt f k * dot (d + 2) (W (wnode f k)) (wall_flux d vp f u k)).
Proof.
  intros (A & B & _). unfold faceResidual. cbv zeta. rewrite wall_test by exact B. apply rsum_ext. intros k Hk. f_equal. rewrite Rmult_1_l.
  rewrite (rsum_ext d _ (fun _ => 0)); [rewrite rsum_0, Rplus_0_r; reflexivity|]. intros di Hdi. unfold dot, noDv. rewrite (rsum_ext (d + 2) _ (fun _ => 0)); [apply rsum_0|]. intros; ring.
Qed.
Lemma frozen_residual u r : viscousFlowResidual d lps vp M walls u = Some r ->
  exists r', flowResidual d false lps (Some vp) None (frozen d vp u M walls) u = Some r' /\ forall i m, (i < N)%nat -> (m < d + 2)%nat -> r i m = r' i m.
Proof.
  intros E. exists (match flowResidual d false lps (Some vp) None (frozen d vp u M walls) u with Some x => x | None => zero2 end).
  assert (E' : flowResidual d false lps (Some vp) None (frozen d vp u M walls) u = Some (match flowResidual d false lps (Some vp) None (frozen d vp u M walls) u with Some x => x | None => zero2 end)) by reflexivity.
  split; [exact E'|]. revert E'. set (r' := match _ with Some x => x | None => zero2 end). intros E' i m Hi Hm.
  rewrite <- (test_point N (d + 2) r i m Hi Hm), <- (test_point N (d + 2) r' i m Hi Hm). set (W := fun a b => delta a i * delta b m).
  destruct (viscous_residual_test d N lps vp M walls WW W u r E) as (r0 & E0 & ->).
  rewrite (flow_test d N false lps (Some vp) None M WF u r0 W E0), (flow_test d N false lps (Some vp) None _ (frozen_fits u) u r' W E').
  change (els (frozen d vp u M walls)) with (els M). unfold bsum. cbn [bfs frozen]. rewrite lsum_app, lsum_map.
  rewrite (lsum_ext (fun f => test (e_n (w_el f)) (d + 2) _ _) (fun f => rsum (w_nf f) (fun k => w_wt f k * dot (d + 2) (W (wnode f k)) (wall_flux d vp f u k)))) by (intros f Hf; apply face_test'; apply WW; exact Hf).
  unfold fsum, dsbp. rewrite !Rplus_assoc. reflexivity.
Qed.
Lemma frozen_bsum u (g : bface -> nat -> R) : bsum (frozen d vp u M walls) g = bsum M g + wsum walls (fun f k => g (freeze d vp u f) k).
Proof. unfold bsum, wsum. cbn [bfs frozen]. rewrite lsum_app, lsum_map. reflexivity. Qed.
Lemma outline_bsum (g : bface -> nat -> R) : bsum (with_walls M walls) g = bsum M g + wsum walls (fun f k => g (outline f) k).
Proof. unfold bsum, wsum. cbn [bfs with_walls]. rewrite lsum_app, lsum_map. reflexivity. Qed.
Lemma frozen_divergence u dsbp : divergence_theorem d dsbp (with_walls M walls) -> divergence_theorem d dsbp (frozen d vp u M walls).
Proof. intros H di psi Hdi. specialize (H di psi Hdi). rewrite frozen_bsum. rewrite outline_bsum in H. exact H. Qed.
Lemma viscous_conservation u r m : (m < d + 2)%nat -> gcl d M -> positive_mesh M -> proj_kills_constants M ->
  viscousFlowResidual d lps vp M walls u = Some r ->
  rsum N (fun i => r i m) = bsum M (fun b k => b_flux b k (b_nrm b k) (u (bnode b k)) m) + wsum walls (fun f k => wall_flux d vp f u k m).
Proof.
  intros Hm HG HP HK E. destruct (frozen_residual u r E) as (r' & E' & EQ). rewrite (rsum_ext N _ (fun i => r' i m)) by (intros; apply EQ; assumption).
  rewrite (conservation d N false lps (Some vp) None _ (frozen_fits u) u r' m Hm HG HP HK E'), frozen_bsum. reflexivity.
Qed.
Lemma viscous_entropy u r : (forall i, (i < N)%nat -> physical d (u i)) -> gcl d M -> divergence_theorem d false (with_walls M walls) -> positive_mesh M ->
  (d <= 3)%nat -> 0 < v_Re vp -> 0 < v_Pr vp -> viscousFlowResidual d lps vp M walls u = Some r ->
  let w := fun i => calcEntropyVars d false (u i) in
  exists S E, rsum N (fun i => dot (d + 2) (w i) (r i)) =
    bsum M (fun b k => dot (d + 2) (w (bnode b k)) (b_flux b k (b_nrm b k) (u (bnode b k))) - dot d (mom (u (bnode b k))) (b_nrm b k)) +
    wsum walls (fun f k => dot (d + 2) (w (wnode f k)) (wall_flux d vp f u k) - dot d (mom (u (wnode f k))) (w_nrm f k)) + S + E /\
    0 <= S /\ Rabs E <= allowance d false M u.
Proof.
  intros HU HG HD HP H3 HRe HPr ER w. destruct (frozen_residual u r ER) as (r' & E' & EQ).
  destruct (entropy_balance d N lps (Some vp) None _ u (frozen_fits u) HU r' HG (frozen_divergence u false HD) HP (fun _ => H3)) as (S & E & A & HS & HE & _).
  - intros vp' Hv. injection Hv as <-. split; assumption.
  - discriminate.
  - exact E'.
  - exists S, E. split; [|split; [exact HS|exact HE]].
    unfold test in A. unfold boundaryRate in A. rewrite frozen_bsum in A. etransitivity; [|exact A]. apply rsum_ext. intros i Hi. unfold w, dot. apply rsum_ext. intros m Hm. rewrite EQ by assumption. reflexivity.
Qed.
Lemma solid_rate u f k : (forall i, (i < N)%nat -> physical d (u i)) -> wall_fits N f -> solid d f -> normals_nonzero d f -> (k < w_nf f)%nat ->
  0 < v_Re vp -> 0 < e_detJ (w_el f) (w_idx f k) ->
  0 <= dot (d + 2) (calcEntropyVars d false (u (wnode f k))) (wall_flux d vp f u k) - dot d (mom (u (wnode f k))) (w_nrm f k) /\
  (w_bc f = ViscSlip -> dot (d + 2) (calcEntropyVars d false (u (wnode f k))) (wall_flux d vp f u k) = dot d (mom (u (wnode f k))) (w_nrm f k)).
Proof.
  intros HU (A & B & _) HS HN Hk HRe HJ. pose proof (HU _ (A _ (B k Hk))) as P. fold (wnode f k) in P. destruct P as (rho & v & p & Hr & Hp & Hq).
  unfold wall_flux, solid in *. destruct (w_bc f) as [qfs| | |]; [| |contradiction|contradiction]; unfold wallFlux.
  - split; [|discriminate]. rewrite (noslip_rate d vp _ _ _ _ rho p v Hr Hp Hq (HN k Hk) qfs). destruct HS as (r0 & v0 & p0 & Hr0 & Hp0 & H0).
    rewrite (noslip_entropy d _ _ _ _ qfs (u (wnode f k)) rho v p r0 v0 p0 Hr Hp Hq Hr0 Hp0 H0).
    assert (0 <= muRe d vp (u (wnode f k))) by (apply muRe_nonneg; [exists rho, v, p; auto|exact HRe]).
    match goal with |- 0 <= ?a + ?b - ?a => cut (0 <= b); [lra|] end.
    assert (0 <= dot d v v) by (apply rsum_nonneg; intros; apply Rle_0_sqr). pose proof (pos_INR d).
    apply Rmult_le_pos; [|assumption]. apply Rmult_le_pos; [|apply Rle_0_sqr]. apply Rmult_le_pos; [|lra]. apply Rmult_le_pos; [|left; apply Rdiv_lt_0_compat; assumption].
    apply Rmult_le_pos; [|assumption]. apply Rmult_le_pos; [apply sqrt_pos|]. left. apply Rinv_0_lt_compat. exact HJ.
  - rewrite (slip_rate d vp _ _ _ rho p v Hr Hp Hq (HN k Hk)). split; [lra|reflexivity].
Qed.
Lemma solid_mass u f k : solid d f -> wall_flux d vp f u k 0%nat = 0.
Proof.
  intros HS. unfold wall_flux, solid in *. destruct (w_bc f) as [qfs| | |]; [| |contradiction|contradiction]; unfold wallFlux; [apply noslip_0|apply vslip_0].
Qed.
(** the momentum that the viscous stress carries through the wall *)
Definition traction u f k : vec := fun m =>
  match w_bc f with
  | NoSlip _ => calcAdiabaticWallFlux d (w_nrm f k) (muRe d vp (u (wnode f k))) (v_Pr vp) (u (wnode f k)) (flatten d (wall_grad d f u k)) (S m)
  | _ => tangentialFlux d vp (w_nrm f k) (u (wnode f k)) (wall_grad d f u k) (S m) end.
Lemma solid_energy u f k rho v p : solid d f -> normals_nonzero d f -> (k < w_nf f)%nat -> 0 < rho -> is_state d (u (wnode f k)) rho v p ->
  wall_flux d vp f u k (S d) = - dot d v (traction u f k).
Proof.
  intros HS HN Hk Hr Hq. unfold wall_flux, traction, solid in *. destruct (w_bc f) as [qfs| | |]; [| |contradiction|contradiction]; unfold wallFlux.
  - apply (noslip_E d vp _ _ _ _ rho p v Hr Hq (HN k Hk)).
  - apply (vslip_E d vp _ _ _ rho p v Hr Hq (HN k Hk)).
Qed.
Lemma uniform_grad f q k e s : gcl d M -> In (w_el f) (els M) -> (k < w_nf f)%nat -> wall_fits N f -> (e < d)%nat -> wall_grad d f (fun _ => q) k e s = 0.
Proof.
  intros HG HI Hk (A & B & _) He. unfold wall_grad. cbv zeta.
  rewrite (rsum_scal_r (e_n (w_el f)) (calcEntropyVars d false q s) (fun j => getQEntry d (e_Q (w_el f)) e (w_idx f k) j (e_adj (w_el f) (w_idx f k)) (e_adj (w_el f) j))).
  rewrite (HG _ HI e (w_idx f k) He (B k Hk)). ring.
Qed.
(** a uniform gas that moves along the slip walls and is at rest at the no-slip walls *)
Lemma viscous_uniform q rho v p r : 0 < rho -> 0 < p -> is_state d q rho v p -> gcl d M -> divergence_theorem d false (with_walls M walls) -> positive_mesh M -> proj_kills_constants M ->
  (forall b k, In b (bfs M) -> (k < b_nf b)%nat -> euler_flux d (b_nrm b k) rho v p (b_flux b k (b_nrm b k) q)) ->
  (forall f, In f walls -> In (w_el f) (els M) /\ solid d f /\ normals_nonzero d f /\ (forall k, (k < w_nf f)%nat -> dot d v (w_nrm f k) = 0) /\
     (forall qfs, w_bc f = NoSlip qfs -> forall i, (i < d)%nat -> v i = 0)) ->
  viscousFlowResidual d lps vp M walls (fun _ => q) = Some r ->
  forall i m, (i < N)%nat -> (m < d + 2)%nat -> r i m = 0.
Proof.
  intros Hr Hp Hq HG HD HP HK HB HW ER i m Hi Hm. destruct (frozen_residual (fun _ => q) r ER) as (r' & E' & EQ). rewrite EQ by assumption.
  refine (free_stream d N lps (Some vp) None (frozen d vp (fun _ => q) M walls) q (frozen_fits _) rho p v Hr Hp Hq r' HG (frozen_divergence _ false HD) HP HK _ E' i m Hi Hm).
  intros b k Hb Hk. simpl in Hb. apply in_app_or in Hb. destruct Hb as [Hb|Hb]; [apply HB; assumption|]. apply in_map_iff in Hb. destruct Hb as (f & <- & Hf).
  destruct (HW f Hf) as (W1 & W2 & W3 & W4 & W5). cbn [b_nf freeze] in Hk.
  assert (Z : forall e s, (e < d)%nat -> (s < d + 2)%nat -> wall_grad d f (fun _ => q) k e s = 0) by (intros; apply uniform_grad; auto).
  assert (SL : euler_flux d (w_nrm f k) rho v p (calcSlipWallFlux d false (w_nrm f k) q)).
  { unfold euler_flux. rewrite W4 by exact Hk. rewrite slip_flux_0, slip_flux_E. split; [ring|]. split; [|ring]. intros j Hj. rewrite (slip_flux_S d (w_nrm f k) q rho p v Hr Hq j Hj). ring. }
  assert (T : forall F, (forall s, (s < d + 2)%nat -> F s = calcSlipWallFlux d false (w_nrm f k) q s) -> euler_flux d (w_nrm f k) rho v p F).
  { intros F HF. destruct SL as (S1 & S2 & S3). split; [rewrite HF by lia; exact S1|]. split; [intros j Hj; rewrite HF by lia; apply S2; exact Hj|rewrite HF by lia; exact S3]. }
  cbn [b_nrm b_flux freeze]. apply T. intros s Hs. unfold solid in W2. destruct (w_bc f) as [qfs| | |] eqn:EB; [| |contradiction|contradiction]; unfold wallFlux.
  - unfold noSlipFlux. rewrite (adia_zero d _ _ _ q _ rho v p Hr Hq (W3 k Hk) Z s Hs).
    assert (Hq0 : is_state d q rho (fun _ => 0) p).
    { destruct Hq as (Q1 & Q2 & Q3). split; [exact Q1|]. split; [intros j Hj; rewrite Q2, (W5 qfs eq_refl j Hj) by exact Hj; reflexivity|]. rewrite Q3. f_equal. f_equal.
      unfold dot. apply rsum_ext. intros j Hj. rewrite (W5 qfs eq_refl j Hj). reflexivity. }
    rewrite (noslip_zero d _ _ _ _ qfs q rho p Hr Hp Hq0 W2 s Hs). ring.
  - unfold viscousSlipFlux. rewrite (tan_zero d vp _ q _ rho v p Hr Hq (W3 k Hk) Z s Hs). ring.
Qed.
End Mesh.
