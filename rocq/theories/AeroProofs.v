(** Proofs about the aerodynamic outputs. *)
From Coq Require Import Reals Arith Lia Lra Psatz List Bool FunctionalExtensionality.
From Coquelicot Require Import Coquelicot.
From Verif Require Import Num Vec SbpSpec Sbp SbpProofs SbpProofs2 SbpProofs3 SbpMesh SbpMeshSpec SbpMeshProofs Euler EulerSpec EulerProofs BoundaryProofs NavierStokes NavierStokesProofs
  SmoothCalc FluxSmooth FluxSmooth2 FlowJacSpec FlowJac FlowJacProofs ViscWall ViscWallSpec ViscWallProofs ViscWallProofs2 Aero AeroSpec.
Import ListNotations.
Local Open Scope R_scope.

(** ** directions *)
Lemma dirs_defined d mach aoa iroll ipitch : (0 < d)%nat ->
  (dragDir d mach aoa iroll ipitch <> None <-> (d = 1%nat \/ ((iroll < d)%nat /\ (ipitch < d)%nat))) /\
  (liftDir d mach aoa iroll ipitch <> None <-> (d = 1%nat \/ ((iroll < d)%nat /\ (ipitch < d)%nat))).
Proof.
  intros Hd. unfold dragDir, liftDir, setEntry. destruct (Nat.eqb_spec d 1) as [->|N1].
  - split; split; intros; [left; reflexivity|discriminate|left; reflexivity|discriminate].
  - destruct (Nat.ltb_spec iroll d); [|split; split; intros H0; [exfalso; apply H0; reflexivity|lia|exfalso; apply H0; reflexivity|lia]].
    destruct (Nat.ltb_spec ipitch d); [|split; split; intros H1; [exfalso; apply H1; reflexivity|lia|exfalso; apply H1; reflexivity|lia]].
    split; split; intros; [right; lia|discriminate|right; lia|discriminate].
Qed.
Lemma drag_val d mach aoa iroll ipitch f i : dragDir d mach aoa iroll ipitch = Some f -> iroll <> ipitch -> (d <> 1)%nat ->
  f i = ((if Nat.eqb i iroll then cos aoa else 0) + (if Nat.eqb i ipitch then sin aoa else 0)) / mach ^ 2 /\ (iroll < d)%nat /\ (ipitch < d)%nat.
Proof.
  unfold dragDir, setEntry. destruct (Nat.eqb_spec d 1) as [->|N1]; [intros; lia|]. destruct (Nat.ltb_spec iroll d); [|discriminate]. destruct (Nat.ltb_spec ipitch d); [|discriminate].
  intros E NE _. injection E as <-. split; [|split; assumption]. cbv beta. destruct (Nat.eqb_spec i ipitch), (Nat.eqb_spec i iroll); try lia; unfold Rdiv; simpl pow; ring.
Qed.
Lemma lift_val d mach aoa iroll ipitch f i : liftDir d mach aoa iroll ipitch = Some f -> iroll <> ipitch -> (d <> 1)%nat ->
  f i = ((if Nat.eqb i iroll then - sin aoa else 0) + (if Nat.eqb i ipitch then cos aoa else 0)) / mach ^ 2 /\ (iroll < d)%nat /\ (ipitch < d)%nat.
Proof.
  unfold liftDir, setEntry. destruct (Nat.eqb_spec d 1) as [->|N1]; [intros; lia|]. destruct (Nat.ltb_spec iroll d); [|discriminate]. destruct (Nat.ltb_spec ipitch d); [|discriminate].
  intros E NE _. injection E as <-. split; [|split; assumption]. cbv beta. destruct (Nat.eqb_spec i ipitch), (Nat.eqb_spec i iroll); try lia; unfold Rdiv; simpl pow; ring.
Qed.
Lemma two_slots d a b x y p q : (a < d)%nat -> (b < d)%nat -> a <> b ->
  rsum d (fun i => ((if Nat.eqb i a then x else 0) + (if Nat.eqb i b then y else 0)) * ((if Nat.eqb i a then p else 0) + (if Nat.eqb i b then q else 0))) = x * p + y * q.
Proof.
  intros Ha Hb NE. rewrite (rsum_ext d _ (fun i => delta i a * (x * p) + delta i b * (y * q))).
  - rewrite rsum_plus, (rsum_delta_r d a (fun _ => x * p) Ha), (rsum_delta_r d b (fun _ => y * q) Hb). reflexivity.
  - intros i Hi. unfold delta. destruct (Nat.eqb_spec i a), (Nat.eqb_spec i b); try lia; ring.
Qed.
Lemma freestream_mom d mach aoa iroll ipitch i : (i < d)%nat -> (iroll < d)%nat -> (ipitch < d)%nat -> iroll <> ipitch -> (d <> 1)%nat ->
  mom (getFreeStreamQ d mach aoa iroll ipitch) i = mach * ((if Nat.eqb i iroll then cos aoa else 0) + (if Nat.eqb i ipitch then sin aoa else 0)).
Proof.
  intros Hi H1 H2 NE Hd. unfold mom, getFreeStreamQ. destruct (Nat.eqb_spec d 1); [lia|]. simpl Nat.eqb. cbv iota.
  destruct (Nat.eqb_spec i d); [lia|]. destruct (Nat.eqb_spec i ipitch), (Nat.eqb_spec i iroll); try lia; ring.
Qed.
Lemma dir_products d mach aoa iroll ipitch fd fl : dragDir d mach aoa iroll ipitch = Some fd -> liftDir d mach aoa iroll ipitch = Some fl -> iroll <> ipitch -> (1 < d)%nat -> mach <> 0 ->
  dot d fd fl = 0 /\ dot d fd fd = (1 / mach ^ 2) ^ 2 /\ dot d fl fl = (1 / mach ^ 2) ^ 2 /\
  (forall i, (i < d)%nat -> fd i = mom (getFreeStreamQ d mach aoa iroll ipitch) i / mach ^ 3) /\
  dot d fl (mom (getFreeStreamQ d mach aoa iroll ipitch)) = 0.
Proof.
  intros ED EL NE Hd Hm. assert (D1 : (d <> 1)%nat) by lia.
  destruct (drag_val _ _ _ _ _ _ 0%nat ED NE D1) as (_ & H1 & H2).
  pose proof (sin2_cos2 aoa) as SC. unfold Rsqr in SC.
  assert (VD : forall i, fd i = ((if Nat.eqb i iroll then cos aoa else 0) + (if Nat.eqb i ipitch then sin aoa else 0)) / mach ^ 2) by (intros i; apply (drag_val _ _ _ _ _ _ i ED NE D1)).
  assert (VL : forall i, fl i = ((if Nat.eqb i iroll then - sin aoa else 0) + (if Nat.eqb i ipitch then cos aoa else 0)) / mach ^ 2) by (intros i; apply (lift_val _ _ _ _ _ _ i EL NE D1)).
  assert (PR : forall x y p q c, rsum d (fun i => c * (((if Nat.eqb i iroll then x else 0) + (if Nat.eqb i ipitch then y else 0)) * ((if Nat.eqb i iroll then p else 0) + (if Nat.eqb i ipitch then q else 0)))) = c * (x * p + y * q))
    by (intros; rewrite rsum_scal, two_slots by assumption; reflexivity).
  unfold dot. repeat split.
  - rewrite (rsum_ext d _ (fun i => (1 / mach ^ 2) ^ 2 * (((if Nat.eqb i iroll then cos aoa else 0) + (if Nat.eqb i ipitch then sin aoa else 0)) * ((if Nat.eqb i iroll then - sin aoa else 0) + (if Nat.eqb i ipitch then cos aoa else 0)))))
      by (intros i Hi; rewrite VD, VL; field; exact Hm). rewrite PR. ring.
  - rewrite (rsum_ext d _ (fun i => (1 / mach ^ 2) ^ 2 * (((if Nat.eqb i iroll then cos aoa else 0) + (if Nat.eqb i ipitch then sin aoa else 0)) * ((if Nat.eqb i iroll then cos aoa else 0) + (if Nat.eqb i ipitch then sin aoa else 0)))))
      by (intros i Hi; rewrite VD; field; exact Hm). rewrite PR. replace (cos aoa * cos aoa + sin aoa * sin aoa) with 1 by lra. ring.
  - rewrite (rsum_ext d _ (fun i => (1 / mach ^ 2) ^ 2 * (((if Nat.eqb i iroll then - sin aoa else 0) + (if Nat.eqb i ipitch then cos aoa else 0)) * ((if Nat.eqb i iroll then - sin aoa else 0) + (if Nat.eqb i ipitch then cos aoa else 0)))))
      by (intros i Hi; rewrite VL; field; exact Hm). rewrite PR. replace (- sin aoa * - sin aoa + cos aoa * cos aoa) with 1 by lra. ring.
  - intros i Hi. rewrite VD, freestream_mom by assumption. field. exact Hm.
  - rewrite (rsum_ext d _ (fun i => 1 / mach * (((if Nat.eqb i iroll then - sin aoa else 0) + (if Nat.eqb i ipitch then cos aoa else 0)) * ((if Nat.eqb i iroll then cos aoa else 0) + (if Nat.eqb i ipitch then sin aoa else 0)))))
      by (intros i Hi; rewrite VL, freestream_mom by assumption; field; exact Hm). rewrite PR. ring.
Qed.

(** ** sums over faces *)
Lemma fold_sum {A} (g : A -> R) l : fold_left (fun a b => a + g b) l 0 = lsum g l.
Proof. rewrite (fold_read (fun x : R => x) (fun a b => a + g b) g l 0); [ring|]. reflexivity. Qed.
Lemma lsum_map {A B} (h : A -> B) (g : B -> R) l : lsum g (map h l) = lsum (fun a => g (h a)) l.
Proof. induction l as [|a l IH]; simpl; [reflexivity|]. rewrite IH. reflexivity. Qed.
Lemma lsum_split {F} bdrs (l : list (tagged F)) (g : F -> R) : lsum g (map t_face l) = lsum g (onBoundaries bdrs l) + lsum g (elsewhere bdrs l).
Proof.
  unfold onBoundaries, elsewhere. induction l as [|t l IH]; simpl; [ring|]. rewrite IH. destruct (existsb (Nat.eqb (t_attr t)) bdrs); simpl; ring.
Qed.
Lemma on_in {F} bdrs (l : list (tagged F)) f : In f (onBoundaries bdrs l) -> exists t, In t l /\ t_face t = f /\ In (t_attr t) bdrs.
Proof.
  unfold onBoundaries. rewrite in_map_iff. intros (t & E & H). apply filter_In in H. destruct H as (H & K). exists t. repeat split; [exact H|exact E|].
  apply existsb_exists in K. destruct K as (a & Ka & Kb). apply Nat.eqb_eq in Kb. subst. exact Ka.
Qed.

(** ** inviscid force *)
Section Pressure.
Variables (d : nat) (entvar : bool) (force : vec).
Lemma pressure_fun dir q rho u p k : 0 < rho -> 0 < p -> describes d entvar q rho u p -> pressureForceFun d entvar force k dir q = p * dot d dir force.
Proof.
  intros Hr Hp H. unfold pressureForceFun.
  assert (S : same d (calcSlipWallFlux d entvar dir q) (mk d 0 (fun i => p * dir i) 0)).
  { destruct entvar; [apply (slip_ent d dir q rho u p Hr Hp H)|apply (slip_prim d dir q rho u p Hr H)]. }
  unfold dot. rewrite <- rsum_scal. apply rsum_ext. intros i Hi. unfold mom. assert (E := S (Datatypes.S i) ltac:(lia)); rewrite E, mk_S by exact Hi. ring.
Qed.
Lemma force_sum faces u : pressureForce d entvar force faces u = osum faces (fun b k => dot d force (mom (calcSlipWallFlux d entvar (b_nrm b k) (u (bnode b k))))).
Proof. unfold pressureForce. rewrite fold_sum. apply lsum_ext. intros b _. unfold boundaryEnergy. apply rsum_ext. intros k Hk. unfold pressureForceFun, bnode. ring. Qed.
Lemma force_val N faces u g : (forall b, In b faces -> face_fits N b) -> valid_gas d entvar N u g ->
  pressureForce d entvar force faces u = osum faces (fun b k => g_p g (bnode b k) * dot d (b_nrm b k) force).
Proof.
  intros HF HG. rewrite force_sum. apply lsum_ext. intros b Hb. apply rsum_ext. intros k Hk. f_equal. destruct (HF b Hb) as (A & B).
  destruct (HG (bnode b k) (A _ (B k Hk))) as (Hr & Hp & HS). exact (pressure_fun (b_nrm b k) _ _ _ _ k Hr Hp HS).
Qed.
Lemma dot_rsum_swap n (c : vec) (f : nat -> nat -> R) : dot d c (fun i => rsum n (fun k => f k i)) = rsum n (fun k => dot d c (f k)).
Proof. unfold dot. rewrite (rsum_ext d _ (fun i => rsum n (fun k => c i * f k i))) by (intros; rewrite rsum_scal; reflexivity). apply rsum_swap. Qed.
Lemma dot_lsum_swap {A} (l : list A) (c : vec) (f : A -> nat -> R) : dot d c (fun i => lsum (fun a => f a i) l) = lsum (fun a => dot d c (f a)) l.
Proof. unfold dot. rewrite lsum_rsum. apply rsum_ext. intros i Hi. rewrite lsum_scal. reflexivity. Qed.
Lemma dot_osum (faces : list bface) (c : vec) (f : bface -> nat -> vec) : dot d c (fun i => osum faces (fun b k => f b k i)) = osum faces (fun b k => dot d c (f b k)).
Proof.
  unfold osum. rewrite dot_lsum_swap. apply lsum_ext. intros b _. rewrite dot_rsum_swap. apply rsum_ext. intros k _. unfold dot. rewrite <- rsum_scal. apply rsum_ext. intros; ring.
Qed.
Lemma dot_wsum (faces : list vface) (c : vec) (f : vface -> nat -> vec) : dot d c (fun i => wsum faces (fun b k => f b k i)) = wsum faces (fun b k => dot d c (f b k)).
Proof.
  unfold wsum. rewrite dot_lsum_swap. apply lsum_ext. intros b _. rewrite dot_rsum_swap. apply rsum_ext. intros k _. unfold dot. rewrite <- rsum_scal. apply rsum_ext. intros; ring.
Qed.
Lemma balance N lps visc ifc M (tags : list (tagged bface)) bdrs u r : well_formed N M -> gcl d M -> positive_mesh M -> proj_kills_constants M ->
  bfs M = map t_face tags -> (forall t, In t tags -> In (t_attr t) bdrs -> b_flux (t_face t) = bcFlux d entvar SlipWall) ->
  flowResidual d entvar lps visc ifc M u = Some r ->
  dot d force (fun m => rsum N (fun i => r i (S m))) =
  pressureForce d entvar force (onBoundaries bdrs tags) u + osum (elsewhere bdrs tags) (fun b k => dot d force (mom (b_flux b k (b_nrm b k) (u (bnode b k))))).
Proof.
  intros WF HG HP HK EB HS ER.
  transitivity (dot d force (fun i => osum (bfs M) (fun b k => mom (b_flux b k (b_nrm b k) (u (bnode b k))) i))).
  - apply rsum_ext. intros m Hm. f_equal. apply (conservation d N entvar lps visc ifc M WF u r (S m)); try assumption. lia.
  - rewrite dot_osum, EB, force_sum. unfold osum at 1. rewrite (lsum_split bdrs). f_equal. apply lsum_ext. intros b Hb. apply rsum_ext. intros k _. f_equal. f_equal.
    destruct (on_in _ _ _ Hb) as (t & A & B & C). subst b. rewrite (HS t A C). reflexivity.
Qed.
Lemma pressure_force_gradient N faces u g : (forall b, In b faces -> face_fits N b) -> valid_gas d entvar N u g ->
  is_gradient N (d + 2) (pressureForce d entvar force faces) u (pressureForceGradient d entvar force faces u).
Proof.
  intros HF HG v.
  assert (EG : rsum N (fun i => dot (d + 2) (v i) (pressureForceGradient d entvar force faces u i)) =
     lsum (fun b => rsum (b_nf b) (fun k => b_wt b k * dot (d + 2) (v (bnode b k)) (pressureForceGrad d entvar force k (b_nrm b k) (u (bnode b k))))) faces).
  { change (rsum N (fun i => dot (d + 2) (v i) (pressureForceGradient d entvar force faces u i))) with (test N (d + 2) v (pressureForceGradient d entvar force faces u)).
    unfold pressureForceGradient. rewrite (fold_read (test N (d + 2) v) _ (fun b => rsum (b_nf b) (fun k => b_wt b k * dot (d + 2) (v (bnode b k)) (pressureForceGrad d entvar force k (b_nrm b k) (u (bnode b k)))))).
    - rewrite test_zero. ring.
    - intros t b Hb. destruct (HF b Hb) as (A & B). rewrite test_scatter by exact A. f_equal. rewrite (boundary_test (b_n b)) by exact B. rewrite Rmult_1_l. reflexivity. }
  rewrite EG. apply (is_derive_ext (fun s => lsum (fun b => rsum (b_nf b) (fun k => b_wt b k * pressureForceFun d entvar force k (b_nrm b k) (axpy (u (bnode b k)) s (v (bnode b k))))) faces)).
  { intros s. symmetry. apply force_sum. }
  apply is_derive_lsum. intros b Hb. destruct (HF b Hb) as (A & B). apply is_derive_rsum. intros k Hk. apply is_derive_scal'.
  destruct (HG (bnode b k) (A _ (B k Hk))) as (Hr & Hp & HS).
  destruct (describes_cons d entvar _ _ _ _ Hr Hp HS) as (E & I). destruct (state_pos d _ _ _ _ Hr Hp I) as (P1 & P2).
  assert (SM : smooth (d + 2) vcoord (fun q => pressureForceFun d entvar force k (b_nrm b k) q) (u (bnode b k))).
  { unfold pressureForceFun, dot. apply sm_rsum. intros i Hi. apply sm_mult; [apply sm_const|]. unfold mom.
    apply (vs_slip (d + 2) vcoord d entvar (b_nrm b k) (fun q => q) (u (bnode b k))); [|apply vs_id|lia].
    destruct entvar; [apply E; reflexivity|]. unfold calcConservativeVars in P1. lra. }
  apply smooth_partial in SM. specialize (SM (fun s => axpy (u (bnode b k)) s (v (bnode b k))) (v (bnode b k))).
  unfold pressureForceGrad at 1. rewrite dot_comm. apply SM. apply vcurve. apply curve_axpy.
Qed.
End Pressure.

(** ** viscous force *)
Section Surface.
Variables (d : nat) (vp : viscosity) (qfs force : vec).
Lemma surface_is_noslip k dir jac q D : surfaceForceFun d vp qfs force k dir jac q D = dot d force (mom (noSlipFlux d vp qfs dir jac q D)).
Proof. reflexivity. Qed.
Lemma surface_sum faces u a : (forall f, In f faces -> w_bc f = NoSlip qfs) ->
  surfaceForce d vp qfs force a faces u = a * wsum faces (fun f k => dot d force (mom (wall_flux d vp f u k))).
Proof.
  intros HN. unfold surfaceForce. cbv zeta. rewrite fold_sum. unfold wsum. rewrite <- lsum_scal. apply lsum_ext. intros f Hf. unfold wallEnergy. rewrite <- rsum_scal. apply rsum_ext. intros k Hk.
  cbv zeta. rewrite viscous_grad, surface_is_noslip. unfold wall_flux. rewrite (HN f Hf). unfold wallFlux.
  change (SbpProofs3.grad (e_n (w_el f)) d (e_H (w_el f)) (e_Q (w_el f)) (e_adj (w_el f)) (e_detJ (w_el f)) (fun j => calcEntropyVars d false (u (e_glob (w_el f) j))) (w_idx f k)) with (wall_grad d f u k).
  unfold wnode. ring.
Qed.
Lemma surface_balance N lps M (tags : list (tagged vface)) bdrs u r : well_formed N M -> (forall t, In t tags -> wall_fits N (t_face t)) -> gcl d M -> positive_mesh M -> proj_kills_constants M ->
  (forall t, In t tags -> In (t_attr t) bdrs -> w_bc (t_face t) = NoSlip qfs) ->
  viscousFlowResidual d lps vp M (map t_face tags) u = Some r ->
  dot d force (fun m => rsum N (fun i => r i (S m))) =
  surfaceForce d vp qfs force 1 (onBoundaries bdrs tags) u + wsum (elsewhere bdrs tags) (fun f k => dot d force (mom (wall_flux d vp f u k)))
  + osum (bfs M) (fun b k => dot d force (mom (b_flux b k (b_nrm b k) (u (bnode b k))))).
Proof.
  intros WF WW HG HP HK HS ER.
  assert (WW' : forall f, In f (map t_face tags) -> wall_fits N f) by (intros f Hf; apply in_map_iff in Hf; destruct Hf as (t & <- & Ht); auto).
  transitivity (dot d force (fun i => osum (bfs M) (fun b k => mom (b_flux b k (b_nrm b k) (u (bnode b k))) i)) + dot d force (fun i => wsum (map t_face tags) (fun f k => mom (wall_flux d vp f u k) i))).
  - unfold dot. rewrite <- rsum_plus. apply rsum_ext. intros m Hm. rewrite <- Rmult_plus_distr_l. f_equal.
    apply (viscous_conservation d N lps vp M (map t_face tags) WF WW' u r (S m)); try assumption. lia.
  - rewrite dot_osum, dot_wsum. rewrite (surface_sum _ u 1), Rmult_1_l.
    + unfold wsum at 1. rewrite (lsum_split bdrs).
      set (B := osum _ _). set (A := lsum _ (onBoundaries bdrs tags)). set (C := lsum _ (elsewhere bdrs tags)). change (B + (A + C) = A + C + B). ring.
    + intros f Hf. destruct (on_in _ _ _ Hf) as (t & A & B & C). subst f. auto.
Qed.
Lemma surface_force_gradient N faces u g : (forall f, In f faces -> wall_fits N f) -> qfs 0%nat <> 0 -> valid_gas d false N u g ->
  is_gradient N (d + 2) (surfaceForce d vp qfs force 1 faces) u (surfaceForceGradient d vp qfs force 1 faces u).
Proof.
  intros HF Hq HG v.
  set (gr := fun f => let e := w_el f in wallFunctionalGrad (e_n e) d (d + 2) (e_H e) (e_Q e) (e_adj e) (e_detJ e) 1 (w_nf f) (w_idx f) (w_wt f) (w_nrm f) (calcEntropyVars d false) (viscConvJac d)
         (surfaceForceJacState d vp qfs force) (surfaceForceJacDw d vp qfs force) (fun i => u (e_glob e i))).
  assert (EG : rsum N (fun i => dot (d + 2) (v i) (surfaceForceGradient d vp qfs force 1 faces u i)) = lsum (fun f => test (e_n (w_el f)) (d + 2) (fun i => v (e_glob (w_el f) i)) (gr f)) faces).
  { change (rsum N (fun i => dot (d + 2) (v i) (surfaceForceGradient d vp qfs force 1 faces u i))) with (test N (d + 2) v (surfaceForceGradient d vp qfs force 1 faces u)).
    unfold surfaceForceGradient. rewrite (fold_read (test N (d + 2) v) _ (fun f => test (e_n (w_el f)) (d + 2) (fun i => v (e_glob (w_el f) i)) (gr f))); [rewrite test_zero; ring|].
    intros t f Hf. destruct (HF f Hf) as (A & B & _). rewrite test_scatter by exact A. reflexivity. }
  rewrite EG. unfold surfaceForce. cbv zeta.
  apply (is_derive_ext (fun s => lsum (fun f => let e := w_el f in wallEnergy (e_n e) d (e_H e) (e_Q e) (e_adj e) (e_detJ e) 1 (w_nf f) (w_idx f) (w_wt f) (w_nrm f) (calcEntropyVars d false)
          (surfaceForceFun d vp qfs force) (fun i => axpy (u (e_glob e i)) s (v (e_glob e i)))) faces)).
  { intros s. rewrite fold_sum. reflexivity. }
  apply is_derive_lsum. intros f Hf. cbv zeta. destruct (HF f Hf) as (A & B & _). unfold gr. cbv zeta. apply (wall_functional_derive (e_n (w_el f)) d (d + 2)); [exact B|reflexivity|lia| |].
  - intros j Hj. destruct (HG _ (A j Hj)) as (Hr & Hp & HS). exact (conv_has_jac d false _ _ _ _ Hr Hp HS).
  - intros k Hk. destruct (HG _ (A _ (B k Hk))) as (Hr & Hp & HS). unfold surfaceForceJacState, surfaceForceJacDw.
    destruct (state_pos d _ _ _ _ Hr Hp HS) as (P1 & P2).
    refine (smooth_jac_cols (d + 2) d (fun q D _ => surfaceForceFun d vp qfs force k (w_nrm f k) (e_detJ (w_el f) (w_idx f k)) q D) _ _ _).
    intros m Hm. unfold surfaceForceFun. cbv zeta. unfold dot, mom. apply sm_rsum. intros i Hi. apply sm_mult; [apply sm_const|].
    refine (vs_wallFlux (d + 2 + d * (d + 2)) (ccoord (d + 2) d) d vp fst snd (u (e_glob (w_el f) (w_idx f k)), _) P1 P2 (cs_fst d _) _ (NoSlip qfs) k (w_nrm f k) (e_detJ (w_el f) (w_idx f k)) Hq (S i) ltac:(lia)).
    intros e He. apply cs_col. exact He.
Qed.
End Surface.
