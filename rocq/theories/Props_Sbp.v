(** C49 SBP operators, C50 element terms, C51 the assembled flow residual, C52 assembled Jacobians. *)
From Coq Require Import Reals Arith Lra Lia Psatz List FunctionalExtensionality.
From Coquelicot Require Import Coquelicot.
From Verif Require Import Num Vec Euler EulerSpec EulerProofs EulerDeriv FluxProofs BoundaryProofs NavierStokes
  Sbp SbpSpec SbpProofs SbpProofs2 SbpProofs3 SbpMesh SbpMeshSpec SbpMeshProofs SbpMeshProofs2.
Import ListNotations.
Local Open Scope R_scope.

(** the weak operator applies Q (or -Q^T), with Q(i,j) = getQ, and adds to its output *)
Theorem C49_weak_operator :
  forall n Q di (u Qu : nat -> nat -> R) m i,
  multWeakOperator n Q di u Qu false m i = Qu m i + rsum n (fun j => getQ Q di i j * u m j) /\
  multWeakOperator n Q di u Qu true m i = Qu m i - rsum n (fun j => getQ Q di j i * u m j).
Proof. intros. split; reflexivity. Qed.
Print Assumptions C49_weak_operator.
(** the strong operator is H^-1 Q, the same whether read as a matrix, transposed, or applied at a node *)
Theorem C49_strong_operator :
  forall n H Q di i j (u : nat -> nat -> R) m, H i <> 0 ->
  H i * getStrongOperator H Q di false i j = getQ Q di i j /\
  getStrongOperator H Q di true j i = getStrongOperator H Q di false i j /\
  multStrongOperator n H Q di i u m = rsum n (fun j => getStrongOperator H Q di false i j * u m j).
Proof.
  intros. split; [rewrite Rmult_comm; apply strong_weak; assumption|]. split; [apply strong_trans|apply strong_at].
Qed.
Print Assumptions C49_strong_operator.
(** the skew part is antisymmetric on any (curved) element, and its reverse-mode derivative is exact *)
Theorem C49_skew :
  forall d Q di i j (A B A' B' : nat -> nat -> R) bar,
  getSkewEntry d Q di i j A B = - getSkewEntry d Q di j i B A /\
  bar * (getSkewEntry d Q di i j A' B' - getSkewEntry d Q di i j A B) =
  rsum d (fun k => fst (getSkewEntryRevDiff Q di i j bar) k * (A' k di - A k di) + snd (getSkewEntryRevDiff Q di i j bar) k * (B' k di - B k di)).
Proof. intros. split; [apply skew_antisym|apply skew_rev]. Qed.
Print Assumptions C49_skew.
(** on an affine element, if the reference operators differentiate constants exactly and have diagonal symmetric
    part, the physical operator is the chain rule of the reference ones and annihilates constants *)
Theorem C49_affine :
  forall n d Q (J : nat -> nat -> R),
  (forall k i, (k < d)%nat -> (i < n)%nat -> rsum n (fun j => getQ Q k i j) = 0) ->
  (forall k i j, (k < d)%nat -> (i < n)%nat -> (j < n)%nat -> i <> j -> getQ Q k i j + getQ Q k j i = 0) ->
  forall di i j, (i < n)%nat -> (j < n)%nat ->
  getQEntry d Q di i j J J = rsum d (fun k => J k di * getQ Q k i j) /\ rsum n (fun j => getQEntry d Q di i j J J) = 0.
Proof. intros n d Q J HC HD di i j Hi Hj. split; [apply (affine_entry n); assumption|apply affine_gcl; assumption]. Qed.
Print Assumptions C49_affine.
(** projection: matrix and products agree; with an H-orthonormal basis it is an H-self-adjoint projector that
    annihilates every basis function *)
Theorem C49_projection :
  forall n H nv V (u : nat -> nat -> R) m i, (i < n)%nat ->
  multProjOperator n H nv V u false m i = rsum n (fun j => getProjOperatorEntry H nv V i j * u m j) /\
  multProjOperator n H nv V u true m i = rsum n (fun j => getProjOperatorEntry H nv V j i * u m j) /\
  (forall j, H i * getProjOperatorEntry H nv V i j = getProjOperatorEntry H nv V j i * H j) /\
  ((forall a b, (a < nv)%nat -> (b < nv)%nat -> rsum n (fun i => V i a * H i * V i b) = if Nat.eqb a b then 1 else 0) ->
   (forall a, (a < nv)%nat -> rsum n (fun j => getProjOperatorEntry H nv V i j * V j a) = 0) /\
   (forall j, (j < n)%nat -> rsum n (fun k => getProjOperatorEntry H nv V i k * getProjOperatorEntry H nv V k j) = getProjOperatorEntry H nv V i j)).
Proof.
  intros n H nv V u m i Hi. split; [apply proj_nt; exact Hi|]. split; [apply proj_t; exact Hi|]. split; [intros; apply proj_selfadj|].
  intros HV. split; [intros a Ha; apply proj_annihilates; assumption|intros j Hj; apply proj_idempotent; assumption].
Qed.
Print Assumptions C49_projection.
Example C49_case : let e := seg0 0 in
  rsum 2 (fun j => getQ (e_Q e) 0 0 j) = 0 /\ getQ (e_Q e) 0 0 1 + getQ (e_Q e) 0 1 0 = 0 /\ getQ (e_Q e) 0 0 1 = 1/2 /\
  rsum 2 (fun i => e_V e i 0%nat * e_H e i * e_V e i 0%nat) = 1.
Proof. unfold getQ. simpl. repeat split; lra. Qed.

(** two-point flux differencing: each component sums to zero over the element, whatever the flux *)
Theorem C50_dyadic_conservative :
  forall n d Q ns alpha adj flux u m, (m < ns)%nat -> rsum n (fun i => dyadicVector n d Q ns alpha adj flux u i m) = 0.
Proof. exact dyadic_conservative. Qed.
Print Assumptions C50_dyadic_conservative.
(** ... and if the flux satisfies Tadmor's condition with potentials psi, tested with w it is a boundary term *)
Theorem C50_dyadic_entropy :
  forall n d Q ns alpha adj flux u (w : nat -> vec) (psi : nat -> nat -> R),
  (forall di i, (di < d)%nat -> (i < n)%nat -> rsum n (fun j => getQEntry d Q di i j (adj i) (adj j)) = 0) ->
  (forall di i j, (di < d)%nat -> (i < j)%nat -> (j < n)%nat -> dot ns (fun m => w i m - w j m) (flux di (u i) (u j)) = psi di i - psi di j) ->
  rsum n (fun i => dot ns (w i) (dyadicVector n d Q ns alpha adj flux u i)) =
  - alpha * rsum d (fun di => rsum n (fun i => 2 * getSymEntry d Q di i (adj i) * psi di i)).
Proof.
  intros n d Q ns alpha adj f u w psi HR HT.
  pose proof (dyadic_entropy n d Q ns alpha adj HR f u w psi (fun _ _ _ => 0)) as E. unfold test in E. rewrite E.
  - rewrite (rsum_ext n _ (fun _ => 0)), rsum_0.
    + rewrite Rmult_0_r, Rplus_0_r. replace (-2 * alpha) with (- alpha * 2) by ring. rewrite Rmult_assoc. f_equal. rewrite <- rsum_scal. apply rsum_ext. intros di Hdi.
      rewrite <- rsum_scal. apply rsum_ext. intros; ring.
    + intros i Hi. rewrite (rsum_ext n _ (fun _ => 0)), rsum_0; [reflexivity|]. intros j Hj. destruct (Nat.ltb i j); [|reflexivity].
      rewrite (rsum_ext d _ (fun _ => 0)), rsum_0; [reflexivity|]. intros; ring.
  - intros di i j Hdi Hij Hj. rewrite (HT di i j Hdi Hij Hj). ring.
Qed.
Print Assumptions C50_dyadic_entropy.
(** a uniform state feels only the boundary part of the operator *)
Theorem C50_dyadic_uniform :
  forall n d Q ns alpha adj flux q m i,
  (forall di i, (di < d)%nat -> (i < n)%nat -> rsum n (fun j => getQEntry d Q di i j (adj i) (adj j)) = 0) -> (i < n)%nat -> (m < ns)%nat ->
  dyadicVector n d Q ns alpha adj flux (fun _ => q) i m = - alpha * rsum d (fun di => 2 * getSymEntry d Q di i (adj i) * flux di q q m).
Proof.
  intros n d Q ns alpha adj f q m i HR Hi Hm. rewrite (dyadic_uniform n d Q ns alpha adj HR f q m i Hi Hm).
  replace (-2 * alpha) with (- alpha * 2) by ring. rewrite Rmult_assoc. f_equal. rewrite <- rsum_scal. apply rsum_ext. intros; ring.
Qed.
Print Assumptions C50_dyadic_uniform.
(** divergence-form integrator: -alpha Q^T f; conservative when the operators differentiate constants exactly *)
Theorem C50_inviscid :
  forall n d Q alpha adj flux u i m,
  inviscidVector n d Q alpha adj flux u i m = - (alpha * rsum d (fun di => rsum n (fun j => getQ Q di j i * flux (fun k => adj j di k) (u j) m))) /\
  ((forall di j, (di < d)%nat -> (j < n)%nat -> rsum n (fun i => getQ Q di j i) = 0) -> rsum n (fun i => inviscidVector n d Q alpha adj flux u i m) = 0).
Proof. intros. split; [apply inviscid_entry|intros HQ; apply inviscid_conservative; exact HQ]. Qed.
Print Assumptions C50_inviscid.
(** local-projection stabilisation: dissipative in the converted variables, conservative if constants are in the
    basis, and inactive on states whose converted variables lie in the span of the basis *)
Theorem C50_lps_dissipative :
  forall n H nv V ns alpha adj coeff convert scale u, 0 <= alpha -> 0 <= coeff -> (forall i, (i < n)%nat -> 0 <= H i) ->
  (forall i x, (i < n)%nat -> 0 <= dot ns x (scale (adj i) (u i) x)) ->
  0 <= rsum n (fun i => dot ns (convert (u i)) (lpsVector n H nv V alpha adj coeff convert scale u i)).
Proof. intros n H nv V ns alpha adj c conv scale u A B C D. exact (lps_dissipative n H nv V ns alpha adj c conv scale u A B C D). Qed.
Print Assumptions C50_lps_dissipative.
Theorem C50_lps_conservative :
  forall n H nv V ns alpha adj coeff convert scale u m, (m < ns)%nat ->
  (forall i, (i < n)%nat -> rsum n (fun j => getProjOperatorEntry H nv V i j) = 0) ->
  rsum n (fun i => lpsVector n H nv V alpha adj coeff convert scale u i m) = 0.
Proof. intros n H nv V ns alpha adj c conv scale u m Hm HP. rewrite <- (test_state n ns _ m Hm). apply lps_const_zero; [exact HP|reflexivity]. Qed.
Print Assumptions C50_lps_conservative.
Theorem C50_lps_inactive :
  forall n H nv V alpha adj coeff convert scale u (a : nat -> vec) i m,
  (forall x y, (x < nv)%nat -> (y < nv)%nat -> rsum n (fun i => V i x * H i * V i y) = if Nat.eqb x y then 1 else 0) ->
  (forall j, (j < n)%nat -> forall k, convert (u j) k = rsum nv (fun b => V j b * a b k)) ->
  (forall j, scale (adj j) (u j) (fun _ => 0) m = 0) -> (i < n)%nat ->
  lpsVector n H nv V alpha adj coeff convert scale u i m = 0.
Proof. exact lps_polynomial. Qed.
Print Assumptions C50_lps_inactive.
(** viscous term: tested with w it is the quadrature of D w . C D w, hence dissipative, and conservative *)
Theorem C50_viscous :
  forall n d H Q ns alpha adj detJ convert scale u (W : nat -> vec), (forall i, (i < n)%nat -> H i * detJ i <> 0) ->
  let D := fun (W : nat -> vec) i di s => rsum n (fun j => getQEntry d Q di i j (adj i) (adj j) * W j s) * (1 / (H i * detJ i)) in
  rsum n (fun i => dot ns (W i) (viscousVector n d H Q ns alpha adj detJ convert scale u i)) =
  alpha * rsum n (fun i => H i * detJ i * rsum d (fun di => dot ns (D W i di) (scale di i (u i) (D (fun j => convert (u j)) i)))).
Proof. intros n d H Q ns alpha adj detJ conv scale u W HJ. exact (viscous_test n d H Q ns alpha adj detJ W conv scale u HJ). Qed.
Print Assumptions C50_viscous.
(** boundary and interface terms *)
Theorem C50_boundary :
  forall n nf ns alpha idx wt nrm flux u (W : nat -> vec), (forall f, (f < nf)%nat -> (idx f < n)%nat) ->
  rsum n (fun i => dot ns (W i) (boundaryVector nf ns alpha idx wt nrm flux u i)) =
  alpha * rsum nf (fun f => wt f * dot ns (W (idx f)) (flux f (nrm f) (u (idx f)))).
Proof. intros n nf ns alpha idx wt nrm g u W HI. exact (boundary_test n nf ns alpha idx wt nrm HI W g u). Qed.
Print Assumptions C50_boundary.
Theorem C50_interface :
  forall nL nR nf ns alpha idxL idxR wt nrm flux uL uR (WL WR : nat -> vec),
  (forall f, (f < nf)%nat -> (idxL f < nL)%nat) -> (forall f, (f < nf)%nat -> (idxR f < nR)%nat) ->
  let r := faceVector nf ns alpha idxL idxR wt nrm flux uL uR in
  rsum nL (fun i => dot ns (WL i) (fst r i)) + rsum nR (fun i => dot ns (WR i) (snd r i)) =
  alpha * rsum nf (fun f => dot ns (fun m => WL (idxL f) m - WR (idxR f) m) (flux (fun k => nrm f k * wt f) (uL (idxL f)) (uR (idxR f)))).
Proof. intros. apply (face_test nL nR nf ns alpha idxL idxR wt nrm); assumption. Qed.
Print Assumptions C50_interface.
Example C50_case : (forall di i, (di < 1)%nat -> (i < 2)%nat -> rsum 2 (fun j => getQEntry 1 (e_Q (seg0 0)) di i j (e_adj (seg0 0) i) (e_adj (seg0 0) j)) = 0).
Proof. intros di i Hd Hi. exact (proj1 (proj2 duct_valid) (seg0 0) (or_introl eq_refl) di i Hd Hi). Qed.

(** * The assembled residual *)
(** dsbp with viscous terms throws; everything else assembles *)
Theorem C51_assembles :
  forall d entvar lps visc ifc M u,
  (flowResidual d entvar lps visc ifc M u = None <-> visc <> None /\ ifc <> None).
Proof.
  intros d entvar lps visc ifc M u. unfold flowResidual. destruct visc, ifc; split; intros K; try discriminate; try (destruct K; congruence); try (split; congruence); try reflexivity.
Qed.
Print Assumptions C51_assembles.
(** the sum of each conserved component over all nodes is the boundary flux *)
Theorem C51_conservation :
  forall d N entvar lps visc ifc M u Rg m, well_formed N M -> (m < d + 2)%nat -> gcl d M -> positive_mesh M -> proj_kills_constants M ->
  flowResidual d entvar lps visc ifc M u = Some Rg ->
  rsum N (fun i => Rg i m) = bsum M (fun b k => b_flux b k (b_nrm b k) (u (bnode b k)) m).
Proof. intros d N entvar lps visc ifc M u Rg m WF. apply (conservation d N entvar lps visc ifc M WF). Qed.
Print Assumptions C51_conservation.
(** entropy balance: tested with the entropy variables, the residual is the boundary entropy rate plus a
    non-negative stabilisation/viscous/interface dissipation, up to the allowance of the logarithmic average *)
Theorem C51_entropy_balance :
  forall d N lps visc ifc M u Rg, well_formed N M -> (forall i, (i < N)%nat -> physical d (u i)) ->
  gcl d M -> divergence_theorem d (match ifc with Some _ => true | None => false end) M -> positive_mesh M ->
  (visc <> None -> (d <= 3)%nat) -> (forall vp, visc = Some vp -> 0 < v_Re vp /\ 0 < v_Pr vp) -> (forall c, ifc = Some c -> 0 <= c) ->
  flowResidual d false lps visc ifc M u = Some Rg ->
  let w := fun i => calcEntropyVars d false (u i) in
  exists S E,
    rsum N (fun i => dot (d + 2) (w i) (Rg i)) =
      bsum M (fun b k => dot (d + 2) (w (bnode b k)) (b_flux b k (b_nrm b k) (u (bnode b k))) - dot d (mom (u (bnode b k))) (b_nrm b k)) + S + E /\
    0 <= S /\ Rabs E <= allowance d (match ifc with Some _ => true | None => false end) M u /\
    (lps <= 0 -> visc = None -> (ifc = None \/ ifc = Some 0) -> S = 0).
Proof. intros d N lps visc ifc M u Rg WF HU HG HD HP H3 Hv Hc ER. exact (entropy_balance d N lps visc ifc M u WF HU Rg HG HD HP H3 Hv Hc ER). Qed.
Print Assumptions C51_entropy_balance.
(** in a domain closed by slip walls the total entropy (mass-weighted over the nodes) does not grow along the
    semi-discrete evolution mass_i du_i/dt = - R_i, up to the allowance *)
Theorem C51_closed_domain_entropy :
  forall d N lps ifc M u Rg (mass : nat -> R) (v : nat -> vec), well_formed N M -> (forall i, (i < N)%nat -> physical d (u i)) ->
  gcl d M -> divergence_theorem d (match ifc with Some _ => true | None => false end) M -> positive_mesh M -> (forall c, ifc = Some c -> 0 <= c) ->
  (forall b, In b (bfs M) -> b_flux b = fun _ n q => calcSlipWallFlux d false n q) ->
  flowResidual d false lps None ifc M u = Some Rg ->
  (forall i m, (i < N)%nat -> (m < d + 2)%nat -> mass i * v i m = - Rg i m) ->
  exists rate, is_derive (fun s => rsum N (fun i => mass i * entropy d false (axpy (u i) s (v i)))) 0 rate /\
    rate <= allowance d (match ifc with Some _ => true | None => false end) M u /\
    (lps <= 0 -> (ifc = None \/ ifc = Some 0) -> Rabs rate <= allowance d (match ifc with Some _ => true | None => false end) M u).
Proof.
  intros d N lps ifc M u Rg mass v WF HU HG HD HP Hc HB ER HV.
  destruct (entropy_balance d N lps None ifc M u WF HU Rg HG HD HP ltac:(congruence) ltac:(congruence) Hc ER) as (S & E & A & HS & HE & HZ).
  unfold test in A. exists (- (S + E)). 
  assert (B0 : boundaryRate d M u = 0).
  { unfold boundaryRate, bsum. rewrite (lsum_ext _ (fun _ => 0)), lsum_0; [reflexivity|]. intros b Hb. rewrite (rsum_ext _ _ (fun _ => 0)), rsum_0; [reflexivity|]. intros k Hk.
    rewrite (HB b Hb), slip_entropy; [ring|]. destruct WF as (_ & _ & Wb). destruct (Wb b Hb) as (W1 & W2). apply HU, W1, W2, Hk. }
  split; [|split].
  - replace (- (S + E)) with (rsum N (fun i => mass i * dot (d + 2) (calcEntropyVars d false (u i)) (v i))).
    + apply is_derive_rsum. intros i Hi. apply is_derive_scal'. apply entropy_derive, HU, Hi.
    + transitivity (- rsum N (fun i => dot (d + 2) (calcEntropyVars d false (u i)) (Rg i))); [|rewrite A, B0; ring].
      rewrite <- rsum_opp. apply rsum_ext. intros i Hi. unfold dot. rewrite <- rsum_scal, <- rsum_opp. apply rsum_ext. intros m Hm.
      transitivity (calcEntropyVars d false (u i) m * (mass i * v i m)); [ring|]. rewrite (HV i m Hi Hm). ring.
  - apply Rabs_le_between in HE. unfold dsbp in HE. lra.
  - intros Hl Hi. rewrite (HZ Hl eq_refl Hi). replace (- (0 + E)) with (- E) by ring. rewrite Rabs_Ropp. exact HE.
Qed.
Print Assumptions C51_closed_domain_entropy.
(** free-stream preservation: a uniform physical state with consistent boundary fluxes has zero residual at every node *)
Theorem C51_free_stream :
  forall d N lps visc ifc M q rho p v Rg, well_formed N M -> 0 < rho -> 0 < p -> is_state d q rho v p ->
  gcl d M -> divergence_theorem d (match ifc with Some _ => true | None => false end) M -> positive_mesh M -> proj_kills_constants M ->
  (forall b k, In b (bfs M) -> (k < b_nf b)%nat -> euler_flux d (b_nrm b k) rho v p (b_flux b k (b_nrm b k) q)) ->
  flowResidual d false lps visc ifc M (fun _ => q) = Some Rg ->
  forall i m, (i < N)%nat -> (m < d + 2)%nat -> Rg i m = 0.
Proof. intros d N lps visc ifc M q rho p v Rg WF Hr Hp Hq. apply (free_stream d N lps visc ifc M q WF rho p v Hr Hp Hq). Qed.
Print Assumptions C51_free_stream.
(** solving in entropy variables gives the same residual as in conservative variables (inviscid) *)
Theorem C51_entropy_state_same_residual :
  forall d N lps ifc M u g R1 R2, well_formed N M -> (forall i, (i < N)%nat -> physical d (u i)) ->
  (forall b k q, In b (bfs M) -> (k < b_nf b)%nat -> physical d q -> same d (g b k (b_nrm b k) (calcEntropyVars d false q)) (b_flux b k (b_nrm b k) q)) ->
  flowResidual d true lps None ifc (with_fluxes M g) (fun i => calcEntropyVars d false (u i)) = Some R1 ->
  flowResidual d false lps None ifc M u = Some R2 ->
  forall i m, (i < N)%nat -> (m < d + 2)%nat -> R1 i m = R2 i m.
Proof. exact entvar_same. Qed.
Print Assumptions C51_entropy_state_same_residual.
Example C51_case : well_formed 4 duct /\ gcl 1 duct /\ divergence_theorem 1 true duct /\ positive_mesh duct /\ proj_kills_constants duct /\
  (forall b, In b (bfs duct) -> b_flux b = fun _ n q => calcSlipWallFlux 1 false n q) /\ physical 1 (getFreeStreamQ 1 (1/2) 0 0 0).
Proof.
  destruct duct_valid as (A & B & C & D & E). repeat (split; [assumption|]). split.
  - intros b [<-|[<-|[]]]; reflexivity.
  - exists 1, (fun _ => 1/2), (5/7). split; [lra|]. split; [lra|apply fs_1d].
Qed.

(** * Assembled Jacobians *)
Theorem C52_inviscid :
  forall n d Q ns alpha adj flux fluxJac u,
  (forall di i, (di < d)%nat -> (i < n)%nat -> has_jac ns (flux (fun k => adj i di k)) (u i) (fluxJac (fun k => adj i di k) (u i))) ->
  is_jacobian n ns (inviscidVector n d Q alpha adj flux) u (inviscidGrad n d Q ns alpha adj fluxJac u).
Proof. intros n d Q ns alpha adj f fj u HJ. apply inviscid_is_jacobian. exact HJ. Qed.
Print Assumptions C52_inviscid.
Theorem C52_dyadic :
  forall n d Q ns alpha adj flux jacL jacR u,
  (forall di i j, (di < d)%nat -> (i < j)%nat -> (j < n)%nat -> has_jac2 ns (flux di) (u i) (u j) (jacL di (u i) (u j)) (jacR di (u i) (u j))) ->
  is_jacobian n ns (dyadicVector n d Q ns alpha adj flux) u (dyadicGrad n d Q ns alpha adj jacL jacR u).
Proof. exact dyadic_is_jacobian. Qed.
Print Assumptions C52_dyadic.
Theorem C52_lps :
  forall n H nv V ns alpha adj convert convJac scale scaleJac scaleJacV u,
  let Pw := fun i m => rsum n (fun j => getProjOperatorEntry H nv V i j * convert (u j) m) in
  (forall i, (i < n)%nat -> has_jac ns convert (u i) (convJac (u i))) ->
  (forall i, (i < n)%nat -> has_jac2 ns (scale (adj i)) (u i) (Pw i) (scaleJac (adj i) (u i) (Pw i)) (scaleJacV (adj i) (u i))) ->
  is_jacobian n ns (lpsVector n H nv V alpha adj 1 convert scale) u (lpsGrad n H nv V ns alpha adj convert convJac scaleJac scaleJacV u).
Proof. intros n H nv V ns alpha adj conv cj scale sj sv u. exact (lps_is_jacobian n H nv V ns alpha adj conv cj scale sj sv u). Qed.
Print Assumptions C52_lps.
(** the assembled LPS matrix ignores the coefficient: with any coefficient other than 1 the matrix is wrong
    whenever the residual's derivative is not zero *)
Theorem C52_lps_coefficient_refuted :
  exists n H nv V ns alpha adj (coeff : R) convert convJac scale scaleJac scaleJacV u,
  let Pw := fun i m => rsum n (fun j => getProjOperatorEntry H nv V i j * convert (u j) m) in
  (forall i, (i < n)%nat -> has_jac ns convert (u i) (convJac (u i))) /\
  (forall i, (i < n)%nat -> has_jac2 ns (scale (adj i)) (u i) (Pw i) (scaleJac (adj i) (u i) (Pw i)) (scaleJacV (adj i) (u i))) /\ 0 < coeff /\
  ~ is_jacobian n ns (lpsVector n H nv V alpha adj coeff convert scale) u (lpsGrad n H nv V ns alpha adj convert convJac scaleJac scaleJacV u).
Proof.
  exists 1%nat, (fun _ => 1), 0%nat, (fun _ _ => 0), 1%nat, 1, (fun _ _ _ => 0), 2, (fun w => w), (fun _ _ _ => 1), (fun _ _ v => v), (fun _ _ _ _ _ => 0), (fun _ _ _ _ => 1), (fun _ _ => 0).
  cbv zeta. split; [|split; [|split; [lra|]]].
  - intros i Hi c v (C0 & C1) m Hm. destruct m; [|lia]. simpl. replace (0 + 1 * v 0%nat) with (v 0%nat) by ring. apply C1. lia.
  - intros i Hi c1 v1 c2 v2 (C0 & C1) (D0 & D1) m Hm. destruct m; [|lia]. simpl. replace (0 + 0 * v1 0%nat + (0 + 1 * v2 0%nat)) with (v2 0%nat) by ring. apply D1. lia.
  - intros HJ. specialize (HJ (fun _ _ => 1) 0%nat 0%nat ltac:(lia) ltac:(lia)).
    assert (E : is_derive (fun s : R => 2 * s) 0 2) by (auto_derive; [trivial|ring]).
    apply is_derive_unique in HJ. apply is_derive_unique in E.
    rewrite (Derive_ext _ (fun s => 2 * s)) in HJ.
    + rewrite E in HJ. revert HJ. unfold lpsGrad, multProjOperator, getProjOperatorEntry, add4, zero4. simpl. lra.
    + intros s. rewrite lps_entry by lia. unfold Pw, getProjOperatorEntry, axpy. simpl. ring.
Qed.
Print Assumptions C52_lps_coefficient_refuted.
Theorem C52_mass :
  forall n ns alpha weight convert convJac u, (forall i, (i < n)%nat -> has_jac ns convert (u i) (convJac (u i))) ->
  is_jacobian n ns (massVector alpha weight convert) u (massGrad n ns alpha weight convJac u).
Proof. intros n ns alpha weight conv cj u HC. apply mass_is_jacobian. exact HC. Qed.
Print Assumptions C52_mass.
Theorem C52_viscous :
  forall n d H Q ns alpha adj detJ convert convJac scale scaleJac scaleJacDw u, (forall i, (i < n)%nat -> H i * detJ i <> 0) ->
  let D := fun i di s => rsum n (fun j => getQEntry d Q di i j (adj i) (adj j) * convert (u j) s) * (1 / (H i * detJ i)) in
  (forall i, (i < n)%nat -> has_jac ns convert (u i) (convJac (u i))) ->
  (forall di i, (di < d)%nat -> (i < n)%nat -> has_jac_cols ns d (scale di i) (u i) (D i) (scaleJac di i (u i) (D i)) (scaleJacDw di i (u i) (D i))) ->
  is_jacobian n ns (viscousVector n d H Q ns alpha adj detJ convert scale) u (viscousJac n d H Q ns alpha adj detJ convert convJac scaleJac scaleJacDw u).
Proof. intros n d H Q ns alpha adj detJ conv cj C Cj CD u HJ. exact (viscous_is_jacobian n d H Q ns alpha adj detJ conv cj C Cj CD u HJ). Qed.
Print Assumptions C52_viscous.
Theorem C52_boundary :
  forall n nf ns alpha idx wt nrm flux fluxJac u, (forall f, (f < nf)%nat -> (idx f < n)%nat) ->
  (forall f, (f < nf)%nat -> has_jac ns (flux f (nrm f)) (u (idx f)) (fluxJac f (nrm f) (u (idx f)))) ->
  is_jacobian n ns (boundaryVector nf ns alpha idx wt nrm flux) u (boundaryGrad nf ns alpha idx wt nrm fluxJac u).
Proof. intros n nf ns alpha idx wt nrm g gj u HI. apply boundary_is_jacobian. exact HI. Qed.
Print Assumptions C52_boundary.
(** interface: the four blocks are the derivative of the two element residuals, for alpha >= 0 and a flux Jacobian
    that scales with the (positively scaled) normal *)
Theorem C52_interface :
  forall nL nR nf ns alpha idxL idxR wt nrm flux jacL jacR uL uR,
  (forall f, (f < nf)%nat -> (idxL f < nL)%nat) -> (forall f, (f < nf)%nat -> (idxR f < nR)%nat) ->
  (forall f, (f < nf)%nat -> let n := fun k => nrm f k * wt f in
     has_jac2 ns (flux n) (uL (idxL f)) (uR (idxR f)) (jacL n (uL (idxL f)) (uR (idxR f))) (jacR n (uL (idxL f)) (uR (idxR f)))) ->
  0 <= alpha ->
  (forall n a ql qr m k, 0 <= a -> jacL (fun c => n c * a) ql qr m k = a * jacL n ql qr m k /\ jacR (fun c => n c * a) ql qr m k = a * jacR n ql qr m k) ->
  forall vL vR i m, (m < ns)%nat ->
  let A := faceGrad nf ns alpha idxL idxR wt nrm jacL jacR uL uR in
  let r := fun s => faceVector nf ns alpha idxL idxR wt nrm flux (fun j => axpy (uL j) s (vL j)) (fun j => axpy (uR j) s (vR j)) in
  ((i < nL)%nat -> is_derive (fun s => fst (r s) i m) 0 (rsum nL (fun j => rsum ns (fun k => bLL A m i k j * vL j k)) + rsum nR (fun j => rsum ns (fun k => bLR A m i k j * vR j k)))) /\
  ((i < nR)%nat -> is_derive (fun s => snd (r s) i m) 0 (rsum nL (fun j => rsum ns (fun k => bRL A m i k j * vL j k)) + rsum nR (fun j => rsum ns (fun k => bRR A m i k j * vR j k)))).
Proof.
  intros nL nR nf ns alpha idxL idxR wt nrm g jL jR uL uR HL HR HG Ha HH. apply face_is_jacobian; try assumption.
  intros f m k Hf Hm Hk.
  replace (fun k0 => nrm f k0 * (alpha * wt f)) with (fun k0 => (nrm f k0 * wt f) * alpha) by (apply functional_extensionality; intros; ring).
  apply (HH (fun c => nrm f c * wt f) alpha _ _ m k Ha).
Qed.
Print Assumptions C52_interface.
(** with alpha < 0 the Jacobian of an upwind flux is wrong, because the sign is applied to the normal *)
Theorem C52_interface_negative_alpha_refuted :
  exists flux jacL jacR, 
  (forall n ql qr, has_jac2 1 (flux n) ql qr (jacL n ql qr) (jacR n ql qr)) /\
  (forall n a ql qr m k, 0 <= a -> jacL (fun c => n c * a) ql qr m k = a * jacL n ql qr m k /\ jacR (fun c => n c * a) ql qr m k = a * jacR n ql qr m k) /\
  let A := faceGrad 1 1 (-1) (fun _ => 0%nat) (fun _ => 0%nat) (fun _ => 1) (fun _ _ => 1) jacL jacR (fun _ _ => 0) (fun _ _ => 0) in
  ~ is_derive (fun s => fst (faceVector 1 1 (-1) (fun _ => 0%nat) (fun _ => 0%nat) (fun _ => 1) (fun _ _ => 1) flux (fun j => axpy (fun _ => 0) s (fun _ => 1)) (fun j => axpy (fun _ => 0) s (fun _ => 0))) 0%nat 0%nat) 0 (bLL A 0%nat 0%nat 0%nat 0%nat).
Proof.
  exists (fun n ql qr m => Rabs (n 0%nat) * (ql 0%nat - qr 0%nat)), (fun n _ _ _ _ => Rabs (n 0%nat)), (fun n _ _ _ _ => - Rabs (n 0%nat)). split; [|split].
  - intros n ql qr c1 v1 c2 v2 (C0 & C1) (D0 & D1) m Hm. simpl.
    replace (0 + Rabs (n 0%nat) * v1 0%nat + (0 + - Rabs (n 0%nat) * v2 0%nat)) with (Rabs (n 0%nat) * (v1 0%nat - v2 0%nat)) by ring.
    apply is_derive_scal'. apply (is_derive_minus (fun s => c1 s 0%nat) (fun s => c2 s 0%nat)); [apply C1|apply D1]; lia.
  - intros n a ql qr m k Ha. rewrite Rabs_mult, (Rabs_pos_eq a Ha). split; ring.
  - cbv zeta. intros HJ.
    assert (E : is_derive (fun s : R => - s) 0 (-1)) by (auto_derive; [trivial|ring]).
    apply is_derive_unique in HJ. apply is_derive_unique in E. rewrite (Derive_ext _ (fun s => - s)) in HJ.
    + rewrite E in HJ. revert HJ. unfold faceGrad, add4, zero4. simpl.
      replace (Rabs (1 * (-1 * 1))) with 1 by (replace (1 * (-1 * 1)) with (-1) by ring; rewrite Rabs_left; lra). intros HJ. lra.
    + intros s. unfold faceVector, add2, zero2, axpy. simpl. replace (1 * 1) with 1 by ring. rewrite Rabs_R1. ring.
Qed.
Print Assumptions C52_interface_negative_alpha_refuted.
(** non-vacuity: a flux with its Jacobian *)
Example C52_case : has_jac 2 (fun q m => match m with O => q 0%nat * q 1%nat | _ => q 1%nat end) (fun i => INR (S i))
  (fun m k => match m, k with O, O => 2 | O, _ => 1 | _, O => 0 | _, _ => 1 end).
Proof.
  intros c v (C0 & C1) m Hm. destruct m as [|[|m]]; [| |lia]; simpl.
  - replace (0 + 2 * v 0%nat + 1 * v 1%nat) with (v 0%nat * c 0 1%nat + c 0 0%nat * v 1%nat) by (rewrite C0; simpl; ring).
    apply (is_derive_mult (fun s => c s 0%nat) (fun s => c s 1%nat)); [apply C1; lia|apply C1; lia|intros; apply Rmult_comm].
  - replace (0 + 0 * v 0%nat + 1 * v 1%nat) with (v 1%nat) by ring. apply C1. lia.
Qed.
