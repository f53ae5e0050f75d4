(** Proofs: the assembled flow Jacobian is the derivative of the assembled flow residual. *)
From Coq Require Import Reals Arith Lia Lra List FunctionalExtensionality.
From Coquelicot Require Import Coquelicot.
From Verif Require Import Num Vec SbpSpec Sbp SbpProofs SbpProofs2 SbpProofs3 SbpMesh SbpMeshSpec SbpMeshProofs Euler EulerSpec EulerProofs EulerDeriv FluxProofs NavierStokes
  Vortex SmoothCalc FluxSmooth FlowJacSpec FluxSmooth2 FlowJac.
Import ListNotations.
Local Open Scope R_scope.

(** ** projections of the coordinate spaces are smooth *)
Lemma vs_id d (q : vec) : vs (d + 2) vcoord d (fun y => y) q.
Proof. intros i Hi. apply (sm_coord (d + 2) vcoord i q Hi). Qed.
Lemma vs_fst d (z : vec * vec) : vs (d + 2 + (d + 2)) (pcoord (d + 2)) d fst z.
Proof.
  intros i Hi. apply (smooth_ext _ _ (pcoord (d + 2) i)); [|apply sm_coord; lia]. intros y. unfold pcoord. destruct (Nat.ltb_spec i (d + 2)); [reflexivity|lia].
Qed.
Lemma vs_snd d (z : vec * vec) : vs (d + 2 + (d + 2)) (pcoord (d + 2)) d snd z.
Proof.
  intros i Hi. apply (smooth_ext _ _ (pcoord (d + 2) (d + 2 + i))); [|apply sm_coord; lia]. intros y. unfold pcoord. destruct (Nat.ltb_spec (d + 2 + i) (d + 2)); [lia|]. f_equal. lia.
Qed.
Lemma cs_fst d (z : vec * (nat -> vec)) : vs (d + 2 + d * (d + 2)) (ccoord (d + 2) d) d fst z.
Proof.
  intros i Hi. apply (smooth_ext _ _ (ccoord (d + 2) d i)); [|apply sm_coord; lia]. intros y. unfold ccoord. destruct (Nat.ltb_spec i (d + 2)); [reflexivity|lia].
Qed.
Lemma cs_col d e (z : vec * (nat -> vec)) : (e < d)%nat -> vs (d + 2 + d * (d + 2)) (ccoord (d + 2) d) d (fun y => snd y e) z.
Proof.
  intros He i Hi. assert (B : (e * (d + 2) + i < d * (d + 2))%nat) by nia.
  apply (smooth_ext _ _ (ccoord (d + 2) d (d + 2 + (e * (d + 2) + i)))); [|apply sm_coord; lia]. intros y. unfold ccoord.
  destruct (Nat.ltb_spec (d + 2 + (e * (d + 2) + i)) (d + 2)); [lia|]. replace (d + 2 + (e * (d + 2) + i) - (d + 2))%nat with (i + e * (d + 2))%nat by lia.
  rewrite Nat.div_add, Nat.mod_add, Nat.div_small, Nat.mod_small by lia. reflexivity.
Qed.

(** ** the flux Jacobians are Jacobians *)
Section State.
Context (d : nat) (entvar : bool).
Lemma ir_has_jac di qL qR rhoL uL pL rhoR uR pR : (di < d)%nat -> 0 < rhoL -> 0 < pL -> 0 < rhoR -> 0 < pR ->
  describes d entvar qL rhoL uL pL -> describes d entvar qR rhoR uR pR ->
  spread (sqrt (rhoL / pL)) (sqrt (rhoR / pR)) <> 1 / 1000 /\ spread (sqrt (rhoL * pL)) (sqrt (rhoR * pR)) <> 1 / 1000 ->
  has_jac2 (d + 2) (irFlux d entvar di) qL qR (irJacL d entvar di qL qR) (irJacR d entvar di qL qR).
Proof.
  intros Hd A B C D E F G. apply smooth_jac2. intros m Hm.
  apply (vs_irFlux (d + 2 + (d + 2)) (pcoord (d + 2)) d entvar fst snd (qL, qR) rhoL pL rhoR pR uL uR A B C D E F G (vs_fst d _) (vs_snd d _) di Hd m Hm).
Qed.
Lemma iface_has_jac c dir qL qR rhoL uL pL rhoR uR pR : 0 < rhoL -> 0 < pL -> 0 < rhoR -> 0 < pR ->
  describes d entvar qL rhoL uL pL -> describes d entvar qR rhoR uR pR ->
  spread (sqrt (rhoL / pL)) (sqrt (rhoR / pR)) <> 1 / 1000 /\ spread (sqrt (rhoL * pL)) (sqrt (rhoR * pR)) <> 1 / 1000 ->
  (c = 0 \/ dot d (fun i => rhoL * uL i + rhoR * uR i) dir <> 0) ->
  has_jac2 (d + 2) (ifaceFlux d entvar c dir) qL qR (ifaceJacL d entvar c dir qL qR) (ifaceJacR d entvar c dir qL qR).
Proof.
  intros A B C D E F G K. apply smooth_jac2. intros m Hm.
  apply (vs_ifaceFlux (d + 2 + (d + 2)) (pcoord (d + 2)) d entvar fst snd (qL, qR) rhoL pL rhoR pR uL uR A B C D E F G (vs_fst d _) (vs_snd d _) c dir K m Hm).
Qed.
Lemma conv_has_jac q rho u p : 0 < rho -> 0 < p -> describes d entvar q rho u p -> has_jac (d + 2) (calcEntropyVars d entvar) q (lpsConvJac d entvar q).
Proof.
  intros Hr Hp H. destruct entvar.
  - intros c v [_ Hc] m Hm. unfold lpsConvJac. rewrite (rsum_single (d + 2) m); [rewrite Nat.eqb_refl, Rmult_1_l; apply Hc; exact Hm|exact Hm|].
    intros j _ Hj. destruct (Nat.eqb_spec m j); [congruence|ring].
  - apply (smooth_jac (d + 2) (calcEntropyVars d false)). intros m Hm. destruct (state_pos d q rho u p Hr Hp H) as (A & B).
    apply (vs_entvars (d + 2) vcoord d (fun y => y) q A B (vs_id d q) m Hm).
Qed.
Lemma lps_linear adjJ q a v w : lpsScaling d entvar adjJ q (fun i => v i + a * w i) = fun i => lpsScaling d entvar adjJ q v i + a * lpsScaling d entvar adjJ q w i.
Proof.
  assert (G : forall Q, applyLPSScaling d adjJ Q (fun i => v i + a * w i) = fun i => applyLPSScaling d adjJ Q v i + a * applyLPSScaling d adjJ Q w i).
  { intros Q. apply functional_extensionality. intros i. unfold applyLPSScaling. cbv zeta.
    assert (E : calcdQdWProduct d Q (fun i => v i + a * w i) i = calcdQdWProduct d Q v i + a * calcdQdWProduct d Q w i).
    { unfold calcdQdWProduct. cbv zeta. destruct i as [|i]; [|unfold mk; destruct (Nat.ltb i d)].
      - unfold mk. rewrite <- rsum_scal, <- rsum_plus. apply rsum_ext. intros; ring.
      - set (z := rsum (d + 2) _). set (z1 := rsum (d + 2) _). set (z2 := rsum (d + 2) _).
        assert (E : z = z1 + a * z2) by (unfold z, z1, z2; rewrite <- rsum_scal, <- rsum_plus; apply rsum_ext; intros; ring). rewrite E. ring.
      - set (z := rsum d _). set (z1 := rsum d _). set (z2 := rsum d _).
        assert (E : z = z1 + a * z2) by (unfold z, z1, z2; rewrite <- rsum_scal, <- rsum_plus; apply rsum_ext; intros; ring). rewrite E. ring. }
    rewrite E. ring. }
  unfold lpsScaling, applyLPSScalingUsingEntVars. destruct entvar; apply G.
Qed.
Lemma bump_axpy q k t : bump q k t = fun j => q j + t * (if Nat.eqb j k then 1 else 0).
Proof. apply functional_extensionality. intros j. unfold bump. destruct (Nat.eqb j k); ring. Qed.
(** the derivative in v does not depend on where it is taken *)
Lemma lps_jacV_anywhere adjJ q v m k : partial (fun v => lpsScaling d entvar adjJ q v m) v k = lpsScalingJacV d entvar adjJ q m k.
Proof.
  assert (G : forall w, partial (fun v => lpsScaling d entvar adjJ q v m) w k = lpsScaling d entvar adjJ q (fun j => if Nat.eqb j k then 1 else 0) m).
  { intros w. unfold partial. apply is_derive_unique.
    apply (is_derive_ext (fun t => lpsScaling d entvar adjJ q w m + t * lpsScaling d entvar adjJ q (fun j => if Nat.eqb j k then 1 else 0) m)).
    - intros t. rewrite bump_axpy, lps_linear. reflexivity.
    - auto_derive; [trivial|ring]. }
  unfold lpsScalingJacV. rewrite !G. reflexivity.
Qed.
Lemma lps_has_jac adjJ q v rho u p : 0 < rho -> 0 < p -> describes d entvar q rho u p -> (forall i, (i < d)%nat -> dot d u (adjJ i) <> 0) ->
  has_jac2 (d + 2) (lpsScaling d entvar adjJ) q v (lpsScalingJac d entvar adjJ q v) (lpsScalingJacV d entvar adjJ q).
Proof.
  intros Hr Hp H Hn.
  assert (G : has_jac2 (d + 2) (lpsScaling d entvar adjJ) q v (lpsScalingJac d entvar adjJ q v) (fun m k => partial (fun v => lpsScaling d entvar adjJ q v m) v k)).
  { apply smooth_jac2. intros m Hm.
    apply (vs_lpsScaling (d + 2 + (d + 2)) (pcoord (d + 2)) d entvar adjJ fst snd (q, v) rho u p Hr Hp H Hn (vs_fst d _) (vs_snd d _) m Hm). }
  intros c1 v1 c2 v2 C1 C2 m Hm. specialize (G c1 v1 c2 v2 C1 C2 m Hm).
  rewrite (rsum_ext (d + 2) (fun k => lpsScalingJacV d entvar adjJ q m k * v2 k) (fun k => partial (fun v => lpsScaling d entvar adjJ q v m) v k * v2 k)); [exact G|].
  intros k Hk. rewrite lps_jacV_anywhere. reflexivity.
Qed.
Lemma visc_has_jac vp di q D rho u p : (di < d)%nat -> 0 < rho -> 0 < p -> is_state d q rho u p ->
  has_jac_cols (d + 2) d (viscousScaling d vp di) q D (viscScalingJac d vp di q D) (viscScalingJacDw d vp di q D).
Proof.
  intros Hd Hr Hp H. destruct (state_pos d q rho u p Hr Hp H) as (A & B). apply smooth_jac_cols. intros m Hm.
  refine (vs_viscousScaling (d + 2 + d * (d + 2)) (ccoord (d + 2) d) d vp di fst snd (q, D) Hd A B (cs_fst d _) _ m Hm). intros e He. apply cs_col. exact He.
Qed.
Lemma euler_has_jac dir q : physical d q -> has_jac (d + 2) (calcEulerFlux d dir) q (eulerFluxJac d dir q).
Proof.
  intros H. apply physical_iff in H. destruct H as (A & B). apply (smooth_jac (d + 2) (calcEulerFlux d dir)). intros m Hm.
  refine (vs_euler (d + 2) vcoord d (fun y => y) dir q _ (vs_id d q) m Hm). lra.
Qed.
Lemma cons_has_jac q rho u p : 0 < rho -> 0 < p -> describes d entvar q rho u p ->
  has_jac (d + 2) (calcConservativeVars d entvar) q (fun m k => partial (fun q => calcConservativeVars d entvar q m) q k).
Proof.
  intros Hr Hp H. destruct (describes_cons d entvar q rho u p Hr Hp H) as (E & _). apply (smooth_jac (d + 2) (calcConservativeVars d entvar)). intros m Hm.
  apply (vs_conv (d + 2) vcoord d entvar (fun y => y) q E (vs_id d q) m Hm).
Qed.
Lemma bc_has_jac b f dir q rho u p : 0 < rho -> 0 < p -> describes d entvar q rho u p -> (forall pos, b = Vortex pos -> d = 2%nat) ->
  has_jac (d + 2) (bcFlux d entvar b f dir) q (bdryJac (bcFlux d entvar b) f dir q).
Proof.
  intros Hr Hp H Hv. destruct (describes_cons d entvar q rho u p Hr Hp H) as (E & I). destruct (state_pos d _ rho u p Hr Hp I) as (A & B).
  pose proof (vs_conv (d + 2) vcoord d entvar (fun y => y) q E (vs_id d q)) as C.
  assert (A' : calcConservativeVars d entvar q 0%nat <> 0) by lra.
  apply (smooth_jac (d + 2) (bcFlux d entvar b f dir)). intros m Hm. destruct b as [pos| |qfs|qb|uc]; unfold bcFlux.
  - specialize (Hv pos eq_refl). clear - Hv A' C Hm. revert A' C Hm. rewrite Hv. intros A' C Hm. exact (vs_boundary (2 + 2) vcoord 2 dir (calcIsentropicVortexState (pos f)) _ q A' C m Hm).
  - refine (vs_slip (d + 2) vcoord d entvar dir (fun y => y) q _ (vs_id d q) m Hm). destruct entvar; [apply E; reflexivity|exact A'].
  - exact (vs_boundary (d + 2) vcoord d dir qfs _ q A' C m Hm).
  - cbv zeta. refine (vs_boundaryEC (d + 2) vcoord d dir (qb f) _ (fun y => calcConservativeVars d entvar y) q A B C _ m Hm).
    intros Z. assert (P : physical d (calcConservativeVars d entvar q)) by (exists rho, u, p; auto).
    pose proof (dqdw_definite d _ _ P Z (S d) ltac:(lia)) as Z1. pose proof (ent_last_neg d _ P) as Z2. cbv beta in Z1. lra.
  - exact (vs_control (d + 2) vcoord d dir (uc f) (fun y => calcConservativeVars d entvar y) q A' C m Hm).
Qed.
End State.

(** ** assembly *)
Lemma test4_r N ns W J v : test4 N ns W J v = test4r ns N N W J v. Proof. reflexivity. Qed.
Lemma test4_scatter N ns W v nr nc rows cols A J : (forall i, (i < nr)%nat -> (rows i < N)%nat) -> (forall j, (j < nc)%nat -> (cols j < N)%nat) ->
  test4 N ns W (scatter4 nr nc ns rows cols A J) v = test4 N ns W J v + test4r ns nr nc (fun i => W (rows i)) A (fun j => v (cols j)).
Proof.
  intros HR HC. unfold scatter4, test4r. apply (loop_read (fun J => test4 N ns W J v)). intros i t Hi.
  apply (loop_read (fun J => test4 N ns W J v)). intros m t' Hm. rewrite <- rsum_scal. apply (loop_read (fun J => test4 N ns W J v)). intros j t'' Hj.
  rewrite <- rsum_scal. apply (loop_read (fun J => test4 N ns W J v)). intros k t3 Hk. apply test4_add4; auto.
Qed.
(** a Jacobian in tested form *)
Lemma jacobian_tested n ns r u A W v : is_jacobian n ns r u A -> is_derive (fun s => test n ns W (r (fun j => axpy (u j) s (v j)))) 0 (test4 n ns W A v).
Proof.
  intros H. unfold test, dot, test4. apply is_derive_rsum. intros i Hi. apply is_derive_rsum. intros m Hm. apply is_derive_scal'. apply H; assumption.
Qed.
Lemma is_derive_lsum {A} (f : A -> R -> R) (g : A -> R) l : (forall a, In a l -> is_derive (f a) 0 (g a)) -> is_derive (fun s => lsum (fun a => f a s) l) 0 (lsum g l).
Proof.
  induction l as [|a l IH]; intros H; simpl; [apply (is_derive_const (K:=R_AbsRing) (V:=R_NormedModule) 0 0)|].
  apply (is_derive_plus (f a) (fun s => lsum (fun a => f a s) l)); [apply H; left; reflexivity|apply IH; intros; apply H; right; assumption].
Qed.
Lemma dplus (f g : R -> R) a b : is_derive f 0 a -> is_derive g 0 b -> is_derive (fun s => f s + g s) 0 (a + b).
Proof. intros A B. exact (is_derive_plus f g 0 a b A B). Qed.
Lemma dzero : is_derive (fun _ : R => 0) 0 0.
Proof. apply (is_derive_const (K:=R_AbsRing) (V:=R_NormedModule) 0 0). Qed.
Section Mesh.
Context (d N : nat) (entvar : bool) (lps : R) (visc : option viscosity) (ifc : option R) (M : mesh) (WF : well_formed N M).
Lemma jac_test u Jg W v : flowJacobian d entvar lps visc ifc M u = Some Jg ->
  test4 N (d + 2) W Jg v =
  lsum (fun e => lsum (fun g => test4 (e_n e) (d + 2) (fun i => W (e_glob e i)) (g e (fun i => u (e_glob e i))) (fun i => v (e_glob e i))) (domainGrads d entvar lps visc)) (els M) +
  fsum (dsbp ifc) M (fun f k => let n := fun c => f_nrm f k c * f_wt f k in let uL := u (lnode f k) in let uR := u (rnode f k) in
     rsum (d + 2) (fun m => (W (lnode f k) m - W (rnode f k) m) *
       (rsum (d + 2) (fun j => ifaceJacL d entvar (ic ifc) n uL uR m j * v (lnode f k) j) + rsum (d + 2) (fun j => ifaceJacR d entvar (ic ifc) n uL uR m j * v (rnode f k) j)))) +
  lsum (fun b => test4 (b_n b) (d + 2) (fun i => W (b_glob b i)) (boundaryGrad (b_nf b) (d + 2) 1 (b_idx b) (b_wt b) (b_nrm b) (bdryJac (b_flux b)) (fun i => u (b_glob b i))) (fun i => v (b_glob b i))) (bfs M).
Proof.
  destruct WF as (We & Wf & Wb). unfold flowJacobian. set (J1 := fold_left _ (els M) zero4). intros E.
  assert (E1 : test4 N (d + 2) W J1 v = lsum (fun e => lsum (fun g => test4 (e_n e) (d + 2) (fun i => W (e_glob e i)) (g e (fun i => u (e_glob e i))) (fun i => v (e_glob e i))) (domainGrads d entvar lps visc)) (els M)).
  { unfold J1. rewrite (fold_read (fun J => test4 N (d + 2) W J v) _ (fun e => lsum (fun g => test4 (e_n e) (d + 2) (fun i => W (e_glob e i)) (g e (fun i => u (e_glob e i))) (fun i => v (e_glob e i))) (domainGrads d entvar lps visc))).
    - rewrite test4_zero. ring.
    - intros t e He. apply (fold_read (fun J => test4 N (d + 2) W J v)). intros t' g _. rewrite test4_scatter by (apply We; exact He). reflexivity. }
  set (J2 := match ifc with None => J1 | Some c => _ end) in *.
  assert (E' : Jg = fold_left (fun J b => scatter4 (b_n b) (b_n b) (d + 2) (b_glob b) (b_glob b)
            (boundaryGrad (b_nf b) (d + 2) 1 (b_idx b) (b_wt b) (b_nrm b) (bdryJac (b_flux b)) (fun i => u (b_glob b i))) J) (bfs M) J2).
  { destruct ifc; destruct visc; try discriminate E; injection E as E; symmetry; exact E. }
  assert (E2 : test4 N (d + 2) W J2 v = test4 N (d + 2) W J1 v +
    fsum (dsbp ifc) M (fun f k => let n := fun c => f_nrm f k c * f_wt f k in let uL := u (lnode f k) in let uR := u (rnode f k) in
     rsum (d + 2) (fun m => (W (lnode f k) m - W (rnode f k) m) *
       (rsum (d + 2) (fun j => ifaceJacL d entvar (ic ifc) n uL uR m j * v (lnode f k) j) + rsum (d + 2) (fun j => ifaceJacR d entvar (ic ifc) n uL uR m j * v (rnode f k) j))))).
  { unfold J2, dsbp, ic, fsum. destruct ifc as [c|]; [|ring].
    apply (fold_read (fun J => test4 N (d + 2) W J v)). intros t f Hf. cbv zeta. destruct (Wf f Hf) as (A & B & C).
    rewrite !test4_scatter by assumption.
    pose proof (test44_r (f_nL f) (f_nR f) (d + 2) (fun i => W (f_globL f i)) (fun i => W (f_globR f i))
      (faceGrad (f_nf f) (d + 2) 1 (f_idxL f) (f_idxR f) (f_wt f) (f_nrm f) (ifaceJacL d entvar c) (ifaceJacR d entvar c) (fun i => u (f_globL f i)) (fun i => u (f_globR f i)))
      (fun i => v (f_globL f i)) (fun i => v (f_globR f i))) as T.
    rewrite face_grad_test in T by (intros k Hk; apply C; exact Hk).
    rewrite !Rplus_assoc. f_equal. rewrite <- Rplus_assoc. etransitivity; [symmetry; exact T|].
    apply rsum_ext. intros k Hk. unfold lnode, rnode.
    replace (fun k0 => f_nrm f k k0 * (1 * f_wt f k)) with (fun k0 => f_nrm f k k0 * f_wt f k) by (apply functional_extensionality; intros; ring). reflexivity. }
  rewrite E', (fold_read (fun J => test4 N (d + 2) W J v) _ (fun b => test4 (b_n b) (d + 2) (fun i => W (b_glob b i)) (boundaryGrad (b_nf b) (d + 2) 1 (b_idx b) (b_wt b) (b_nrm b) (bdryJac (b_flux b)) (fun i => u (b_glob b i))) (fun i => v (b_glob b i)))).
  - rewrite E2, E1. reflexivity.
  - intros t b Hb. destruct (Wb b Hb) as (A & B). rewrite test4_scatter by exact A. reflexivity.
Qed.

Context (u : nat -> vec) (g : gas) (VG : valid_gas d entvar N u g) (DF : differentiable d lps visc ifc M g) (VC : visc <> None -> entvar = false).
Context (BC : forall b, In b (bfs M) -> exists c, b_flux b = bcFlux d entvar c /\ forall pos, c = Vortex pos -> d = 2%nat).
Lemma domain_jac W v e : In e (els M) ->
  is_derive (fun s => lsum (fun integ => test (e_n e) (d + 2) W (integ e (fun i => axpy (u (e_glob e i)) s (v i)))) (domainIntegrators d entvar lps visc)) 0
    (lsum (fun gr => test4 (e_n e) (d + 2) W (gr e (fun i => u (e_glob e i))) v) (domainGrads d entvar lps visc)).
Proof.
  intros He. destruct DF as (D1 & D2 & D3 & _). destruct WF as (We & _ & _). specialize (We e He).
  assert (I1 : is_jacobian (e_n e) (d + 2) (irVector d entvar e) (fun i => u (e_glob e i)) (irGrad d entvar e (fun i => u (e_glob e i)))).
  { apply dyadic_is_jacobian. intros di i j Hdi Hij Hj. destruct (VG _ (We i ltac:(lia))) as (A & B & C). destruct (VG _ (We j Hj)) as (A' & B' & C').
    exact (ir_has_jac d entvar di _ _ _ _ _ _ _ _ Hdi A B A' B' C C' (D1 e He i j Hij Hj)). }
  assert (I2 : 0 < lps -> is_jacobian (e_n e) (d + 2) (lpsTerm d entvar lps e) (fun i => u (e_glob e i)) (lpsTermGrad d entvar lps e (fun i => u (e_glob e i)))).
  { intros Hl. apply (lps_is_jacobian (e_n e) (e_H e) (e_nv e) (e_V e) (d + 2) lps (e_adj e)).
    - intros i Hi. destruct (VG _ (We i Hi)) as (A & B & C). exact (conv_has_jac d entvar _ _ _ _ A B C).
    - intros i Hi. destruct (VG _ (We i Hi)) as (A & B & C). apply (lps_has_jac d entvar (e_adj e i) _ _ _ _ _ A B C). intros di Hdi. apply (D2 Hl e He i di Hi Hdi). }
  assert (I3 : forall vp, visc = Some vp -> is_jacobian (e_n e) (d + 2) (viscousTerm d vp e) (fun i => u (e_glob e i)) (viscousTermGrad d vp e (fun i => u (e_glob e i)))).
  { intros vp Hv. assert (EV : entvar = false) by (apply VC; rewrite Hv; discriminate).
    apply (viscous_is_jacobian (e_n e) d (e_H e) (e_Q e) (d + 2) 1 (e_adj e) (e_detJ e)).
    - intros i Hi. apply D3; [rewrite Hv; discriminate|exact He|exact Hi].
    - intros i Hi. destruct (VG _ (We i Hi)) as (A & B & C). rewrite EV in C. apply (conv_has_jac d false _ _ _ _ A B C).
    - intros di i Hdi Hi. destruct (VG _ (We i Hi)) as (A & B & C). rewrite EV in C. exact (visc_has_jac d vp di _ _ _ _ _ Hdi A B C). }
  assert (P1 := jacobian_tested _ _ _ _ _ W v I1).
  assert (P2 := fun H => jacobian_tested _ _ _ _ _ W v (I2 H)). assert (P3 := fun vp H => jacobian_tested _ _ _ _ _ W v (I3 vp H)).
  unfold domainIntegrators, domainGrads. destruct (Rlt_dec 0 lps) as [Hl|Hl]; destruct visc as [vp|]; cbn [app lsum fold_right].
  - exact (dplus _ _ _ _ P1 (dplus _ _ _ _ (P2 Hl) (dplus _ _ _ _ (P3 vp eq_refl) dzero))).
  - exact (dplus _ _ _ _ P1 (dplus _ _ _ _ (P2 Hl) dzero)).
  - exact (dplus _ _ _ _ P1 (dplus _ _ _ _ (P3 vp eq_refl) dzero)).
  - exact (dplus _ _ _ _ P1 dzero).
Qed.
Lemma flow_jacobian J : flowJacobian d entvar lps visc ifc M u = Some J -> is_derivative N (d + 2) (flowResidual d entvar lps visc ifc M) u J.
Proof.
  intros HJ v rs HR i m Hi Hm. rewrite <- (test4_point N (d + 2) J v i m Hi Hm).
  set (W := fun a b => delta a i * delta b m).
  apply (is_derive_ext (fun s => test N (d + 2) W (rs s))); [intros s; apply test_point; assumption|].
  rewrite (jac_test u J W v HJ).
  apply (is_derive_ext (fun s => 
    lsum (fun e => lsum (fun integ => test (e_n e) (d + 2) (fun i => W (e_glob e i)) (integ e (fun i => axpy (u (e_glob e i)) s (v (e_glob e i))))) (domainIntegrators d entvar lps visc)) (els M) +
    fsum (dsbp ifc) M (fun f k => dot (d + 2) (fun m => W (lnode f k) m - W (rnode f k) m) (ifaceFlux d entvar (ic ifc) (fun c => f_nrm f k c * f_wt f k) (axpy (u (lnode f k)) s (v (lnode f k))) (axpy (u (rnode f k)) s (v (rnode f k))))) +
    lsum (fun b => test (b_n b) (d + 2) (fun i => W (b_glob b i)) (boundaryVector (b_nf b) (d + 2) 1 (b_idx b) (b_wt b) (b_nrm b) (b_flux b) (fun i => axpy (u (b_glob b i)) s (v (b_glob b i))))) (bfs M))).
  { intros s. rewrite (flow_test d N entvar lps visc ifc M WF _ _ W (HR s)). f_equal. unfold bsum. apply lsum_ext. intros b Hb.
    destruct WF as (_ & _ & Wb). destruct (Wb b Hb) as (A & B). rewrite (boundary_test (b_n b) (b_nf b)) by exact B. rewrite Rmult_1_l. reflexivity. }
  refine (dplus _ _ _ _ (dplus _ _ _ _ _ _) _).
  - apply is_derive_lsum. intros e He. apply (domain_jac (fun i => W (e_glob e i)) (fun i => v (e_glob e i)) e He).
  - unfold fsum, dsbp, ic. destruct DF as (_ & _ & _ & D4). destruct WF as (_ & Wf & _). destruct ifc as [c|]; [|apply (is_derive_const (K:=R_AbsRing) (V:=R_NormedModule) 0 0)].
    apply is_derive_lsum. intros f Hf. destruct (Wf f Hf) as (A & B & C). apply is_derive_rsum. intros k Hk. cbv zeta. unfold dot. apply is_derive_rsum. intros m' Hm'. apply is_derive_scal'.
    destruct (C k Hk) as (C1 & C2 & _). destruct (VG _ (A _ C1)) as (A1 & A2 & A3). destruct (VG _ (B _ C2)) as (B1 & B2 & B3).
    destruct (D4 c eq_refl f Hf k Hk) as (O1 & O2).
    assert (HJ2 := iface_has_jac d entvar c (fun i => f_nrm f k i * f_wt f k) (u (lnode f k)) (u (rnode f k)) _ _ _ _ _ _ A1 A2 B1 B2 A3 B3 O1 O2).
    apply (HJ2 (fun s => axpy (u (lnode f k)) s (v (lnode f k))) (v (lnode f k)) (fun s => axpy (u (rnode f k)) s (v (rnode f k))) (v (rnode f k))); try apply curve_axpy. exact Hm'.
  - apply is_derive_lsum. intros b Hb. destruct WF as (_ & _ & Wb). destruct (Wb b Hb) as (A & B). destruct (BC b Hb) as (c & Ec & Hv).
    apply (jacobian_tested (b_n b) (d + 2) (boundaryVector (b_nf b) (d + 2) 1 (b_idx b) (b_wt b) (b_nrm b) (b_flux b)) (fun i => u (b_glob b i)) _ (fun i => W (b_glob b i)) (fun i => v (b_glob b i))).
    apply boundary_is_jacobian; [exact B|]. intros f Hf. destruct (VG _ (A _ (B f Hf))) as (A1 & A2 & A3). rewrite Ec. exact (bc_has_jac d entvar c f _ _ _ _ _ A1 A2 A3 Hv).
Qed.
End Mesh.
