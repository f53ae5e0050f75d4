(** Viscous boundary faces: tested forms and Jacobians (proof file). *)
From Coq Require Import Reals Arith Lia Lra List FunctionalExtensionality.
From Coquelicot Require Import Coquelicot.
From Verif Require Import Num Vec SbpSpec Sbp SbpProofs SbpProofs2 SbpProofs3 SbpMesh SbpMeshSpec SbpMeshProofs Euler EulerSpec EulerProofs NavierStokes
  SmoothCalc FluxSmooth FlowJacSpec FluxSmooth2 FlowJac FlowJacProofs ViscWall ViscWallSpec.
Import ListNotations.
Local Open Scope R_scope.

Section Wall.
Variables (n d ns : nat) (H : vec) (Q : nat -> mat) (adj : nat -> mat) (detJ : vec).
Variables (alpha : R) (nf : nat) (idx : nat -> nat) (wt : vec) (nrm : nat -> vec).
Variables (convert : vec -> vec) (convJac : vec -> mat).
Hypothesis Hidx : forall k, (k < nf)%nat -> (idx k < n)%nat.
Notation Qp di i j := (getQEntry d Q di i j (adj i) (adj j)).
Notation grad := (grad n d H Q adj detJ).
Notation G u i := (grad (fun j => convert (u j)) i).

Lemma wall_test W flux fluxDv u : test n ns W (wallVector n d ns H Q adj detJ alpha nf idx wt nrm convert flux fluxDv u) =
  rsum nf (fun k => wt k * (alpha * dot ns (W (idx k)) (flux k (nrm k) (detJ (idx k)) (u (idx k)) (G u (idx k)))
                            + rsum d (fun di => dot ns (grad W (idx k) di) (fluxDv k (nrm k) (u (idx k)) di)))).
Proof.
  unfold wallVector. rewrite (loop_read (test n ns W) nf _ (fun k => wt k * (alpha * dot ns (W (idx k)) (flux k (nrm k) (detJ (idx k)) (u (idx k)) (G u (idx k)))
                            + rsum d (fun di => dot ns (grad W (idx k) di) (fluxDv k (nrm k) (u (idx k)) di))))); [rewrite test_zero; ring|].
  intros k t Hk. cbv zeta. rewrite viscous_grad. set (i := idx k). set (D := G u i). set (F := fluxDv k (nrm k) (u i)).
  rewrite (loop_read (test n ns W) n _ (fun j => rsum d (fun di => rsum ns (fun s => W j s * (Qp di i j * (F di s * wt k * (1 / (H i * detJ i)))))))).
  - rewrite (loop_read (test n ns W) ns _ (fun s => W i s * (alpha * (flux k (nrm k) (detJ i) (u i) D s * wt k)))).
    + rewrite Rplus_assoc. f_equal. rewrite Rmult_plus_distr_l. f_equal.
      * unfold dot. rewrite <- !rsum_scal. apply rsum_ext. intros; ring.
      * rewrite <- rsum_scal. rewrite (rsum_swap n d). apply rsum_ext. intros di Hdi. rewrite (rsum_swap n ns). unfold dot. rewrite <- rsum_scal. apply rsum_ext. intros s Hs.
        change (grad W i di s) with (rsum n (fun j => Qp di i j * W j s) * (1 / (H i * detJ i))).
        rewrite (rsum_ext n _ (fun j => (Qp di i j * W j s) * (F di s * wt k * (1 / (H i * detJ i))))) by (intros; ring). rewrite rsum_scal_r. ring.
    + intros s t' Hs. apply test_add2; [apply Hidx; exact Hk|exact Hs].
  - intros j t' Hj. apply (loop_read (test n ns W)). intros di t'' Hdi. apply (loop_read (test n ns W)). intros s t3 Hs. apply test_add2; assumption.
Qed.
Lemma wall_grad_test W v jacState jacDw dvJac u :
  let dw := fun j m => rsum ns (fun k => convJac (u j) m k * v j k) in
  test4 n ns W (wallGrad n d ns H Q adj detJ nf idx wt nrm convert convJac jacState jacDw dvJac u) v =
  rsum nf (fun k => let i := idx k in let D := G u i in
    wt k * (rsum ns (fun m => W i m * (rsum ns (fun c => jacState k (nrm k) (detJ i) (u i) D m c * v i c) + rsum d (fun e => rsum ns (fun c => jacDw k (nrm k) (detJ i) (u i) D e m c * grad dw i e c))))
            + rsum d (fun di => rsum ns (fun m => grad W i di m * rsum ns (fun c => dvJac k (nrm k) (u i) di m c * v i c))))).
Proof.
  intros dw. unfold wallGrad. set (g := fun k => _ : R).
  rewrite (loop_read (fun A => test4 n ns W A v) nf _ g); [rewrite test4_zero; ring|].
  intros k t Hk. unfold g. cbv zeta. rewrite viscous_grad. set (i := idx k). assert (Hi : (i < n)%nat) by (apply Hidx; exact Hk). set (D := G u i).
  set (J := jacState k (nrm k) (detJ i) (u i) D). set (JD := jacDw k (nrm k) (detJ i) (u i) D). set (JV := dvJac k (nrm k) (u i)).
  rewrite (loop_read (fun A => test4 n ns W A v) n _ (fun j => rsum d (fun di => rsum ns (fun m => W j m * rsum ns (fun c => (wt k * (1 / (H i * detJ i)) * Qp di i j) * JV di m c * v i c))))).
  2:{ intros j t' Hj. apply (loop_read (fun A => test4 n ns W A v)). intros di t'' Hdi. exact (test4_states' n ns W v j i (fun sj si => wt k * (1 / (H i * detJ i)) * Qp di i j * JV di sj si) t'' Hj Hi). }
  rewrite (loop_read (fun A => test4 n ns W A v) n _ (fun j => rsum d (fun di => rsum ns (fun m => W i m * rsum ns (fun b => rsum ns (fun c => JD di m c * convJac (u j) c b) * (1 / (H i * detJ i) * Qp di i j * wt k) * v j b))))).
  2:{ intros j t' Hj. apply (loop_read (fun A => test4 n ns W A v)). intros di t'' Hdi. exact (test4_states n ns W v i j (fun a b => rsum ns (fun c => JD di a c * convJac (u j) c b) * (1 / (H i * detJ i) * Qp di i j * wt k)) t'' Hi Hj). }
  rewrite (test4_states n ns W v i i (fun s1 s2 => J s1 s2 * wt k)) by assumption.
  rewrite !Rplus_assoc. f_equal. rewrite <- Rplus_assoc. rewrite Rmult_plus_distr_l. f_equal.
  - rewrite (rsum_ext ns (fun m => W i m * (_ + _)) (fun m => W i m * rsum ns (fun c => J m c * v i c) + W i m * rsum d (fun e => rsum ns (fun c => JD e m c * grad dw i e c)))) by (intros; ring).
    rewrite rsum_plus, Rmult_plus_distr_l. f_equal.
    + rewrite <- rsum_scal. apply rsum_ext. intros m Hm. rewrite (rsum_ext ns _ (fun c => wt k * (J m c * v i c))) by (intros; ring). rewrite rsum_scal. ring.
    + rewrite (rsum_ext n _ (fun j => rsum ns (fun m => rsum d (fun di => wt k * W i m * rsum ns (fun c => JD di m c * (Qp di i j * dw j c * (1 / (H i * detJ i)))))))).
      * rewrite (rsum_swap n ns), <- rsum_scal. apply rsum_ext. intros m Hm. rewrite (rsum_swap n d).
        replace (wt k * (W i m * rsum d (fun e => rsum ns (fun c => JD e m c * grad dw i e c)))) with (wt k * W i m * rsum d (fun e => rsum ns (fun c => JD e m c * grad dw i e c))) by ring.
        rewrite <- rsum_scal. apply rsum_ext. intros e He. rewrite rsum_scal. f_equal. rewrite (rsum_swap n ns). apply rsum_ext. intros c Hc. rewrite rsum_scal. f_equal.
        unfold SbpProofs3.grad. rewrite rsum_scal_r. reflexivity.
      * intros j Hj. rewrite (rsum_swap d ns). apply rsum_ext. intros m Hm. apply rsum_ext. intros di Hdi.
        rewrite (rsum_ext ns _ (fun b => rsum ns (fun c => (1 / (H i * detJ i) * Qp di i j * wt k) * (JD di m c * (convJac (u j) c b * v j b))))).
        2:{ intros b Hb. rewrite rsum_scal. rewrite (rsum_ext ns (fun c => JD di m c * (convJac (u j) c b * v j b)) (fun c => JD di m c * convJac (u j) c b * v j b)) by (intros; ring). rewrite rsum_scal_r. ring. }
        rewrite (rsum_swap ns ns). rewrite <- !rsum_scal. apply rsum_ext. intros c Hc. rewrite !rsum_scal. fold (dw j c). ring.
  - rewrite (rsum_swap n d), <- rsum_scal. apply rsum_ext. intros di Hdi. rewrite (rsum_swap n ns), <- rsum_scal. apply rsum_ext. intros m Hm.
    change (grad W i di m) with (rsum n (fun j => Qp di i j * W j m) * (1 / (H i * detJ i))).
    rewrite (rsum_ext n _ (fun j => (Qp di i j * W j m) * (wt k * (1 / (H i * detJ i)) * rsum ns (fun c => JV di m c * v i c)))).
    + rewrite rsum_scal_r. ring.
    + intros j Hj. rewrite (rsum_ext ns _ (fun c => (wt k * (1 / (H i * detJ i)) * Qp di i j) * (JV di m c * v i c))) by (intros; ring). rewrite rsum_scal. ring.
Qed.
(** the discrete derivatives move along a curve of states *)
Lemma grad_curve u v i : (forall j, (j < n)%nat -> has_jac ns convert (u j) (convJac (u j))) ->
  let dw := fun j m => rsum ns (fun k => convJac (u j) m k * v j k) in
  (fun s => grad (fun j => convert (axpy (u j) s (v j))) i) 0 = G u i /\
  (forall e, curve ns (fun s => grad (fun j => convert (axpy (u j) s (v j))) i e) (G u i e) (grad dw i e)).
Proof.
  intros HC dw.
  assert (E0 : grad (fun j => convert (axpy (u j) 0 (v j))) i = G u i).
  { apply functional_extensionality; intros e; apply functional_extensionality; intros k. unfold SbpProofs3.grad. f_equal. apply rsum_ext. intros j Hj. f_equal. f_equal.
    apply functional_extensionality; intros x; unfold axpy; ring. }
  split; [exact E0|]. intros e. split; [rewrite E0; reflexivity|].
  intros k Hk. unfold SbpProofs3.grad.
  apply (is_derive_ext (fun s => (1 / (H i * detJ i)) * rsum n (fun j => Qp e i j * convert (axpy (u j) s (v j)) k))); [rring|].
  replace (rsum n (fun j => Qp e i j * dw j k) * (1 / (H i * detJ i))) with ((1 / (H i * detJ i)) * rsum n (fun j => Qp e i j * dw j k)) by ring.
  apply is_derive_scal'. apply is_derive_rsum. intros j Hj. apply is_derive_scal'.
  apply (HC j Hj (fun s => axpy (u j) s (v j)) (v j) (curve_axpy ns (u j) (v j)) k Hk).
Qed.
Lemma wall_is_jacobian flux fluxDv jacState jacDw dvJac u : alpha = 1 ->
  (forall j, (j < n)%nat -> has_jac ns convert (u j) (convJac (u j))) ->
  (forall k, (k < nf)%nat -> has_jac_cols ns d (flux k (nrm k) (detJ (idx k))) (u (idx k)) (G u (idx k))
       (jacState k (nrm k) (detJ (idx k)) (u (idx k)) (G u (idx k))) (jacDw k (nrm k) (detJ (idx k)) (u (idx k)) (G u (idx k)))) ->
  (forall k di, (k < nf)%nat -> (di < d)%nat -> has_jac ns (fun q => fluxDv k (nrm k) q di) (u (idx k)) (dvJac k (nrm k) (u (idx k)) di)) ->
  is_jacobian n ns (wallVector n d ns H Q adj detJ alpha nf idx wt nrm convert flux fluxDv) u
    (wallGrad n d ns H Q adj detJ nf idx wt nrm convert convJac jacState jacDw dvJac u).
Proof.
  intros Ha HC HS HV. apply jacobian_test. intros W v. rewrite wall_grad_test. cbv zeta.
  apply (is_derive_ext (fun s => rsum nf (fun k => wt k * (dot ns (W (idx k)) (flux k (nrm k) (detJ (idx k)) (axpy (u (idx k)) s (v (idx k))) (grad (fun j => convert (axpy (u j) s (v j))) (idx k)))
                            + rsum d (fun di => dot ns (grad W (idx k) di) (fluxDv k (nrm k) (axpy (u (idx k)) s (v (idx k))) di)))))).
  { intros s. rewrite wall_test, Ha. apply rsum_ext. intros k Hk. ring. }
  apply is_derive_rsum. intros k Hk. apply is_derive_scal'. destruct (grad_curve u v (idx k) HC) as (E0 & EC). refine (dplus _ _ _ _ _ _).
  - apply is_derive_rsum. intros m Hm. apply is_derive_scal'.
    apply (HS k Hk (fun s => axpy (u (idx k)) s (v (idx k))) (v (idx k)) (fun s => grad (fun j => convert (axpy (u j) s (v j))) (idx k)) (grad (fun j m => rsum ns (fun k => convJac (u j) m k * v j k)) (idx k)) (curve_axpy ns _ _) E0); [|exact Hm].
    intros e He. apply EC.
  - apply is_derive_rsum. intros di Hdi. apply is_derive_rsum. intros m Hm. apply is_derive_scal'.
    apply (HV k di Hk Hdi (fun s => axpy (u (idx k)) s (v (idx k))) (v (idx k)) (curve_axpy ns _ _) m Hm).
Qed.
(** ** functionals *)
Lemma wall_functional_test W gState gDw u :
  let dw := fun j m => rsum ns (fun k => convJac (u j) m k * W j k) in
  test n ns W (wallFunctionalGrad n d ns H Q adj detJ alpha nf idx wt nrm convert convJac gState gDw u) =
  rsum nf (fun k => let i := idx k in let D := G u i in
     wt k * (alpha * dot ns (gState k (nrm k) (detJ i) (u i) D) (W i) + rsum d (fun e => dot ns (gDw k (nrm k) (detJ i) (u i) D e) (grad dw i e)))).
Proof.
  intros dw. unfold wallFunctionalGrad. set (g := fun k => _ : R). rewrite (loop_read (test n ns W) nf _ g); [rewrite test_zero; ring|].
  intros k t Hk. unfold g. cbv zeta. rewrite viscous_grad. set (i := idx k). assert (Hi : (i < n)%nat) by (apply Hidx; exact Hk). set (D := G u i).
  set (gs := gState k (nrm k) (detJ i) (u i) D). set (gd := gDw k (nrm k) (detJ i) (u i) D).
  rewrite (loop_read (test n ns W) n _ (fun j => rsum d (fun e => rsum ns (fun a => rsum ns (fun b => W j b * (convJac (u j) a b * Qp e i j * (gd e a * wt k * (1 / (H i * detJ i))))))))).
  - rewrite (loop_read (test n ns W) ns _ (fun s => W i s * (alpha * (gs s * wt k)))).
    + rewrite Rplus_assoc. f_equal. rewrite Rmult_plus_distr_l. f_equal.
      * unfold dot. rewrite <- !rsum_scal. apply rsum_ext. intros; ring.
      * rewrite (rsum_swap n d), <- rsum_scal. apply rsum_ext. intros e He. rewrite (rsum_swap n ns). unfold dot. rewrite <- rsum_scal. apply rsum_ext. intros a Ha.
        change (grad dw i e a) with (rsum n (fun j => Qp e i j * dw j a) * (1 / (H i * detJ i))).
        rewrite (rsum_ext n _ (fun j => (Qp e i j * dw j a) * (gd e a * wt k * (1 / (H i * detJ i))))); [rewrite rsum_scal_r; ring|].
        intros j Hj. unfold dw. rewrite <- rsum_scal, <- rsum_scal_r. apply rsum_ext. intros; ring.
    + intros s t' Hs. apply test_add2; assumption.
  - intros j t' Hj. apply (loop_read (test n ns W)). intros e t'' He. apply (loop_read (test n ns W)). intros a t3 Ha. apply (loop_read (test n ns W)). intros b t4 Hb.
    rewrite test_add2 by assumption. reflexivity.
Qed.
Lemma wall_functional_derive fn gState gDw u v : alpha = 1 -> (0 < ns)%nat ->
  (forall j, (j < n)%nat -> has_jac ns convert (u j) (convJac (u j))) ->
  (forall k, (k < nf)%nat -> has_jac_cols ns d (fun q D _ => fn k (nrm k) (detJ (idx k)) q D) (u (idx k)) (G u (idx k))
       (fun _ c => gState k (nrm k) (detJ (idx k)) (u (idx k)) (G u (idx k)) c) (fun e _ c => gDw k (nrm k) (detJ (idx k)) (u (idx k)) (G u (idx k)) e c)) ->
  is_derive (fun s => wallEnergy n d H Q adj detJ alpha nf idx wt nrm convert fn (fun j => axpy (u j) s (v j))) 0
    (test n ns v (wallFunctionalGrad n d ns H Q adj detJ alpha nf idx wt nrm convert convJac gState gDw u)).
Proof.
  intros Ha Hns HC HS. rewrite wall_functional_test, Ha. cbv zeta. unfold wallEnergy.
  apply (is_derive_ext (fun s => rsum nf (fun k => wt k * fn k (nrm k) (detJ (idx k)) (axpy (u (idx k)) s (v (idx k))) (grad (fun j => convert (axpy (u j) s (v j))) (idx k))))).
  { intros s. apply rsum_ext. intros k Hk. cbv zeta. rewrite viscous_grad. ring. }
  apply is_derive_rsum. intros k Hk. apply is_derive_scal'. destruct (grad_curve u v (idx k) HC) as (E0 & EC). rewrite Rmult_1_l. unfold dot.
  apply (HS k Hk (fun s => axpy (u (idx k)) s (v (idx k))) (v (idx k)) (fun s => grad (fun j => convert (axpy (u j) s (v j))) (idx k)) (grad (fun j m => rsum ns (fun k => convJac (u j) m k * v j k)) (idx k)) (curve_axpy ns _ _) E0 (fun e He => EC e) 0%nat Hns).
Qed.
End Wall.

(** ** the fluxes are smooth *)
Section Smooth.
Context {X : Type} (N : nat) (pi : nat -> X -> R) (d : nat).
Notation sm := (smooth N pi).
Notation vs := (vs N pi d).
Context (vp : viscosity) (q : X -> vec) (D : X -> nat -> vec) (x : X) (H0 : 0 < q x 0%nat) (Hp : 0 < pressure d (q x)) (Sq : vs q x)
  (SD : forall e, (e < d)%nat -> vs (fun y => D y e) x).
Lemma flat_entry (Z : nat -> vec) e k : (k < d + 2)%nat -> flatten d Z (e * (d + 2) + k)%nat = Z e k.
Proof. intros Hk. unfold flatten. rewrite Nat.add_comm, Nat.div_add, Nat.mod_add, Nat.div_small, Nat.mod_small by lia. reflexivity. Qed.
Lemma sm_D e k : (e < d)%nat -> (k < d + 2)%nat -> sm (fun y => flatten d (D y) (e * (d + 2) + k)%nat) x.
Proof. intros He Hk. apply (smooth_ext N pi (fun y => D y e k)); [intros y; rewrite flat_entry by exact Hk; reflexivity|apply (SD e He k Hk)]. Qed.
Lemma vs_adiabatic dir : vs (fun y => calcAdiabaticWallFlux d dir (muRe d vp (q y)) (v_Pr vp) (q y) (flatten d (D y))) x.
Proof.
  unfold calcAdiabaticWallFlux. cbv zeta.
  apply (vs_accum N pi d d (fun e y acc => accum d (fun d2 acc => applyCijMatrix d e d2 (muRe d vp (q y) * dir e) (v_Pr vp) (q y)
     (fun k => if Nat.eqb k (d + 1) then flatten d (D y) (d2 * (d + 2) + k)%nat - rsum d (fun e => flatten d (D y) (e * (d + 2) + d + 1)%nat * NavierStokes.nrm d dir e) * NavierStokes.nrm d dir d2
               else flatten d (D y) (d2 * (d + 2) + k)%nat) acc) acc) (fun _ => zeros)); [intros i Hi; apply sm_const|].
  intros e acc He Ha.
  apply (vs_accum N pi d d (fun d2 y acc => applyCijMatrix d e d2 (muRe d vp (q y) * dir e) (v_Pr vp) (q y)
     (fun k => if Nat.eqb k (d + 1) then flatten d (D y) (d2 * (d + 2) + k)%nat - rsum d (fun e => flatten d (D y) (e * (d + 2) + d + 1)%nat * NavierStokes.nrm d dir e) * NavierStokes.nrm d dir d2
               else flatten d (D y) (d2 * (d + 2) + k)%nat) acc) acc x Ha).
  intros d2 acc' H2 Ha'. apply vs_Cij; try assumption; [lra|apply sm_mult; [apply sm_muRe; assumption|apply sm_const]|].
  intros k Hk. destruct (Nat.eqb k (d + 1)); [|apply sm_D; assumption]. apply sm_minus; [apply sm_D; assumption|]. apply sm_mult; [|apply sm_const].
  apply (sm_rsum N pi d (fun e y => flatten d (D y) (e * (d + 2) + d + 1)%nat * NavierStokes.nrm d dir e)). intros e' He'. apply sm_mult; [|apply sm_const].
  replace (e' * (d + 2) + d + 1)%nat with (e' * (d + 2) + (d + 1))%nat by lia. apply sm_D; lia.
Qed.
Lemma vs_penalty dir jac qfs : qfs 0%nat <> 0 -> vs (fun y => calcNoSlipPenaltyFlux d dir jac (muRe d vp (q y)) (v_Pr vp) qfs (q y)) x.
Proof.
  intros HF. unfold calcNoSlipPenaltyFlux, penalty. cbv zeta.
  assert (A : vs (fun y => accum d (fun e acc => applyCijMatrix d e e (muRe d vp (q y)) (v_Pr vp) qfs (mk d 0 (fun e => q y (S e) / pressure d (q y)) 0) acc) zeros) x).
  { apply (vs_accum N pi d d (fun e y acc => applyCijMatrix d e e (muRe d vp (q y)) (v_Pr vp) qfs (mk d 0 (fun e => q y (S e) / pressure d (q y)) 0) acc) (fun _ => zeros)); [intros i Hi; apply sm_const|].
    intros e acc He Ha. apply (vs_Cij N pi d e e (fun y => muRe d vp (q y)) (v_Pr vp) (fun _ => qfs)); try assumption; [apply sm_muRe; assumption|apply vs_const|].
    apply vs_mk; [apply sm_const| |apply sm_const]. intros i Hi. apply sm_div; [lra|apply (vs_S N pi d q x i Hi Sq)|apply sm_pressure; [lra|exact Sq]]. }
  apply vs_mk; [apply (A 0%nat); lia| |apply sm_const]. intros i Hi. apply sm_mult; [apply (A (S i)); lia|apply sm_const].
Qed.
Lemma vs_tangential dir : vs (fun y => tangentialFlux d vp dir (q y) (D y)) x.
Proof.
  intros s Hs. unfold tangentialFlux.
  apply (sm_rsum N pi d (fun e y => applyViscousScaling d e (muRe d vp (q y)) (v_Pr vp) (q y) (flatten d (setZeroNormalDeriv d dir (flatten d (D y)))) s * dir e)). intros e He.
  apply sm_mult; [|apply sm_const].
  refine (vs_viscousScaling N pi d vp e q (fun y => setZeroNormalDeriv d dir (flatten d (D y))) x He H0 Hp Sq _ s Hs).
  intros e' He' k Hk. unfold setZeroNormalDeriv. cbv zeta. rewrite (Nat.add_comm k). apply sm_minus; [apply sm_D; assumption|]. apply sm_mult; [apply sm_const|].
  apply (sm_rsum N pi d (fun j y => flatten d (D y) (k + j * (d + 2))%nat * NavierStokes.nrm d dir j)). intros j Hj. apply sm_mult; [|apply sm_const]. rewrite Nat.add_comm. apply sm_D; assumption.
Qed.
Lemma vs_wallFlux w k dir jac : wall_ok w -> vs (fun y => wallFlux d vp w k dir jac (q y) (D y)) x.
Proof.
  intros HW. assert (N0 : q x 0%nat <> 0) by lra. intros s Hs.
  pose proof (vs_slip N pi d false dir q x N0 Sq s Hs) as A. pose proof (vs_adiabatic dir s Hs) as B. pose proof (vs_tangential dir s Hs) as C.
  destruct w as [qfs| |qex|qfs c scale]; unfold wallFlux.
  - pose proof (vs_penalty dir jac qfs HW s Hs) as E. unfold noSlipFlux. apply sm_plus; [apply sm_minus; assumption|exact E].
  - unfold viscousSlipFlux. apply sm_minus; assumption.
  - unfold viscousExactFlux. apply sm_minus; [|assumption]. exact (vs_boundary N pi d dir (qex k) q x N0 Sq s Hs).
  - pose proof (vs_penalty dir jac qfs HW s Hs) as E. unfold viscousControlFlux. apply sm_plus; [exact (vs_control N pi d dir (c * scale k) q x N0 Sq s Hs)|].
    destruct (Rlt_dec (scale k) (1 / 10000)); [|apply sm_const]. apply sm_plus; [apply sm_opp; assumption|exact E].
Qed.
End Smooth.

Lemma wall_has_jac d vp w k dir jac q D rho u p : 0 < rho -> 0 < p -> is_state d q rho u p -> wall_ok w ->
  has_jac_cols (d + 2) d (wallFlux d vp w k dir jac) q D (wallJacState d vp w k dir jac q D) (wallJacDw d vp w k dir jac q D).
Proof.
  intros Hr Hp H HW. destruct (state_pos d q rho u p Hr Hp H) as (A & B). apply smooth_jac_cols. intros m Hm.
  refine (vs_wallFlux (d + 2 + d * (d + 2)) (ccoord (d + 2) d) d vp fst snd (q, D) A B (cs_fst d _) _ w k dir jac HW m Hm). intros e He. apply cs_col. exact He.
Qed.
Lemma noDv_has_jac ns k dir q di : has_jac ns (fun q => noDv k dir q di) q (noDvJac k dir q di).
Proof.
  intros c v Hc m Hm. unfold noDv, noDvJac. rewrite (rsum_ext ns _ (fun _ => 0)) by (intros; ring). rewrite rsum_0. exact dzero.
Qed.

(** ** the mesh *)
Section Mesh.
Context (d N : nat) (lps : R) (vp : viscosity) (M : mesh) (walls : list vface) (WF : well_formed N M) (WW : forall f, In f walls -> wall_fits N f).
Context (u : nat -> vec) (g : gas) (VG : valid_gas d false N u g) (DF : differentiable d lps (Some vp) None M g).
Context (BC : forall b, In b (bfs M) -> exists c, b_flux b = bcFlux d false c /\ forall pos, c = Vortex pos -> d = 2%nat).
Lemma face_jac f : In f walls -> is_jacobian (e_n (w_el f)) (d + 2) (faceResidual d vp f) (fun i => u (e_glob (w_el f) i)) (faceJacobian d vp f (fun i => u (e_glob (w_el f) i))).
Proof.
  intros Hf. destruct (WW f Hf) as (A & B & C).
  apply (wall_is_jacobian (e_n (w_el f)) d (d + 2) (e_H (w_el f)) (e_Q (w_el f)) (e_adj (w_el f)) (e_detJ (w_el f)) 1 (w_nf f) (w_idx f) (w_wt f) (w_nrm f) (calcEntropyVars d false) (viscConvJac d)); try assumption.
  - reflexivity.
  - intros j Hj. destruct (VG _ (A j Hj)) as (P1 & P2 & P3). apply (conv_has_jac d false _ _ _ _ P1 P2 P3).
  - intros k Hk. destruct (VG _ (A _ (B k Hk))) as (P1 & P2 & P3). exact (wall_has_jac d vp (w_bc f) k _ _ _ _ _ _ _ P1 P2 P3 C).
  - intros k di Hk Hdi. apply noDv_has_jac.
Qed.
Lemma test_scatter' W n ns glob r R0 : (forall i, (i < n)%nat -> (glob i < N)%nat) -> test N ns W (scatter n ns glob r R0) = test N ns W R0 + test n ns (fun i => W (glob i)) r.
Proof.
  intros HG. unfold scatter. unfold test at 3. apply (loop_read (test N ns W)). intros i t Hi. unfold dot. apply (loop_read (test N ns W)). intros m t' Hm. apply test_add2; [apply HG; exact Hi|exact Hm].
Qed.
Lemma viscous_residual_test W w r : viscousFlowResidual d lps vp M walls w = Some r -> exists r0, flowResidual d false lps (Some vp) None M w = Some r0 /\
  test N (d + 2) W r = test N (d + 2) W r0 + lsum (fun f => test (e_n (w_el f)) (d + 2) (fun i => W (e_glob (w_el f) i)) (faceResidual d vp f (fun i => w (e_glob (w_el f) i)))) walls.
Proof.
  unfold viscousFlowResidual. destruct (flowResidual d false lps (Some vp) None M w) as [r0|]; [|discriminate]. intros E. injection E as <-. exists r0. split; [reflexivity|].
  apply (fold_read (test N (d + 2) W)). intros t f Hf. destruct (WW f Hf) as (A & _). apply test_scatter'. exact A.
Qed.
Lemma viscous_jacobian J : viscousFlowJacobian d lps vp M walls u = Some J -> is_derivative N (d + 2) (viscousFlowResidual d lps vp M walls) u J.
Proof.
  unfold viscousFlowJacobian. destruct (flowJacobian d false lps (Some vp) None M u) as [J0|] eqn:EJ; [|discriminate]. intros E. injection E as <-.
  intros v rs HR i m Hi Hm. rewrite <- (test4_point N (d + 2) _ v i m Hi Hm). set (W := fun a b => delta a i * delta b m).
  rewrite (fold_read (fun J => test4 N (d + 2) W J v) _ (fun f => test4 (e_n (w_el f)) (d + 2) (fun i => W (e_glob (w_el f) i)) (faceJacobian d vp f (fun i => u (e_glob (w_el f) i))) (fun i => v (e_glob (w_el f) i)))).
  2:{ intros t f Hf. destruct (WW f Hf) as (A & _). rewrite test4_scatter by exact A. reflexivity. }
  apply (is_derive_ext (fun s => test N (d + 2) W (rs s))); [intros s; apply test_point; assumption|].
  assert (R0 : forall s, exists r0, flowResidual d false lps (Some vp) None M (fun j => axpy (u j) s (v j)) = Some r0).
  { intros s. destruct (viscous_residual_test W _ _ (HR s)) as (r0 & E0 & _). exists r0. exact E0. }
  set (r0 := fun s => match flowResidual d false lps (Some vp) None M (fun j => axpy (u j) s (v j)) with Some r => r | None => fun _ _ => 0 end).
  assert (HR0 : forall s, flowResidual d false lps (Some vp) None M (fun j => axpy (u j) s (v j)) = Some (r0 s)).
  { intros s. unfold r0. destruct (R0 s) as (r & ->). reflexivity. }
  apply (is_derive_ext (fun s => test N (d + 2) W (r0 s) + lsum (fun f => test (e_n (w_el f)) (d + 2) (fun i => W (e_glob (w_el f) i)) (faceResidual d vp f (fun i => axpy (u (e_glob (w_el f) i)) s (v (e_glob (w_el f) i))))) walls)).
  { intros s. destruct (viscous_residual_test W _ _ (HR s)) as (r1 & E1 & ->). rewrite HR0 in E1. injection E1 as <-. reflexivity. }
  refine (dplus _ _ _ _ _ _).
  - pose proof (flow_jacobian d N false lps (Some vp) None M WF u g VG DF (fun _ => eq_refl) BC J0 EJ v r0 HR0 i m Hi Hm) as FJ.
    rewrite <- (test4_point N (d + 2) J0 v i m Hi Hm) in FJ. apply (is_derive_ext (fun s => r0 s i m)); [|exact FJ]. intros s. symmetry. apply test_point; assumption.
  - apply is_derive_lsum. intros f Hf. apply (jacobian_tested _ _ (faceResidual d vp f) (fun i => u (e_glob (w_el f) i)) _ (fun i => W (e_glob (w_el f) i)) (fun i => v (e_glob (w_el f) i)) (face_jac f Hf)).
Qed.
End Mesh.
