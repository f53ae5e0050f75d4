(** Free-stream preservation, the entropy-variable form, affine elements, a sample mesh. *)
From Coq Require Import Reals Arith Lra Lia Psatz Bool List FunctionalExtensionality.
From Coquelicot Require Import Coquelicot.
From Verif Require Import Num Vec Euler EulerSpec EulerProofs IsmailRoeProofs FluxProofs BoundaryProofs NavierStokes NavierStokesProofs
  Sbp SbpSpec SbpProofs SbpProofs2 SbpProofs3 SbpMesh SbpMeshSpec SbpMeshProofs.
Import ListNotations.
Local Open Scope R_scope.

Lemma cij_zero d i j mu Pr q v acc : (i < d)%nat -> (j < d)%nat -> (forall k, (k < d + 2)%nat -> v k = 0) -> (forall k, (k < d + 2)%nat -> acc k = 0) ->
  forall k, (k < d + 2)%nat -> applyCijMatrix d i j mu Pr q v acc k = 0.
Proof.
  intros Hi Hj Hv Ha. unfold applyCijMatrix. cbv zeta.
  assert (V0 : forall k, (k <= d)%nat -> v (S k) = 0) by (intros; apply Hv; lia).
  assert (A0 : forall k, (k <= d)%nat -> acc (S k) = 0) by (intros; apply Ha; lia).
  destruct (Nat.eqb i j).
  - apply (state_ind d).
    + rewrite mk_0. apply Ha. lia.
    + intros k Hk. rewrite mk_S by exact Hk. rewrite (V0 k), (V0 d), (A0 k), (V0 i) by lia. destruct (Nat.eqb k i); unfold Rdiv; ring.
    + rewrite mk_E. rewrite (V0 d), (A0 d), (V0 i) by lia. rewrite (rsum_ext d _ (fun _ => 0)); [rewrite rsum_0; unfold Rdiv; ring|].
      intros k Hk. rewrite (V0 k) by lia. ring.
  - apply (state_ind d).
    + rewrite mk_0. apply Ha. lia.
    + intros k Hk. rewrite mk_S by exact Hk. rewrite (V0 d), (A0 k), (V0 i), (V0 j) by lia. destruct (Nat.eqb k i), (Nat.eqb k j); unfold Rdiv; ring.
    + rewrite mk_E. rewrite (V0 d), (A0 d), (V0 i), (V0 j) by lia. unfold Rdiv; ring.
Qed.
Lemma viscous_zero d e mu Pr q Dw : (e < d)%nat -> (forall j k, (j < d)%nat -> (k < d + 2)%nat -> col d j Dw k = 0) ->
  forall k, (k < d + 2)%nat -> applyViscousScaling d e mu Pr q Dw k = 0.
Proof.
  intros He HD. unfold applyViscousScaling.
  assert (G : forall n, (n <= d)%nat -> forall k, (k < d + 2)%nat -> accum n (fun d2 acc => applyCijMatrix d e d2 mu Pr q (col d d2 Dw) acc) zeros k = 0).
  { induction n as [|n IH]; intros Hn k Hk; [reflexivity|]. simpl. apply cij_zero; try assumption; try lia. - intros; apply HD; lia. - intros; apply IH; lia. }
  apply G. lia.
Qed.
Lemma lps_scaling_zero d adjJ q m : (m < d + 2)%nat -> applyLPSScaling d adjJ q (fun _ => 0) m = 0.
Proof.
  intros Hm. unfold applyLPSScaling. cbv zeta. replace (calcdQdWProduct d q (fun _ => 0) m) with 0; [ring|]. symmetry. revert m Hm. unfold calcdQdWProduct. cbv zeta.
  apply (state_ind d).
  - rewrite mk_0. rewrite (rsum_ext (d + 2) _ (fun _ => 0)); [apply rsum_0|intros; ring].
  - intros k Hk. rewrite mk_S by exact Hk. rewrite (rsum_ext (d + 2) _ (fun _ => 0)); [rewrite rsum_0; ring|intros; ring].
  - rewrite mk_E. rewrite (rsum_ext d _ (fun _ => 0)); [rewrite rsum_0; ring|intros; ring].
Qed.

Section FreeStream.
Variables (d N : nat) (lps : R) (visc : option viscosity) (ifc : option R) (M : mesh) (q : vec).
Hypothesis WF : well_formed N M.
Variables (rho p : R) (v : vec).
Hypothesis Hr : 0 < rho.
Hypothesis Hp : 0 < p.
Hypothesis Hq : is_state d q rho v p.
Notation F di m := (calcIsmailRoeFlux d di q q m).
Lemma euler_combination n f : euler_flux d n rho v p f -> forall m, (m < d + 2)%nat -> f m = rsum d (fun di => n di * F di m).
Proof.
  intros Hf m Hm. rewrite <- (face_combination d n q q m Hm).
  pose proof (face_consistent d n q q rho v p Hr Hp Hq Hq) as (A & B & C). destruct Hf as (A' & B' & C'). revert m Hm. apply (state_ind d); congruence || (intros; rewrite B, B' by assumption; reflexivity).
Qed.
Lemma free_stream Rg : gcl d M -> divergence_theorem d (dsbp ifc) M -> positive_mesh M -> proj_kills_constants M ->
  (forall b k, In b (bfs M) -> (k < b_nf b)%nat -> euler_flux d (b_nrm b k) rho v p (b_flux b k (b_nrm b k) q)) ->
  flowResidual d false lps visc ifc M (fun _ => q) = Some Rg ->
  forall i m, (i < N)%nat -> (m < d + 2)%nat -> Rg i m = 0.
Proof.
  intros HG HD HP HK HB ER i0 m0 Hi0 Hm0. rewrite <- (test_point N (d + 2) Rg i0 m0 Hi0 Hm0).
  set (W := fun a b : nat => delta a i0 * delta b m0). rewrite (flow_test d N false lps visc ifc M WF (fun _ => q) Rg W ER).
  assert (Ee : lsum (fun e => lsum (fun integ => test (e_n e) (d + 2) (fun i => W (e_glob e i)) (integ e (fun i => q))) (domainIntegrators d false lps visc)) (els M) =
     - rsum (d + 2) (fun m => rsum d (fun di => F di m * lsum (fun e => rsum (e_n e) (fun i => 2 * getSymEntry d (e_Q e) di i (e_adj e i) * W (e_glob e i) m)) (els M)))).
  { transitivity (lsum (fun e => (-1) * rsum (d + 2) (fun m => rsum d (fun di => F di m * rsum (e_n e) (fun i => 2 * getSymEntry d (e_Q e) di i (e_adj e i) * W (e_glob e i) m)))) (els M)).
    - apply lsum_ext. intros e He.
      assert (EI : test (e_n e) (d + 2) (fun i => W (e_glob e i)) (irVector d false e (fun _ => q)) =
        -1 * rsum (d + 2) (fun m => rsum d (fun di => F di m * rsum (e_n e) (fun i => 2 * getSymEntry d (e_Q e) di i (e_adj e i) * W (e_glob e i) m)))).
      { unfold irVector, test, dot.
        rewrite (rsum_ext (e_n e) _ (fun i => rsum (d + 2) (fun m => rsum d (fun di => -1 * (F di m * (2 * getSymEntry d (e_Q e) di i (e_adj e i) * W (e_glob e i) m)))))).
        - rewrite (rsum_swap (e_n e) (d + 2)), <- rsum_scal. apply rsum_ext. intros m Hm. rewrite (rsum_swap (e_n e) d), <- rsum_scal. apply rsum_ext. intros di Hdi. rewrite !rsum_scal. reflexivity.
        - intros i Hi. apply rsum_ext. intros m Hm. rewrite (dyadic_uniform (e_n e) d (e_Q e) (d + 2) 1 (e_adj e) (fun di i Hdi Hi => HG e He di i Hdi Hi)) by assumption.
          unfold irFlux. rewrite <- !rsum_scal. apply rsum_ext. intros; ring. }
      assert (EL : test (e_n e) (d + 2) (fun i => W (e_glob e i)) (lpsTerm d false lps e (fun _ => q)) = 0).
      { unfold lpsTerm. rewrite lps_test. rewrite (rsum_ext (e_n e) _ (fun _ => 0)); [rewrite rsum_0; ring|]. intros j Hj.
        replace (Pw (e_n e) (e_H e) (e_nv e) (e_V e) (fun _ => calcEntropyVars d false q) j) with (fun _ : nat => 0).
        - unfold dot, lpsScaling. rewrite (rsum_ext (d + 2) _ (fun _ => 0)); [rewrite rsum_0; ring|]. intros m Hm. rewrite lps_scaling_zero by exact Hm. ring.
        - apply functional_extensionality. intros m. unfold Pw. rewrite (rsum_scal_r (e_n e) (calcEntropyVars d false q m) (fun j0 => getProjOperatorEntry (e_H e) (e_nv e) (e_V e) j j0)), (HK e He j Hj). ring. }
      assert (EV : forall vp, test (e_n e) (d + 2) (fun i => W (e_glob e i)) (viscousTerm d vp e (fun _ => q)) = 0).
      { intros vp. unfold viscousTerm. rewrite viscous_test by (intros i Hi; destruct (HP e He i Hi); nra).
        rewrite (rsum_ext (e_n e) _ (fun _ => 0)); [rewrite rsum_0; ring|]. intros i Hi. rewrite (rsum_ext d _ (fun _ => 0)); [rewrite rsum_0; ring|]. intros di Hdi.
        unfold dot. rewrite (rsum_ext (d + 2) _ (fun _ => 0)); [apply rsum_0|]. intros m Hm. unfold viscousScaling. rewrite viscous_zero; [ring|exact Hdi| |exact Hm].
        intros j k Hj Hk. rewrite col_flatten by exact Hk. unfold grad. rewrite (rsum_scal_r (e_n e) (calcEntropyVars d false q k) (fun j0 => getQEntry d (e_Q e) j i j0 (e_adj e i) (e_adj e j0))), (HG e He j i Hj Hi). ring. }
      unfold domainIntegrators, lsum. rewrite !fold_right_app. destruct (Rlt_dec 0 lps); destruct visc; cbn [fold_right app]; rewrite EI, ?EL, ?EV; ring.
    - rewrite lsum_scal, lsum_rsum. match goal with |- ?a * ?x = _ => replace (a * x) with (- x) by ring end. f_equal. apply rsum_ext. intros m Hm. rewrite lsum_rsum. apply rsum_ext. intros di Hdi. rewrite lsum_scal. reflexivity. }
  rewrite Ee.
  rewrite (rsum_ext (d + 2) _ (fun m => rsum d (fun di => F di m * (bsum M (fun b k => b_nrm b k di * W (bnode b k) m) + fsum (dsbp ifc) M (fun f k => f_nrm f k di * f_wt f k * (W (lnode f k) m - W (rnode f k) m)))))).
  2:{ intros m Hm. apply rsum_ext. intros di Hdi. rewrite (HD di (fun I => W I m) Hdi). reflexivity. }
  assert (EB : bsum M (fun b k => dot (d + 2) (W (bnode b k)) (b_flux b k (b_nrm b k) q)) = rsum (d + 2) (fun m => rsum d (fun di => F di m * bsum M (fun b k => b_nrm b k di * W (bnode b k) m)))).
  { unfold bsum. transitivity (lsum (fun b => rsum (d + 2) (fun m => rsum d (fun di => F di m * rsum (b_nf b) (fun k => b_wt b k * (b_nrm b k di * W (bnode b k) m))))) (bfs M)).
    - apply lsum_ext. intros b Hb.
      rewrite (rsum_ext (b_nf b) _ (fun k => rsum (d + 2) (fun m => rsum d (fun di => F di m * (b_wt b k * (b_nrm b k di * W (bnode b k) m)))))).
      + rewrite (rsum_swap (b_nf b) (d + 2)). apply rsum_ext. intros m Hm. rewrite (rsum_swap (b_nf b) d). apply rsum_ext. intros di Hdi. rewrite rsum_scal. reflexivity.
      + intros k Hk. unfold dot. rewrite <- rsum_scal. apply rsum_ext. intros m Hm. rewrite (euler_combination _ _ (HB b k Hb Hk) m Hm). rewrite <- !rsum_scal. apply rsum_ext. intros; ring.
    - rewrite lsum_rsum. apply rsum_ext. intros m Hm. rewrite lsum_rsum. apply rsum_ext. intros di Hdi. rewrite lsum_scal. reflexivity. }
  assert (EF : fsum (dsbp ifc) M (fun f k => dot (d + 2) (fun m => W (lnode f k) m - W (rnode f k) m) (ifaceFlux d false (ic ifc) (fun c => f_nrm f k c * f_wt f k) q q)) =
     rsum (d + 2) (fun m => rsum d (fun di => F di m * fsum (dsbp ifc) M (fun f k => f_nrm f k di * f_wt f k * (W (lnode f k) m - W (rnode f k) m))))).
  { unfold fsum. destruct (dsbp ifc).
    2:{ symmetry. rewrite (rsum_ext (d + 2) _ (fun _ => 0)); [apply rsum_0|]. intros m Hm. rewrite (rsum_ext d _ (fun _ => 0)); [apply rsum_0|intros; ring]. }
    transitivity (lsum (fun f => rsum (d + 2) (fun m => rsum d (fun di => F di m * rsum (f_nf f) (fun k => f_nrm f k di * f_wt f k * (W (lnode f k) m - W (rnode f k) m))))) (ifs M)).
    - apply lsum_ext. intros f Hf.
      rewrite (rsum_ext (f_nf f) _ (fun k => rsum (d + 2) (fun m => rsum d (fun di => F di m * (f_nrm f k di * f_wt f k * (W (lnode f k) m - W (rnode f k) m)))))).
      + rewrite (rsum_swap (f_nf f) (d + 2)). apply rsum_ext. intros m Hm. rewrite (rsum_swap (f_nf f) d). apply rsum_ext. intros di Hdi. rewrite rsum_scal. reflexivity.
      + intros k Hk. unfold dot. apply rsum_ext. intros m Hm. unfold ifaceFlux, calcIsmailRoeFaceFluxWithDiss.
        rewrite (add_diss_equal d _ _ q q (calcEntropyVars d false q) (calcEntropyVars d false q) (calcIsmailRoeFaceFlux d (fun c => f_nrm f k c * f_wt f k) q q) (fun _ _ => eq_refl) m Hm).
        rewrite face_combination by exact Hm. rewrite <- rsum_scal. apply rsum_ext. intros; ring.
    - rewrite lsum_rsum. apply rsum_ext. intros m Hm. rewrite lsum_rsum. apply rsum_ext. intros di Hdi. rewrite lsum_scal. reflexivity. }
  rewrite EB, EF. rewrite <- rsum_opp, <- !rsum_plus. rewrite (rsum_ext (d + 2) _ (fun _ => 0)); [apply rsum_0|]. intros m Hm.
  rewrite <- rsum_opp, <- !rsum_plus. rewrite (rsum_ext d _ (fun _ => 0)); [apply rsum_0|]. intros; ring.
Qed.
End FreeStream.

(** * The entropy-variable residual is the same residual *)
Lemma entvar_same d N lps ifc M (u : nat -> vec) g R1 R2 : well_formed N M ->
  (forall i, (i < N)%nat -> physical d (u i)) ->
  (forall b k q, In b (bfs M) -> (k < b_nf b)%nat -> physical d q -> same d (g b k (b_nrm b k) (calcEntropyVars d false q)) (b_flux b k (b_nrm b k) q)) ->
  flowResidual d true lps None ifc (with_fluxes M g) (fun i => calcEntropyVars d false (u i)) = Some R1 ->
  flowResidual d false lps None ifc M u = Some R2 ->
  forall i m, (i < N)%nat -> (m < d + 2)%nat -> R1 i m = R2 i m.
Proof.
  intros WF HU HB E1 E2 i0 m0 Hi0 Hm0. pose proof WF as (We & Wf & Wb).
  assert (WF' : well_formed N (with_fluxes M g)).
  { split; [exact We|]. split; [exact Wf|]. intros b Hb. simpl in Hb. apply in_map_iff in Hb. destruct Hb as (b0 & <- & Hb0). exact (Wb b0 Hb0). }
  rewrite <- (test_point N (d + 2) R1 i0 m0 Hi0 Hm0), <- (test_point N (d + 2) R2 i0 m0 Hi0 Hm0).
  set (W := fun a b : nat => delta a i0 * delta b m0).
  rewrite (flow_test d N true lps None ifc _ WF' _ R1 W E1), (flow_test d N false lps None ifc M WF u R2 W E2).
  f_equal; [f_equal|].
  - apply lsum_ext. intros e He. unfold domainIntegrators, lsum. rewrite !fold_right_app.
    assert (P : forall i, (i < e_n e)%nat -> physical d (u (e_glob e i))) by (intros; apply HU, We; assumption).
    assert (EI : test (e_n e) (d + 2) (fun i => W (e_glob e i)) (irVector d true e (fun i => calcEntropyVars d false (u (e_glob e i)))) = test (e_n e) (d + 2) (fun i => W (e_glob e i)) (irVector d false e (fun i => u (e_glob e i)))).
    { unfold irVector. rewrite !dyadic_test. apply rsum_ext. intros i Hi. apply rsum_ext. intros j Hj. destruct (Nat.ltb i j); [|reflexivity].
      apply rsum_ext. intros di Hdi. f_equal. unfold dot. apply rsum_ext. intros m Hm. f_equal. unfold irFlux.
      exact (di_ent_agree d di _ _ Hdi (P i Hi) (P j Hj) m Hm). }
    assert (EL : test (e_n e) (d + 2) (fun i => W (e_glob e i)) (lpsTerm d true lps e (fun i => calcEntropyVars d false (u (e_glob e i)))) = test (e_n e) (d + 2) (fun i => W (e_glob e i)) (lpsTerm d false lps e (fun i => u (e_glob e i)))).
    { unfold lpsTerm. rewrite !lps_test. do 2 f_equal. apply rsum_ext. intros j Hj. f_equal. unfold dot. apply rsum_ext. intros m Hm. f_equal. unfold lpsScaling.
      change (fun a => calcEntropyVars d true (calcEntropyVars d false (u (e_glob e a)))) with (fun a => calcEntropyVars d false (u (e_glob e a))).
      exact (lps_ent d (e_adj e j) _ _ (P j Hj) m Hm). }
    destruct (Rlt_dec 0 lps); cbn [fold_right app]; rewrite EI, ?EL; reflexivity.
  - unfold fsum. destruct (dsbp ifc); [|reflexivity]. apply lsum_ext. intros f Hf. apply rsum_ext. intros k Hk. unfold dot. apply rsum_ext. intros m Hm. f_equal.
    destruct (Wf f Hf) as (A & B & C). destruct (C k Hk) as (C1 & C2 & C3).
    assert (PL : physical d (u (lnode f k))) by (apply HU, A, C1). assert (PR : physical d (u (rnode f k))) by (apply HU, B, C2).
    unfold ifaceFlux. apply (add_diss_same d); [apply cons_of_ent, PL|apply cons_of_ent, PR|apply face_ent_agree; assumption|exact Hm].
  - unfold bsum. simpl. clear E1 WF'. revert HB Wb. generalize (bfs M). induction l as [|b l IH]; intros HB Wb; [reflexivity|]. simpl. f_equal.
    + apply rsum_ext. intros k Hk. f_equal. unfold dot. apply rsum_ext. intros m Hm. f_equal. unfold bnode. simpl.
      destruct (Wb b (or_introl eq_refl)) as (A & B). apply HB; [left; reflexivity|exact Hk|apply HU, A, B, Hk|exact Hm].
    + apply IH; intros; [apply HB; [right|..]|apply Wb; right]; assumption.
Qed.

(** * Affine elements: the reference SBP property is enough *)
Section Affine.
Variables (n d : nat) (Q : nat -> mat) (J : mat).
(** constants are differentiated exactly; Q + Q^T is diagonal *)
Hypothesis Hconst : forall k i, (k < d)%nat -> (i < n)%nat -> rsum n (fun j => getQ Q k i j) = 0.
Hypothesis Hdiag : forall k i j, (k < d)%nat -> (i < n)%nat -> (j < n)%nat -> i <> j -> getQ Q k i j + getQ Q k j i = 0.
Lemma affine_entry di i j : (i < n)%nat -> (j < n)%nat -> getQEntry d Q di i j J J = rsum d (fun k => J k di * getQ Q k i j).
Proof.
  intros Hi Hj. unfold getQEntry. destruct (Nat.eqb_spec i j) as [<-|Hne]; [reflexivity|]. unfold getSkewEntry. rewrite <- rsum_scal. apply rsum_ext. intros k Hk.
  pose proof (Hdiag k i j Hk Hi Hj Hne) as E. unfold getQ in *. replace (Q k i j) with (- Q k j i) by lra. lra.
Qed.
Lemma affine_gcl di i : (i < n)%nat -> rsum n (fun j => getQEntry d Q di i j J J) = 0.
Proof.
  intros Hi. rewrite (rsum_ext n _ (fun j => rsum d (fun k => J k di * getQ Q k i j))) by (intros j Hj; apply affine_entry; assumption).
  rewrite rsum_swap. rewrite (rsum_ext d _ (fun _ => 0)); [apply rsum_0|]. intros k Hk. rewrite rsum_scal, Hconst by assumption. ring.
Qed.
End Affine.

(** * A sample: the unit interval cut in two p = 0 segments *)
Definition seg0 (g : nat) : element :=
  {| e_n := 2; e_H := fun _ => 1/2; e_Q := fun _ a b => match a, b with O, O => -1/2 | O, S _ => -1/2 | S _, O => 1/2 | S _, S _ => 1/2 end;
     e_adj := fun _ _ _ => 1; e_detJ := fun _ => 1/2; e_nv := 1; e_V := fun _ _ => 1; e_glob := fun i => (g + i)%nat |}.
Definition face0 : iface :=
  {| f_nL := 2; f_nR := 2; f_nf := 1; f_idxL := fun _ => 1%nat; f_idxR := fun _ => 0%nat; f_wt := fun _ => 1; f_nrm := fun _ _ => 1;
     f_globL := fun i => i; f_globR := fun i => (2 + i)%nat |}.
Definition wall (i : nat) (s : R) : bface :=
  {| b_n := 2; b_nf := 1; b_idx := fun _ => i; b_wt := fun _ => 1; b_nrm := fun _ _ => s; b_glob := fun k => (if Nat.eqb i 0 then k else 2 + k)%nat;
     b_flux := fun _ n q => calcSlipWallFlux 1 false n q |}.
Definition duct : mesh := {| els := [seg0 0; seg0 2]; ifs := [face0]; bfs := [wall 0 (-1); wall 1 1] |}.
Lemma duct_valid : well_formed 4 duct /\ gcl 1 duct /\ divergence_theorem 1 true duct /\ positive_mesh duct /\ proj_kills_constants duct.
Proof.
  repeat split.
  - intros e [<-|[<-|[]]] i Hi; simpl in *; lia.
  - intros i Hi. destruct H as [<-|[]]. simpl in *. lia.
  - intros i Hi. destruct H as [<-|[]]. simpl in *. lia.
  - destruct H as [<-|[]]. simpl in *. lia.
  - destruct H as [<-|[]]. simpl in *. lia.
  - destruct H as [<-|[]]. simpl in *. lra.
  - intros i Hi. destruct H as [<-|[<-|[]]]; simpl in *; lia.
  - intros k Hk. destruct H as [<-|[<-|[]]]; simpl in *; lia.
  - intros e [<-|[<-|[]]] di i Hdi Hi; simpl in Hi; destruct i as [|[|i]]; try lia; destruct di; try lia; unfold getQEntry, getSymEntry, getSkewEntry; simpl; lra.
  - intros di psi Hdi. destruct di; [|lia]. unfold lsum, bsum, fsum, bnode, lnode, rnode, getSymEntry. simpl. lra.
  - destruct H as [<-|[<-|[]]]; simpl; lra.
  - destruct H as [<-|[<-|[]]]; simpl; lra.
  - intros e [<-|[<-|[]]] i Hi; simpl in Hi; destruct i as [|[|i]]; try lia; unfold getProjOperatorEntry; simpl; lra.
Qed.
