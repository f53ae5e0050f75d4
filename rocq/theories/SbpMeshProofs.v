(** Whole-mesh conservation, entropy stability and free-stream preservation. *)
From Coq Require Import Reals Arith Lra Lia Psatz Bool List FunctionalExtensionality.
From Coquelicot Require Import Coquelicot.
From Verif Require Import Num Vec Euler EulerSpec EulerProofs IsmailRoeProofs FluxProofs BoundaryProofs NavierStokes NavierStokesProofs
  Sbp SbpSpec SbpProofs SbpProofs2 SbpProofs3 SbpMesh SbpMeshSpec.
Import ListNotations.
Local Open Scope R_scope.

Lemma lsum_ext {A} (f g : A -> R) l : (forall a, In a l -> f a = g a) -> lsum f l = lsum g l.
Proof. induction l as [|a l IH]; intros H; [reflexivity|]. simpl. rewrite H by (left; reflexivity). rewrite IH by (intros; apply H; right; assumption). reflexivity. Qed.
Lemma lsum_plus {A} (f g : A -> R) l : lsum (fun a => f a + g a) l = lsum f l + lsum g l.
Proof. induction l as [|a l IH]; simpl; [lra|]. rewrite IH. lra. Qed.
Lemma lsum_scal {A} c (f : A -> R) l : lsum (fun a => c * f a) l = c * lsum f l.
Proof. induction l as [|a l IH]; simpl; [lra|]. rewrite IH. lra. Qed.
Lemma lsum_0 {A} (l : list A) : lsum (fun _ => 0) l = 0.
Proof. induction l as [|a l IH]; simpl; [lra|]. rewrite IH. lra. Qed.
Lemma lsum_nonneg {A} (f : A -> R) l : (forall a, In a l -> 0 <= f a) -> 0 <= lsum f l.
Proof. induction l as [|a l IH]; intros H; simpl; [lra|]. assert (0 <= f a) by (apply H; left; reflexivity). assert (0 <= lsum f l) by (apply IH; intros; apply H; right; assumption). lra. Qed.
Lemma lsum_le {A} (f g : A -> R) l : (forall a, In a l -> f a <= g a) -> lsum f l <= lsum g l.
Proof. induction l as [|a l IH]; intros H; simpl; [lra|]. assert (f a <= g a) by (apply H; left; reflexivity). assert (lsum f l <= lsum g l) by (apply IH; intros; apply H; right; assumption). lra. Qed.
Lemma lsum_abs {A} (f : A -> R) l : Rabs (lsum f l) <= lsum (fun a => Rabs (f a)) l.
Proof. induction l as [|a l IH]; simpl; [rewrite Rabs_R0; lra|]. eapply Rle_trans; [apply Rabs_triang|]. lra. Qed.
Lemma lsum_rsum {A} d (f : A -> nat -> R) l : lsum (fun a => rsum d (f a)) l = rsum d (fun k => lsum (fun a => f a k) l).
Proof. induction l as [|a l IH]; simpl; [rewrite rsum_0; reflexivity|]. rewrite IH, <- rsum_plus. reflexivity. Qed.
Lemma rsum_abs n f : Rabs (rsum n f) <= rsum n (fun i => Rabs (f i)).
Proof. induction n as [|n IH]; simpl; [rewrite Rabs_R0; lra|]. eapply Rle_trans; [apply Rabs_triang|]. lra. Qed.
Lemma fold_read {S A : Type} (T : S -> R) (step : S -> A -> S) (g : A -> R) l s :
  (forall t a, In a l -> T (step t a) = T t + g a) -> T (fold_left step l s) = T s + lsum g l.
Proof.
  revert s. induction l as [|a l IH]; intros s H; simpl; [lra|]. rewrite IH by (intros; apply H; right; assumption). rewrite H by (left; reflexivity). lra.
Qed.
Lemma test_scatter N ns W n glob r R0 : (forall i, (i < n)%nat -> (glob i < N)%nat) ->
  test N ns W (scatter n ns glob r R0) = test N ns W R0 + test n ns (fun i => W (glob i)) r.
Proof.
  intros HG. unfold scatter. rewrite (loop_read (test N ns W) n _ (fun i => dot ns (W (glob i)) (r i))); [reflexivity|].
  intros i t Hi. apply (loop_read (test N ns W)). intros m t' Hm. rewrite test_add2 by (try apply HG; assumption). ring.
Qed.

Section Mesh.
Variables (d N : nat) (entvar : bool) (lps : R) (visc : option viscosity) (ifc : option R) (M : mesh).
Hypothesis WF : well_formed N M.
Definition dsbp : bool := match ifc with Some _ => true | None => false end.
Definition ic : R := match ifc with Some c => c | None => 0 end.
Lemma flow_test u Rg W : flowResidual d entvar lps visc ifc M u = Some Rg ->
  test N (d + 2) W Rg =
  lsum (fun e => lsum (fun integ => test (e_n e) (d + 2) (fun i => W (e_glob e i)) (integ e (fun i => u (e_glob e i)))) (domainIntegrators d entvar lps visc)) (els M) +
  fsum dsbp M (fun f k => dot (d + 2) (fun m => W (lnode f k) m - W (rnode f k) m) (ifaceFlux d entvar ic (fun c => f_nrm f k c * f_wt f k) (u (lnode f k)) (u (rnode f k)))) +
  bsum M (fun b k => dot (d + 2) (W (bnode b k)) (b_flux b k (b_nrm b k) (u (bnode b k)))).
Proof.
  destruct WF as (We & Wf & Wb). unfold flowResidual.
  set (R1 := fold_left _ (els M) zero2). intros E.
  assert (E1 : test N (d + 2) W R1 = lsum (fun e => lsum (fun integ => test (e_n e) (d + 2) (fun i => W (e_glob e i)) (integ e (fun i => u (e_glob e i)))) (domainIntegrators d entvar lps visc)) (els M)).
  { unfold R1. rewrite (fold_read (test N (d + 2) W) _ (fun e => lsum (fun integ => test (e_n e) (d + 2) (fun i => W (e_glob e i)) (integ e (fun i => u (e_glob e i)))) (domainIntegrators d entvar lps visc))).
    - rewrite test_zero. ring.
    - intros t e He. apply (fold_read (test N (d + 2) W)). intros t' integ _. apply test_scatter. apply We. exact He. }
  set (R2 := match ifc with None => R1 | Some c => _ end) in *.
  assert (E' : Rg = fold_left (fun R b => scatter (b_n b) (d + 2) (b_glob b)
            (boundaryVector (b_nf b) (d + 2) 1 (b_idx b) (b_wt b) (b_nrm b) (b_flux b) (fun i => u (b_glob b i))) R) (bfs M) R2).
  { destruct ifc; destruct visc; try discriminate E; injection E as E; symmetry; exact E. }
  assert (E2 : test N (d + 2) W R2 = test N (d + 2) W R1 + fsum dsbp M (fun f k => dot (d + 2) (fun m => W (lnode f k) m - W (rnode f k) m) (ifaceFlux d entvar ic (fun c => f_nrm f k c * f_wt f k) (u (lnode f k)) (u (rnode f k))))).
  { unfold R2, dsbp, ic, fsum. destruct ifc as [c|]; [|ring].
    apply (fold_read (test N (d + 2) W)). intros t f Hf. cbv zeta. destruct (Wf f Hf) as (A & B & C).
    rewrite (test_scatter N (d + 2) W (f_nR f)) by exact B. rewrite (test_scatter N (d + 2) W (f_nL f)) by exact A.
    rewrite Rplus_assoc. f_equal.
    rewrite (face_test (f_nL f) (f_nR f) (f_nf f) (d + 2) 1 (f_idxL f) (f_idxR f) (f_wt f) (f_nrm f)) by (intros; apply C; assumption).
    rewrite Rmult_1_l. reflexivity. }
  rewrite E', (fold_read (test N (d + 2) W) _ (fun b => rsum (b_nf b) (fun k => b_wt b k * dot (d + 2) (W (bnode b k)) (b_flux b k (b_nrm b k) (u (bnode b k)))))).
  - rewrite E2, E1. unfold bsum. reflexivity.
  - intros t b Hb. destruct (Wb b Hb) as (A & B). rewrite test_scatter by exact A. f_equal. rewrite (boundary_test (b_n b) (b_nf b)) by exact B. rewrite Rmult_1_l. reflexivity.
Qed.

(** ** conservation *)
Lemma conservation u Rg m : (m < d + 2)%nat -> gcl d M -> positive_mesh M -> proj_kills_constants M ->
  flowResidual d entvar lps visc ifc M u = Some Rg ->
  rsum N (fun i => Rg i m) = bsum M (fun b k => b_flux b k (b_nrm b k) (u (bnode b k)) m).
Proof.
  intros Hm HG HP HK E. rewrite <- (test_state N (d + 2) Rg m Hm), (flow_test u Rg _ E).
  rewrite (lsum_ext _ (fun _ => 0)), lsum_0.
  - replace (fsum dsbp M _) with 0.
    + rewrite !Rplus_0_l. unfold bsum. apply lsum_ext. intros b Hb. apply rsum_ext. intros k Hk. f_equal. unfold dot.
      apply (rsum_delta_r (d + 2) m (fun x => b_flux b k (b_nrm b k) (u (bnode b k)) x) Hm).
    + unfold fsum. destruct dsbp; [|reflexivity]. symmetry. rewrite (lsum_ext _ (fun _ => 0)), lsum_0; [reflexivity|].
      intros f Hf. rewrite (rsum_ext _ _ (fun _ => 0)); [apply rsum_0|]. intros k Hk. unfold dot.
      rewrite (rsum_ext (d + 2) _ (fun _ => 0)); [apply rsum_0|]. intros; ring.
  - intros e He. rewrite (lsum_ext _ (fun _ => 0)), lsum_0; [reflexivity|]. intros integ Hi. unfold domainIntegrators in Hi.
    apply in_app_or in Hi. destruct Hi as [[<-|[]]|Hi].
    + unfold irVector. rewrite test_state by exact Hm. apply dyadic_conservative. exact Hm.
    + apply in_app_or in Hi. destruct Hi as [Hi|Hi].
      * destruct (Rlt_dec 0 lps); [|destruct Hi]. destruct Hi as [<-|[]]. unfold lpsTerm.
        apply lps_const_zero; [intros i Hi; apply HK; assumption|reflexivity].
      * destruct visc as [vp|]; [|destruct Hi]. destruct Hi as [<-|[]]. unfold viscousTerm.
        apply viscous_const_zero; [|intros; apply HG; assumption|reflexivity].
        intros i Hi. destruct (HP e He i Hi). nra.
Qed.
End Mesh.
Arguments dsbp ifc : simpl never.

(** ** pieces for the entropy balance *)
Lemma di_defect d di qL qR : (di < d)%nat -> physical d qL -> physical d qR ->
  Rabs (dot (d + 2) (fun m => calcEntropyVars d false qL m - calcEntropyVars d false qR m) (calcIsmailRoeFlux d di qL qR) - (qL (S di) - qR (S di))) <= ir_allowance d (unitv di) qL qR.
Proof.
  intros Hd (rL & uL & pL & HrL & HpL & SL) (rR & uR & pR & HrR & HpR & SR).
  destruct (di_tadmor d di qL qR rL uL pL rR uR pR Hd HrL HpL HrR HpR SL SR) as (A & _). cbv zeta in A.
  unfold ir_allowance. rewrite (state_pressure d qL rL uL pL), (state_pressure d qR rR uR pR) by (try assumption; lra).
  assert (ML : dot d (mom qL) (unitv di) / qL 0%nat = uL di).
  { unfold dot, mom, unitv. rewrite (rsum_ext d _ (fun i => delta i di * qL (S i))) by (intros i Hi; unfold delta; destruct (Nat.eqb i di); ring).
    rewrite (rsum_delta_r d di (fun i => qL (S i)) Hd), (proj1 (proj2 SL) di Hd), (proj1 SL). field. lra. }
  assert (MR : dot d (mom qR) (unitv di) / qR 0%nat = uR di).
  { unfold dot, mom, unitv. rewrite (rsum_ext d _ (fun i => delta i di * qR (S i))) by (intros i Hi; unfold delta; destruct (Nat.eqb i di); ring).
    rewrite (rsum_delta_r d di (fun i => qR (S i)) Hd), (proj1 (proj2 SR) di Hd), (proj1 SR). field. lra. }
  rewrite ML, MR, (proj1 SL), (proj1 SR). exact A.
Qed.
Lemma face_defect d n qL qR : physical d qL -> physical d qR ->
  Rabs (dot (d + 2) (fun m => calcEntropyVars d false qL m - calcEntropyVars d false qR m) (calcIsmailRoeFaceFlux d n qL qR) - (dot d (mom qL) n - dot d (mom qR) n)) <= ir_allowance d n qL qR.
Proof.
  intros (rL & uL & pL & HrL & HpL & SL) (rR & uR & pR & HrR & HpR & SR).
  destruct (face_tadmor d n qL qR rL uL pL rR uR pR HrL HpL HrR HpR SL SR) as (A & _). cbv zeta in A.
  unfold ir_allowance. rewrite (state_pressure d qL rL uL pL), (state_pressure d qR rR uR pR) by (try assumption; lra).
  assert (ML : dot d (mom qL) n / qL 0%nat = dot d uL n).
  { unfold dot at 1. rewrite (rsum_ext d _ (fun i => rL * (uL i * n i))) by (intros i Hi; unfold mom; rewrite (proj1 (proj2 SL) i Hi); ring).
    rewrite rsum_scal, (proj1 SL). unfold dot. field. lra. }
  assert (MR : dot d (mom qR) n / qR 0%nat = dot d uR n).
  { unfold dot at 1. rewrite (rsum_ext d _ (fun i => rR * (uR i * n i))) by (intros i Hi; unfold mom; rewrite (proj1 (proj2 SR) i Hi); ring).
    rewrite rsum_scal, (proj1 SR). unfold dot. field. lra. }
  rewrite ML, MR, (proj1 SL), (proj1 SR). exact A.
Qed.
Lemma col_flatten d i D k : (k < d + 2)%nat -> col d i (flatten d D) k = D i k.
Proof.
  intros Hk. unfold col, flatten. rewrite (Nat.add_comm (i * (d + 2)) k), Nat.div_add, Nat.mod_add by lia.
  rewrite Nat.div_small, Nat.mod_small by exact Hk. reflexivity.
Qed.
Lemma visc_point d vp q D : (d <= 3)%nat -> physical d q -> 0 < v_Re vp -> 0 < v_Pr vp ->
  0 <= rsum d (fun di => dot (d + 2) (D di) (viscousScaling d vp di q D)).
Proof.
  intros Hd Hq HRe HPr.
  assert (Hmu : 0 <= muRe d vp q).
  { unfold muRe. apply Rdiv_le_0_compat; [|exact HRe]. destruct (Rlt_dec (v_mu vp) 0); [|lra].
    destruct Hq as (rho & u & p & Hr & Hp & H). pose proof (proj2 (sutherland d q rho u p Hr Hp H)). lra. }
  pose proof (dissipation d (muRe d vp q) (v_Pr vp) q (flatten d D) Hd Hq Hmu HPr) as A.
  rewrite (rsum_ext d _ (fun di => dot (d + 2) (col d di (flatten d D)) (viscousScaling d vp di q D))); [exact A|].
  intros di Hdi. apply rsum_ext. intros k Hk. rewrite col_flatten by exact Hk. reflexivity.
Qed.

Section Entropy.
Variables (d N : nat) (lps : R) (visc : option viscosity) (ifc : option R) (M : mesh) (u : nat -> vec).
Hypothesis WF : well_formed N M.
Hypothesis Hphys : forall i, (i < N)%nat -> physical d (u i).
Notation w i := (calcEntropyVars d false (u i)).
Definition boundaryRate : R := bsum M (fun b k => dot (d + 2) (w (bnode b k)) (b_flux b k (b_nrm b k) (u (bnode b k))) - dot d (mom (u (bnode b k))) (b_nrm b k)).
Lemma entropy_balance Rg : gcl d M -> divergence_theorem d (dsbp ifc) M -> positive_mesh M ->
  (visc <> None -> (d <= 3)%nat) -> (forall vp, visc = Some vp -> 0 < v_Re vp /\ 0 < v_Pr vp) -> (forall c, ifc = Some c -> 0 <= c) ->
  flowResidual d false lps visc ifc M u = Some Rg ->
  exists S E, test N (d + 2) (fun i => w i) Rg = boundaryRate + S + E /\ 0 <= S /\ Rabs E <= allowance d (dsbp ifc) M u /\
    (lps <= 0 -> visc = None -> (ifc = None \/ ifc = Some 0) -> S = 0).
Proof.
  intros HG HD HP Hd3 Hvp Hc ER.
  destruct WF as (We & Wf & Wb).
  pose (eir := fun e => rsum (e_n e) (fun i => rsum (e_n e) (fun j => if Nat.ltb i j then
    rsum d (fun di => getSkewEntry d (e_Q e) di i j (e_adj e i) (e_adj e j) *
      (dot (d + 2) (fun m => w (e_glob e i) m - w (e_glob e j) m) (calcIsmailRoeFlux d di (u (e_glob e i)) (u (e_glob e j))) - (u (e_glob e i) (S di) - u (e_glob e j) (S di)))) else 0))).
  pose (slps := fun e => test (e_n e) (d + 2) (fun i => w (e_glob e i)) (lpsTerm d false lps e (fun i => u (e_glob e i)))).
  pose (svis := fun e => match visc with Some vp => test (e_n e) (d + 2) (fun i => w (e_glob e i)) (viscousTerm d vp e (fun i => u (e_glob e i))) | None => 0 end).
  pose (ef := fun f k => dot (d + 2) (fun m => w (lnode f k) m - w (rnode f k) m) (calcIsmailRoeFaceFlux d (fun c => f_nrm f k c * f_wt f k) (u (lnode f k)) (u (rnode f k)))
     - (dot d (mom (u (lnode f k))) (fun c => f_nrm f k c * f_wt f k) - dot d (mom (u (rnode f k))) (fun c => f_nrm f k c * f_wt f k))).
  pose (sf := fun f k => dot (d + 2) (fun m => w (lnode f k) m - w (rnode f k) m) (ifaceFlux d false (ic ifc) (fun c => f_nrm f k c * f_wt f k) (u (lnode f k)) (u (rnode f k)))
     - dot (d + 2) (fun m => w (lnode f k) m - w (rnode f k) m) (calcIsmailRoeFaceFlux d (fun c => f_nrm f k c * f_wt f k) (u (lnode f k)) (u (rnode f k)))).
  assert (Hic : 0 <= ic ifc) by (unfold ic; destruct ifc as [c|]; [apply Hc; reflexivity|lra]).
  assert (Pl : forall f k, In f (ifs M) -> (k < f_nf f)%nat -> physical d (u (lnode f k)) /\ physical d (u (rnode f k)) /\ 0 <= f_wt f k).
  { intros f k Hf Hk. destruct (Wf f Hf) as (A & B & C). destruct (C k Hk) as (C1 & C2 & C3). repeat split; [apply Hphys, A, C1|apply Hphys, B, C2|exact C3]. }
  exists ((if Rlt_dec 0 lps then lsum slps (els M) else 0) + lsum svis (els M) + fsum (dsbp ifc) M sf), (lsum eir (els M) + fsum (dsbp ifc) M ef).
  split; [|split; [|split]].
  - rewrite (flow_test d N false lps visc ifc M WF u Rg (fun i => w i) ER).
    assert (Ee : lsum (fun e => lsum (fun integ => test (e_n e) (d + 2) (fun i => w (e_glob e i)) (integ e (fun i => u (e_glob e i)))) (domainIntegrators d false lps visc)) (els M) =
      - lsum (fun e => rsum d (fun di => rsum (e_n e) (fun i => 2 * getSymEntry d (e_Q e) di i (e_adj e i) * u (e_glob e i) (S di)))) (els M) + lsum eir (els M)
      + (if Rlt_dec 0 lps then lsum slps (els M) else 0) + lsum svis (els M)).
    { transitivity (lsum (fun e => (-1) * rsum d (fun di => rsum (e_n e) (fun i => 2 * getSymEntry d (e_Q e) di i (e_adj e i) * u (e_glob e i) (S di))) + eir e + (if Rlt_dec 0 lps then slps e else 0) + svis e) (els M)).
      - apply lsum_ext. intros e He. unfold domainIntegrators. unfold lsum at 1. rewrite !fold_right_app.
        assert (EI : test (e_n e) (d + 2) (fun i => w (e_glob e i)) (irVector d false e (fun i => u (e_glob e i))) =
          -1 * rsum d (fun di => rsum (e_n e) (fun i => 2 * getSymEntry d (e_Q e) di i (e_adj e i) * u (e_glob e i) (S di))) + eir e).
        { unfold irVector. rewrite (dyadic_entropy (e_n e) d (e_Q e) (d + 2) 1 (e_adj e) (fun di i Hdi Hi => HG e He di i Hdi Hi) (irFlux d false) (fun i => u (e_glob e i)) (fun i => w (e_glob e i))
            (fun di i => u (e_glob e i) (S di)) (fun di i j => dot (d + 2) (fun m => w (e_glob e i) m - w (e_glob e j) m) (calcIsmailRoeFlux d di (u (e_glob e i)) (u (e_glob e j))) - (u (e_glob e i) (S di) - u (e_glob e j) (S di)))).
          - unfold eir. rewrite Rmult_1_l, Rmult_1_r. f_equal. rewrite <- !rsum_scal. apply rsum_ext. intros di Hdi. rewrite <- !rsum_scal. apply rsum_ext. intros; ring.
          - intros di i j Hdi Hij Hj. unfold irFlux. ring. }
        unfold slps, svis. destruct (Rlt_dec 0 lps); destruct visc; cbn [fold_right app]; rewrite EI; ring.
      - rewrite !lsum_plus, lsum_scal. change (fun a : element => eir a) with eir. change (fun a : element => svis a) with svis.
        destruct (Rlt_dec 0 lps); [change (fun a : element => slps a) with slps; ring|rewrite lsum_0; ring]. }
    assert (Ef : fsum (dsbp ifc) M (fun f k => dot (d + 2) (fun m => w (lnode f k) m - w (rnode f k) m) (ifaceFlux d false (ic ifc) (fun c => f_nrm f k c * f_wt f k) (u (lnode f k)) (u (rnode f k)))) =
      fsum (dsbp ifc) M sf + fsum (dsbp ifc) M ef + rsum d (fun di => fsum (dsbp ifc) M (fun f k => f_nrm f k di * f_wt f k * (u (lnode f k) (S di) - u (rnode f k) (S di))))).
    { unfold fsum. destruct (dsbp ifc); [|rewrite rsum_0; ring]. rewrite <- lsum_rsum, <- !lsum_plus. apply lsum_ext. intros f Hf.
      rewrite (rsum_swap d (f_nf f)), <- !rsum_plus. apply rsum_ext. intros k Hk. unfold sf, ef.
      replace (rsum d (fun i => f_nrm f k i * f_wt f k * (u (lnode f k) (S i) - u (rnode f k) (S i)))) with
        (dot d (mom (u (lnode f k))) (fun c => f_nrm f k c * f_wt f k) - dot d (mom (u (rnode f k))) (fun c => f_nrm f k c * f_wt f k)).
      - ring.
      - unfold dot, mom. rewrite <- rsum_minus. apply rsum_ext. intros; ring. }
    rewrite Ee, Ef, lsum_rsum.
    rewrite (rsum_ext d (fun k => lsum (fun a => rsum (e_n a) (fun i => 2 * getSymEntry d (e_Q a) k i (e_adj a i) * u (e_glob a i) (S k))) (els M))
       (fun di => bsum M (fun b k => b_nrm b k di * u (bnode b k) (S di)) + fsum (dsbp ifc) M (fun f k => f_nrm f k di * f_wt f k * (u (lnode f k) (S di) - u (rnode f k) (S di)))))
      by (intros di Hdi; apply (HD di (fun I => u I (S di)) Hdi)).
    rewrite rsum_plus.
    assert (EB : boundaryRate = bsum M (fun b k => dot (d + 2) (w (bnode b k)) (b_flux b k (b_nrm b k) (u (bnode b k)))) - rsum d (fun di => bsum M (fun b k => b_nrm b k di * u (bnode b k) (S di)))).
    { unfold boundaryRate, bsum. rewrite <- lsum_rsum.
      match goal with |- _ = ?a - ?b => replace (a - b) with (a + (-1) * b) by ring end. rewrite <- lsum_scal, <- lsum_plus. apply lsum_ext. intros b Hb.
      rewrite (rsum_swap d (b_nf b)), <- rsum_scal, <- rsum_plus. apply rsum_ext. intros k Hk.
      rewrite rsum_scal. unfold dot at 2, mom. rewrite (rsum_ext d (fun i => u (bnode b k) (S i) * b_nrm b k i) (fun i => b_nrm b k i * u (bnode b k) (S i))) by (intros; ring). ring. }
    rewrite EB. ring.
  - assert (0 <= (if Rlt_dec 0 lps then lsum slps (els M) else 0)).
    { destruct (Rlt_dec 0 lps); [|lra]. apply lsum_nonneg. intros e He. unfold slps, lpsTerm.
      apply (lps_dissipative (e_n e) (e_H e) (e_nv e) (e_V e) (d + 2) lps (e_adj e) 1 (calcEntropyVars d false) (lpsScaling d false) (fun i => u (e_glob e i))); try lra.
      - intros i Hi. left. apply (HP e He i Hi).
      - intros i x Hi. apply lps_nonneg. apply Hphys, We; assumption. }
    assert (0 <= lsum svis (els M)).
    { apply lsum_nonneg. intros e He. unfold svis. destruct visc as [vp|] eqn:EV; [|lra]. unfold viscousTerm. destruct (Hvp vp eq_refl) as (HRe & HPr).
      apply (viscous_dissipative (e_n e) d (e_H e) (e_Q e) (d + 2) 1 (e_adj e) (e_detJ e) (calcEntropyVars d false) _ (fun i => u (e_glob e i))); [lra| |].
      - intros i Hi. destruct (HP e He i Hi). apply Rmult_lt_0_compat; assumption.
      - intros i D Hi. apply visc_point; [apply Hd3; discriminate|apply Hphys, We; assumption|exact HRe|exact HPr]. }
    assert (0 <= fsum (dsbp ifc) M sf).
    { unfold fsum. destruct (dsbp ifc); [|lra]. apply lsum_nonneg. intros f Hf. apply rsum_nonneg. intros k Hk. destruct (Pl f k Hf Hk) as (A & B & C).
      unfold sf, ifaceFlux.
      pose proof (proj1 (diss_dot d (fun c => f_nrm f k c * f_wt f k) (ic ifc) (u (lnode f k)) (u (rnode f k)) (w (lnode f k)) (w (rnode f k)) (calcIsmailRoeFaceFlux d (fun c => f_nrm f k c * f_wt f k) (u (lnode f k)) (u (rnode f k))) A B Hic)) as K.
      unfold calcIsmailRoeFaceFluxWithDiss. lra. }
    lra.
  - unfold allowance. eapply Rle_trans; [apply Rabs_triang|]. apply Rplus_le_compat.
    + eapply Rle_trans; [apply lsum_abs|]. apply lsum_le. intros e He. unfold eir.
      eapply Rle_trans; [apply rsum_abs|]. apply rsum_le. intros i Hi. eapply Rle_trans; [apply rsum_abs|]. apply rsum_le. intros j Hj.
      destruct (Nat.ltb i j); [|rewrite Rabs_R0; lra]. eapply Rle_trans; [apply rsum_abs|]. apply rsum_le. intros di Hdi. rewrite Rabs_mult.
      apply Rmult_le_compat_l; [apply Rabs_pos|]. apply di_defect; [exact Hdi| |]; apply Hphys, We; assumption.
    + unfold fsum. destruct (dsbp ifc); [|rewrite Rabs_R0; lra]. eapply Rle_trans; [apply lsum_abs|]. apply lsum_le. intros f Hf.
      eapply Rle_trans; [apply rsum_abs|]. apply rsum_le. intros k Hk. destruct (Pl f k Hf Hk) as (A & B & C). apply face_defect; assumption.
  - intros Hl Hv Hi. destruct (Rlt_dec 0 lps); [lra|]. rewrite (lsum_ext svis (fun _ => 0)), lsum_0.
    2:{ intros e He. unfold svis. rewrite Hv. reflexivity. }
    replace (fsum (dsbp ifc) M sf) with 0; [ring|]. symmetry. unfold fsum. destruct Hi as [->| ->]; [reflexivity|]. simpl.
    unfold dsbp. rewrite (lsum_ext _ (fun _ => 0)), lsum_0; [reflexivity|]. intros f Hf. rewrite (rsum_ext _ _ (fun _ => 0)); [apply rsum_0|]. intros k Hk.
    unfold sf, ifaceFlux, calcIsmailRoeFaceFluxWithDiss, add_dissipation, ic. unfold dot. rewrite <- rsum_minus. rewrite (rsum_ext _ _ (fun _ => 0)); [apply rsum_0|].
    intros m Hm. cbv beta zeta. ring.
Qed.
End Entropy.
