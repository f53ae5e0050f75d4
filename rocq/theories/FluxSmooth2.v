(** Smoothness of the two-point fluxes, of the interface flux with dissipation and of the viscous scaling (proof file). *)
From Coq Require Import Reals Arith Lia Lra.
From Coquelicot Require Import Coquelicot.
From Verif Require Import Num Vec SbpSpec SmoothCalc Euler EulerSpec EulerProofs LogAvgProofs IsmailRoeProofs NavierStokes Sbp SbpMesh FluxSmooth FlowJacSpec.
Local Open Scope R_scope.

Section Two.
Context {X : Type} (N : nat) (pi : nat -> X -> R) (d : nat).
Notation sm := (smooth N pi).
Notation vs := (vs N pi d).
Lemma logavg_pos a b : 0 < a -> 0 < b -> 0 < logavg a b.
Proof. intros Ha Hb. destruct (logavg_between a b Ha Hb) as [L _]. assert (0 < Rmin a b) by (unfold Rmin; destruct (Rle_dec a b); assumption). lra. Qed.
Lemma vs_zcons (q : X -> vec) x : 0 < q x 0%nat -> 0 < pressure d (q x) -> vs q x -> vs (fun y => zcons d (q y)) x.
Proof.
  intros H0 Hp H. assert (N0 : q x 0%nat <> 0) by lra. pose proof (sm_pressure N pi d q x N0 H) as P. pose proof (vs_0 N pi d q x H) as Q0.
  assert (Z : sm (fun y => sqrt (q y 0%nat / pressure d (q y))) x).
  { apply sm_sqrt; [apply Rdiv_lt_0_compat; assumption|]. apply sm_div; [lra|exact Q0|exact P]. }
  unfold zcons. cbv zeta. apply vs_mk.
  - exact Z.
  - intros i Hi. apply sm_div; [exact N0| |exact Q0]. apply sm_mult; [exact Z|apply (vs_S N pi d q x i Hi H)].
  - apply sm_sqrt; [apply Rmult_lt_0_compat; assumption|]. apply sm_mult; [exact Q0|exact P].
Qed.
Lemma vs_zent (w : X -> vec) x : w x (S d) < 0 -> vs w x -> vs (fun y => zent d (w y)) x.
Proof.
  intros H0 H. assert (N0 : w x (S d) <> 0) by lra. pose proof (vs_E N pi d w x H) as We.
  assert (Z : sm (fun y => sqrt (- w y (S d))) x) by (apply sm_sqrt; [lra|apply sm_opp; exact We]).
  unfold zent. cbv zeta. apply vs_mk.
  - exact Z.
  - intros i Hi. apply sm_div; [exact N0| |exact We]. apply sm_mult; [apply sm_opp; apply (vs_S N pi d w x i Hi H)|exact Z].
  - apply sm_div; [apply Rgt_not_eq, sqrt_lt_R0; lra| |exact Z]. apply sm_Rpower.
    + set (z := exp _). assert (0 < z) by apply exp_pos. replace (- z / w x (S d)) with (z / (- w x (S d))) by (field; lra). apply Rdiv_lt_0_compat; lra.
    + apply sm_div; [exact N0| |exact We]. apply sm_opp, sm_exp, sm_opp. apply sm_plus; [apply sm_const|]. apply sm_mult; [apply sm_const|].
      apply sm_minus; [|apply (vs_0 N pi d w x H)]. apply sm_div; [exact N0| |exact We]. apply sm_mult; [apply sm_const|].
      apply (sm_rsum N pi d (fun i y => w y (S i) * w y (S i))). intros i Hi. apply sm_mult; apply (vs_S N pi d w x i Hi H).
Qed.
Section Averages.
Context (zL zR : X -> vec) (x : X) (SL : vs zL x) (SR : vs zR x) (L0 : 0 < zL x 0%nat) (R0 : 0 < zR x 0%nat) (LE : 0 < zL x (S d)) (RE : 0 < zR x (S d)).
Context (K0 : spread (zL x 0%nat) (zR x 0%nat) <> 1 / 1000) (KE : spread (zL x (S d)) (zR x (S d)) <> 1 / 1000).
Let zl i (Hi : (i < d + 2)%nat) : sm (fun y => zL y i) x := SL i Hi.
Let zr i (Hi : (i < d + 2)%nat) : sm (fun y => zR y i) x := SR i Hi.
Lemma sm_z0 : sm (fun y => zL y 0%nat + zR y 0%nat) x.
Proof. apply sm_plus; [apply zl|apply zr]; lia. Qed.
Lemma sm_lE : sm (fun y => logavg (zL y (S d)) (zR y (S d))) x.
Proof. apply sm_logavg; try assumption; [apply zl|apply zr]; lia. Qed.
Lemma sm_l0 : sm (fun y => logavg (zL y 0%nat) (zR y 0%nat)) x.
Proof. apply sm_logavg; try assumption; [apply zl|apply zr]; lia. Qed.
Lemma sm_ir_rho : sm (fun y => ir_rho d (zL y) (zR y)) x.
Proof. unfold ir_rho. apply sm_mult; [apply sm_mult; [apply sm_const|exact sm_z0]|exact sm_lE]. Qed.
Lemma sm_ir_u i : (i < d)%nat -> sm (fun y => ir_u (zL y) (zR y) i) x.
Proof. intros Hi. unfold ir_u. apply sm_div; [lra| |exact sm_z0]. apply sm_plus; [apply zl|apply zr]; lia. Qed.
Lemma sm_ir_p1 : sm (fun y => ir_p1 d (zL y) (zR y)) x.
Proof. unfold ir_p1. apply sm_div; [lra| |exact sm_z0]. apply sm_plus; [apply zl|apply zr]; lia. Qed.
Lemma sm_ir_h : sm (fun y => ir_h d (zL y) (zR y)) x.
Proof.
  unfold ir_h. cbv zeta. pose proof (logavg_pos _ _ L0 R0) as G0. pose proof (logavg_pos _ _ LE RE) as GE. apply sm_plus.
  - apply sm_div.
    + unfold ir_rho. apply Rgt_not_eq, Rmult_lt_0_compat; [|unfold gami; lra]. apply Rmult_lt_0_compat; [|exact GE]. lra.
    + apply sm_mult; [apply sm_const|]. apply sm_div; [unfold gamma; lra| |apply sm_const]. apply sm_plus.
      * apply sm_div; [lra| |exact sm_l0]. apply sm_mult; [apply sm_const|exact sm_lE].
      * apply sm_div; [lra| |exact sm_z0]. apply sm_mult; [apply sm_const|]. apply sm_plus; [apply zl|apply zr]; lia.
    + apply sm_mult; [exact sm_ir_rho|apply sm_const].
  - apply (sm_rsum N pi d (fun i y => 1 / 2 * ir_u (zL y) (zR y) i * ir_u (zL y) (zR y) i)). intros i Hi.
    apply sm_mult; [apply sm_mult; [apply sm_const|]|]; apply sm_ir_u; exact Hi.
Qed.
Lemma vs_ir_di di : (di < d)%nat -> vs (fun y => ir_flux_di d di (zL y) (zR y)) x.
Proof.
  intros Hd. unfold ir_flux_di. cbv zeta. pose proof sm_ir_rho as A. pose proof (sm_ir_u di Hd) as B. apply vs_mk.
  - apply sm_mult; assumption.
  - intros i Hi. apply sm_plus; [apply sm_mult; [apply sm_ir_u; exact Hi|apply sm_mult; assumption]|].
    destruct (Nat.eqb i di); [exact sm_ir_p1|apply sm_const].
  - apply sm_mult; [|exact B]. apply sm_mult; [exact A|exact sm_ir_h].
Qed.
Lemma vs_ir_dir dir U : sm U x -> vs (fun y => ir_flux_dir d dir (zL y) (zR y) (U y)) x.
Proof.
  intros HU. unfold ir_flux_dir. cbv zeta. pose proof sm_ir_rho as A. apply vs_mk.
  - apply sm_mult; assumption.
  - intros i Hi. apply sm_plus; [apply sm_mult; [apply sm_ir_u; exact Hi|apply sm_mult; assumption]|].
    apply sm_mult; [exact sm_ir_p1|apply sm_const].
  - apply sm_mult; [|exact HU]. apply sm_mult; [exact A|exact sm_ir_h].
Qed.
End Averages.
(** ** states of either kind *)
Lemma describes_cons entvar q rho u p : 0 < rho -> 0 < p -> describes d entvar q rho u p ->
  (entvar = true -> q (S d) < 0) /\ is_state d (calcConservativeVars d entvar q) rho u p.
Proof.
  intros Hr Hp H. destruct entvar; [|split; [discriminate|exact H]]. split.
  - intros _. destruct H as (_ & _ & ->). replace (- rho / p) with (- (rho / p)) by (field; lra). assert (0 < rho / p) by (apply Rdiv_lt_0_compat; assumption). lra.
  - apply cons_prim; assumption.
Qed.
Lemma state_pos q rho u p : 0 < rho -> 0 < p -> is_state d q rho u p -> 0 < q 0%nat /\ 0 < pressure d q.
Proof. intros Hr Hp H. split; [destruct H as (-> & _); exact Hr|]. rewrite (state_pressure d q rho u p); [exact Hp|lra|exact H]. Qed.
Definition zvec (entvar : bool) (q : vec) : vec := if entvar then zent d q else zcons d q.
Lemma zvec_of entvar q rho u p : 0 < rho -> 0 < p -> describes d entvar q rho u p -> z_of d (zvec entvar q) rho u p.
Proof. intros Hr Hp H. destruct entvar; [apply zent_of|apply zcons_of]; assumption. Qed.
Lemma vs_zvec entvar (q : X -> vec) x rho u p : 0 < rho -> 0 < p -> describes d entvar (q x) rho u p -> vs q x -> vs (fun y => zvec entvar (q y)) x.
Proof.
  intros Hr Hp H S. destruct (describes_cons entvar _ rho u p Hr Hp H) as (A & B). destruct entvar; unfold zvec.
  - apply vs_zent; [apply A; reflexivity|exact S].
  - destruct (state_pos _ rho u p Hr Hp B). apply vs_zcons; assumption.
Qed.
Section Pair.
Context (entvar : bool) (qL qR : X -> vec) (x : X) (rhoL pL rhoR pR : R) (uL uR : vec).
Context (HrL : 0 < rhoL) (HpL : 0 < pL) (HrR : 0 < rhoR) (HpR : 0 < pR) (DL : describes d entvar (qL x) rhoL uL pL) (DR : describes d entvar (qR x) rhoR uR pR).
Context (OS : spread (sqrt (rhoL / pL)) (sqrt (rhoR / pR)) <> 1 / 1000 /\ spread (sqrt (rhoL * pL)) (sqrt (rhoR * pR)) <> 1 / 1000) (SL : vs qL x) (SR : vs qR x).
Lemma pair_z : exists (SLz : vs (fun y => zvec entvar (qL y)) x) (SRz : vs (fun y => zvec entvar (qR y)) x),
  0 < zvec entvar (qL x) 0%nat /\ 0 < zvec entvar (qR x) 0%nat /\ 0 < zvec entvar (qL x) (S d) /\ 0 < zvec entvar (qR x) (S d) /\
  spread (zvec entvar (qL x) 0%nat) (zvec entvar (qR x) 0%nat) <> 1 / 1000 /\ spread (zvec entvar (qL x) (S d)) (zvec entvar (qR x) (S d)) <> 1 / 1000.
Proof.
  exists (vs_zvec entvar qL x rhoL uL pL HrL HpL DL SL), (vs_zvec entvar qR x rhoR uR pR HrR HpR DR SR).
  pose proof (zvec_of entvar _ _ _ _ HrL HpL DL) as ZL. pose proof (zvec_of entvar _ _ _ _ HrR HpR DR) as ZR.
  destruct (z_pos d _ _ _ _ HrL HpL ZL). destruct (z_pos d _ _ _ _ HrR HpR ZR). repeat (split; [assumption|]).
  destruct ZL as (-> & _ & ->). destruct ZR as (-> & _ & ->). exact OS.
Qed.
Lemma vs_irFlux di : (di < d)%nat -> vs (fun y => irFlux d entvar di (qL y) (qR y)) x.
Proof.
  intros Hd. destruct pair_z as (SLz & SRz & A & B & C & D & E & F).
  apply (vs_ext N pi d (fun y => ir_flux_di d di (zvec entvar (qL y)) (zvec entvar (qR y)))); [intros y i Hi; unfold irFlux, zvec; destruct entvar; reflexivity|].
  apply vs_ir_di; assumption.
Qed.
Lemma vs_face dir : vs (fun y => if entvar then calcIsmailRoeFaceFluxUsingEntVars d dir (qL y) (qR y) else calcIsmailRoeFaceFlux d dir (qL y) (qR y)) x.
Proof.
  destruct pair_z as (SLz & SRz & A & B & C & D & E & F).
  assert (Z0 : sm (fun y => zvec entvar (qL y) 0%nat + zvec entvar (qR y) 0%nat) x) by (apply sm_plus; [apply SLz|apply SRz]; lia).
  destruct (describes_cons entvar _ _ _ _ HrL HpL DL) as (_ & IL). destruct (describes_cons entvar _ _ _ _ HrR HpR DR) as (_ & IR).
  destruct entvar.
  - unfold calcIsmailRoeFaceFluxUsingEntVars. cbv zeta.
    apply (vs_ir_dir (fun y => zvec true (qL y)) (fun y => zvec true (qR y)) x); try assumption.
    apply (sm_rsum N pi d (fun i y => (zent d (qL y) (S i) + zent d (qR y) (S i)) * dir i / (zent d (qL y) 0%nat + zent d (qR y) 0%nat))). intros i Hi.
    apply sm_div; [unfold zvec in *; lra| |exact Z0]. apply sm_mult; [|apply sm_const]. apply sm_plus; [apply (SLz (S i))|apply (SRz (S i))]; lia.
  - unfold calcIsmailRoeFaceFlux. cbv zeta.
    apply (vs_ir_dir (fun y => zvec false (qL y)) (fun y => zvec false (qR y)) x); try assumption.
    destruct (state_pos _ _ _ _ HrL HpL DL) as (L0 & _). destruct (state_pos _ _ _ _ HrR HpR DR) as (R0 & _).
    apply (sm_rsum N pi d (fun i y => (zcons d (qL y) 0%nat * qL y (S i) / qL y 0%nat + zcons d (qR y) 0%nat * qR y (S i) / qR y 0%nat) * dir i / (zcons d (qL y) 0%nat + zcons d (qR y) 0%nat))). intros i Hi.
    apply sm_div; [unfold zvec in *; lra| |exact Z0]. apply sm_mult; [|apply sm_const]. apply sm_plus.
    + apply sm_div; [lra| |apply SL; lia]. apply sm_mult; [apply (SLz 0%nat); lia|apply SL; lia].
    + apply sm_div; [lra| |apply SR; lia]. apply sm_mult; [apply (SRz 0%nat); lia|apply SR; lia].
Qed.
Lemma vs_ifaceFlux c dir : (c = 0 \/ dot d (fun i => rhoL * uL i + rhoR * uR i) dir <> 0) ->
  vs (fun y => ifaceFlux d entvar c dir (qL y) (qR y)) x.
Proof.
  intros Hc. pose proof (vs_face dir) as F.
  destruct (describes_cons entvar _ _ _ _ HrL HpL DL) as (EL & IL). destruct (describes_cons entvar _ _ _ _ HrR HpR DR) as (ER & IR).
  set (cL := fun y => calcConservativeVars d entvar (qL y)). set (cR := fun y => calcConservativeVars d entvar (qR y)).
  assert (CL : vs cL x) by (apply vs_conv; assumption). assert (CR : vs cR x) by (apply vs_conv; assumption).
  destruct (state_pos _ _ _ _ HrL HpL IL) as (L0 & LP). destruct (state_pos _ _ _ _ HrR HpR IR) as (R0 & RP).
  assert (WL : vs (fun y => calcEntropyVars d entvar (qL y)) x) by (destruct entvar; [exact SL|apply vs_entvars; assumption]).
  assert (WR : vs (fun y => calcEntropyVars d entvar (qR y)) x) by (destruct entvar; [exact SR|apply vs_entvars; assumption]).
  set (ave := fun y i => 1 / 2 * (cL y i + cR y i)).
  assert (AV : vs ave x). { intros i Hi. unfold ave. apply sm_mult; [apply sm_const|]. apply sm_plus; [apply CL|apply CR]; exact Hi. }
  assert (PH : physical d (ave x)).
  { assert (P : physical d (fun i => (1 - 1 / 2) * cL x i + 1 / 2 * cR x i)) by (apply physical_convex; [exists rhoL, uL, pL; auto|exists rhoR, uR, pR; auto|lra]).
    destruct P as (r & v & p & A & B & C). exists r, v, p. split; [exact A|]. split; [exact B|]. apply (is_state_same d _ (ave x) r v p) in C; [exact C|]. intros i Hi. unfold ave. lra. }
  destruct (proj1 (physical_iff d (ave x)) PH) as (A0 & AP).
  assert (DW : vs (fun y => calcdQdWProduct d (ave y) (fun i => calcEntropyVars d entvar (qL y) i - calcEntropyVars d entvar (qR y) i)) x).
  { apply vs_dqdw; [lra|exact AV|]. intros i Hi. apply sm_minus; [apply WL|apply WR]; exact Hi. }
  apply (vs_ext N pi d (fun y i => (if entvar then calcIsmailRoeFaceFluxUsingEntVars d dir (qL y) (qR y) else calcIsmailRoeFaceFlux d dir (qL y) (qR y)) i +
     c * calcSpectralRadius d false dir (ave y) * calcdQdWProduct d (ave y) (fun i => calcEntropyVars d entvar (qL y) i - calcEntropyVars d entvar (qR y) i) i)).
  { intros y i Hi. unfold ifaceFlux, ave, cL, cR. destruct entvar; reflexivity. }
  intros i Hi. apply sm_plus; [apply F; exact Hi|]. destruct Hc as [->|Hc].
  - apply (smooth_ext N pi (fun _ => 0)); [intros; ring|apply sm_const].
  - apply sm_mult; [|apply DW; exact Hi]. apply sm_mult; [apply sm_const|]. apply sm_spectral; try assumption.
    intros E. apply Hc.
    assert (E2 : dot d (mom (ave x)) dir = 1 / 2 * dot d (fun i => rhoL * uL i + rhoR * uR i) dir).
    { unfold dot. rewrite <- rsum_scal. apply rsum_ext. intros k Hk. unfold mom, ave, cL, cR. destruct IL as (_ & ML & _). destruct IR as (_ & MR & _). rewrite (ML k Hk), (MR k Hk). ring. }
    rewrite E2 in E. lra.
Qed.
End Pair.
(** ** one state *)
Lemma vs_lpsScaling entvar adjJ (q v : X -> vec) x rho u p : 0 < rho -> 0 < p -> describes d entvar (q x) rho u p ->
  (forall i, (i < d)%nat -> dot d u (adjJ i) <> 0) -> vs q x -> vs v x -> vs (fun y => lpsScaling d entvar adjJ (q y) (v y)) x.
Proof.
  intros Hr Hp H Hn Sq Sv. destruct (describes_cons entvar _ _ _ _ Hr Hp H) as (E & I). destruct (state_pos _ _ _ _ Hr Hp I) as (A & B).
  apply (vs_ext N pi d (fun y => applyLPSScaling d adjJ (calcConservativeVars d entvar (q y)) (v y))); [intros y i Hi; unfold lpsScaling; destruct entvar; reflexivity|].
  apply (vs_lps N pi d adjJ (fun y => calcConservativeVars d entvar (q y)) v x); try assumption; [|apply vs_conv; assumption].
  intros i Hi. rewrite (state_mom d _ rho u p _ I). apply Rmult_integral_contrapositive_currified; [lra|apply Hn; exact Hi].
Qed.
Lemma sm_muRe vp (q : X -> vec) x : 0 < q x 0%nat -> 0 < pressure d (q x) -> vs q x -> sm (fun y => muRe d vp (q y)) x.
Proof.
  intros H0 Hp H. unfold muRe. unfold Rdiv at 1. apply sm_mult; [|apply sm_const]. destruct (Rlt_dec (v_mu vp) 0); [|apply sm_const].
  assert (N0 : q x 0%nat <> 0) by lra.
  assert (P : 0 < gamma * pressure d (q x) / q x 0%nat) by (apply Rdiv_lt_0_compat; [apply Rmult_lt_0_compat; [unfold gamma; lra|assumption]|assumption]).
  assert (A : sm (fun y => sqrt (gamma * pressure d (q y) / q y 0%nat)) x).
  { apply sm_sqrt; [exact P|]. apply sm_div; [exact N0| |apply (vs_0 N pi d q x H)]. apply sm_mult; [apply sm_const|]. apply sm_pressure; assumption. }
  unfold calcSutherlandViscosity. cbv zeta. apply sm_div.
  - rewrite sqrt_sqrt by lra. unfold ST. lra.
  - apply sm_mult; [|apply sm_const]. apply sm_mult; [apply sm_mult; exact A|exact A].
  - apply sm_plus; [apply sm_mult; exact A|apply sm_const].
Qed.
Lemma vs_Cij i j (mu : X -> R) Pr (q v acc : X -> vec) x : (i < d)%nat -> (j < d)%nat -> q x 0%nat <> 0 -> sm mu x -> vs q x -> vs v x -> vs acc x ->
  vs (fun y => applyCijMatrix d i j (mu y) Pr (q y) (v y) (acc y)) x.
Proof.
  intros Hi Hj H0 Hm Hq Hv Ha. pose proof (sm_pressure N pi d q x H0 Hq) as P. pose proof (vs_0 N pi d q x Hq) as Q0. pose proof (vs_E N pi d v x Hv) as VE.
  assert (U : forall k, (k < d)%nat -> sm (fun y => q y (S k) / q y 0%nat) x) by (intros k Hk; apply sm_div; [exact H0|apply (vs_S N pi d q x k Hk Hq)|exact Q0]).
  assert (RT : sm (fun y => pressure d (q y) / q y 0%nat) x) by (apply sm_div; assumption).
  assert (M : sm (fun y => pressure d (q y) / q y 0%nat * mu y) x) by (apply sm_mult; assumption).
  assert (T : forall k, (k < d)%nat -> sm (fun y => v y (S k) + q y (S k) / q y 0%nat * v y (S d)) x).
  { intros k Hk. apply sm_plus; [apply (vs_S N pi d v x k Hk Hv)|]. apply sm_mult; [apply U; exact Hk|exact VE]. }
  unfold applyCijMatrix. cbv zeta. destruct (Nat.eqb i j).
  - apply vs_mk; [apply (vs_0 N pi d acc x Ha)| |].
    + intros k Hk. apply sm_plus; [apply sm_plus; [apply (vs_S N pi d acc x k Hk Ha)|]|].
      * apply sm_mult; [exact M|apply T; exact Hk].
      * destruct (Nat.eqb k i); [|apply sm_const]. unfold Rdiv at 1. apply sm_mult; [|apply sm_const]. apply sm_mult; [exact M|apply T; exact Hi].
    + apply sm_plus; [apply sm_plus; [apply sm_plus; [apply (vs_E N pi d acc x Ha)|]|]|].
      * apply (sm_rsum N pi d (fun k y => pressure d (q y) / q y 0%nat * mu y * (q y (S k) / q y 0%nat) * (v y (S k) + q y (S k) / q y 0%nat * v y (S d)))).
        intros k Hk. apply sm_mult; [apply sm_mult; [exact M|apply U; exact Hk]|apply T; exact Hk].
      * unfold Rdiv at 1. apply sm_mult; [|apply sm_const]. apply sm_mult; [apply sm_mult; [exact M|apply U; exact Hi]|apply T; exact Hi].
      * apply sm_mult; [|exact VE]. unfold Rdiv at 1. apply sm_mult; [|apply sm_const]. apply sm_mult; [|exact Hm]. apply sm_mult; [|apply sm_const]. apply sm_mult; exact RT.
  - apply vs_mk; [apply (vs_0 N pi d acc x Ha)| |].
    + intros k Hk. apply sm_plus; [apply sm_minus; [apply (vs_S N pi d acc x k Hk Ha)|]|].
      * destruct (Nat.eqb k i); [|apply sm_const]. unfold Rdiv at 1. apply sm_mult; [|apply sm_const]. apply sm_mult; [apply sm_mult; [apply sm_const|exact M]|apply T; exact Hj].
      * destruct (Nat.eqb k j); [|apply sm_const]. apply sm_mult; [exact M|apply T; exact Hi].
    + apply sm_plus; [apply (vs_E N pi d acc x Ha)|]. apply sm_mult; [exact M|]. apply sm_plus; [apply sm_minus|].
      * apply sm_mult; [apply U; exact Hj|apply (vs_S N pi d v x i Hi Hv)].
      * unfold Rdiv at 1. apply sm_mult; [|apply sm_const]. apply sm_mult; [apply sm_mult; [apply sm_const|apply U; exact Hi]|apply (vs_S N pi d v x j Hj Hv)].
      * unfold Rdiv at 1. apply sm_mult; [|apply sm_const]. apply sm_mult; [apply sm_mult; apply U; assumption|exact VE].
Qed.
Lemma vs_accum n (f : nat -> X -> vec -> vec) (acc0 : X -> vec) x : vs acc0 x ->
  (forall k acc, (k < n)%nat -> vs acc x -> vs (fun y => f k y (acc y)) x) -> vs (fun y => accum n (fun k acc => f k y acc) (acc0 y)) x.
Proof.
  intros H0. induction n as [|n IH]; intros H; cbn [accum]; [exact H0|].
  apply (H n (fun y => accum n (fun k acc => f k y acc) (acc0 y))); [lia|]. apply IH. intros k acc Hk. apply H. lia.
Qed.
Lemma vs_viscousScaling vp di (q : X -> vec) (D : X -> nat -> vec) x : (di < d)%nat -> 0 < q x 0%nat -> 0 < pressure d (q x) -> vs q x ->
  (forall e, (e < d)%nat -> vs (fun y => D y e) x) -> vs (fun y => viscousScaling d vp di (q y) (D y)) x.
Proof.
  intros Hd H0 Hp Hq HD. unfold viscousScaling, applyViscousScaling.
  apply (vs_accum d (fun d2 y acc => applyCijMatrix d di d2 (muRe d vp (q y)) (v_Pr vp) (q y) (col d d2 (flatten d (D y))) acc) (fun _ => zeros)).
  - intros i Hi. apply sm_const.
  - intros k acc Hk Ha. apply vs_Cij; try assumption; [lra|apply sm_muRe; assumption|].
    apply (vs_ext N pi d (fun y => D y k)); [|apply HD; exact Hk]. intros y i Hi. unfold col, flatten. f_equal.
    + rewrite Nat.add_comm, Nat.div_add, Nat.div_small by lia. reflexivity.
    + rewrite Nat.add_comm, Nat.mod_add, Nat.mod_small by lia. reflexivity.
Qed.
End Two.
