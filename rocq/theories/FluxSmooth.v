(** Smoothness of the model's fluxes at physical states, over an arbitrary space of unknowns: every entry of a state
    is a differentiable function of the unknowns (proof file). *)
From Coq Require Import Reals Arith Lia Lra.
From Coquelicot Require Import Coquelicot.
From Verif Require Import Num Vec SbpSpec SmoothCalc Euler EulerSpec EulerProofs Vortex.
Local Open Scope R_scope.

Section FluxSmooth.
Context {X : Type} (N : nat) (pi : nat -> X -> R) (d : nat).
Notation sm := (smooth N pi).
(** a state-valued function, entry by entry *)
Definition vs (q : X -> vec) (x : X) : Prop := forall i, (i < d + 2)%nat -> sm (fun y => q y i) x.

Lemma vs_0 q x : vs q x -> sm (fun y => q y 0%nat) x. Proof. intros H. apply H. lia. Qed.
Lemma vs_S q x i : (i < d)%nat -> vs q x -> sm (fun y => q y (S i)) x. Proof. intros Hi H. apply H. lia. Qed.
Lemma vs_E q x : vs q x -> sm (fun y => q y (S d)) x. Proof. intros H. apply H. lia. Qed.
Lemma vs_const q x : vs (fun _ => q) x. Proof. intros i _. apply sm_const. Qed.
Lemma vs_mk a m e x : sm a x -> (forall i, (i < d)%nat -> sm (fun y => m y i) x) -> sm e x -> vs (fun y => mk d (a y) (m y) (e y)) x.
Proof.
  intros A M E i Hi. destruct i as [|i]; [exact A|]. unfold mk. destruct (Nat.ltb_spec i d) as [L|L].
  - apply M. exact L.
  - exact E.
Qed.
Lemma vs_plus a b x : vs a x -> vs b x -> vs (fun y i => a y i + b y i) x.
Proof. intros A B i Hi. apply sm_plus; auto. Qed.
Lemma vs_scal f a x : sm f x -> vs a x -> vs (fun y i => f y * a y i) x.
Proof. intros A B i Hi. apply sm_mult; auto. Qed.
Lemma vs_ext (a b : X -> vec) x : (forall y i, (i < d + 2)%nat -> a y i = b y i) -> vs a x -> vs b x.
Proof. intros E H i Hi. apply (smooth_ext N pi (fun y => a y i)); [intros y; apply E; exact Hi|apply H; exact Hi]. Qed.
Lemma sm_mom2 q x : vs q x -> sm (fun y => dot d (mom (q y)) (mom (q y))) x.
Proof. intros H. apply (sm_dot N pi d (fun y => mom (q y)) (fun y => mom (q y))); intros i Hi; apply (vs_S q x i Hi H). Qed.
Lemma sm_momdir q dir x : vs q x -> sm (fun y => dot d (mom (q y)) dir) x.
Proof. intros H. apply (sm_dot N pi d (fun y => mom (q y)) (fun _ => dir)); intros i Hi; [apply (vs_S q x i Hi H)|apply sm_const]. Qed.

Lemma sm_pressure q x : q x 0%nat <> 0 -> vs q x -> sm (fun y => pressure d (q y)) x.
Proof.
  intros H0 H. unfold pressure. apply sm_mult; [apply sm_const|]. apply sm_minus; [apply vs_E; exact H|].
  apply sm_div; [exact H0| |apply vs_0; exact H]. apply sm_mult; [apply sm_const|apply sm_mom2; exact H].
Qed.
Lemma vs_euler q dir x : q x 0%nat <> 0 -> vs q x -> vs (fun y => calcEulerFlux d dir (q y)) x.
Proof.
  intros H0 H. unfold calcEulerFlux. cbv zeta.
  pose proof (sm_pressure q x H0 H) as P. pose proof (sm_momdir q dir x H) as U. pose proof (vs_0 q x H) as Q0.
  apply vs_mk; [exact U| |].
  - intros i Hi. apply sm_plus; [|apply sm_mult; [apply sm_const|exact P]]. apply sm_mult; [apply vs_S; assumption|]. apply sm_div; assumption.
  - apply sm_mult; [apply sm_plus; [apply vs_E; exact H|exact P]|]. apply sm_div; assumption.
Qed.
Lemma vs_entvars q x : 0 < q x 0%nat -> 0 < pressure d (q x) -> vs q x -> vs (fun y => calcEntropyVars d false (q y)) x.
Proof.
  intros H0 Hp H. unfold calcEntropyVars. cbv zeta.
  assert (N0 : q x 0%nat <> 0) by lra. pose proof (sm_pressure q x N0 H) as P. pose proof (vs_0 q x H) as Q0.
  assert (F : sm (fun y => 1 / pressure d (q y)) x) by (apply sm_div; [lra|apply sm_const|exact P]).
  apply vs_mk.
  - apply sm_minus.
    + apply sm_div; [unfold gami; lra| |apply sm_const]. apply sm_minus; [apply sm_const|]. apply sm_ln.
      * apply Rdiv_lt_0_compat; [exact Hp|apply Rpower_pos].
      * apply sm_div; [apply Rgt_not_eq, Rpower_pos|exact P|apply sm_Rpower; assumption].
    + apply sm_mult; [|exact Q0]. apply sm_mult; [|exact F]. apply sm_mult; [apply sm_const|].
      apply (sm_dot N pi d (fun y i => q y (S i) / q y 0%nat) (fun y i => q y (S i) / q y 0%nat)); intros i Hi; apply sm_div; auto; apply vs_S; assumption.
  - intros i Hi. apply sm_mult; [apply vs_S; assumption|exact F].
  - apply sm_mult; [apply sm_opp; exact Q0|exact F].
Qed.
Lemma vs_cons w x : w x (S d) < 0 -> vs w x -> vs (fun y => calcConservativeVars d true (w y)) x.
Proof.
  intros H0 H. unfold calcConservativeVars. cbv zeta. assert (N0 : w x (S d) <> 0) by lra. pose proof (vs_E w x H) as We.
  assert (U : forall i, (i < d)%nat -> sm (fun y => - w y (S i) / w y (S d)) x).
  { intros i Hi. apply sm_div; [exact N0| |exact We]. apply sm_opp. apply vs_S; assumption. }
  assert (V2 : sm (fun y => rsum d (fun i => - w y (S i) / w y (S d) * (- w y (S i) / w y (S d)))) x).
  { apply (sm_rsum N pi d (fun i y => - w y (S i) / w y (S d) * (- w y (S i) / w y (S d)))). intros i Hi. apply sm_mult; auto. }
  assert (Q0 : sm (fun y => Rpower (- exp (- (gamma + gami * (1 / 2 * rsum d (fun i => - w y (S i) / w y (S d) * (- w y (S i) / w y (S d))) * w y (S d) - w y 0%nat))) / w y (S d)) (1 / gami)) x).
  { apply sm_Rpower.
    - set (z := exp _). assert (0 < z) by apply exp_pos. replace (- z / w x (S d)) with (z / (- w x (S d))) by (field; lra). apply Rdiv_lt_0_compat; lra.
    - apply sm_div; [exact N0| |exact We]. apply sm_opp, sm_exp, sm_opp. apply sm_plus; [apply sm_const|]. apply sm_mult; [apply sm_const|].
      apply sm_minus; [|apply vs_0; exact H]. apply sm_mult; [|exact We]. apply sm_mult; [apply sm_const|exact V2]. }
  apply vs_mk; [exact Q0| |].
  - intros i Hi. apply sm_mult; [exact Q0|apply U; exact Hi].
  - apply sm_plus.
    + apply sm_div; [unfold gami; lra| |apply sm_const]. apply sm_div; [exact N0| |exact We]. apply sm_opp. exact Q0.
    + apply sm_mult; [|exact V2]. apply sm_mult; [apply sm_const|exact Q0].
Qed.
(** the state the boundary fluxes see, whatever the variables *)
Lemma vs_conv entvar q x : (entvar = true -> q x (S d) < 0) -> vs q x -> vs (fun y => calcConservativeVars d entvar (q y)) x.
Proof. destruct entvar; intros He H; [apply vs_cons; auto|exact H]. Qed.
Lemma vs_dqdw q v x : q x 0%nat <> 0 -> vs q x -> vs v x -> vs (fun y => calcdQdWProduct d (q y) (v y)) x.
Proof.
  intros H0 H V. unfold calcdQdWProduct. cbv zeta. pose proof (sm_pressure q x H0 H) as P. pose proof (vs_0 q x H) as Q0. pose proof (vs_E q x H) as QE.
  assert (RI : sm (fun y => 1 / q y 0%nat) x) by (apply sm_div; [exact H0|apply sm_const|exact Q0]).
  assert (Hh : sm (fun y => (q y (S d) + pressure d (q y)) * (1 / q y 0%nat)) x) by (apply sm_mult; [apply sm_plus|]; assumption).
  apply vs_mk.
  - apply (sm_rsum N pi (d + 2) (fun i y => q y i * v y i)). intros i Hi. apply sm_mult; [apply H|apply V]; exact Hi.
  - intros j Hj. assert (U : sm (fun y => q y (S j) * (1 / q y 0%nat)) x) by (apply sm_mult; [apply vs_S; assumption|exact RI]).
    apply sm_plus; [apply sm_plus|].
    + apply (sm_rsum N pi (d + 2) (fun i y => q y (S j) * (1 / q y 0%nat) * q y i * v y i)). intros i Hi.
      apply sm_mult; [apply sm_mult; [exact U|apply H; exact Hi]|apply V; exact Hi].
    + apply sm_mult; [exact P|apply vs_S; assumption].
    + apply sm_mult; [apply sm_mult; [exact P|exact U]|apply vs_E; exact V].
  - apply sm_plus; [apply sm_plus|].
    + apply sm_mult; [exact QE|apply vs_0; exact V].
    + apply (sm_rsum N pi d (fun i y => q y (S i) * ((q y (S d) + pressure d (q y)) * (1 / q y 0%nat)) * v y (S i))). intros i Hi.
      apply sm_mult; [apply sm_mult; [apply vs_S; assumption|exact Hh]|apply vs_S; assumption].
    + apply sm_mult; [|apply vs_E; exact V]. apply sm_minus.
      * apply sm_mult; [apply sm_mult; [exact Q0|exact Hh]|exact Hh].
      * apply sm_div; [unfold gami; lra| |apply sm_const]. apply sm_mult; [|exact P]. apply sm_mult; [|exact RI]. apply sm_mult; [apply sm_const|exact P].
Qed.
(** boundary fluxes: everything but the Euler flux is affine in q *)
Lemma vs_boundary dir qbnd q x : q x 0%nat <> 0 -> vs q x -> vs (fun y => calcBoundaryFlux d dir qbnd (q y)) x.
Proof.
  intros H0 H. unfold calcBoundaryFlux. cbv zeta.
  pose proof (vs_euler q dir x H0 H) as F.
  assert (DQ : forall i, (i < d + 2)%nat -> sm (fun y => q y i - qbnd i) x) by (intros i Hi; apply sm_minus; [apply H; exact Hi|apply sm_const]).
  assert (D1 : sm (fun y => dot d (mom qbnd) (mom (fun i => q y i - qbnd i))) x).
  { apply (sm_dot N pi d (fun _ => mom qbnd) (fun y => mom (fun i => q y i - qbnd i))); intros i Hi; [apply sm_const|apply (DQ (S i)); lia]. }
  assert (D2 : sm (fun y => dot d dir (mom (fun i => q y i - qbnd i))) x).
  { apply (sm_dot N pi d (fun _ => dir) (fun y => mom (fun i => q y i - qbnd i))); intros i Hi; [apply sm_const|apply (DQ (S i)); lia]. }
  apply vs_mk.
  - apply sm_plus; [apply sm_plus; [apply sm_plus; [apply (F 0%nat); lia|]|]|].
    + apply sm_mult; [apply sm_const|apply DQ; lia].
    + apply sm_mult; [apply sm_const|]. apply sm_minus; [apply sm_plus; [apply sm_mult; [apply sm_const|apply DQ; lia]|apply DQ; lia]|]. apply sm_mult; [exact D1|apply sm_const].
    + apply sm_mult; [apply sm_const|]. apply sm_plus; [|exact D2]. apply sm_mult; [apply sm_const|apply DQ; lia].
  - intros i Hi. apply sm_plus; [apply sm_plus; [apply sm_plus; [apply (F (S i)); lia|]|]|].
    + apply sm_mult; [apply sm_const|apply DQ; lia].
    + apply sm_mult; [|apply sm_const]. apply sm_minus; [apply sm_plus; [apply sm_mult; [apply sm_const|apply DQ; lia]|apply DQ; lia]|]. apply sm_mult; [exact D1|apply sm_const].
    + apply sm_mult; [|apply sm_const]. apply sm_plus; [|exact D2]. apply sm_mult; [apply sm_const|apply DQ; lia].
  - apply sm_plus; [apply sm_plus; [apply sm_plus; [apply (F (S d)); lia|]|]|].
    + apply sm_mult; [apply sm_const|apply DQ; lia].
    + apply sm_mult; [|apply sm_const]. apply sm_minus; [apply sm_plus; [apply sm_mult; [apply sm_const|apply DQ; lia]|apply DQ; lia]|]. apply sm_mult; [exact D1|apply sm_const].
    + apply sm_mult; [|apply sm_const]. apply sm_plus; [|exact D2]. apply sm_mult; [apply sm_const|apply DQ; lia].
Qed.
Lemma vs_slip (entvar : bool) dir (q : X -> vec) x : (if entvar then q x (S d) < 0 else q x 0%nat <> 0) -> vs q x -> vs (fun y => calcSlipWallFlux d entvar dir (q y)) x.
Proof.
  intros H0 H. unfold calcSlipWallFlux. cbv zeta. apply vs_mk; [apply sm_const| |apply sm_const]. intros i Hi. apply sm_mult; [apply sm_const|].
  destruct entvar; [|apply sm_pressure; assumption]. assert (N0 : q x (S d) <> 0) by lra. pose proof (vs_E q x H) as QE.
  apply sm_div; [exact N0| |exact QE]. apply sm_opp. apply sm_Rpower.
  - set (z := exp _). assert (0 < z) by apply exp_pos. replace (- z / q x (S d)) with (z / (- q x (S d))) by (field; lra). apply Rdiv_lt_0_compat; lra.
  - apply sm_div; [exact N0| |exact QE]. apply sm_opp, sm_exp, sm_opp. apply sm_plus; [apply sm_const|]. apply sm_mult; [apply sm_const|].
    apply sm_minus; [|apply vs_0; exact H]. apply sm_div; [exact N0| |exact QE]. apply sm_mult; [apply sm_const|apply sm_mom2; exact H].
Qed.
Lemma vs_control dir uc q x : q x 0%nat <> 0 -> vs q x -> vs (fun y => calcControlFlux d dir (q y) uc) x.
Proof.
  intros H0 H. unfold calcControlFlux. cbv zeta. pose proof (sm_pressure q x H0 H) as P. apply vs_mk.
  - apply sm_mult; [apply vs_0; exact H|apply sm_const].
  - intros i Hi. apply sm_plus; [apply sm_mult; [apply vs_S; assumption|apply sm_const]|apply sm_mult; [apply sm_const|exact P]].
  - apply sm_plus; [apply sm_mult; [apply vs_E; exact H|apply sm_const]|apply sm_mult; [exact P|apply sm_const]].
Qed.
Lemma vs_far2 dir qbnd q x : q x 0%nat <> 0 -> vs q x -> vs (fun y => calcFarFieldFlux2 d dir qbnd (q y)) x.
Proof.
  intros H0 H. unfold calcFarFieldFlux2. cbv zeta. pose proof (sm_pressure q x H0 H) as P.
  assert (F : forall i, (i < d + 2)%nat -> sm (fun y => 1 / 2 * (dot d dir (mom qbnd) / qbnd 0%nat) * (q y i + qbnd i) + 1 / 2 * Rabs (dot d dir (mom qbnd) / qbnd 0%nat) * (q y i - qbnd i)) x).
  { intros i Hi. apply sm_plus; (apply sm_mult; [apply sm_const|]); [apply sm_plus; [exact (H i Hi)|apply sm_const]|apply sm_minus; [exact (H i Hi)|apply sm_const]]. }
  apply vs_mk; [apply F; lia| |].
  - intros i Hi. apply sm_plus; [apply (F (S i)); lia|]. apply sm_mult; [apply sm_const|exact P].
  - apply sm_plus; [apply (F (S d)); lia|]. apply sm_plus; (apply sm_mult; [apply sm_const|]); [apply sm_plus; [exact P|apply sm_const]|apply sm_minus; [exact P|apply sm_const]].
Qed.
(** entropy-conservative boundary flux: needs w . (dq/dw) w <> 0 *)
Lemma vs_boundaryEC dir qbnd ef q x : 0 < q x 0%nat -> 0 < pressure d (q x) -> vs q x ->
  dot (d + 2) (calcEntropyVars d false (q x)) (calcdQdWProduct d (q x) (calcEntropyVars d false (q x))) <> 0 ->
  vs (fun y => calcBoundaryFluxEC d dir qbnd (q y) ef) x.
Proof.
  intros H0 Hp H Hd. assert (N0 : q x 0%nat <> 0) by lra. unfold calcBoundaryFluxEC. cbv zeta.
  pose proof (vs_boundary dir qbnd q x N0 H) as F. pose proof (vs_entvars q x H0 Hp H) as W.
  pose proof (vs_dqdw q (fun y => calcEntropyVars d false (q y)) x N0 H W) as A. intros i Hi. apply sm_minus; [apply F; exact Hi|].
  apply sm_mult; [|apply A; exact Hi]. apply sm_div; [exact Hd| |].
  - apply sm_minus; [|apply sm_const]. apply sm_minus.
    + apply (sm_dot N pi (d + 2) (fun y => calcEntropyVars d false (q y)) (fun y => calcBoundaryFlux d dir qbnd (q y))); intros; auto.
    + apply sm_momdir. exact H.
  - apply (sm_dot N pi (d + 2) (fun y => calcEntropyVars d false (q y)) (fun y => calcdQdWProduct d (q y) (calcEntropyVars d false (q y)))); intros; auto.
Qed.
(** spectral radius: the normal velocity must not vanish *)
Lemma sm_spectral dir q x : 0 < q x 0%nat -> 0 < pressure d (q x) -> dot d (mom (q x)) dir <> 0 -> vs q x ->
  sm (fun y => calcSpectralRadius d false dir (q y)) x.
Proof.
  intros H0 Hp Hu H. unfold calcSpectralRadius, calcConservativeVars. cbv zeta. assert (N0 : q x 0%nat <> 0) by lra.
  pose proof (sm_pressure q x N0 H) as P. pose proof (vs_0 q x H) as Q0. apply sm_plus.
  - apply sm_abs; [|apply sm_div; [exact N0|apply sm_momdir; exact H|exact Q0]]. intros E. apply Hu. apply (Rmult_eq_reg_r (/ q x 0%nat)); [|apply Rinv_neq_0_compat; exact N0].
    rewrite Rmult_0_l. exact E.
  - apply sm_mult; [|apply sm_const]. apply sm_sqrt.
    + apply Rdiv_lt_0_compat; [|exact H0]. apply Rmult_lt_0_compat; [unfold gamma; lra|exact Hp].
    + apply sm_div; [exact N0| |exact Q0]. apply sm_mult; [apply sm_const|exact P].
Qed.
Lemma vs_lps adjJ q v x : 0 < q x 0%nat -> 0 < pressure d (q x) -> (forall i, (i < d)%nat -> dot d (mom (q x)) (adjJ i) <> 0) -> vs q x -> vs v x ->
  vs (fun y => applyLPSScaling d adjJ (q y) (v y)) x.
Proof.
  intros H0 Hp Hu H V. unfold applyLPSScaling. cbv zeta. intros i Hi. apply sm_mult; [apply vs_dqdw; auto; lra|].
  unfold Rdiv. apply sm_mult; [|apply sm_const].
  apply (sm_rsum N pi d (fun i y => calcSpectralRadius d false (adjJ i) (q y))). intros k Hk. apply sm_spectral; auto.
Qed.
(** the logarithmic average: away from the switch between its two formulas *)
Lemma sm_logavg a b x : 0 < a x -> 0 < b x -> spread (a x) (b x) <> 1 / 1000 -> sm a x -> sm b x -> sm (fun y => logavg (a y) (b y)) x.
Proof.
  intros Ha Hb Hs A B. assert (Nb : b x <> 0) by lra.
  set (f := fun y => (a y / b y - 1) / (a y / b y + 1)).
  assert (XI : 0 < a x / b x) by (apply Rdiv_lt_0_compat; assumption).
  assert (SX : sm (fun y => a y / b y) x) by (apply sm_div; assumption).
  assert (F : sm f x).
  { unfold f. apply sm_div; [lra| |]; [apply sm_minus; [exact SX|apply sm_const]|apply sm_plus; [exact SX|apply sm_const]]. }
  assert (U : sm (fun y => f y * f y) x) by (apply sm_mult; exact F).
  assert (EU : f x * f x = spread (a x) (b x)).
  { unfold f, spread. assert (E : (a x / b x - 1) / (a x / b x + 1) = (a x - b x) / (a x + b x)) by (field; repeat split; lra). rewrite E. reflexivity. }
  destruct (Rlt_le_dec (f x * f x) (1 / 1000)) as [L|L].
  - apply (sm_local N pi (fun y => 1 / 1000 - f y * f y) _
      (fun y => (a y + b y) / (2 * (1 + (f y * f y) * (1 / 3 + (f y * f y) * (1 / 5 + (f y * f y) * (1 / 7 + (f y * f y) / 9))))))).
    + apply sm_minus; [apply sm_const|exact U].
    + lra.
    + intros y Hy. unfold logavg. cbv zeta. fold (f y).
      destruct (Rltb_spec (f y * f y) (1 / 1000)); [reflexivity|lra].
    + apply sm_div; [|apply sm_plus; assumption|].
      * assert (0 <= f x * f x) by apply Rle_0_sqr. set (u := f x * f x) in *.
        assert (0 <= u * (1 / 3 + u * (1 / 5 + u * (1 / 7 + u / 9)))).
        { repeat (apply Rmult_le_pos; [assumption|]; apply Rplus_le_le_0_compat; [lra|]). lra. }
        lra.
      * apply sm_mult; [apply sm_const|]. apply sm_plus; [apply sm_const|]. apply sm_mult; [exact U|]. apply sm_plus; [apply sm_const|].
        apply sm_mult; [exact U|]. apply sm_plus; [apply sm_const|]. apply sm_mult; [exact U|]. apply sm_plus; [apply sm_const|].
        apply sm_div; [lra|exact U|apply sm_const].
  - assert (Hf : f x <> 0) by (intros E; rewrite E in L; lra).
    apply (sm_local N pi (fun y => f y * f y - 1 / 1000) _ (fun y => (a y + b y) / (2 * (ln (a y / b y) / 2 / f y)))).
    + apply sm_minus; [exact U|apply sm_const].
    + rewrite EU in *. lra.
    + intros y Hy. unfold logavg. cbv zeta. fold (f y).
      destruct (Rltb_spec (f y * f y) (1 / 1000)); [lra|reflexivity].
    + assert (Hl : ln (a x / b x) <> 0).
      { intros E. apply Hf. unfold f. assert (E1 : a x / b x = 1) by (rewrite <- (exp_ln (a x / b x)), E, exp_0; [reflexivity|exact XI]). rewrite E1. field. }
      apply sm_div; [|apply sm_plus; assumption|].
      * intros E. apply Hl. apply (Rmult_eq_reg_r (/ f x)); [|apply Rinv_neq_0_compat; exact Hf]. unfold Rdiv in E. lra.
      * apply sm_mult; [apply sm_const|]. apply sm_div; [exact Hf| |exact F]. apply sm_div; [lra| |apply sm_const]. apply sm_ln; assumption.
Qed.
End FluxSmooth.
