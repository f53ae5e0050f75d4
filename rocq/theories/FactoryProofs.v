(** Proofs about the factories. *)
From Coq Require Import Reals List String Bool ZArith Lia.
From Verif Require Import Num Options Factory Ode.
Import ListNotations.
Local Open Scope string_scope.

(** What an option tree says, read without the factories' helpers: key k holds string s / number r / integer z *)
Definition says_str (o : opts) (k s : string) := exists m, o = JObj m /\ find k m = Some (JLeaf (LStr s)).
Definition says_num (o : opts) (k : string) (r : R) :=
  exists m, o = JObj m /\ (find k m = Some (JLeaf (LReal r)) \/ exists z, find k m = Some (JLeaf (LInt z)) /\ r = IZR z).
Definition says_int (o : opts) (k : string) (z : Z) := exists m, o = JObj m /\ find k m = Some (JLeaf (LInt z)).
Definition absent (o : opts) (k : string) := exists m, o = JObj m /\ find k m = None.
(** key present with value r, or absent and r the default *)
Definition num_or (o : opts) (k : string) (d r : R) := says_num o k r \/ (absent o k /\ r = d).
Definition int_or (o : opts) (k : string) (d z : Z) := says_int o k z \/ (absent o k /\ z = d).

Lemma str_at o k s : says_str o k s -> at_ o k = Built (JLeaf (LStr s)).
Proof. intros (m & -> & E). cbn. rewrite E. reflexivity. Qed.
Lemma num_at o k r : says_num o k r -> exists v, at_ o k = Built v /\ get_double v = Built r.
Proof. intros (m & -> & [E|(z & E & ->)]); cbn; rewrite E; eauto. Qed.
Lemma int_at o k z : says_int o k z -> at_ o k = Built (JLeaf (LInt z)).
Proof. intros (m & -> & E). cbn. rewrite E. reflexivity. Qed.
Lemma num_value o k d r : num_or o k d r -> value o k get_double d = Built r.
Proof.
  intros [(m & -> & [E|(z & E & ->)])|[(m & -> & E) ->]]; unfold value; rewrite E; reflexivity.
Qed.
Lemma int_value o k d z : int_or o k d z -> value o k get_int d = Built z.
Proof. intros [(m & -> & E)|[(m & -> & E) ->]]; unfold value; rewrite E; reflexivity. Qed.

Definition linear_names : list (string * lin_kind) :=
  [("hypregmres", HypreGMRES); ("gmres", GMRES); ("hyprefgmres", HypreFGMRES); ("fgmres", FGMRES);
   ("hyprepcg", HyprePCG); ("pcg", CG); ("minres", MINRES)].
Definition hypre_lin (k : lin_kind) := k = HypreGMRES \/ k = HypreFGMRES \/ k = HyprePCG.
Definition restarted (k : lin_kind) := k = HypreGMRES \/ k = HypreFGMRES \/ k = GMRES \/ k = FGMRES.

Ltac lit H := repeat (apply Decidable.not_or in H; destruct H as [?H H]).
Lemma eqb_ne s t : t <> s -> String.eqb s t = false.
Proof. intros H. apply String.eqb_neq. congruence. Qed.

Section Lin.
Variables (o : opts) (ty : string) (reltol abstol : R) (maxiter ptl kdim : Z) (p : option prec).
Hypotheses (Ht : says_str o "type" ty) (Hr : says_num o "reltol" reltol) (Ha : num_or o "abstol" 0 abstol)
  (Hm : says_int o "maxiter" maxiter) (Hp : says_int o "printlevel" ptl) (Hk : int_or o "kdim" (-1) kdim).

Lemma lin_unknown : ~ In ty (map fst linear_names) -> constructLinearSolver o p = MISOException.
Proof.
  intros Hn. unfold constructLinearSolver. rewrite (str_at _ _ _ Ht). destruct (num_at _ _ _ Hr) as (v & -> & E).
  cbn [bind get_string]. rewrite E. cbn [bind]. rewrite (num_value _ _ _ _ Ha), (int_at _ _ _ Hm), (int_at _ _ _ Hp).
  cbn [bind get_int]. rewrite (int_value _ _ _ _ Hk). cbn [bind].
  cbn in Hn. lit Hn. rewrite !eqb_ne by assumption. reflexivity.
Qed.

Lemma lin_known k : In (ty, k) linear_names -> (hypre_lin k -> forall q, p = Some q -> p_is_hypre q = true) ->
  exists s, constructLinearSolver o p = Built s /\ l_kind s = k /\ l_reltol s = Some reltol /\ l_maxiter s = Some maxiter /\
    l_prec s = option_map p_id p /\ (k <> HypreFGMRES -> l_abstol s = Some abstol) /\
    (restarted k -> l_kdim s = if Z.eqb kdim (-1) then None else Some kdim) /\ (k <> FGMRES -> l_print s = Some ptl) /\
    (k = FGMRES -> l_print s = if Z.ltb 0 ptl then Some 1%Z else None).
Proof.
  intros Hin Hh. unfold constructLinearSolver. rewrite (str_at _ _ _ Ht). destruct (num_at _ _ _ Hr) as (v & -> & E).
  cbn [bind get_string]. rewrite E. cbn [bind]. rewrite (num_value _ _ _ _ Ha), (int_at _ _ _ Hm), (int_at _ _ _ Hp).
  cbn [bind get_int]. rewrite (int_value _ _ _ _ Hk). cbn [bind].
  assert (Hq : hypre_lin k -> set_prec true p = Built (option_map p_id p)).
  { intros Hl. unfold set_prec. destruct p as [q|]; [|reflexivity]. rewrite (Hh Hl q eq_refl). reflexivity. }
  assert (Hq' : set_prec false p = Built (option_map p_id p)) by (unfold set_prec; destruct p; reflexivity).
  unfold hypre_lin in Hq.
  cbn in Hin. repeat (destruct Hin as [E1|Hin]; [injection E1 as <- <-; cbn [String.eqb Ascii.eqb Bool.eqb];
    rewrite ?Hq' ; try (rewrite Hq by tauto); cbn [bind]; eexists; split; [reflexivity|]; unfold restarted, kdim_opt; cbn;
    repeat split; intros; try reflexivity; try congruence; intuition congruence|]). destruct Hin.
Qed.

Lemma lin_bad_cast k q : In (ty, k) linear_names -> hypre_lin k -> p = Some q -> p_is_hypre q = false ->
  constructLinearSolver o p = BadCast.
Proof.
  intros Hin Hh Ep Eq. unfold constructLinearSolver. rewrite (str_at _ _ _ Ht). destruct (num_at _ _ _ Hr) as (v & -> & E).
  cbn [bind get_string]. rewrite E. cbn [bind]. rewrite (num_value _ _ _ _ Ha), (int_at _ _ _ Hm), (int_at _ _ _ Hp).
  cbn [bind get_int]. rewrite (int_value _ _ _ _ Hk). cbn [bind].
  assert (Hs : set_prec true p = BadCast) by (unfold set_prec; rewrite Ep, Eq; reflexivity).
  unfold hypre_lin in Hh. cbn in Hin.
  repeat (destruct Hin as [E1|Hin]; [injection E1 as <- <-; cbn [String.eqb Ascii.eqb Bool.eqb]; rewrite ?Hs;
    try reflexivity; exfalso; intuition discriminate|]). destruct Hin.
Qed.

Lemma lin_fgmres_abstol : ty = "hyprefgmres" -> p = None ->
  exists s, constructLinearSolver o p = Built s /\ l_abstol s = None.
Proof.
  intros -> ->. unfold constructLinearSolver. rewrite (str_at _ _ _ Ht). destruct (num_at _ _ _ Hr) as (v & -> & E).
  cbn [bind get_string]. rewrite E. cbn [bind]. rewrite (num_value _ _ _ _ Ha), (int_at _ _ _ Hm), (int_at _ _ _ Hp).
  cbn [bind get_int]. rewrite (int_value _ _ _ _ Hk). cbn [bind String.eqb Ascii.eqb Bool.eqb set_prec].
  eexists. split; reflexivity.
Qed.
End Lin.

Section Nonlin.
Variables (o : opts) (ty : string) (reltol abstol : R) (maxiter ptl : Z) (lin : lin_solver).
Hypotheses (Ht : says_str o "type" ty) (Hr : says_num o "reltol" reltol) (Ha : says_num o "abstol" abstol)
  (Hm : says_int o "maxiter" maxiter) (Hp : says_int o "printlevel" ptl).
Definition plain (k : nl_kind) (s : nl_solver) :=
  n_kind s = k /\ n_reltol s = reltol /\ n_abstol s = abstol /\ n_maxiter s = maxiter /\ n_print s = ptl /\
  n_iterative s = false /\ n_lin s = lin.

Lemma nl_reads : forall k,
  constructNonlinearSolver o lin = k ->
  k = (let fin k := Built (Some {| n_kind := k; n_reltol := reltol; n_abstol := abstol; n_maxiter := maxiter;
                              n_print := ptl; n_iterative := false; n_lin := lin |}) in
  if String.eqb ty "none" then Built None
  else if String.eqb ty "newton" then fin Newton
  else if String.eqb ty "inexactnewton" then
    bind (value o "inexacttype" get_int 2%Z) (fun type =>
    bind (value o "rtol0" get_double (1 / 2)%R) (fun rtol0 =>
    bind (value o "rtol_max" get_double (9 / 10)%R) (fun rtol_max =>
    bind (value o "alpha" get_double (1 / 2 * (1 + sqrt 5))%R) (fun alpha =>
    bind (value o "gamma" get_double 1%R) (fun gamma =>
    fin (InexactNewton type rtol0 rtol_max alpha gamma))))))
  else if String.eqb ty "relaxednewton" then bind (newRelaxedNewton o) (fun ls => fin (RelaxedNewton ls))
  else MISOException).
Proof.
  intros k <-. unfold constructNonlinearSolver. rewrite (str_at _ _ _ Ht).
  destruct (num_at _ _ _ Hr) as (v & -> & E). destruct (num_at _ _ _ Ha) as (w & -> & F).
  cbn [bind get_string]. rewrite E, F. cbn [bind]. rewrite (int_at _ _ _ Hm), (int_at _ _ _ Hp). reflexivity.
Qed.

Lemma nl_unknown : ~ In ty ["none"; "newton"; "inexactnewton"; "relaxednewton"] -> constructNonlinearSolver o lin = MISOException.
Proof.
  intros Hn. rewrite (nl_reads _ eq_refl). cbv zeta. cbn in Hn. lit Hn. rewrite !eqb_ne by assumption. reflexivity.
Qed.
Lemma nl_none : ty = "none" -> constructNonlinearSolver o lin = Built None.
Proof. intros E. rewrite (nl_reads _ eq_refl). cbv zeta. rewrite E. reflexivity. Qed.
Lemma nl_newton : ty = "newton" -> exists s, constructNonlinearSolver o lin = Built (Some s) /\ plain Newton s.
Proof. intros E. rewrite (nl_reads _ eq_refl). cbv zeta. rewrite E. cbn. eexists. split; [reflexivity|]. repeat split. Qed.
Lemma nl_inexact t r0 rm al ga : ty = "inexactnewton" ->
  int_or o "inexacttype" 2 t -> num_or o "rtol0" (1/2) r0 -> num_or o "rtol_max" (9/10) rm ->
  num_or o "alpha" (1/2 * (1 + sqrt 5)) al -> num_or o "gamma" 1 ga ->
  exists s, constructNonlinearSolver o lin = Built (Some s) /\ plain (InexactNewton t r0 rm al ga) s.
Proof.
  intros E H1 H2 H3 H4 H5. rewrite (nl_reads _ eq_refl). cbv zeta. rewrite E. cbn [String.eqb Ascii.eqb Bool.eqb].
  rewrite (int_value _ _ _ _ H1), (num_value _ _ _ _ H2), (num_value _ _ _ _ H3), (num_value _ _ _ _ H4), (num_value _ _ _ _ H5).
  cbn. eexists. split; [reflexivity|]. repeat split.
Qed.
Lemma nl_relaxed ls : ty = "relaxednewton" -> newRelaxedNewton o = Built ls ->
  exists s, constructNonlinearSolver o lin = Built (Some s) /\ plain (RelaxedNewton ls) s.
Proof. intros E H. rewrite (nl_reads _ eq_refl). cbv zeta. rewrite E, H. cbn. eexists. split; [reflexivity|]. repeat split. Qed.
End Nonlin.

(** line search *)
Lemma ls_object o mu hi lo io mi : 
  num_or o "mu" (1/10000) mu -> num_or o "rhohi" (9/10) hi -> num_or o "rholo" (1/10) lo ->
  int_or o "interp-order" 3 io -> int_or o "maxiter" 10 mi ->
  createLineSearch "backtracking" o = Built {| b_mu := mu; b_rho_hi := hi; b_rho_lo := lo; b_order := io; b_maxiter := mi |}.
Proof.
  intros H1 H2 H3 H4 H5.
  assert (is_obj o = true) as E.
  { destruct H1 as [(m & -> & _)|[(m & -> & _) _]]; reflexivity. }
  unfold createLineSearch. cbn [String.eqb Ascii.eqb Bool.eqb]. rewrite E. cbn [b_mu b_rho_hi b_rho_lo b_order b_maxiter default_ls].
  rewrite (num_value _ _ _ _ H1), (num_value _ _ _ _ H2), (num_value _ _ _ _ H3), (int_value _ _ _ _ H4), (int_value _ _ _ _ H5). reflexivity.
Qed.
Lemma ls_unknown t o : t <> "backtracking" -> createLineSearch t o = MISOException.
Proof. intros H. unfold createLineSearch. rewrite (proj2 (String.eqb_neq _ _) H). reflexivity. Qed.

(** preconditioners *)
Lemma flow_prec_unknown o t : says_str o "type" t -> ~ In t ["hypreeuclid"; "hypreilu"; "hypreams"; "hypreboomeramg"; "blockilu"] ->
  flowPreconditioner o = MISOException.
Proof.
  intros Ht Hn. unfold flowPreconditioner. rewrite (str_at _ _ _ Ht). cbn [bind get_string]. cbn in Hn. lit Hn.
  rewrite !eqb_ne by assumption. reflexivity.
Qed.
Lemma ilu_ok o a b c d : says_int o "ilu-type" a -> says_int o "lev-fill" b -> says_int o "ilu-reorder" c -> says_int o "printlevel" d ->
  ilu o = Built (ILU a b c d).
Proof. intros H1 H2 H3 H4. unfold ilu, iopt. rewrite (int_at _ _ _ H1), (int_at _ _ _ H2), (int_at _ _ _ H3), (int_at _ _ _ H4). reflexivity. Qed.
Lemma mag_prec_unknown o t : says_str o "type" t -> ~ In t ["hypreams"; "hypreboomeramg"; "hypreilu"] ->
  magnetostaticPreconditioner o = Built None /\ thermalPreconditioner o = Built None.
Proof.
  intros Ht Hn. unfold magnetostaticPreconditioner, thermalPreconditioner. rewrite (str_at _ _ _ Ht). cbn [bind get_string]. cbn in Hn. lit Hn.
  rewrite !eqb_ne by assumption. split; reflexivity.
Qed.
Lemma mag_prec_ilu o a b c d : says_str o "type" "hypreilu" ->
  says_int o "ilu-type" a -> says_int o "lev-fill" b -> says_int o "ilu-reorder" c -> says_int o "printlevel" d ->
  magnetostaticPreconditioner o = Built None /\ thermalPreconditioner o = Built None /\
  flowPreconditioner o = Built (Some (ILU a b c d)).
Proof.
  intros Ht H1 H2 H3 H4. unfold magnetostaticPreconditioner, thermalPreconditioner, flowPreconditioner. rewrite (str_at _ _ _ Ht).
  cbn [bind get_string String.eqb Ascii.eqb Bool.eqb]. rewrite (ilu_ok o a b c d) by assumption. repeat split.
Qed.

(** time marchers *)
Definition marcher_names : list (string * stepper) :=
  [("RK1", ForwardEuler); ("RK4", RK4); ("MIDPOINT", ImplicitMidpoint); ("RRK", RRKImplicitMidpoint);
   ("RRKMIDPOINT", RRKImplicitMidpoint); ("RRK6", RRK6); ("PTC", PseudoTransient); ("steady", SteadyODE)].
Lemma marcher_known t s : In (t, s) marcher_names -> setTimestepper false t = Stepper s (match s with SteadyODE => true | _ => false end).
Proof. intros H. cbn in H. repeat (destruct H as [E|H]; [injection E as <- <-; reflexivity|]). destruct H. Qed.
Lemma marcher_unknown t : ~ In t (map fst marcher_names) -> setTimestepper false t = TsUndefined.
Proof. intros H. cbn in H. lit H. unfold setTimestepper. rewrite !eqb_ne by assumption. reflexivity. Qed.

(** flow stack *)
Lemma flow_none_null o po lo no k lin reltol abstol mi pl :
  at_ o "lin-prec" = Built po -> flowPreconditioner po = Built (Some k) ->
  at_ o "lin-solver" = Built lo -> constructLinearSolver lo (Some {| p_id := 0; p_is_hypre := is_hypre k |}) = Built lin ->
  at_ o "nonlin-solver" = Built no -> says_str no "type" "none" ->
  says_num no "reltol" reltol -> says_num no "abstol" abstol -> says_int no "maxiter" mi -> says_int no "printlevel" pl ->
  buildFlowSolvers o = Undefined.
Proof.
  intros H1 H2 H3 H4 H5 H6 H7 H8 H9 H10. unfold buildFlowSolvers. rewrite H1. cbn [bind]. rewrite H2. cbn [bind].
  rewrite H3. cbn [bind]. rewrite H4. cbn [bind]. rewrite H5. cbn [bind].
  rewrite (nl_none no "none" reltol abstol mi pl lin H6 H7 H8 H9 H10 eq_refl). reflexivity.
Qed.
