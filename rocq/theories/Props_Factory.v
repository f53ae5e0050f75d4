(** C27: solver factories. *)
From Coq Require Import Reals List String Bool ZArith Lra.
From Verif Require Import Num Options Factory Ode FactoryProofs.
Import ListNotations.
Local Open Scope string_scope.

(** Linear solvers.  [says_* o k v]: the option tree holds v under k; [*_or o k d v]: v, or the default d if
    the key is absent.  Every documented name gives the documented object with the requested settings (the
    absolute tolerance except for hyprefgmres, the print level except for fgmres), every other name throws. *)
Theorem C27_linear_solver_partial :
  forall o ty reltol abstol maxiter ptl kdim p,
  says_str o "type" ty -> says_num o "reltol" reltol -> num_or o "abstol" 0 abstol ->
  says_int o "maxiter" maxiter -> says_int o "printlevel" ptl -> int_or o "kdim" (-1) kdim ->
  forall k, In (ty, k) linear_names -> (hypre_lin k -> forall q, p = Some q -> p_is_hypre q = true) ->
  exists s, constructLinearSolver o p = Built s /\ l_kind s = k /\ l_reltol s = Some reltol /\ l_maxiter s = Some maxiter /\
    l_prec s = option_map p_id p /\ (k <> HypreFGMRES -> l_abstol s = Some abstol) /\
    (restarted k -> l_kdim s = if Z.eqb kdim (-1) then None else Some kdim) /\ (k <> FGMRES -> l_print s = Some ptl) /\
    (k = FGMRES -> l_print s = if Z.ltb 0 ptl then Some 1%Z else None).
Proof. exact lin_known. Qed.
Print Assumptions C27_linear_solver_partial.

Theorem C27_linear_solver_unknown_throws :
  forall o ty reltol abstol maxiter ptl kdim p,
  says_str o "type" ty -> says_num o "reltol" reltol -> num_or o "abstol" 0 abstol ->
  says_int o "maxiter" maxiter -> says_int o "printlevel" ptl -> int_or o "kdim" (-1) kdim ->
  ~ In ty (map fst linear_names) -> constructLinearSolver o p = MISOException.
Proof. exact lin_unknown. Qed.
Print Assumptions C27_linear_solver_unknown_throws.

(** the absolute tolerance is silently dropped for hyprefgmres *)
Theorem C27_hyprefgmres_abstol_refuted :
  forall o reltol abstol maxiter ptl kdim,
  says_str o "type" "hyprefgmres" -> says_num o "reltol" reltol -> num_or o "abstol" 0 abstol ->
  says_int o "maxiter" maxiter -> says_int o "printlevel" ptl -> int_or o "kdim" (-1) kdim ->
  exists s, constructLinearSolver o None = Built s /\ l_abstol s = None.
Proof. intros o rt at_ mi pl kd H1 H2 H3 H4 H5 H6. exact (lin_fgmres_abstol o _ rt at_ mi pl kd None H1 H2 H3 H4 H5 H6 eq_refl eq_refl). Qed.
Print Assumptions C27_hyprefgmres_abstol_refuted.

(** a hypre Krylov solver with a preconditioner that is not a hypre one (flow's blockilu) fails with
    std::bad_cast, which is not a MISOException *)
Theorem C27_hypre_solver_needs_hypre_prec_refuted :
  forall o ty reltol abstol maxiter ptl kdim p k q,
  says_str o "type" ty -> says_num o "reltol" reltol -> num_or o "abstol" 0 abstol ->
  says_int o "maxiter" maxiter -> says_int o "printlevel" ptl -> int_or o "kdim" (-1) kdim ->
  In (ty, k) linear_names -> hypre_lin k -> p = Some q -> p_is_hypre q = false ->
  constructLinearSolver o p = BadCast.
Proof. intros o ty rt at_ mi pl kd p k q H1 H2 H3 H4 H5 H6. exact (lin_bad_cast o ty rt at_ mi pl kd p H1 H2 H3 H4 H5 H6 k q). Qed.
Print Assumptions C27_hypre_solver_needs_hypre_prec_refuted.

(** Nonlinear solvers.  [plain reltol abstol maxiter ptl lin k s]: s is a k with those settings, starting from
    zero (iterative_mode false), using the given linear solver. *)
Theorem C27_nonlinear_solver :
  forall o ty reltol abstol maxiter ptl lin,
  says_str o "type" ty -> says_num o "reltol" reltol -> says_num o "abstol" abstol ->
  says_int o "maxiter" maxiter -> says_int o "printlevel" ptl ->
  (ty = "none" -> constructNonlinearSolver o lin = Built None) /\
  (ty = "newton" -> exists s, constructNonlinearSolver o lin = Built (Some s) /\ plain reltol abstol maxiter ptl lin Newton s) /\
  (forall t r0 rm al ga, ty = "inexactnewton" ->
     int_or o "inexacttype" 2 t -> num_or o "rtol0" (1/2) r0 -> num_or o "rtol_max" (9/10) rm ->
     num_or o "alpha" (1/2 * (1 + sqrt 5)) al -> num_or o "gamma" 1 ga ->
     exists s, constructNonlinearSolver o lin = Built (Some s) /\ plain reltol abstol maxiter ptl lin (InexactNewton t r0 rm al ga) s) /\
  (ty = "relaxednewton" -> absent o "linesearch" -> exists s, constructNonlinearSolver o lin = Built (Some s) /\
     plain reltol abstol maxiter ptl lin (RelaxedNewton {| b_mu := 1/10000; b_rho_hi := 9/10; b_rho_lo := 1/10; b_order := 3; b_maxiter := 10 |}) s) /\
  (~ In ty ["none"; "newton"; "inexactnewton"; "relaxednewton"] -> constructNonlinearSolver o lin = MISOException).
Proof.
  intros o ty rt at_ mi pl lin H1 H2 H3 H4 H5. repeat split.
  - exact (nl_none o ty rt at_ mi pl lin H1 H2 H3 H4 H5).
  - exact (nl_newton o ty rt at_ mi pl lin H1 H2 H3 H4 H5).
  - exact (nl_inexact o ty rt at_ mi pl lin H1 H2 H3 H4 H5).
  - intros E (m & -> & Hn). eapply nl_relaxed; eauto. cbn. rewrite Hn. reflexivity.
  - exact (nl_unknown o ty rt at_ mi pl lin H1 H2 H3 H4 H5).
Qed.
Print Assumptions C27_nonlinear_solver.

(** Line search: the documented name, every setting read from the options or defaulted; any other name throws. *)
Theorem C27_line_search :
  (forall o mu hi lo io mi, num_or o "mu" (1/10000) mu -> num_or o "rhohi" (9/10) hi -> num_or o "rholo" (1/10) lo ->
     int_or o "interp-order" 3 io -> int_or o "maxiter" 10 mi ->
     createLineSearch "backtracking" o = Built {| b_mu := mu; b_rho_hi := hi; b_rho_lo := lo; b_order := io; b_maxiter := mi |}) /\
  (forall t o, t <> "backtracking" -> createLineSearch t o = MISOException).
Proof. split; [exact ls_object|exact ls_unknown]. Qed.
Print Assumptions C27_line_search.

(** Preconditioners: the flow factory throws on unknown names ... *)
Theorem C27_flow_preconditioner_unknown_throws :
  forall o t, says_str o "type" t -> ~ In t ["hypreeuclid"; "hypreilu"; "hypreams"; "hypreboomeramg"; "blockilu"] ->
  flowPreconditioner o = MISOException.
Proof. exact flow_prec_unknown. Qed.
Print Assumptions C27_flow_preconditioner_unknown_throws.

(** ... but the magnetostatic and thermal ones silently run unpreconditioned, even for "hypreilu", which they
    configure and then throw away *)
Theorem C27_silent_no_preconditioner_refuted :
  (forall o t, says_str o "type" t -> ~ In t ["hypreams"; "hypreboomeramg"; "hypreilu"] ->
     magnetostaticPreconditioner o = Built None /\ thermalPreconditioner o = Built None) /\
  (forall o a b c d, says_str o "type" "hypreilu" ->
     says_int o "ilu-type" a -> says_int o "lev-fill" b -> says_int o "ilu-reorder" c -> says_int o "printlevel" d ->
     magnetostaticPreconditioner o = Built None /\ thermalPreconditioner o = Built None /\
     flowPreconditioner o = Built (Some (ILU a b c d))).
Proof. split; [exact mag_prec_unknown|exact mag_prec_ilu]. Qed.
Print Assumptions C27_silent_no_preconditioner_refuted.

(** Time marchers *)
Theorem C27_time_marcher_names :
  forall t s, In (t, s) marcher_names -> setTimestepper false t = Stepper s (match s with SteadyODE => true | _ => false end).
Proof. exact marcher_known. Qed.
Print Assumptions C27_time_marcher_names.

(** for every other name the code reads a key that is not there while building the message, instead of
    throwing MISOException *)
Theorem C27_unknown_marcher_refuted :
  forall t, ~ In t (map fst marcher_names) -> setTimestepper false t = TsUndefined.
Proof. exact marcher_unknown. Qed.
Print Assumptions C27_unknown_marcher_refuted.

(** nonlinear solver type "none" is documented, but every physics solver then dereferences the null pointer
    it returns (here: flow) *)
Theorem C27_none_crashes_flow_refuted :
  forall o po lo no k lin reltol abstol mi pl,
  at_ o "lin-prec" = Built po -> flowPreconditioner po = Built (Some k) ->
  at_ o "lin-solver" = Built lo -> constructLinearSolver lo (Some {| p_id := 0; p_is_hypre := is_hypre k |}) = Built lin ->
  at_ o "nonlin-solver" = Built no -> says_str no "type" "none" ->
  says_num no "reltol" reltol -> says_num no "abstol" abstol -> says_int no "maxiter" mi -> says_int no "printlevel" pl ->
  buildFlowSolvers o = Undefined.
Proof. exact flow_none_null. Qed.
Print Assumptions C27_none_crashes_flow_refuted.

Definition num_ (r : R) : opts := JLeaf (LReal r).
Definition int_ (z : Z) : opts := JLeaf (LInt z).
Definition str_ (s : string) : opts := JLeaf (LStr s).
Example C27_nonvacuous :
  let o := JObj [("type", str_ "gmres"); ("reltol", num_ (1/1000)); ("maxiter", int_ 100); ("printlevel", int_ 0)] in
  says_str o "type" "gmres" /\ says_num o "reltol" (1/1000) /\ num_or o "abstol" 0 0 /\ says_int o "maxiter" 100 /\
  says_int o "printlevel" 0 /\ int_or o "kdim" (-1) (-1).
Proof.
  cbv zeta. unfold says_str, says_num, num_or, int_or, says_int, absent. repeat split; try (eexists; split; [reflexivity|]); try reflexivity.
  - left. reflexivity.
  - right. split; [|reflexivity]. eexists. split; reflexivity.
  - right. split; [|reflexivity]. eexists. split; reflexivity.
Qed.
(** a complete flow configuration with type "none" *)
Example C27_nonvacuous_none :
  let lin := JObj [("type", str_ "hypregmres"); ("reltol", num_ (1/1000)); ("maxiter", int_ 100); ("printlevel", int_ 0)] in
  let non := JObj [("type", str_ "none"); ("reltol", num_ (1/1000)); ("abstol", num_ 0); ("maxiter", int_ 1); ("printlevel", int_ 0)] in
  let pre := JObj [("type", str_ "hypreeuclid")] in
  buildFlowSolvers (JObj [("lin-prec", pre); ("lin-solver", lin); ("nonlin-solver", non)]) = Undefined.
Proof. reflexivity. Qed.
