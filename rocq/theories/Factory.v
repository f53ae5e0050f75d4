(** Model of the string-keyed solver factories: constructLinearSolver and constructNonlinearSolver
    (src/common/mfem_extensions.cpp:392-583), createLineSearch and RelaxedNewton's constructor
    (src/common/relaxed_newton.cpp:15-66), the preconditioner factories of the flow, magnetostatic and thermal
    residuals, and the flow solver's constructor tail (src/physics/fluidflow/flow_solver.cpp:55-73).
    The time-marcher factory is [Ode.setTimestepper]. *)
From Coq Require Import Reals List String Bool ZArith.
From Verif Require Import Num Options.
Import ListNotations.
Local Open Scope string_scope.

(** JSON scalars; arrays carry their elements (only used as "not a scalar") *)
Inductive leaf := LStr (s : string) | LInt (z : Z) | LReal (r : R) | LBool (b : bool) | LArr (l : list leaf).
Notation opts := (json leaf).

(** Outcomes.  [Undefined]: const operator[] on a missing key or a non-object (an assertion in nlohmann::json,
    undefined with NDEBUG) and null dereference; [TypeError]: nlohmann type_error; [BadCast]: std::bad_cast. *)
Inductive result (A : Type) := Built (a : A) | MISOException | TypeError | BadCast | Undefined.
Arguments Built {A}. Arguments MISOException {A}. Arguments TypeError {A}. Arguments BadCast {A}. Arguments Undefined {A}.
Definition bind {A B} (r : result A) (k : A -> result B) : result B :=
  match r with Built a => k a | MISOException => MISOException | TypeError => TypeError | BadCast => BadCast | Undefined => Undefined end.
Notation "'do' x <- r ; k" := (bind r (fun x => k)) (at level 200, x name, r at level 100, k at level 200).

(** basic_json::operator[] const *)
Definition at_ (o : opts) (k : string) : result opts :=
  match o with JObj m => match find k m with Some v => Built v | None => Undefined end | _ => Undefined end.
(** get<std::string>, get<double>, get<int> (booleans convert to int but not to double) *)
Definition get_string (v : opts) : result string := match v with JLeaf (LStr s) => Built s | _ => TypeError end.
Definition get_double (v : opts) : result R :=
  match v with JLeaf (LInt z) => Built (IZR z) | JLeaf (LReal r) => Built r | _ => TypeError end.
Definition truncate (r : R) : Z := if Rltb r 0 then (- Int_part (- r))%Z else Int_part r.
Definition get_int (v : opts) : result Z :=
  match v with
  | JLeaf (LInt z) => Built z | JLeaf (LReal r) => Built (truncate r)
  | JLeaf (LBool b) => Built (if b then 1 else 0)%Z
  | _ => TypeError
  end.
(** basic_json::value(key, default) *)
Definition value {A} (o : opts) (k : string) (get : opts -> result A) (dflt : A) : result A :=
  match o with JObj m => match find k m with Some v => get v | None => Built dflt end | _ => TypeError end.

(** ** linear solvers *)
Inductive lin_kind := HypreGMRES | GMRES | HypreFGMRES | FGMRES | HyprePCG | CG | MINRES.
(** what the setters were given; [None]: the setter was not called *)
Record lin_solver := { l_kind : lin_kind; l_reltol : option R; l_abstol : option R; l_maxiter : option Z;
                       l_print : option Z; l_kdim : option Z; l_prec : option nat }.
(** a preconditioner object: its address and whether its dynamic type derives from mfem::HypreSolver *)
Record prec := { p_id : nat; p_is_hypre : bool }.
(** dynamic_cast<mfem::HypreSolver &>( *prec ), :414 and alike; nullptr is skipped *)
Definition set_prec (need_hypre : bool) (p : option prec) : result (option nat) :=
  match p with
  | None => Built None
  | Some q => if need_hypre && negb (p_is_hypre q) then BadCast else Built (Some (p_id q))
  end.
Definition kdim_opt (k : Z) : option Z := if Z.eqb k (-1) then None else Some k.

(** constructLinearSolver, mfem_extensions.cpp:392-520 *)
Definition constructLinearSolver (o : opts) (p : option prec) : result lin_solver :=
  do tv <- at_ o "type"; do solver_type <- get_string tv;
  do rv <- at_ o "reltol"; do reltol <- get_double rv;
  do abstol <- value o "abstol" get_double 0%R;
  do mv <- at_ o "maxiter"; do maxiter <- get_int mv;
  do pv <- at_ o "printlevel"; do ptl <- get_int pv;
  do kdim <- value o "kdim" get_int (-1)%Z;
  let mk k a pr kd q := Built {| l_kind := k; l_reltol := Some reltol; l_abstol := a; l_maxiter := Some maxiter;
                                 l_print := pr; l_kdim := kd; l_prec := q |} in
  if String.eqb solver_type "hypregmres" then
    do q <- set_prec true p; mk HypreGMRES (Some abstol) (Some ptl) (kdim_opt kdim) q
  else if String.eqb solver_type "gmres" then
    do q <- set_prec false p; mk GMRES (Some abstol) (Some ptl) (kdim_opt kdim) q
  else if String.eqb solver_type "hyprefgmres" then
    do q <- set_prec true p; mk HypreFGMRES None (Some ptl) (kdim_opt kdim) q
  else if String.eqb solver_type "fgmres" then
    (* SetPrintLevel(PrintLevel().Iterations()) for every positive level *)
    do q <- set_prec false p; mk FGMRES (Some abstol) (if Z.ltb 0 ptl then Some 1%Z else None) (kdim_opt kdim) q
  else if String.eqb solver_type "hyprepcg" then
    do q <- set_prec true p; mk HyprePCG (Some abstol) (Some ptl) None q
  else if String.eqb solver_type "pcg" then
    do q <- set_prec false p; mk CG (Some abstol) (Some ptl) None q
  else if String.eqb solver_type "minres" then
    do q <- set_prec false p; mk MINRES (Some abstol) (Some ptl) None q
  else MISOException.

(** ** line searches, relaxed_newton.cpp:15-37; linesearch.hpp:29-33 *)
Record backtracking := { b_mu : R; b_rho_hi : R; b_rho_lo : R; b_order : Z; b_maxiter : Z }.
Definition default_ls : backtracking := {| b_mu := 1 / 10000; b_rho_hi := 9 / 10; b_rho_lo := 1 / 10; b_order := 3; b_maxiter := 10 |}.
Definition createLineSearch (type : string) (o : opts) : result backtracking :=
  if String.eqb type "backtracking" then
    if is_obj o then
      do mu <- value o "mu" get_double (b_mu default_ls);
      do hi <- value o "rhohi" get_double (b_rho_hi default_ls);
      do lo <- value o "rholo" get_double (b_rho_lo default_ls);
      do io <- value o "interp-order" get_int (b_order default_ls);
      do mi <- value o "maxiter" get_int (b_maxiter default_ls);
      Built {| b_mu := mu; b_rho_hi := hi; b_rho_lo := lo; b_order := io; b_maxiter := mi |}
    else Built default_ls
  else MISOException.
(** RelaxedNewton::RelaxedNewton, :44-65; the {} passed for a string is json null *)
Definition newRelaxedNewton (o : opts) : result backtracking :=
  match o with
  | JObj m =>
    match find "linesearch" m with
    | Some (JLeaf (LStr s)) => createLineSearch s JNull
    | Some ls => do tv <- at_ ls "type"; do t <- get_string tv; createLineSearch t ls
    | None => Built default_ls
    end
  | _ => Built default_ls                               (* contains() is false on a non-object *)
  end.

(** ** constructNonlinearSolver, mfem_extensions.cpp:522-583 *)
Inductive nl_kind := Newton | InexactNewton (ty : Z) (rtol0 rtol_max alpha gamma : R) | RelaxedNewton (ls : backtracking).
Record nl_solver := { n_kind : nl_kind; n_reltol : R; n_abstol : R; n_maxiter : Z; n_print : Z; n_iterative : bool; n_lin : lin_solver }.
Definition constructNonlinearSolver (o : opts) (lin : lin_solver) : result (option nl_solver) :=
  do tv <- at_ o "type"; do solver_type <- get_string tv;
  do av <- at_ o "abstol"; do abstol <- get_double av;
  do rv <- at_ o "reltol"; do reltol <- get_double rv;
  do mv <- at_ o "maxiter"; do maxiter <- get_int mv;
  do pv <- at_ o "printlevel"; do ptl <- get_int pv;
  let fin k := Built (Some {| n_kind := k; n_reltol := reltol; n_abstol := abstol; n_maxiter := maxiter;
                              n_print := ptl; n_iterative := false; n_lin := lin |}) in
  if String.eqb solver_type "none" then Built None
  else if String.eqb solver_type "newton" then fin Newton
  else if String.eqb solver_type "inexactnewton" then
    do type <- value o "inexacttype" get_int 2%Z;
    do rtol0 <- value o "rtol0" get_double (1 / 2)%R;
    do rtol_max <- value o "rtol_max" get_double (9 / 10)%R;
    do alpha <- value o "alpha" get_double (1 / 2 * (1 + sqrt 5))%R;
    do gamma <- value o "gamma" get_double 1%R;
    fin (InexactNewton type rtol0 rtol_max alpha gamma)
  else if String.eqb solver_type "relaxednewton" then do ls <- newRelaxedNewton o; fin (RelaxedNewton ls)
  else MISOException.

(** ** preconditioners *)
Inductive prec_kind := Euclid | ILU (ty lev reorder print : Z) | AMS (print : Z) | BoomerAMG (print : Z) | BlockILU.
(** true for the classes derived from mfem::HypreSolver *)
Definition is_hypre (k : prec_kind) : bool := match k with BlockILU => false | _ => true end.
Definition iopt (o : opts) (k : string) : result Z := do v <- at_ o k; get_int v.
(** HYPRE_ILUSet* calls shared by the three factories *)
Definition ilu (o : opts) : result prec_kind :=
  do a <- iopt o "ilu-type"; do b <- iopt o "lev-fill"; do c <- iopt o "ilu-reorder"; do d <- iopt o "printlevel";
  Built (ILU a b c d).
(** constructPreconditioner, flow_residual.cpp:22-75; option = possibly null pointer *)
Definition flowPreconditioner (o : opts) : result (option prec_kind) :=
  do tv <- at_ o "type"; do t <- get_string tv;
  if String.eqb t "hypreeuclid" then Built (Some Euclid)
  else if String.eqb t "hypreilu" then do k <- ilu o; Built (Some k)
  else if String.eqb t "hypreams" then do p <- iopt o "printlevel"; Built (Some (AMS p))
  else if String.eqb t "hypreboomeramg" then do p <- iopt o "printlevel"; Built (Some (BoomerAMG p))
  else if String.eqb t "blockilu" then Built (Some BlockILU)
  else MISOException.
(** constructPreconditioner, magnetostatic_residual.cpp:20-47: falls through to return nullptr *)
Definition magnetostaticPreconditioner (o : opts) : result (option prec_kind) :=
  do tv <- at_ o "type"; do t <- get_string tv;
  if String.eqb t "hypreams" then do p <- iopt o "printlevel"; Built (Some (AMS p))
  else if String.eqb t "hypreboomeramg" then do p <- iopt o "printlevel"; Built (Some (BoomerAMG p))
  else if String.eqb t "hypreilu" then do k <- ilu o; Built None
  else Built None.
(** ThermalResidual::constructPreconditioner, thermal_residual.hpp:100-121 *)
Definition thermalPreconditioner (o : opts) : result (option prec_kind) :=
  do tv <- at_ o "type"; do t <- get_string tv;
  if String.eqb t "hypreboomeramg" then do p <- iopt o "printlevel"; Built (Some (BoomerAMG p))
  else if String.eqb t "hypreilu" then do k <- ilu o; Built None
  else Built None.

(** ** the solver stack of FlowSolver's constructor, flow_solver.cpp:60-73 (preconditioner address 0) *)
Definition buildFlowSolvers (o : opts) : result nl_solver :=
  do po <- at_ o "lin-prec"; do pk <- flowPreconditioner po;
  let p := match pk with Some k => Some {| p_id := 0; p_is_hypre := is_hypre k |} | None => None end in
  do lo <- at_ o "lin-solver"; do lin <- constructLinearSolver lo p;
  do no <- at_ o "nonlin-solver"; do nl <- constructNonlinearSolver no lin;
  match nl with Some s => Built s | None => Undefined end.       (* nonlinear_solver->SetOperator on nullptr *)
