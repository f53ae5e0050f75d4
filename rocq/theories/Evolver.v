(** Model of MISOEvolver and ODESystemOperator, src/common/evolver.{hpp,cpp}.

    Simplifications.  One process: true dofs are 0..n-1; matrices are dense.  mfem is modelled by its documented effect:
    ParNonlinearForm::Mult zeroes the form's own essential rows, GetLocalGradient is the gradient without boundary
    conditions, EliminateRowsCols turns the essential rows and columns into those of the identity, NewtonSolver::Mult is the
    loop below; the CG solver of the mass matrix is a function of matrix, right-hand side and initial contents of the result
    (mfem's iterative solvers start from them), the linear solver of Newton's method a function of matrix and right-hand side.
    Assembled ("legacy full") matrices; partial assembly is left out.  The pointer to the state kept by the system operator is
    modelled by the vector it points to; null is None. *)
From Coq Require Import Reals List Bool Arith String.
From Verif Require Import Num Vec Form Warp Inputs Ode.
Import ListNotations.
Local Open Scope R_scope.

(** outcomes: returned, threw, dereferenced a null pointer, aborted (MFEM_VERIFY) *)
Inductive eret (A : Type) : Type := EOk (a : A) | EThrow | EUB | EAbort.
Arguments EOk {A} a. Arguments EThrow {A}. Arguments EUB {A}. Arguments EAbort {A}.
Definition ebind {A B} (x : eret A) (k : A -> eret B) : eret B :=
  match x with EOk a => k a | EThrow => EThrow | EUB => EUB | EAbort => EAbort end.

(** a nonlinear form: what its integrators assemble, the gradient, the energy, its own essential dofs *)
Record nlform := { nl_raw : vec -> vec; nl_grad : vec -> mat; nl_energy : vec -> R; nl_ess : list nat }.
Definition nl_mult (F : nlform) (u : vec) : vec := zero_at (nl_ess F) (nl_raw F u).

(** AssemblyLevel of a bilinear form *)
Inductive level := LegacyFull | OtherLevel.
Record bform := { b_mat : mat; b_level : level }.

(** constructor arguments, evolver.hpp:131-141; c_ess: the true dofs of ess_bdr *)
Record config := {
  c_n : nat; c_ess : list nat;
  c_nmass : option nlform; c_mass : option bform; c_res : option nlform; c_stiff : option bform;
  c_load : option vec; c_ent : option nlform; c_abort : bool
}.
(** the parameters of the system operator (setParameters, evolver.cpp:178-192) *)
Record params := { p_dt : R; p_x : option vec; p_stage : R }.
(** the members that change: the parameters and r_work1; e_mass, e_stiff: matrices after the elimination in the constructor *)
Record evolver := { e_cfg : config; e_mass : option mat; e_stiff : option mat; e_par : params; e_work : vec }.

(** MISOEvolver::MISOEvolver, evolver.cpp:213-305: the member ess_tdof_list is empty while the mass matrix is treated
    (:251-262 fill a local list) and is filled by the stiffness matrix (:283-284).  w0: the uninitialised work vector *)
Definition check (c : config) : eret unit :=
  match c_nmass c, c_mass c, c_res c with
  | None, None, None => EUB
  | Some _, Some _, _ => EThrow
  | _, Some b, _ => match b_level b with OtherLevel => EThrow | LegacyFull => EOk tt end
  | _, None, _ => EOk tt
  end.
Definition construct (c : config) (w0 : vec) : eret evolver :=
  ebind (check c) (fun _ =>
    let M := option_map (fun b => elim_left [] (b_mat b)) (c_mass c) in
    let mk K := {| e_cfg := c; e_mass := M; e_stiff := K; e_par := {| p_dt := 0; p_x := None; p_stage := 0 |}; e_work := w0 |} in
    match c_stiff c with
    | None => EOk (mk None)
    | Some b => match b_level b with OtherLevel => EThrow | LegacyFull => EOk (mk (Some (elim_left (c_ess c) (b_mat b)))) end
    end).

(** SystemOperator's own list, evolver.cpp:66-77 *)
Definition sys_ess (c : config) : list nat :=
  match c_mass c, c_res c with None, None => [] | _, _ => c_ess c end.
(** SystemOperator::Mult, evolver.cpp:94-130 *)
Definition sys_mult (c : config) (p : params) (k : vec) : eret vec :=
  match p_x p with
  | None => EUB
  | Some x =>
      let r0 := match c_nmass c with
                | None => fun _ => 0
                | Some N => fun i => (nl_mult N (axpy x (p_stage p) k) i - nl_mult N x i) * (1 / p_stage p)
                end in
      match c_res c with
      | None => EUB
      | Some F =>
          let r1 := vadd r0 (nl_mult F (axpy x (p_dt p) k)) in
          let r2 := match c_load c with None => r1 | Some l => zero_at (sys_ess c) (vadd r1 l) end in
          EOk (match c_mass c with None => r2 | Some b => zero_at (sys_ess c) (vadd r2 (mv (c_n c) (b_mat b) k)) end)
      end
  end.
(** SystemOperator::GetGradient, evolver.cpp:134-186 *)
Definition sys_grad (c : config) (p : params) (k : vec) : eret mat :=
  match p_x p, c_res c with
  | Some x, Some F =>
      let G := nl_grad F (axpy x (p_dt p) k) in
      let local := match c_nmass c, c_mass c with
                   | Some N, _ => let A := nl_grad N (axpy x (p_stage p) k) in fun i j => A i j + p_dt p * G i j
                   | None, Some b => fun i j => b_mat b i j + p_dt p * G i j
                   | None, None => G
                   end in
      EOk (elim_left (sys_ess c) local)
  | _, _ => EUB
  end.

(** MISOEvolver::Mult, evolver.cpp:309-336; y: contents of the result before the call; the first component is the result *)
Definition ev_mult (cg : mat -> vec -> vec -> vec) (x y : vec) (e : evolver) : eret (vec * evolver) :=
  let c := e_cfg e in
  match c_nmass c with
  | Some _ => EThrow
  | None =>
      let w1 := match c_res c with Some F => nl_mult F x | None => e_work e end in
      let w2 := match e_stiff e with Some K => vadd w1 (mv (c_n c) K x) | None => w1 end in
      let w3 := match c_load c with Some l => vadd w2 l | None => w2 end in
      match e_mass e with
      | None => EUB
      | Some M => EOk (fun i => -1 * cg M w3 y i,
                       {| e_cfg := c; e_mass := e_mass e; e_stiff := e_stiff e; e_par := e_par e; e_work := w3 |})
      end
  end.

(** mfem::NewtonSolver with the combined operator, zero right-hand side *)
Record newton := { nw_lin : mat -> vec -> vec; nw_rel : R; nw_abs : R; nw_max : nat }.
Fixpoint newton_loop (w : newton) (c : config) (p : params) (goal : R) (rem : nat) (k r : vec) : eret (vec * bool) :=
  if Rleb (norm (c_n c) r) goal then EOk (k, true)
  else match rem with
  | O => EOk (k, false)
  | S rem' =>
      ebind (sys_grad c p k) (fun J =>
        let k1 := axpy k (-1) (nw_lin w J r) in
        ebind (sys_mult c p k1) (fun r1 => newton_loop w c p goal rem' k1 r1))
  end.
Definition newton_mult (w : newton) (c : config) (p : params) (k : vec) : eret (vec * bool) :=
  ebind (sys_mult c p k) (fun r => newton_loop w c p (Rmax (nw_rel w * norm (c_n c) r) (nw_abs w)) (nw_max w) k r).
(** MISOEvolver::ImplicitSolve, evolver.cpp:338-355: dt_stage takes its default -1 (setOperParameters, evolver.hpp:248-250);
    iterative_mode is off, so Newton starts from zero.  w: the solver given to SetNewtonSolver, None before *)
Definition implicitSolve (w : option newton) (dt : R) (x : vec) (e : evolver) : eret (vec * evolver) :=
  let p := {| p_dt := dt; p_x := Some x; p_stage := -1 |} in
  let e1 := {| e_cfg := e_cfg e; e_mass := e_mass e; e_stiff := e_stiff e; e_par := p; e_work := e_work e |} in
  match w with
  | None => EUB
  | Some w => ebind (newton_mult w (e_cfg e) p (fun _ => 0)) (fun '(k, conv) =>
                if c_abort (e_cfg e) && negb conv then EAbort else EOk (k, e1))
  end.
(** MISOEvolver::GetGradient, evolver.cpp:384-387 *)
Definition ev_gradient (x : vec) (e : evolver) : eret mat := sys_grad (e_cfg e) (e_par e) x.
(** Entropy and EntropyChange, evolver.cpp:389-410 *)
Definition ev_entropy (x : vec) (e : evolver) : eret R :=
  match c_ent (e_cfg e) with None => EThrow | Some E => EOk (nl_energy E x) end.
Definition ev_entropy_change (dt : R) (x k : vec) (e : evolver) : eret R :=
  match c_ent (e_cfg e) with
  | None => EThrow
  | Some _ => match c_res (e_cfg e) with None => EUB | Some F => EOk (nl_energy F (axpy x dt k)) end
  end.

(** a session with an evolver *)
Inductive ecall :=
| EMult (cg : mat -> vec -> vec -> vec) (x y : vec)
| EImplicit (w : option newton) (dt : R) (x : vec)
| EGradient (x : vec) | EEntropy (x : vec) | EChange (dt : R) (x k : vec).
Definition estep (e : evolver) (c : ecall) : eret evolver :=
  match c with
  | EMult cg x y => ebind (ev_mult cg x y e) (fun '(_, e1) => EOk e1)
  | EImplicit w dt x => ebind (implicitSolve w dt x e) (fun '(_, e1) => EOk e1)
  | EGradient x => ebind (ev_gradient x e) (fun _ => EOk e)
  | EEntropy x => ebind (ev_entropy x e) (fun _ => EOk e)
  | EChange dt x k => ebind (ev_entropy_change dt x k e) (fun _ => EOk e)
  end.
Fixpoint erun (e : evolver) (l : list ecall) : eret evolver :=
  match l with [] => EOk e | c :: l => ebind (estep e c) (fun e1 => erun e1 l) end.

(** ODESystemOperator::Mult, evolver.cpp:14-21, over a TimeDependentResidual: x_work lives in block wb, k in block kb.  The
    type-erased evaluate passes the inputs on; it does not call setInputs (miso_residual.hpp) *)
Definition ode_operator_mult (p : physics) (m : mem) (r : tdr) (n wb kb : nat) : vec :=
  Ode.evaluate p m r [("state"%string, Vector wb n); ("dxdt"%string, Vector kb n)].
