(** Nonlinear and linear forms with essential (Dirichlet) degrees of freedom:
    src/physics/miso_nonlinearform.{cpp,hpp}, src/common/miso_linearform.cpp,
    AbstractSolver2::solveForAdjoint (src/common/abstract_solver.cpp:136-174).

    Simplifications.  One process: true dofs are 0..n-1 and grid functions are identified with
    their true vectors.  Matrices are dense (mfem::HypreParMatrix).  mfem is modelled by its
    documented effect: ParNonlinearForm::Mult zeroes the essential rows of its result,
    GetGradient with no essential dofs is the full gradient, EliminateRowsCols turns the essential
    rows and columns into those of the identity and returns what it removed, EliminateRows zeroes
    rows.  The integrators are abstract: [raw] is the assembled form without boundary conditions,
    [grad] its gradient, both depending on the fields and integrator inputs (type W).  Printing to
    std::cout is left out. *)
From Coq Require Import Reals List String Bool.
From Verif Require Import Vec.
Import ListNotations.
Local Open Scope R_scope.

Definition mat := nat -> nat -> R.
Definition transpose (A : mat) : mat := fun i j => A j i.
Inductive outcome (A : Type) : Type := Done (a : A) | Thrown.
Arguments Done {A} a. Arguments Thrown {A}.

(** mfem::Array<int> membership: does the list of essential true dofs hold i? *)
Definition memb (i : nat) (l : list nat) : bool := existsb (Nat.eqb i) l.
(** mfem::Vector::SetSubVector(list, 0.0) *)
Definition zero_at (l : list nat) (v : vec) : vec := fun i => if memb i l then 0 else v i.
(** mfem::Vector::SetSubVector(list, values): entry list[k] becomes values[k] *)
Fixpoint set_at (l : list nat) (vals : vec) (v : vec) : vec :=
  match l with
  | [] => v
  | k :: r => set_at r (fun i => vals (S i)) (fun i => if Nat.eqb i k then vals 0%nat else v i)
  end.
(** mfem::Vector::GetSubVector(list, values) *)
Definition get_at (l : list nat) (v : vec) : vec := fun k => v (nth k l 0%nat).
(** mfem::HypreParMatrix::EliminateRowsCols: the matrix left in place ... *)
Definition elim_left (l : list nat) (A : mat) : mat :=
  fun i j => if memb i l || memb j l then (if Nat.eqb i j then 1 else 0) else A i j.
(** ... and the eliminated part that is returned *)
Definition elim_removed (l : list nat) (A : mat) : mat := fun i j => A i j - elim_left l A i j.
(** mfem::HypreParMatrix::EliminateRows *)
Definition elim_rows (l : list nat) (A : mat) : mat := fun i j => if memb i l then 0 else A i j.

Section Form.
(** W: fields and integrator inputs; In: the user's MISOInputs. *)
Variables W In : Type.

(** The user-supplied parts of a form (integrators, finite-element space, field map). *)
Record pieces := {
  size : nat;                       (* getSize: GetTrueVSize, miso_nonlinearform.cpp:12-15 *)
  raw : W -> vec -> vec;            (* nf.Mult without essential dofs *)
  grad : W -> vec -> mat;           (* nf.GetGradient without essential dofs *)
  bc_field : W -> option vec;       (* nf_fields.find("dirichlet_bc") *)
  push : In -> W -> W;              (* setInputs: vector fields, then every integrator *)
  state_of : In -> option vec;      (* setVectorFromInputs(inputs, "state", .., error if absent) *)
  sens : string -> option (W -> vec -> vec);   (* rev_sens: adjoint field |-> assembled linear form *)
  ssens : string -> option (W -> vec -> R)     (* rev_scalar_sens: adjoint field |-> energy *)
}.

(** The members of MISONonlinearForm that change, miso_nonlinearform.hpp:160-210 *)
Record nform := {
  world : W; ess : list nat;
  jac : option mat; jac_e : option mat; jac_t : option mat;
  scratch : vec
}.

Variable P : pieces.
Notation n := (size P).

(** The form as constructed, miso_nonlinearform.hpp:142-160 *)
Definition fresh (w : W) : nform := Build_nform w [] None None None (fun _ => 0).

(** setInputs, miso_nonlinearform.cpp:17-35 *)
Definition setInputs (i : In) (f : nform) : nform :=
  Build_nform (push P i (world f)) (ess f) (jac f) (jac_e f) (jac_t f) (scratch f).

(** setOptions, miso_nonlinearform.cpp:37-53.  The "bcs"/"essential" option is passed as the list
    of true dofs that GetEssentialTrueDofs finds for it, None when the option is absent.  The
    integrators' own options are part of W and left out. *)
Definition setOptions (o : option (list nat)) (f : nform) : nform :=
  match o with
  | None => f
  | Some l => Build_nform (world f) l (jac f) (jac_e f) (jac_t f) (scratch f)
  end.

(** evaluate, miso_nonlinearform.cpp:63-88: the residual, and the form (its scratch changes) *)
Definition evaluate (i : In) (f : nform) : outcome (vec * nform) :=
  match state_of P i with
  | None => Thrown
  | Some u =>
      let res := zero_at (ess f) (raw P (world f) u) in
      match ess f with
      | [] => Done (res, f)
      | _ =>
          match bc_field P (world f) with
          | None => Done (res, f)
          | Some g =>
              Done (fun k => if memb k (ess f) then u k - g k else res k,
                    Build_nform (world f) (ess f) (jac f) (jac_e f) (jac_t f) g)
          end
      end
  end.

(** getJacobian, miso_nonlinearform.cpp:104-137; the argument wrt is ignored by the code *)
Definition getJacobian (i : In) (f : nform) : outcome (mat * nform) :=
  match state_of P i with
  | None => Thrown
  | Some u =>
      let A := grad P (world f) u in
      let J := elim_left (ess f) A in
      let E := elim_rows (ess f) (elim_removed (ess f) A) in
      Done (J, Build_nform (world f) (ess f) (Some J) (Some E) None (scratch f))
  end.

(** getJacobianTranspose, miso_nonlinearform.cpp:139-157 *)
Definition getJacobianTranspose (f : nform) : outcome (mat * nform) :=
  match jac_t f with
  | Some T => Done (T, f)
  | None =>
      match jac f with
      | None => Thrown
      | Some J => Done (transpose J,
                        Build_nform (world f) (ess f) (jac f) (jac_e f) (Some (transpose J)) (scratch f))
      end
  end.

(** linearize, miso_nonlinearform.cpp:90-102 *)
Definition linearize (i : In) (f : nform) : outcome nform :=
  let f1 := setInputs i f in
  let r := match jac f1 with
           | None => match getJacobian i f1 with Done (_, f2) => Done f2 | Thrown => Thrown end
           | Some _ => Done f1
           end in
  match r with
  | Thrown => Thrown
  | Done f2 =>
      match jac_t f2 with
      | None => match getJacobianTranspose f2 with Done (_, f3) => Done f3 | Thrown => Thrown end
      | Some _ => Done f2
      end
  end.

(** setUpAdjointSystem, miso_nonlinearform.cpp:159-180: (operator for the solver, state_bar, adjoint, form) *)
Definition setUpAdjointSystem (state_bar adjoint : vec) (f : nform) : outcome (mat * vec * vec * nform) :=
  match getJacobianTranspose f with
  | Thrown => Thrown
  | Done (T, f1) =>
      match ess f1 with
      | [] => Done (T, state_bar, adjoint, f1)
      | l => Done (T, zero_at l state_bar, zero_at l adjoint,
                   Build_nform (world f1) l (jac f1) (jac_e f1) (jac_t f1) (get_at l state_bar))
      end
  end.

(** finalizeAdjointSystem, miso_nonlinearform.cpp:182-207 (no code in the library calls it).
    MultTranspose(1.0, adjoint, -1.0, adjoint) is taken as its documented y = A^T x - y. *)
Definition finalizeAdjointSystem (adjoint : vec) (f : nform) : outcome vec :=
  match ess f with
  | [] => Done adjoint
  | l =>
      let a := set_at l (scratch f) adjoint in
      match jac_e f with
      | None => Thrown
      | Some E => Done (fun i => mvT n E a i - a i)
      end
  end.

(** jacobianVectorProduct wrt "state", miso_nonlinearform.cpp:221-250 *)
Definition jvp_state (wrt_dot res_dot : vec) (f : nform) : outcome (vec * nform) :=
  let s := zero_at (ess f) wrt_dot in
  match jac f, jac_e f with
  | Some J, Some E =>
      Done (fun i => (res_dot i + mv n J s i) + mv n E wrt_dot i,
            Build_nform (world f) (ess f) (jac f) (jac_e f) (jac_t f) s)
  | _, _ => Thrown
  end.

(** vectorJacobianProduct wrt "state", miso_nonlinearform.cpp:276-310 *)
Definition vjp_state (res_bar wrt_bar : vec) (f : nform) : outcome (vec * nform) :=
  let s := zero_at (ess f) res_bar in
  match jac f, jac_e f with
  | Some J, Some E =>
      Done (fun i => (wrt_bar i + mvT n J s i) + mvT n E res_bar i,
            Build_nform (world f) (ess f) (jac f) (jac_e f) (jac_t f) s)
  | _, _ => Thrown
  end.

(** vectorJacobianProduct wrt a field, miso_nonlinearform.cpp:311-340.  m is the size of wrt_bar;
    scratch, resized, ends as the assembled sensitivity. *)
Definition vjp_field (wrt : string) (res_bar wrt_bar : vec) (f : nform) : vec * nform :=
  match sens P wrt with
  | None => (wrt_bar, f)
  | Some s =>
      let a := s (world f) (zero_at (ess f) res_bar) in
      (fun i => wrt_bar i + a i, Build_nform (world f) (ess f) (jac f) (jac_e f) (jac_t f) a)
  end.

(** vectorJacobianProduct wrt a scalar, miso_nonlinearform.cpp:257-274 *)
Definition vjp_scalar (wrt : string) (res_bar : vec) (f : nform) : R :=
  match ssens P wrt with None => 0 | Some s => s (world f) res_bar end.

(** vectorJacobianProduct(form, res_bar, wrt, wrt_bar), miso_nonlinearform.cpp:276-340 *)
Definition vjp (wrt : string) (res_bar wrt_bar : vec) (f : nform) : outcome (vec * nform) :=
  if String.eqb wrt "state" then vjp_state res_bar wrt_bar f
  else Done (vjp_field wrt res_bar wrt_bar f).

(** AbstractSolver2::solveForAdjoint, steady, abstract_solver.cpp:136-174.  lin A b x0 is the
    adjoint linear solver set to operator A, applied to b with x0 in the output vector.
    Logging is left out. *)
Definition solveForAdjoint (lin : mat -> vec -> vec -> vec) (i : In) (state_bar adjoint : vec) (f : nform)
  : outcome (vec * nform) :=
  match setUpAdjointSystem state_bar adjoint (setInputs i f) with
  | Thrown => Thrown
  | Done (T, b, x0, f1) => Done (lin T b x0, f1)
  end.

(** One call on the form, and a sequence of calls; a call that throws leaves what the code had
    changed before the throw. *)
Inductive call :=
| CSetInputs (i : In) | CSetOptions (o : option (list nat)) | CEvaluate (i : In)
| CLinearize (i : In) | CGetJacobian (i : In) | CGetTranspose
| CSetUpAdjoint (state_bar adjoint : vec) | CSolveAdjoint (lin : mat -> vec -> vec -> vec) (i : In) (b x : vec)
| CJvp (v r : vec) | CVjp (wrt : string) (r b : vec).

Definition after (c : call) (f : nform) : nform :=
  match c with
  | CSetInputs i => setInputs i f
  | CSetOptions o => setOptions o f
  | CEvaluate i => match evaluate i f with Done (_, f1) => f1 | Thrown => f end
  | CLinearize i => match linearize i f with Done f1 => f1 | Thrown => setInputs i f end
  | CGetJacobian i => match getJacobian i f with Done (_, f1) => f1 | Thrown => f end
  | CGetTranspose => match getJacobianTranspose f with Done (_, f1) => f1 | Thrown => f end
  | CSetUpAdjoint b x => match setUpAdjointSystem b x f with Done (_, _, _, f1) => f1 | Thrown => f end
  | CSolveAdjoint lin i b x =>
      match solveForAdjoint lin i b x f with Done (_, f1) => f1 | Thrown => setInputs i f end
  | CJvp v r => match jvp_state v r f with Done (_, f1) => f1 | Thrown => f end
  | CVjp w r b => match vjp w r b f with Done (_, f1) => f1 | Thrown => f end
  end.

Fixpoint runs (l : list call) (f : nform) : nform :=
  match l with [] => f | c :: r => runs r (after c f) end.
End Form.
Arguments CSetInputs {In} i. Arguments CSetOptions {In} o. Arguments CEvaluate {In} i. Arguments CLinearize {In} i.
Arguments CGetJacobian {In} i. Arguments CGetTranspose {In}. Arguments CSetUpAdjoint {In} _ _.
Arguments CSolveAdjoint {In} _ _ _ _. Arguments CJvp {In} _ _. Arguments CVjp {In} _ _ _.

(** MISOLinearForm, src/common/miso_linearform.cpp.  [assembled] is lf.Assemble + ParallelAssemble
    (a ParLinearForm is reassembled from scratch each time). *)
Section Linear.
Variables W : Type.
Record lpieces := {
  assembled : W -> vec;
  lsens : string -> option (W -> vec -> vec);
  lssens : string -> option (W -> vec -> R)
}.
Variable L : lpieces.
(** addLoad, miso_linearform.cpp:55-62 *)
Definition addLoad (w : W) (l : list nat) (tv : vec) : vec :=
  fun i => tv i + zero_at l (assembled L w) i.
(** vectorJacobianProduct, miso_linearform.cpp:87-104 and 106-130 *)
Definition lvjp_scalar (w : W) (wrt : string) (load_bar : vec) : R :=
  match lssens L wrt with None => 0 | Some s => s w load_bar end.
Definition lvjp_field (w : W) (l : list nat) (wrt : string) (load_bar wrt_bar : vec) : vec :=
  match lsens L wrt with
  | None => wrt_bar
  | Some s => let a := s w (zero_at l load_bar) in fun i => wrt_bar i + a i
  end.
End Linear.
