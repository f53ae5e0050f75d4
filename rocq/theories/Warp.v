(** The mesh warper: src/utils/mesh_warper/{mesh_warper,mesh_move_integ}.{cpp,hpp}, the steady branch of
    AbstractSolver2::solveForState (src/common/abstract_solver.cpp:81-135) and the OpenMDAO component miso/mesh_warper.py.

    Simplifications.  One process: true dofs are 0..n-1 and a grid function is its true vector.  Real arithmetic.  mfem is
    modelled by its documented effect: ElasticityIntegrator::AssembleElementMatrix, NewtonSolver::Mult, IsoparametricTransformation
    (Jacobian = PointMat * dshape, Weight = det, InverseJacobian = adjugate / det), GetEssentialTrueDofs (increasing list of the
    true dofs of the nodes on the marked boundaries).  The linear solver is an arbitrary function of the matrix and right-hand
    side.  Logging, printing, the preconditioner and the choice of nonlinear solver are left out; the solver modelled is mfem's
    NewtonSolver (type "newton"). *)
From Coq Require Import Reals List String Bool Arith.
From Verif Require Import Num Vec Form.
Import ListNotations.
Local Open Scope R_scope.

(** Outcomes of a call: returned, threw an exception, accessed a vector out of its range. *)
Inductive wret (A : Type) : Type := WOk (a : A) | WThrow | WUB.
Arguments WOk {A} a. Arguments WThrow {A}. Arguments WUB {A}.
Definition wbind {A B} (x : wret A) (k : A -> wret B) : wret B :=
  match x with WOk a => k a | WThrow => WThrow | WUB => WUB end.
Definition of_outcome {A} (x : outcome A) : wret A := match x with Done a => WOk a | Thrown => WThrow end.

(** mfem::Ordering: where component c of node k sits in a vector field with nn nodes and dim components *)
Inductive ordering := byNODES | byVDIM.
Definition vdof (o : ordering) (nn dim k c : nat) : nat :=
  match o with byNODES => (c * nn + k)%nat | byVDIM => (k * dim + c)%nat end.

(** One mesh element: the element of the state's space (nd nodes, dsh q k b = derivative of shape function k in reference
    direction b at quadrature point q), that of the mesh's own nodal space (mnd, mnode, mdsh) and the quadrature weights. *)
Record elem := {
  nd : nat; node : nat -> nat; dsh : nat -> nat -> nat -> R;
  mnd : nat; mnode : nat -> nat; mdsh : nat -> nat -> nat -> R;
  nq : nat; ipw : nat -> R
}.
(** The mesh: nodes of the state space, elements, ordering and number of nodes of the mesh's own nodal field, nodes on any
    boundary, and nodes on the boundaries named by options["bcs"]["essential"] (None: option absent). *)
Record wmesh := {
  dim : nat; nn : nat; ne : nat; el : nat -> elem;
  mord : ordering; mnn : nat;
  on_bdr : nat -> bool; on_ess : option (nat -> bool)
}.
(** Nodal coordinates of the mesh: node, component *)
Definition coords := nat -> nat -> R.

(** determinant and adjugate of a 1x1, 2x2 or 3x3 Jacobian (mfem CalcInverse, DenseMatrix::Det) *)
Definition cyc (a : nat) : nat := match a with O => 1 | S O => 2 | _ => 0 end%nat.
Definition det (d : nat) (J : mat) : R :=
  match d with
  | S O => J 0%nat 0%nat
  | S (S O) => J 0%nat 0%nat * J 1%nat 1%nat - J 0%nat 1%nat * J 1%nat 0%nat
  | _ => rsum 3 (fun b => J 0%nat b * (J 1%nat (cyc b) * J 2%nat (cyc (cyc b)) - J 1%nat (cyc (cyc b)) * J 2%nat (cyc b)))
  end.
Definition adj (d : nat) (J : mat) : mat :=
  match d with
  | S O => fun _ _ => 1
  | S (S O) => fun a b => match a, b with
                          | O, O => J 1%nat 1%nat | O, _ => - J 0%nat 1%nat
                          | _, O => - J 1%nat 0%nat | _, _ => J 0%nat 0%nat end
  | _ => fun a b => J (cyc b) (cyc a) * J (cyc (cyc b)) (cyc (cyc a)) - J (cyc b) (cyc (cyc a)) * J (cyc (cyc b)) (cyc a)
  end.

Section Warp.
Variable M : wmesh.
Notation D := (dim M).
(** number of true dofs of the state (num_states = mesh().SpaceDimension(), mesh_warper.cpp:255-258; ordering byVDIM,
    finite_element_vector.cpp:104) *)
Definition n : nat := (nn M * D)%nat.
(** global dof of entry p of an element vector; element vectors are ordered by component, p = c * nd + k *)
Definition edof (e : elem) (p : nat) : nat := vdof byVDIM (nn M) D (node e (p mod nd e)) (p / nd e).

(** element transformation at quadrature point q *)
Definition Jac (X : coords) (e : elem) (q : nat) : mat :=
  fun d b => rsum (mnd e) (fun k => X (mnode e k) d * mdsh e q k b).
Definition Jinv (X : coords) (e : elem) (q : nat) : mat := fun b c => adj D (Jac X e q) b c / det D (Jac X e q).
(** gshape = dshape * InverseJacobian *)
Definition gsh (X : coords) (e : elem) (q k c : nat) : R := rsum D (fun b => dsh e q k b * Jinv X e q b c).
Definition wq (X : coords) (e : elem) (q : nat) : R := ipw e q * det D (Jac X e q).

(** lambda_c, mu_c, mesh_warper.cpp:67-68 *)
Definition lambda_c : R := 1.
Definition mu_c : R := 1.

(** mfem::ElasticityIntegrator::AssembleElementMatrix *)
Definition elmat (X : coords) (e : elem) : mat := fun p p' =>
  let k := (p mod nd e)%nat in let c := (p / nd e)%nat in
  let k' := (p' mod nd e)%nat in let c' := (p' / nd e)%nat in
  rsum (nq e) (fun q =>
    lambda_c * wq X e q * (gsh X e q k c * gsh X e q k' c')
    + (if Nat.eqb c c' then mu_c * wq X e q * rsum D (fun a => gsh X e q k a * gsh X e q k' a) else 0)
    + mu_c * wq X e q * (gsh X e q k c' * gsh X e q k' c)).

(** point_vec, mesh_move_integ.cpp:20-24: the point matrix (dim x nodes, by columns) transposed and read as a vector *)
Definition point_vec (X : coords) (e : elem) : vec := fun p => X (mnode e (p mod mnd e)) (p / mnd e)%nat.
(** ElasticityPositionIntegrator::AssembleElementVector, mesh_move_integ.cpp:9-30 *)
Definition elvect (X : coords) (e : elem) (u : vec) : vec :=
  mv (nd e * D) (elmat X e) (fun p => u (edof e p) - point_vec X e p).
(** disp -= point_vec reads entries up to the size of disp *)
Definition points_ok : bool := forallb (fun i => Nat.leb (nd (el M i)) (mnd (el M i))) (seq 0 (ne M)).

(** assembled form and its gradient (ParNonlinearForm::Mult and GetGradient without essential dofs; AssembleElementGrad
    of a BilinearFormIntegrator is AssembleElementMatrix) *)
Definition raw_res (X : coords) (u : vec) : vec := fun i =>
  rsum (ne M) (fun m => let e := el M m in rsum (nd e * D) (fun p => if Nat.eqb i (edof e p) then elvect X e u p else 0)).
Definition stiff (X : coords) (u : vec) : mat := fun i j =>
  rsum (ne M) (fun m => let e := el M m in rsum (nd e * D) (fun p => rsum (nd e * D) (fun p' =>
    if Nat.eqb i (edof e p) then if Nat.eqb j (edof e p') then elmat X e p p' else 0 else 0))).

(** the user's MISOInputs: "state", "surf_mesh_coords", "mesh_coords" *)
Record winputs := { in_state : option vec; in_surf : option vec; in_mesh : option vec }.
Definition only_state (u : vec) : winputs := Build_winputs (Some u) None None.

(** mesh_coords as a true vector (FiniteElementState "mesh_coords" copies the mesh's own space), and back *)
Definition coords_vec (X : coords) : vec := fun i =>
  match mord M with byNODES => X (i mod mnn M)%nat (i / mnn M)%nat | byVDIM => X (i / D)%nat (i mod D)%nat end.
Definition vec_coords (v : vec) : coords := fun k c => v (vdof (mord M) (mnn M) D k c).

(** MeshWarperResidual::res, mesh_warper.cpp:63-78: a MISONonlinearForm over the fields "state", "adjoint", "state_dot" and
    "mesh_coords"; there is no "dirichlet_bc" field.  The sensitivities registered are "state" (mesh_move_integ.hpp:88-115);
    the form handles that name itself, so no other name has an integrator. *)
Definition warp_pieces : pieces coords winputs := {|
  size := n;
  raw := raw_res;
  grad := stiff;
  bc_field := fun _ => None;
  push := fun i X => match in_mesh i with Some v => vec_coords v | None => X end;
  state_of := in_state;
  sens := fun _ => None;
  ssens := fun _ => None
|}.
Notation P := warp_pieces.

(** surface_indices, mesh_warper.cpp:285-288, and the form's essential dofs (MISONonlinearForm::setOptions) *)
Definition dofs_of (b : nat -> bool) : list nat := filter (fun i => b (i / D)%nat) (seq 0 n).
Definition surface_indices : list nat := dofs_of (on_bdr M).
Definition ns : nat := List.length surface_indices.
(** vol_coords and surf_coords, mesh_warper.cpp:281-291 *)
Definition vol_coords (X : coords) : vec := coords_vec X.
Definition surf_coords (X : coords) : vec := get_at surface_indices (vol_coords X).

(** MeshWarper::MeshWarper, mesh_warper.cpp:247-304: X is the mesh's initial nodal field *)
Definition construct (X : coords) : nform coords :=
  setOptions _ (match on_ess M with None => None | Some b => Some (dofs_of b) end) (fresh coords X).

(** evaluate, mesh_warper.cpp:121-143 *)
Definition w_evaluate (i : winputs) (f : nform coords) : wret (vec * nform coords) :=
  if points_ok then
    wbind (of_outcome (evaluate _ _ P i f)) (fun '(res, f1) =>
      match in_surf i, in_state i with
      | Some s, Some u => WOk (set_at surface_indices (fun k => u (nth k surface_indices 0%nat) - s k) res, f1)
      | _, _ => WOk (res, f1)
      end)
  else WUB.

(** AbstractSolver2::calcResidual, abstract_solver.cpp:183-188 *)
Definition w_calcResidual (i : winputs) (f : nform coords) : wret (vec * nform coords) :=
  w_evaluate i (setInputs _ _ P i f).

(** mfem::NewtonSolver *)
Record nopts := { rel_tol : R; abs_tol : R; max_iter : nat }.
Record nresult := { nx : vec; nconv : bool; niter : nat; nformr : nform coords }.
(** NewtonSolver::Mult with the residual as its operator: MISOResidual::Mult and GetGradient pass only "state"
    (miso_residual.hpp:325-339).  [rem] = max_iter - it.  lin A r is the linear solver set to A and applied to r. *)
Fixpoint newton_loop (lin : mat -> vec -> vec) (goal : R) (rem it : nat) (x : vec) (r : vec) (f : nform coords) : wret nresult :=
  if Rleb (norm n r) goal then WOk (Build_nresult x true it f)
  else match rem with
  | O => WOk (Build_nresult x false it f)
  | S rem' =>
      wbind (of_outcome (getJacobian _ _ P (only_state x) f)) (fun '(J, f1) =>
        let x1 := axpy x (-1) (lin J r) in
        wbind (w_evaluate (only_state x1) f1) (fun '(r1, f2) => newton_loop lin goal rem' (S it) x1 r1 f2))
  end.
Definition newton (lin : mat -> vec -> vec) (o : nopts) (x : vec) (f : nform coords) : wret nresult :=
  wbind (w_evaluate (only_state x) f) (fun '(r, f1) =>
    newton_loop lin (Rmax (rel_tol o * norm n r) (abs_tol o)) (max_iter o) 0 x r f1).

(** AbstractSolver2::solveForState(inputs, state), steady branch, abstract_solver.cpp:81-135: the inputs are pushed, the
    state vector is the initial guess *)
Definition solveForState (lin : mat -> vec -> vec) (o : nopts) (i : winputs) (x : vec) (f : nform coords) : wret nresult :=
  newton lin o x (setInputs _ _ P i f).

(** jacobianVectorProduct, mesh_warper.cpp:187-201; nw and nr are the sizes of wrt_dot and res_dot *)
Definition w_jvp (wrt : string) (nw : nat) (wrt_dot : vec) (nr : nat) (res_dot : vec) (f : nform coords) : wret (vec * nform coords) :=
  if String.eqb wrt "surf_mesh_coords" then
    if Nat.leb ns nw && forallb (fun k => Nat.ltb k nr) surface_indices
    then WOk (fun i => res_dot i - rsum ns (fun k => if Nat.eqb i (nth k surface_indices 0%nat) then wrt_dot k else 0), f)
    else WUB
  else if String.eqb wrt "state" then of_outcome (jvp_state _ _ P wrt_dot res_dot f)
  else WOk (res_dot, f).
(** vectorJacobianProduct, mesh_warper.cpp:210-224 *)
Definition w_vjp (wrt : string) (nr : nat) (res_bar : vec) (nw : nat) (wrt_bar : vec) (f : nform coords) : wret (vec * nform coords) :=
  if String.eqb wrt "surf_mesh_coords" then
    if Nat.leb ns nw && forallb (fun k => Nat.ltb k nr) surface_indices
    then WOk (fun k => if Nat.ltb k ns then wrt_bar k - res_bar (nth k surface_indices 0%nat) else wrt_bar k, f)
    else WUB
  else of_outcome (vjp _ _ P wrt res_bar wrt_bar f).

(** AbstractSolver2::linearize and solveForAdjoint through MeshWarperResidual, mesh_warper.cpp:145-170 *)
Definition w_linearize (i : winputs) (f : nform coords) : wret (nform coords) :=
  of_outcome (linearize _ _ P i f).
Definition w_solveForAdjoint (lin : mat -> vec -> vec -> vec) (i : winputs) (state_bar adjoint : vec) (f : nform coords)
  : wret (vec * nform coords) := of_outcome (solveForAdjoint _ _ P lin i state_bar adjoint f).

(** MISOMeshWarper.solve_nonlinear, miso/mesh_warper.py:61-68: the component's own volume vector gets the new surface and is
    solved for; it is kept for the next call *)
Definition py_solve (lin : mat -> vec -> vec) (o : nopts) (surf : vec) (vol : vec) (f : nform coords) : wret (vec * nform coords) :=
  wbind (solveForState lin o (Build_winputs None None None) (set_at surface_indices surf vol) f)
        (fun r => WOk (nx r, nformr r)).
Fixpoint py_history (lin : mat -> vec -> vec) (o : nopts) (surfs : list vec) (vol : vec) (f : nform coords) : wret (vec * nform coords) :=
  match surfs with
  | [] => WOk (vol, f)
  | s :: l => wbind (py_solve lin o s vol f) (fun '(v, f1) => py_history lin o l v f1)
  end.
(** MISOMeshWarper.apply_linear, mode "rev", the term of d_inputs["surf_mesh_coords"], miso/mesh_warper.py:107-111 *)
Definition py_apply_linear_rev_surf (d_residuals d_inputs : vec) (f : nform coords) : wret (vec * nform coords) :=
  w_jvp "surf_mesh_coords" n d_residuals ns d_inputs f.
End Warp.
