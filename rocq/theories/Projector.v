(** Model of the projectors of Nedelec fields, src/utils/irrotational_projector.{hpp,cpp} and src/utils/div_free_projector.{hpp,cpp},
    and of the mesh sensitivities they use, src/physics/mfem_common_integ.cpp:2205-2502.

    Simplifications: arithmetic over R; one process (true dofs are local dofs), space dimension equal to the dimension of the
    elements; dof transformations (null except for high-order simplices) left out, orientation signs of Nedelec dofs kept;
    AdjugateJacobian, Weight at a quadrature point are functions of the element's mesh nodes, with the RevDiff counterparts of
    the MFEM fork; assembled matrices are dense; HyprePCG with BoomerAMG is a function of matrix and right-hand side (what the
    theorems need from it is a hypothesis: it solves the system); the matrix of the GradientInterpolator is given (it does
    not depend on the mesh nodes). *)
From Coq Require Import Reals String List Bool Arith.
From Verif Require Import Vec EmInteg SbpSpec CommonFun.
Import ListNotations.
Local Open Scope R_scope.

(** an integration rule on an element: weights; at point q CalcDShape of the H1 element, reference CalcVShape of the Nedelec
    element, AdjugateJacobian and Weight of the transformation with their reverse functions *)
Record rule := {
  r_nq : nat; r_pw : nat -> R; r_dN : nat -> mat; r_V : nat -> mat;
  r_Adj : nat -> mat -> mat; r_AdjRev : nat -> mat -> mat -> mat; r_W : nat -> mat -> R; r_WRev : nat -> mat -> R -> mat }.
(** an element: mesh nodes, H1 dofs, Nedelec dofs with signs; the rule of order ir_order that the constructor gives to the two
    bilinear forms (irrotational_projector.cpp:29-38), and the default rules of DiffusionIntegratorMeshSens
    (mfem_common_integ.cpp:2271-2287) and VectorFEWeakDivergenceIntegratorMeshSens (:2421-2429), which are given none (:16-17, 45-47) *)
Record pelem := {
  p_nn : nat; p_node : nat -> nat;
  p_nh : nat; p_h : nat -> nat;
  p_nd : nat; p_d : nat -> nat; p_sg : nat -> R;
  p_rule : rule; p_diff_rule : rule; p_div_rule : rule }.
Definition pnodes (e : pelem) (X : mat) : mat := fun k j => X k (p_node e j).
Definition h_el (e : pelem) (u : vec) : vec := fun i => u (p_h e i).
Definition d_el (e : pelem) (x : vec) : vec := fun i => p_sg e i * x (p_d e i).

Section Integrators.
Variable dim : nat.
(** Mult(dshape, AdjugateJacobian, dshapedxt); Mult(vshape, AdjugateJacobian, vshapedxt) *)
Definition Dxt (r : rule) (X : mat) (q : nat) : mat := dshapedxt dim (r_dN r) (r_Adj r) X q.
Definition Vxt (r : rule) (X : mat) (q : nat) : mat := dshapedxt dim (r_V r) (r_Adj r) X q.

(** mfem::DiffusionIntegrator: w = ip.weight / Weight; elmat += w dshapedxt dshapedxt^T *)
Definition el_diff (r : rule) (X : mat) : mat := fun i j =>
  rsum (r_nq r) (fun q => r_pw r q / r_W r q X * rsum dim (fun k => Dxt r X q i k * Dxt r X q j k)).
(** mfem::VectorFEWeakDivergenceIntegrator: vshape is the physical one (divided by Weight); elmat -= ip.weight dshapedxt vshape^T *)
Definition el_wdiv (r : rule) (X : mat) : mat := fun i j =>
  rsum (r_nq r) (fun q => - r_pw r q * rsum dim (fun k => Dxt r X q i k * (Vxt r X q j k / r_W r q X))).

(** S^T u :2305-2306, 2447-2448 *)
Definition at_point (ndof : nat) (S : mat) (u : vec) : vec := fun k => rsum ndof (fun i => S i k * u i).
(** DiffusionIntegratorMeshSens::AssembleRHSElementVect :2289-2351; nh dofs, state u, adjoint psi of the element *)
Definition diff_mesh (nh : nat) (r : rule) (X : mat) (u psi : vec) : mat := fun k j =>
  rsum (r_nq r) (fun q =>
    let w := r_pw r q / r_W r q X in
    let DT_state := at_point nh (Dxt r X q) u in
    let DT_psi := at_point nh (Dxt r X q) psi in
    let dot_bar := 1 * w in
    let w_bar := 1 * dot dim DT_state DT_psi in
    let DT_psi_bar := fun c => dot_bar * DT_state c in
    let DT_state_bar := fun c => dot_bar * DT_psi c in
    let dshapedxt_bar := fun i c => psi i * DT_psi_bar c + u i * DT_state_bar c in
    let trans_weight_bar := - w_bar * r_pw r q / r_W r q X ^ 2 in
    r_WRev r q X 1 k j * trans_weight_bar +
    r_AdjRev r q X (fun a c => rsum nh (fun i => r_dN r q i a * dshapedxt_bar i c)) k j).
(** VectorFEWeakDivergenceIntegratorMeshSens::AssembleRHSElementVect :2431-2501; state x (Nedelec), adjoint psi (H1) *)
Definition div_mesh (nh nd : nat) (r : rule) (X : mat) (x psi : vec) : mat := fun k j =>
  rsum (r_nq r) (fun q =>
    let w := r_pw r q / r_W r q X in
    let VT_state := at_point nd (Vxt r X q) x in
    let DT_psi := at_point nh (Dxt r X q) psi in
    let dot_bar := - 1 * w in
    let w_bar := - 1 * dot dim VT_state DT_psi in
    let VT_state_bar := fun c => dot_bar * DT_psi c in
    let DT_psi_bar := fun c => dot_bar * VT_state c in
    let dshapedxt_bar := fun i c => psi i * DT_psi_bar c in
    let vshapedxt_bar := fun i c => x i * VT_state_bar c in
    let trans_weight_bar := - w_bar * r_pw r q / r_W r q X ^ 2 in
    r_WRev r q X 1 k j * trans_weight_bar +
    r_AdjRev r q X (fun a c => rsum nd (fun i => r_V r q i a * vshapedxt_bar i c) + rsum nh (fun i => r_dN r q i a * dshapedxt_bar i c)) k j).

Variable M : list pelem.
(** diffusion.Assemble(), weak_div.Assemble(): AddSubMatrix of the element matrices, irrotational_projector.cpp:202-210 *)
Definition diffusion (X : mat) : mat := fun I J =>
  lsum (fun e => rsum (p_nh e) (fun i => rsum (p_nh e) (fun j =>
    if Nat.eqb I (p_h e i) && Nat.eqb J (p_h e j) then el_diff (p_rule e) (pnodes e X) i j else 0))) M.
Definition weak_div (X : mat) : mat := fun I J =>
  lsum (fun e => rsum (p_nh e) (fun i => rsum (p_nd e) (fun j =>
    if Nat.eqb I (p_h e i) && Nat.eqb J (p_d e j) then p_sg e j * el_wdiv (p_rule e) (pnodes e X) i j else 0))) M.
(** mesh_sens.Assemble(): both integrators, :191-196 *)
Definition mesh_sens (X : mat) (psi psi_bar x : vec) : mat := fun k J =>
  lsum (fun e => rsum (p_nn e) (fun j => if Nat.eqb J (p_node e j) then
    diff_mesh (p_nh e) (p_diff_rule e) (pnodes e X) (h_el e psi) (h_el e psi_bar) k j +
    div_mesh (p_nh e) (p_nd e) (p_div_rule e) (pnodes e X) (d_el e x) (h_el e psi_bar) k j else 0)) M.

(** ** the objects.  n H1 dofs, m Nedelec dofs; ess: ess_bdr_tdofs, all boundary dofs (:22-25) *)
Variables (n m : nat) (ess : nat -> bool) (G : mat) (pcg : mat -> vec -> vec).
(** FormLinearSystem: eliminated matrix (HypreParMatrix::EliminateRowsCols puts 1 on the diagonal) and right-hand side *)
Definition eliminated (D : mat) : mat := fun i j => if ess i || ess j then (if Nat.eqb i j then 1 else 0) else D i j.
Definition system_rhs (D : mat) (x b : vec) : vec := fun i => if ess i then x i else b i - rsum n (fun j => if ess j then D i j * x j else 0).
Definition transposed (D : mat) : mat := fun i j => D j i.
Definition zero_vec : vec := fun _ => 0.
(** the matrices of the last update() and the flag *)
Record projector := { dirty : bool; Dmat : mat; Bmat : mat }.
(** the constructor :10-48: nothing is assembled *)
Definition new_projector : projector := {| dirty := true; Dmat := fun _ _ => 0; Bmat := fun _ _ => 0 |}.
(** :200-213, and `if (dirty) { update(); dirty = false; }` :57-61, 106-110, 138-142; X: the mesh nodes at the time of the call *)
Definition refresh (X : mat) (p : projector) : projector :=
  if dirty p then {| dirty := false; Dmat := diffusion X; Bmat := weak_div X |} else p.
(** setInputs :50-57, div_free_projector.cpp:7-14 *)
Definition set_inputs (has_mesh_coords : bool) (p : projector) : projector :=
  if has_mesh_coords then {| dirty := true; Dmat := Dmat p; Bmat := Bmat p |} else p.
(** psi of Mult :63-84 *)
Definition potential (p : projector) (x : vec) : vec :=
  let div_x := fun i => -1 * mv m (Bmat p) x i in
  pcg (eliminated (Dmat p)) (system_rhs (Dmat p) zero_vec div_x).
(** IrrotationalProjector::Mult :55-90 *)
Definition irrot_mult (X : mat) (p : projector) (x : vec) : projector * vec :=
  let p := refresh X p in (p, mv n G (potential p x)).
(** psi_bar :112-133, 165-189: the system is formed with the same matrix and solved with its transpose *)
Definition adjoint_potential (p : projector) (proj_bar : vec) : vec :=
  let GTproj_bar := fun i => -1 * mvT m G proj_bar i in
  pcg (transposed (eliminated (Dmat p))) (system_rhs (Dmat p) zero_vec GTproj_bar).
(** vectorJacobianProduct, wrt "in" :99-135 *)
Definition irrot_vjp_in (X : mat) (p : projector) (proj_bar wrt_bar : vec) : projector * vec :=
  let p := refresh X p in
  let psi_bar := adjoint_potential p proj_bar in
  (p, fun j => wrt_bar j + mvT n (Bmat p) psi_bar j).
(** wrt "mesh_coords" :136-198; is_gf: x is a GridFunction, otherwise std::bad_cast (:190), None *)
Definition irrot_vjp_mesh (X : mat) (p : projector) (is_gf : bool) (x proj_bar : vec) (wrt_bar : mat) : projector * option mat :=
  let p := refresh X p in
  let psi := potential p x in
  let psi_bar := adjoint_potential p proj_bar in
  (p, if is_gf then Some (fun k J => wrt_bar k J + mesh_sens X psi psi_bar x k J) else None).
(** the other strings: nothing happens *)

(** DivergenceFreeProjector::Mult, div_free_projector.cpp:16-21; aliased: y is x *)
Definition divfree_mult (X : mat) (p : projector) (x : vec) (aliased : bool) : projector * vec :=
  let '(p, y) := irrot_mult X p x in
  (p, fun j => -1 * (y j - (if aliased then y j else x j))).
(** vectorJacobianProduct :23-45 *)
Definition divfree_vjp_in (X : mat) (p : projector) (proj_bar wrt_bar : vec) : projector * vec :=
  let '(p, w) := irrot_vjp_in X p (fun j => -1 * proj_bar j) wrt_bar in (p, fun j => w j + proj_bar j).
Definition divfree_vjp_mesh (X : mat) (p : projector) (is_gf : bool) (x proj_bar : vec) (wrt_bar : mat) : projector * option mat :=
  irrot_vjp_mesh X p is_gf x (fun j => -1 * proj_bar j) wrt_bar.

(** ** a history of calls; the mesh nodes are moved by others *)
Inductive call :=
| SetInputs (has_mesh_coords : bool) | MoveMesh (X : mat)
| Irrot (x : vec) | IrrotIn (bar : vec) | IrrotMesh (is_gf : bool) (x bar : vec)
| DivFree (x : vec) (aliased : bool) | DivFreeIn (bar : vec) | DivFreeMesh (is_gf : bool) (x bar : vec).
Definition step (s : mat * projector) (c : call) : mat * projector :=
  let '(X, p) := s in
  match c with
  | SetInputs b => (X, set_inputs b p)
  | MoveMesh Y => (Y, p)
  | Irrot x => (X, fst (irrot_mult X p x))
  | IrrotIn bar => (X, fst (irrot_vjp_in X p bar zero_vec))
  | IrrotMesh g x bar => (X, fst (irrot_vjp_mesh X p g x bar (fun _ _ => 0)))
  | DivFree x a => (X, fst (divfree_mult X p x a))
  | DivFreeIn bar => (X, fst (divfree_vjp_in X p bar zero_vec))
  | DivFreeMesh g x bar => (X, fst (divfree_vjp_mesh X p g x bar (fun _ _ => 0)))
  end.
Definition history (X : mat) (cs : list call) : mat * projector := fold_left step cs (X, new_projector).
End Integrators.
