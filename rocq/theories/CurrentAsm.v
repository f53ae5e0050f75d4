(** Model of the assembly of the 3-D current load and of its mesh sensitivity, src/physics/electromagnetics/current_load.cpp,
    with VectorFEMassIntegratorMeshSens and VectorFEDomainLFIntegratorMeshSens, src/physics/mfem_common_integ.cpp:2734-2985.
    (Current.v has the coefficient, the sensitivities with respect to the current densities and the bookkeeping.)

    Simplifications: those of Projector.v; the current density is a function of element attribute and position, with the
    reverse function of its EvalRevDiff; the GMRES solver is a function of matrix, right-hand side and initial guess, HyprePCG
    of matrix and right-hand side. *)
From Coq Require Import Reals ZArith List Bool Arith.
From Verif Require Import Vec EmInteg SbpSpec CommonFun Projector.
Import ListNotations.
Local Open Scope R_scope.

(** a current density: Eval and EvalRevDiff with respect to the position *)
Record density := { d_eval : Z -> vec -> vec; d_rev : Z -> vec -> vec -> vec }.
(** an element: what the projector needs; attribute; rule of order OrderW + 2 order, the default of VectorFEMassIntegrator and of
    its sensitivity (mfem_common_integ.cpp:2799-2804); rule of order 2 order, the default of VectorFEDomainLFIntegrator and of
    its sensitivity (:2923-2929); shape functions of the mesh nodes at the points of the latter *)
Record celem := { c_el : pelem; c_attr : Z; c_mass : rule; c_lf : rule; c_N : nat -> nat -> R }.
Definition cnodes (e : celem) (X : mat) : mat := pnodes (c_el e) X.
(** the position of point q *)
Definition position (e : celem) (X : mat) (q : nat) : vec := fun k => rsum (p_nn (c_el e)) (fun j => X k j * c_N e q j).

Section Assembly.
Variables (dim : nat) (M : list celem).
(** mfem::VectorFEMassIntegrator: elmat += ip.weight Weight vshape vshape^T with the physical vshape *)
Definition el_vmass (r : rule) (X : mat) : mat := fun i j =>
  rsum (r_nq r) (fun q => r_pw r q * r_W r q X * rsum dim (fun k => Vxt dim r X q i k / r_W r q X * (Vxt dim r X q j k / r_W r q X))).
(** mfem::VectorFEDomainLFIntegrator: elvect += vshape (ip.weight Weight F) *)
Definition el_vload (e : celem) (c : density) (X : mat) : vec := fun i =>
  rsum (r_nq (c_lf e)) (fun q => rsum dim (fun k => Vxt dim (c_lf e) X q i k / r_W (c_lf e) q X *
    (r_pw (c_lf e) q * r_W (c_lf e) q X * d_eval c (c_attr e) (position e X q) k))).
(** nd_mass.Assemble() :269-272, 332-335; J.Assemble() :243 *)
Definition nd_mass (X : mat) : mat := fun I J =>
  lsum (fun e => rsum (p_nd (c_el e)) (fun i => rsum (p_nd (c_el e)) (fun j =>
    if Nat.eqb I (p_d (c_el e) i) && Nat.eqb J (p_d (c_el e) j) then p_sg (c_el e) i * p_sg (c_el e) j * el_vmass (c_mass e) (cnodes e X) i j else 0))) M.
Definition nd_load (c : density) (X : mat) : vec := fun I =>
  lsum (fun e => rsum (p_nd (c_el e)) (fun i => if Nat.eqb I (p_d (c_el e) i) then p_sg (c_el e) i * el_vload e c (cnodes e X) i else 0)) M.

(** VectorFEMassIntegratorMeshSens::AssembleRHSElementVect :2734-2864 *)
Definition vmass_mesh (nd : nat) (r : rule) (alpha : R) (X : mat) (u psi : vec) : mat := fun k j =>
  rsum (r_nq r) (fun q =>
    let w := alpha * r_pw r q / r_W r q X in
    let VT_state := at_point nd (Vxt dim r X q) u in
    let VT_psi := at_point nd (Vxt dim r X q) psi in
    let dot_bar := 1 * w in
    let w_bar := 1 * dot dim VT_state VT_psi in
    let VT_psi_bar := fun c => dot_bar * VT_state c in
    let VT_state_bar := fun c => dot_bar * VT_psi c in
    let vshapedxt_bar := fun i c => psi i * VT_psi_bar c + u i * VT_state_bar c in
    let trans_weight_bar := - w_bar * r_pw r q / r_W r q X ^ 2 in
    r_WRev r q X 1 k j * trans_weight_bar +
    r_AdjRev r q X (fun a c => rsum nd (fun i => r_V r q i a * vshapedxt_bar i c)) k j).
(** VectorFEDomainLFIntegratorMeshSens::AssembleRHSElementVect :2866-2985; EvalRevDiff of a function of the position adds
    x_bar N^T to PointMat_bar *)
Definition vload_mesh (e : celem) (c : density) (alpha : R) (X : mat) (psi : vec) : mat := fun k j =>
  rsum (r_nq (c_lf e)) (fun q =>
    let r := c_lf e in let nd := p_nd (c_el e) in
    let w := r_pw r q * alpha in
    let vec := d_eval c (c_attr e) (position e X q) in
    let VT_psi := at_point nd (Vxt dim r X q) psi in
    let dot_bar := 1 * w in
    let VT_psi_bar := fun c => dot_bar * vec c in
    let vec_bar := fun c => dot_bar * VT_psi c in
    d_rev c (c_attr e) (position e X q) vec_bar k * c_N e q j +
    r_AdjRev r q X (fun a c => rsum nd (fun i => r_V r q i a * (psi i * VT_psi_bar c))) k j).
(** mesh_sens.Assemble() with the three integrators of the constructor (:229-231; alpha 1, -1, 1 :211-213) *)
Definition load_mesh_sens (c : density) (X : mat) (j psi_j kk psi_l : vec) : mat := fun k J =>
  lsum (fun e => rsum (p_nn (c_el e)) (fun jj => if Nat.eqb J (p_node (c_el e) jj) then
    vmass_mesh (p_nd (c_el e)) (c_mass e) 1 (cnodes e X) (d_el (c_el e) j) (d_el (c_el e) psi_j) k jj +
    vload_mesh e c (-1) (cnodes e X) (d_el (c_el e) psi_j) k jj +
    vmass_mesh (p_nd (c_el e)) (c_mass e) 1 (cnodes e X) (d_el (c_el e) kk) (d_el (c_el e) psi_l) k jj else 0)) M.

(** ** the object.  n H1 dofs, m Nedelec dofs, hess: boundary dofs of H1, ess: ess_tdof_list *)
Variables (n m : nat) (hess : nat -> bool) (G : mat) (pcg : mat -> vec -> vec) (gmres : mat -> vec -> vec -> vec) (hpcg : mat -> vec -> vec) (ess : nat -> bool).
Notation P := (map c_el M).
Record cload := { l_X : mat; l_cur : density; l_proj : projector; l_j : vec; l_k : vec; l_load : vec; l_dirty : bool }.
(** the constructor :176-238: j is the interpolated current, the rest is not initialised; the flag is set *)
Definition new_load (X : mat) (c : density) (j0 k0 load0 : vec) : cload :=
  {| l_X := X; l_cur := c; l_proj := new_projector; l_j := j0; l_k := k0; l_load := load0; l_dirty := true |}.
(** assembleLoad :240-338, with current density c *)
Definition assemble_load (c : density) (s : cload) : cload :=
  let J := nd_load c (l_X s) in
  let A := nd_mass (l_X s) in
  let j := gmres A J (l_j s) in
  let '(p, kk) := divfree_mult dim P n m hess G pcg (l_X s) (l_proj s) j false in
  {| l_X := l_X s; l_cur := l_cur s; l_proj := p; l_j := j; l_k := kk; l_load := mv m A kk; l_dirty := l_dirty s |}.
Definition clean (s : cload) : cload :=
  if l_dirty s then
    let s := assemble_load (l_cur s) s in {| l_X := l_X s; l_cur := l_cur s; l_proj := l_proj s; l_j := l_j s; l_k := l_k s; l_load := l_load s; l_dirty := false |}
  else s.
Definition cut (v : vec) : vec := fun i => if ess i then 0 else v i.
(** addLoad :48-57 *)
Definition add_load (tv : vec) (s : cload) : vec * cload :=
  let s := clean s in
  let s := {| l_X := l_X s; l_cur := l_cur s; l_proj := l_proj s; l_j := l_j s; l_k := l_k s; l_load := cut (l_load s); l_dirty := l_dirty s |} in
  (fun i => tv i - l_load s i, s).
(** setInputs :21-32; mesh: the new nodes if "mesh_coords" is among the inputs (set by the solver); cur: the new current
    density if setInputs of the coefficient reports a change *)
Definition set_load_inputs (mesh : option mat) (cur : option density) (s : cload) : cload :=
  {| l_X := match mesh with Some Y => Y | None => l_X s end;
     l_cur := match cur with Some c => c | None => l_cur s end;
     l_proj := set_inputs (match mesh with Some _ => true | None => false end) (l_proj s);
     l_j := l_j s; l_k := l_k s; l_load := l_load s;
     l_dirty := match mesh, cur with None, None => l_dirty s | _, _ => true end |}.
(** vectorJacobianProduct wrt "current_density:..." :59-79; u: the current density with this group 1 and the others 0 *)
Definition vjp_density (u : density) (load_bar : vec) (s : cload) : R * cload :=
  let s := assemble_load u s in
  let ld := cut (l_load s) in
  (- dot m ld load_bar, {| l_X := l_X s; l_cur := l_cur s; l_proj := l_proj s; l_j := l_j s; l_k := l_k s; l_load := ld; l_dirty := true |}).
(** vectorJacobianProduct wrt "mesh_coords" :81-174 *)
Definition vjp_mesh (load_bar : vec) (wrt_bar : mat) (s : cload) : mat * cload :=
  let s := clean s in
  let A := nd_mass (l_X s) in
  let psi_l := cut load_bar in
  let psi_k := mvT m A psi_l in
  let '(p, r) := divfree_vjp_in dim P n m hess G pcg (l_X s) (l_proj s) psi_k zero_vec in
  let rhs := fun i => -1 * r i in
  let psi_j := hpcg (transposed A) rhs in
  let sens := load_mesh_sens (l_cur s) (l_X s) (l_j s) psi_j (l_k s) psi_l in
  let '(p, sc) := divfree_vjp_mesh dim P n m hess G pcg (l_X s) p true (l_j s) psi_k (fun _ _ => 0) in
  (fun k J => wrt_bar k J - sens k J - match sc with Some q => q k J | None => 0 end,
   {| l_X := l_X s; l_cur := l_cur s; l_proj := p; l_j := l_j s; l_k := l_k s; l_load := l_load s; l_dirty := l_dirty s |}).

Inductive lcall :=
| LInputs (mesh : option mat) (cur : option density) | LAdd (tv : vec) | LDensity (u : density) (bar : vec) | LMesh (bar : vec) (acc : mat).
Definition lstep (s : cload) (c : lcall) : cload :=
  match c with
  | LInputs mesh cur => set_load_inputs mesh cur s
  | LAdd tv => snd (add_load tv s)
  | LDensity u bar => snd (vjp_density u bar s)
  | LMesh bar acc => snd (vjp_mesh bar acc s)
  end.
Definition lhistory (s : cload) (cs : list lcall) : cload := fold_left lstep cs s.
End Assembly.
