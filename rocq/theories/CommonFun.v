(** Model of the volume, mass, state-average, boundary-flux and induced-exponential functionals.
    src/physics/mfem_common_integ.{cpp,hpp}, src/physics/common_outputs.{cpp,hpp}, src/common/functional_output.cpp,
    src/physics/thermal/thermal.cpp:52-106.

    Simplifications: arithmetic over R; the transformation of an element at a quadrature point is its Weight as a function of
    the element's node coordinates, together with WeightRevDiff of the MFEM fork (what it adds to PointMat_bar); scalar H1 or
    L2 elements (CalcShape does not depend on the mesh, no dof transformations); mfem's forms are represented by their
    documented effect: sum of element energies, sum of scattered element vectors. *)
From Coq Require Import Reals String List Bool Arith.
From Verif Require Import Vec EmInteg SbpSpec Current.
Import ListNotations.
Local Open Scope R_scope.

(** an element with one integration rule: number of points, weights, shape functions at the points (CalcShape), Weight and
    WeightRevDiff at the points, local-to-global numbering of dofs and of mesh nodes *)
Record elem := {
  e_nq : nat; e_pw : nat -> R;
  e_ndof : nat; e_dof : nat -> nat; e_shape : nat -> vec;
  e_nn : nat; e_node : nat -> nat;
  e_W : nat -> mat -> R; e_WRev : nat -> mat -> R -> mat }.

(** element dofs of a global vector (GetSubVector), element nodes of the mesh *)
Definition gather (n : nat) (glob : nat -> nat) (u : vec) : vec := fun i => u (glob i).
Definition nodes_of (e : elem) (X : mat) : mat := fun k j => X k (e_node e j).
(** AddElementVector of an element vector to the zero vector *)
Definition scatter_to (n : nat) (glob : nat -> nat) (r : vec) : vec := fun J => rsum n (fun i => if Nat.eqb J (glob i) then r i else 0).

(** GetEnergy: the sum over elements; Mult: the assembled gradient; ParallelAssemble of the mesh sensitivity: entry (k, J) is
    the derivative with respect to coordinate k of mesh node J *)
Definition total (en : elem -> mat -> vec -> R) (M : list elem) (X : mat) (u : vec) : R :=
  lsum (fun e => en e (nodes_of e X) (gather (e_ndof e) (e_dof e) u)) M.
Definition assembled (gr : elem -> mat -> vec -> vec) (M : list elem) (X : mat) (u : vec) : vec := fun J =>
  lsum (fun e => scatter_to (e_ndof e) (e_dof e) (gr e (nodes_of e X) (gather (e_ndof e) (e_dof e) u)) J) M.
Definition assembled_mesh (ms : elem -> mat -> vec -> mat) (M : list elem) (X : mat) (u : vec) : mat := fun k J =>
  lsum (fun e => scatter_to (e_nn e) (e_node e) (ms e (nodes_of e X) (gather (e_ndof e) (e_dof e) u) k) J) M.

(** * VolumeIntegrator.  mfem::Coefficient **rho: nullptr, pointing to nullptr, or to a coefficient with value and
    EvalRevDiff at point q of an element *)
Inductive density := NoRho | NullRho | Rho (val : elem -> nat -> mat -> R) (rev : elem -> nat -> mat -> R -> mat).

(** VolumeIntegrator::GetElementEnergy mfem_common_integ.cpp:153-182, rule of order OrderW *)
Definition vol_energy (rho : density) (e : elem) (X : mat) (u : vec) : R :=
  rsum (e_nq e) (fun q =>
    let val := e_pw e q * e_W e q X in
    match rho with Rho v _ => val * v e q X | _ => val end).
(** VolumeIntegrator::AssembleElementVector mfem_common_integ.hpp:103-110 *)
Definition vol_grad (e : elem) (X : mat) (u : vec) : vec := fun _ => 0.
(** VolumeIntegratorMeshSens::AssembleRHSElementVect mfem_common_integ.cpp:184-263: w_bar stays 0 when the pointer points to
    nullptr (:226-243) *)
Definition vol_mesh (rho : density) (e : elem) (X : mat) (u : vec) : mat := fun k j =>
  rsum (e_nq e) (fun q =>
    let w := e_pw e q * e_W e q X in
    match rho with
    | Rho v rev => rev e q X (1 * w) k j + e_WRev e q X (1 * v e q X * e_pw e q) k j
    | NoRho => e_WRev e q X (1 * e_pw e q) k j
    | NullRho => e_WRev e q X (0 * e_pw e q) k j
    end).
(** VolumeIntegratorFillFactorSens::GetElementEnergy :265-296, and the redirection of the pointer to d rho / d fill_factor for
    the scalar reverse product, MassFunctional common_outputs.cpp:34-49 *)
Definition fill_energy (rho : density) : elem -> mat -> vec -> R := vol_energy rho.
Definition mass_vjp (rho drho : density) (wrt : string) (M : list elem) (X : mat) (u : vec) (out_bar : R) : R :=
  if String.eqb wrt "fill_factor" then total (fill_energy drho) M X u * out_bar
  else total (fill_energy rho) M X u * out_bar (* a key "fill_factor:..." selects the same form, functional_output.cpp:131-140 *).
(** jacobianVectorProduct of MassFunctional common_outputs.hpp:88-93: no redirection *)
Definition mass_jvp (rho drho : density) (wrt : string) (M : list elem) (X : mat) (u : vec) (wrt_dot : R) : R :=
  total (fill_energy rho) M X u * wrt_dot.

(** * StateIntegrator :298-419, rule of order 2 p + OrderW *)
Definition state_energy (e : elem) (X : mat) (u : vec) : R :=
  rsum (e_nq e) (fun q => e_pw e q * dot (e_ndof e) (e_shape e q) u * e_W e q X).
Definition state_grad (e : elem) (X : mat) (u : vec) : vec := fun i =>
  rsum (e_nq e) (fun q => e_pw e q * e_W e q X * e_shape e q i).
Definition state_mesh (e : elem) (X : mat) (u : vec) : mat := fun k j =>
  rsum (e_nq e) (fun q => e_WRev e q X (1 * dot (e_ndof e) (e_shape e q) u * e_pw e q) k j).

(** the buffer [shape] of StateIntegrator is a member that GetElementEnergy and AssembleElementVector never size
    (:298-335; StateIntegratorMeshSens sizes it, :371).  CalcShape of an MFEM element either assigns the whole vector, which
    sizes it (the simplicial H1 elements: Ti.Mult(u, shape)), or writes its entries in place (tensor-product elements),
    out of bounds when the buffer is too small.  State: the size of the buffer. *)
Definition calc_shape (assigns : bool) (ndof size : nat) : ret nat :=
  if assigns then Ret ndof else if Nat.ltb size ndof then UB else Ret size.
Fixpoint state_energy_run (M : list (bool * elem)) (size : nat) : ret nat :=
  match M with
  | [] => Ret size
  | (a, e) :: r => rbind (if Nat.eqb (e_nq e) 0 then Ret size else calc_shape a (e_ndof e) size) (fun s => state_energy_run r s)
  end.

(** * Which vector a FunctionalOutput uses, functional_output.cpp:53-65: the input under its state name; when that has the
    wrong size (or is absent) the contents of its scratch vector *)
Definition inputs := list (string * (nat * vec)).
Fixpoint ifind (k : string) (l : inputs) : option (nat * vec) :=
  match l with [] => None | (k', v) :: r => if String.eqb k k' then Some v else ifind k r end.
Definition fo_state (name : string) (ins : inputs) (tsize : nat) (scratch : vec) : vec :=
  match ifind name ins with
  | Some (n, v) => if Nat.eqb n tsize then v else scratch
  | None => scratch
  end.

(** StateAverageFunctional common_outputs.hpp:146-155, .cpp:71-89: both FunctionalOutputs are built without a state name, so
    their state name is "state".  A: the elements with the rule of StateIntegrator, B: with that of VolumeIntegrator.
    ThermalSolver::addOutput thermal.cpp:84-99 builds it on the space of the field named by the option "state" *)
Definition average_value (A B : list elem) (X : mat) (u : vec) : R := total state_energy A X u / total (vol_energy NoRho) B X u.
Definition average_output (option_state : string) (A B : list elem) (X : mat) (ins : inputs) (tsize : nat) (scratch : vec) : R :=
  average_value A B X (fo_state "state" ins tsize scratch).
(** jacobianVectorProduct and vectorJacobianProduct wrt "state" and "mesh_coords", common_outputs.hpp:157-199 *)
Definition average_state_vjp (A B : list elem) (X : mat) (u : vec) (out_bar : R) (wrt_bar : vec) : vec :=
  let s := total state_energy A X u in let v := total (vol_energy NoRho) B X u in fun i =>
  wrt_bar i + 1 / v * (0 + out_bar * assembled state_grad A X u i) + - s / v ^ 2 * (0 + out_bar * assembled vol_grad B X u i).
Definition average_mesh_vjp (A B : list elem) (X : mat) (u : vec) (out_bar : R) (wrt_bar : mat) : mat :=
  let s := total state_energy A X u in let v := total (vol_energy NoRho) B X u in fun k J =>
  wrt_bar k J + 1 / v * (0 + out_bar * assembled_mesh state_mesh A X u k J)
              + - s / v ^ 2 * (0 + out_bar * assembled_mesh (vol_mesh NoRho) B X u k J).

(** jacobianVectorProduct common_outputs.hpp:157-172, with the products of functional_output.cpp:92-128 *)
Definition average_state_jvp (N : nat) (A B : list elem) (X : mat) (u : vec) (wrt_dot : vec) : R :=
  let s := total state_energy A X u in let v := total (vol_energy NoRho) B X u in
  (v * dot N (assembled state_grad A X u) wrt_dot - s * dot N (assembled vol_grad B X u) wrt_dot) / v ^ 2.

(** * Induced exponential aggregation.  IEAggregateIntegratorNumerator :745-888, IEAggregateIntegratorDenominator :890-1043,
    rule of order 2 p *)
Section IE.
Variables (rho true_max : R).
Definition ie_g (e : elem) (u : vec) (q : nat) : R := dot (e_ndof e) (e_shape e q) u.
Definition ie_exp (e : elem) (u : vec) (q : nat) : R := exp (rho * (ie_g e u q - true_max)).
Definition num_energy (e : elem) (X : mat) (u : vec) : R :=
  rsum (e_nq e) (fun q => ie_g e u q * ie_exp e u q * (e_pw e q * e_W e q X)).
Definition num_grad (e : elem) (X : mat) (u : vec) : vec := fun i =>
  rsum (e_nq e) (fun q => let w := e_pw e q * e_W e q X in
    (1 * ie_exp e u q * w + 1 * ie_g e u q * w * rho * ie_exp e u q) * e_shape e q i).
Definition num_mesh (e : elem) (X : mat) (u : vec) : mat := fun k j =>
  rsum (e_nq e) (fun q => e_WRev e q X (1 * ie_g e u q * ie_exp e u q * e_pw e q) k j).
Definition den_energy (e : elem) (X : mat) (u : vec) : R :=
  rsum (e_nq e) (fun q => ie_exp e u q * (e_pw e q * e_W e q X)).
Definition den_grad (e : elem) (X : mat) (u : vec) : vec := fun i =>
  rsum (e_nq e) (fun q => 1 * (e_pw e q * e_W e q X) * rho * ie_exp e u q * e_shape e q i).
Definition den_mesh (e : elem) (X : mat) (u : vec) : mat := fun k j =>
  rsum (e_nq e) (fun q => e_WRev e q X (1 * ie_exp e u q * e_pw e q) k j).
End IE.

(** mfem::Vector::Max of the local vector; None: minus infinity, for an empty vector *)
Fixpoint vmax (n : nat) (u : vec) : option R :=
  match n with
  | O => None
  | S m => match vmax m u with None => Some (u m) | Some x => Some (Rmax x (u m)) end
  end.

(** IEAggregateFunctional::calcOutput common_outputs.hpp:284-302 on one process.  The shift true_max is the maximum of the
    input "state", whatever field the functional aggregates; None: a shift of minus infinity makes numerator and denominator
    infinite or 0/0 (no finite result) *)
Definition agg_value (M : list elem) (X : mat) (u : vec) (rho tm : R) : R :=
  total (num_energy rho tm) M X u / total (den_energy rho tm) M X u.
Definition state_max (ins : inputs) : option R := match ifind "state" ins with Some (n, v) => vmax n v | None => None end.
Definition agg_output (state_name : string) (rho : R) (M : list elem) (X : mat) (ins : inputs) (tsize : nat) (scratch : vec) : option R :=
  match state_max ins with
  | Some tm => Some (agg_value M X (fo_state state_name ins tsize scratch) rho tm)
  | None => None
  end.
(** on several processes: every process has its elements, its part of the state and its own maximum; GetEnergy adds the
    energies of all processes (MPI_Allreduce in ParNonlinearForm::GetParGridFunctionEnergy) *)
Record process := { p_elems : list elem; p_nodes : mat; p_size : nat; p_state : vec; p_local : vec (* with the shared dofs *) }.
Definition p_true_max (p : process) : R := match vmax (p_size p) (p_state p) with Some x => x | None => 0 end.
Definition agg_parallel (rho : R) (ps : list process) : R :=
  lsum (fun p => total (num_energy rho (p_true_max p)) (p_elems p) (p_nodes p) (p_local p)) ps /
  lsum (fun p => total (den_energy rho (p_true_max p)) (p_elems p) (p_nodes p) (p_local p)) ps.
(** vectorJacobianProduct common_outputs.cpp:168-203 *)
Definition agg_state_vjp (M : list elem) (X : mat) (u : vec) (rho tm out_bar : R) (wrt_bar : vec) : vec :=
  let a := total (num_energy rho tm) M X u in let b := total (den_energy rho tm) M X u in fun i =>
  wrt_bar i + 1 / b * (0 + out_bar * assembled (num_grad rho tm) M X u i)
            + - a / b ^ 2 * (0 + out_bar * assembled (den_grad rho tm) M X u i).
(** jacobianVectorProduct common_outputs.cpp:146-166 *)
Definition agg_state_jvp (N : nat) (M : list elem) (X : mat) (u : vec) (rho tm : R) (wrt_dot : vec) : R :=
  let a := total (num_energy rho tm) M X u in let b := total (den_energy rho tm) M X u in
  (b * dot N (assembled (num_grad rho tm) M X u) wrt_dot - a * dot N (assembled (den_grad rho tm) M X u) wrt_dot) / b ^ 2.
Definition agg_mesh_vjp (M : list elem) (X : mat) (u : vec) (rho tm out_bar : R) (wrt_bar : mat) : mat :=
  let a := total (num_energy rho tm) M X u in let b := total (den_energy rho tm) M X u in fun k J =>
  wrt_bar k J + 1 / b * (0 + out_bar * assembled_mesh (num_mesh rho tm) M X u k J)
              + - a / b ^ 2 * (0 + out_bar * assembled_mesh (den_mesh rho tm) M X u k J).

(** * BoundaryNormalIntegrator :16-141.  At point q of a boundary face: normal nor (CalcOrtho), shape gradients of the
    adjacent element, its adjugate and weight, conductivity *)
Section Normal.
Variables (ndof dim nq : nat) (pw W1 kap : nat -> R) (nor : nat -> vec) (dshape adj : nat -> mat).
Definition bn_nh (q : nat) : vec := mv dim (adj q) (nor q).
Definition bn_dn (q : nat) : vec := fun i => rsum dim (fun l => dshape q i l * bn_nh q l).
Definition bn_energy (u : vec) : R := rsum nq (fun q => - kap q * dot ndof (bn_dn q) u * (pw q / W1 q)).
Definition bn_vector (u : vec) : vec := fun i => rsum nq (fun q => - kap q * (pw q / W1 q) * bn_dn q i).
End Normal.
