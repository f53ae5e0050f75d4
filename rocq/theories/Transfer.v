(** Model of the L2 transfer operators, src/utils/l2_transfer_operator.{hpp,cpp}: ScalarL2IdentityProjection,
    L2IdentityProjection, L2CurlProjection, L2CurlMagnitudeProjection.

    An element is the record of CommonFun; its "quadrature points" are here the nodes of the output element (GetNodes of
    output_fe, one per output dof), e_pw and e_shape are not used.  Simplifications: arithmetic over R; one process (true dofs
    are local dofs); orientation signs of the state's dofs are kept (GetSubVector / AddElementVector with negative indices),
    dof transformations (which are null except for high-order simplices) are not; CalcPhysShape, CalcVShape, Jacobian,
    AdjugateJacobian, Weight at a node are functions of the element's mesh nodes, with the RevDiff counterparts of the MFEM
    fork.  mfem::DenseMatrix::GradToCurl of a matrix with columns (x, y) writes -y and x.  A product that contains NaN
    (0/0, or infinity times zero) is None. *)
From Coq Require Import Reals String List Bool Arith.
From Verif Require Import Vec EmInteg SbpSpec CommonFun FieldFun.
Import ListNotations.
Local Open Scope R_scope.

(** the output space on an element: number of the dof of node q, component c (el_output seen as an output_dof x components
    matrix); CalcPhysShape and CalcPhysShapeRevDiff of output_fe at its own node q *)
Record ospace := {
  os_dof : elem -> nat -> nat -> nat;
  os_shape : elem -> nat -> mat -> vec;
  os_rev : elem -> nat -> mat -> vec -> mat }.
(** l2_transfer_operator.hpp:14-57, the virtual interface: apply, apply_state_bar, apply_mesh_coords_bar.  Arguments: element,
    its nodes, el_state, el_output_adj (node, component).  o_defined: no NaN in the results of the reverse functions *)
Record operation := {
  o_nc : nat;
  o_val : elem -> mat -> vec -> nat -> nat -> R;
  o_state_bar : elem -> mat -> vec -> mat -> vec;
  o_mesh_bar : elem -> mat -> vec -> mat -> mat;
  o_defined : elem -> mat -> vec -> bool }.

Section Operations.
Variable OS : ospace.
(** output_adj.MultTranspose(shape, output_adj_vec); double adj = el_output_adj * adj_shape :52-53, 207-208 *)
Definition adj_at (e : elem) (X : mat) (psi : mat) (q c : nat) : R := rsum (e_nq e) (fun p => os_shape OS e q X p * psi p c).

(** ** ScalarIdentityOperator :9-130.  N, NRev: CalcPhysShape and its RevDiff for state_fe *)
Section ScalarIdentity.
Variables (N : elem -> nat -> mat -> vec) (NRev : elem -> nat -> mat -> vec -> mat).
Definition si_val (e : elem) (X : mat) (u : vec) (q c : nat) : R := dot (e_ndof e) (N e q X) u.                       (* :25-26 *)
Definition si_state_bar (e : elem) (X : mat) (u : vec) (psi : mat) : vec := fun i =>
  rsum (e_nq e) (fun q => 1 * adj_at e X psi q 0 * N e q X i).                                                          (* :57-61 *)
(** :97-127 *)
Definition si_mesh_bar (e : elem) (X : mat) (u : vec) (psi : mat) : mat := fun k j =>
  rsum (e_nq e) (fun q =>
    os_rev OS e q X (fun p => 1 * si_val e X u q 0 * psi p 0%nat) k j +
    NRev e q X (fun i => 1 * adj_at e X psi q 0 * u i) k j).
Definition ScalarIdentity : operation := {| o_nc := 1; o_val := si_val; o_state_bar := si_state_bar; o_mesh_bar := si_mesh_bar; o_defined := fun _ _ _ => true |}.
End ScalarIdentity.

(** ** IdentityOperator :132-329.  Vs, VRev: CalcVShape (ndof x space_dim) and its RevDiff; junk: what the never initialised
    adj_shape_bar (:272) of the element holds *)
Section VectorIdentity.
Variables (sdim : nat) (Vs : elem -> nat -> mat -> mat) (VRev : elem -> nat -> mat -> mat -> mat) (junk : elem -> vec).
Definition vi_val (e : elem) (X : mat) (u : vec) (q c : nat) : R := rsum (e_ndof e) (fun i => Vs e q X i c * u i).       (* :159-165 *)
Definition vi_state_bar (e : elem) (X : mat) (u : vec) (psi : mat) : vec := fun i =>
  rsum (e_nq e) (fun q => rsum sdim (fun c => Vs e q X i c * (1 * adj_at e X psi q c))).                                 (* :226-236 *)
(** :279-327; adj_shape_bar accumulates over the nodes visited so far (:303) *)
Definition vi_shape_bar (e : elem) (X : mat) (u : vec) (psi : mat) (q : nat) : vec := fun p =>
  junk e p + rsum (Datatypes.S q) (fun r => rsum sdim (fun c => psi p c * (1 * vi_val e X u r c))).
Definition vi_mesh_bar (e : elem) (X : mat) (u : vec) (psi : mat) : mat := fun k j =>
  rsum (e_nq e) (fun q =>
    os_rev OS e q X (vi_shape_bar e X u psi q) k j +
    VRev e q X (fun i c => u i * (1 * adj_at e X psi q c)) k j).
Definition VectorIdentity : operation := {| o_nc := sdim; o_val := vi_val; o_state_bar := vi_state_bar; o_mesh_bar := vi_mesh_bar; o_defined := fun _ _ _ => true |}.
End VectorIdentity.

(** ** the curl of the state: shape is CalcCurlShape (three dimensions) or CalcDShape at the node *)
Section Curls.
Variables (sdim : nat) (shape : elem -> nat -> mat) (Adj Jac : elem -> nat -> mat -> mat) (AdjRev JacRev : elem -> nat -> mat -> mat -> mat).
Variable three : bool.           (* space_dim == 3 *)
Variable junk : elem -> vec.     (* the never initialised adj_shape_bar :509 *)

(** GradToCurl into a matrix read as two columns *)
Definition grad_to_curl (G : mat) : mat := fun i c => match c with O => - G i 1%nat | _ => G i 0%nat end.
(** curlshape_dFt :361-375 *)
Definition co_S (e : elem) (X : mat) (q : nat) : mat :=
  if three then curlshape_dFt sdim (shape e) (Jac e) X q else grad_to_curl (dshapedxt sdim (shape e) (Adj e) X q).
Definition co_vec (e : elem) (X : mat) (u : vec) (q : nat) : vec := fun c => rsum (e_ndof e) (fun i => co_S e X q i c * u i).   (* :376 *)
Definition co_val (e : elem) (X : mat) (u : vec) (q c : nat) : R := co_vec e X u q c / e_W e q X.                                (* :378-383 *)
Definition co_state_bar (e : elem) (X : mat) (u : vec) (psi : mat) : vec := fun i =>
  rsum (e_nq e) (fun q => rsum sdim (fun c => co_S e X q i c * (1 * adj_at e X psi q c / e_W e q X))).                           (* :457-470 *)
(** curl_vec_bar :559-563, trans_weight_bar :565-567 *)
Definition co_vec_bar (e : elem) (X : mat) (psi : mat) (q c : nat) : R := 1 / e_W e q X * adj_at e X psi q c.
Definition co_W_bar (e : elem) (X : mat) (u : vec) (psi : mat) (q : nat) : R :=
  -1 * dot sdim (adj_at e X psi q) (co_vec e X u q) / e_W e q X ^ 2.
Definition co_shape_bar (e : elem) (X : mat) (u : vec) (psi : mat) (q : nat) : vec := fun p =>
  junk e p + rsum (Datatypes.S q) (fun r => rsum sdim (fun c => psi p c * (1 / e_W e r X * co_vec e X u r c))).                  (* :552-556, 575 *)
(** scratch_bar :608-618: GradToCurl of curlshape_dFt_bar, times -1 *)
Definition co_scratch_bar (e : elem) (X : mat) (u : vec) (psi : mat) (q : nat) : mat := fun i c =>
  -1 * grad_to_curl (fun i c => u i * co_vec_bar e X psi q c) i c.
Definition co_mesh_bar (e : elem) (X : mat) (u : vec) (psi : mat) : mat := fun k j =>                                             (* :569-638 *)
  rsum (e_nq e) (fun q =>
    e_WRev e q X (co_W_bar e X u psi q) k j + os_rev OS e q X (co_shape_bar e X u psi q) k j +
    (if three
     then JacRev e q X (fun c a => rsum (e_ndof e) (fun i => co_vec_bar e X psi q c * u i * shape e q i a)) k j
     else AdjRev e q X (fun a c => rsum (e_ndof e) (fun i => shape e q i a * co_scratch_bar e X u psi q i c)) k j)).
Definition Curl : operation := {| o_nc := sdim; o_val := co_val; o_state_bar := co_state_bar; o_mesh_bar := co_mesh_bar; o_defined := fun _ _ _ => true |}.

(** ** CurlMagnitudeOperator :642-908; curlshape_dFt is ff_S of FieldFun (no GradToCurl), curl_vec ff_b, its norm ff_norm *)
Notation cS := (ff_S sdim shape Adj Jac three).
Notation cb := (ff_b sdim shape Adj Jac three).
Notation cn := (ff_norm sdim shape Adj Jac three).
Definition cm_val (e : elem) (X : mat) (u : vec) (q c : nat) : R := cn e X q u / e_W e q X.                                        (* :677-683 *)
(** curl_vec_bar :745-755, 857-873 *)
Definition cm_vec_bar (e : elem) (X : mat) (u : vec) (psi : mat) (q k : nat) : R :=
  1 * adj_at e X psi q 0 / e_W e q X / cn e X q u * cb e X q u k.
Definition cm_state_bar (e : elem) (X : mat) (u : vec) (psi : mat) : vec := fun i =>
  rsum (e_nq e) (fun q => rsum sdim (fun k => cS e X q i k * cm_vec_bar e X u psi q k)).                                          (* :768 *)
Definition cm_mesh_bar (e : elem) (X : mat) (u : vec) (psi : mat) : mat := fun k j =>                                              (* :845-905 *)
  rsum (e_nq e) (fun q =>
    os_rev OS e q X (fun p => 1 * (cn e X q u / e_W e q X) * psi p 0%nat) k j +
    e_WRev e q X (- (1 * adj_at e X psi q 0) * cn e X q u / e_W e q X ^ 2) k j +
    (if three
     then JacRev e q X (fun c a => rsum (e_ndof e) (fun i => cm_vec_bar e X u psi q c * u i * shape e q i a)) k j
     else AdjRev e q X (fun a c => rsum (e_ndof e) (fun i => shape e q i a * (u i * cm_vec_bar e X u psi q c))) k j)).
Definition CurlMagnitude : operation := {| o_nc := 1; o_val := cm_val; o_state_bar := cm_state_bar; o_mesh_bar := cm_mesh_bar;
  o_defined := fun e X u => fluxes_nonzero (e_ndof e) sdim u (cS e X) (e_nq e) |}.
End Curls.

(** ** L2TransferOperator.  sg: orientation sign of the state's dofs *)
Variable sg : elem -> nat -> R.
Definition el_state (e : elem) (u : vec) : vec := fun i => sg e i * u (e_dof e i).
Definition el_adj (e : elem) (ob : vec) : mat := fun q c => ob (os_dof OS e q c).
Section Operator.
Variables (Op : operation) (M : list elem).
(** apply :1033-1074: out_vec = 0, gridFunc = 0, AddElementVector of every element *)
Definition transfer (X : mat) (u : vec) : vec := fun J =>
  lsum (fun e => rsum (e_nq e) (fun q => rsum (o_nc Op) (fun c =>
    if Nat.eqb J (os_dof OS e q c) then o_val Op e (nodes_of e X) (el_state e u) q c else 0))) M.
Definition all_defined (X : mat) (u : vec) : bool := forallb (fun e => o_defined Op e (nodes_of e X) (el_state e u)) M.
(** vectorJacobianProduct wrt "state" :1084-1130 *)
Definition transfer_state_vjp (X : mat) (u ob wrt_bar : vec) : option vec :=
  if all_defined X u then Some (fun J => wrt_bar J +
    lsum (fun e => rsum (e_ndof e) (fun i => if Nat.eqb J (e_dof e i) then sg e i * o_state_bar Op e (nodes_of e X) (el_state e u) (el_adj e ob) i else 0)) M)
  else None.
(** wrt "mesh_coords" :1131-1182; entry (k, J): coordinate k of mesh node J *)
Definition transfer_mesh_vjp (X : mat) (u ob : vec) (wrt_bar : mat) : option mat :=
  if all_defined X u then Some (fun k J => wrt_bar k J +
    lsum (fun e => rsum (e_nn e) (fun j => if Nat.eqb J (e_node e j) then o_mesh_bar Op e (nodes_of e X) (el_state e u) (el_adj e ob) k j else 0)) M)
  else None.

(** The object: the operator refers to the fields state and mesh_coords.  An input that is absent (or has size 0) leaves its
    field as it is: setInputs, hpp:113-127 *)
Record point := { at_state : vec; at_mesh : mat }.
Record inputs := { in_state : option vec; in_mesh : option mat }.
Definition set_inputs (p : point) (i : inputs) : point :=
  {| at_state := match in_state i with Some u => u | None => at_state p end;
     at_mesh := match in_mesh i with Some X => X | None => at_mesh p end |}.
(** derivative vectors have the size of what they refer to; Bar_none: the call adds nothing *)
Inductive bar := BarOut (v : vec) | BarState (v : option vec) | BarMesh (v : option mat) | BarSame.
(** vectorJacobianProduct :1076-1182; wrt_bar in three shapes, according to wrt *)
Definition transfer_vjp (p : point) (ob : vec) (wrt : string) (wv : vec) (wm : mat) : bar :=
  if String.eqb wrt "out" then BarOut (fun i => wv i - ob i)
  else if String.eqb wrt "state" then BarState (transfer_state_vjp (at_mesh p) (at_state p) ob wv)
  else if String.eqb wrt "mesh_coords" then BarMesh (transfer_mesh_vjp (at_mesh p) (at_state p) ob wm)
  else BarSame.
(** calls on the object: calcOutput with inputs (vector valued :143-148 of the header), setInputs, a reverse product *)
Inductive call := CalcOutput (i : inputs) | SetInputs (i : inputs) | Vjp (ob : vec) (wrt : string) (wv : vec) (wm : mat).
Inductive answer := Field (out : vec) | Done | Bar (b : bar).
Definition step (p : point) (c : call) : point * answer :=
  match c with
  | CalcOutput i => let p' := set_inputs p i in (p', Field (transfer (at_mesh p') (at_state p')))
  | SetInputs i => (set_inputs p i, Done)
  | Vjp ob wrt wv wm => (p, Bar (transfer_vjp p ob wrt wv wm))
  end.
Fixpoint calls (p : point) (l : list call) : point * list answer :=
  match l with
  | [] => (p, [])
  | c :: r => let (p', a) := step p c in let (p'', as') := calls p' r in (p'', a :: as')
  end.
End Operator.
End Operations.
