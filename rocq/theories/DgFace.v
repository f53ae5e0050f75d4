(** Symmetric interior penalty terms on faces, src/physics/electromagnetics/electromag_integ.cpp:450-1752 and .hpp:165-480:
    NonlinearDGDiffusionIntegrator (weak Dirichlet condition on a boundary face) and DGInteriorFaceDiffusionIntegrator, with
    their matrices and mesh sensitivities.

    One face at a time.  A rule is what mfem::IntRules.Get(geometry, order) returns for the face, so points and weights depend
    on the order the code asks for; IntRule is null.  Vectors of the two sides are one vector, side 1 first, as in the code.
    The model is evaluated at a point of an element, given by its reference coordinates.  InverseJacobian, Weight, CalcOrtho of
    the face's Jacobian and their RevDiff counterparts belong to the project's MFEM fork: parameters here, DgFaceSpec says what
    is assumed.  Transformations of the dofs are the identity.  Arithmetic is exact; 0/0 is None, and so is reading
    uninitialised memory. *)
From Coq Require Import Reals List Bool Arith.
From Verif Require Import Vec EmInteg Thermal.
Import ListNotations.
Local Open Scope R_scope.

(** the element on one side of a face; o: order of the rule, q: point of the rule *)
Record side := {
  nd : nat; sord : nat; pk : bool;               (* dofs, GetOrder, Space() == FunctionSpace::Pk *)
  shp : nat -> nat -> vec; dsh : nat -> nat -> mat;   (* CalcShape and CalcDShape at the element's point *)
  eip : nat -> nat -> vec;                       (* trans.GetElement1IntPoint (2) *)
  nu : vec -> R -> R; dnu : vec -> R -> R;       (* model.Eval and EvalStateDeriv with this element's transformation *)
  snn : nat;                                     (* nodes of the mesh element *)
  IJ : nat -> nat -> mat -> mat; We : nat -> nat -> mat -> R;  (* InverseJacobian and Weight as functions of the nodes *)
  IJRev : nat -> nat -> mat -> mat -> mat; WeRev : nat -> nat -> mat -> R -> mat
}.
Record face := {
  dim : nat; np : nat -> nat; wt : nat -> nat -> R;    (* dimension, number of points, weights *)
  fip : nat -> nat -> vec;                       (* the face's own integration point *)
  fnn : nat;                                     (* nodes of the face *)
  nor : nat -> nat -> mat -> vec;                (* nor: CalcOrtho of the face's Jacobian, 2 eip1.x - 1 in one dimension *)
  norRev : nat -> nat -> mat -> vec -> mat       (* CalcOrthoRevDiff followed by JacobianRevDiff *)
}.

Section Point.
Variables (F : face) (o q : nat) (XF : mat).
Definition n_ : vec := nor F o q XF.
Definition nn_ : R := dot (dim F) n_ n_.
Section Side.
Variables (S : side) (X : mat) (u : vec).
(** dshapedxt = dshape * InverseJacobian :525, dshapedn = dshapedxt * nor :531 *)
Definition gr : mat := fun i k => rsum (dim F) (fun a => dsh S o q i a * IJ S o q X a k).
Definition sn : vec := fun i => rsum (dim F) (fun k => gr i k * n_ k).
(** pointflux and its norm :526-527 *)
Definition fl : vec := fun k => rsum (nd S) (fun i => gr i k * u i).
Definition fn : R := norm (dim F) fl.
(** shape * elfun, dshapedn * elfun, model_val *)
Definition vl : R := dot (nd S) (shp S o q) u.
Definition dn : R := dot (nd S) sn u.
Definition mv_ : R := nu S (eip S o q) fn.
(** pointflux_norm_dot after the multiplication by model_deriv :612-623; model_deriv is taken at ip, the face's point :622,
    1161, 1166 *)
Definition nd_ : vec := fun i =>
  (if Rlt_dec tiny (Rabs fn) then rsum (dim F) (fun k => gr i k * (1 / fn * fl k)) else 0) * dnu S (fip F o q) fn.
End Side.
End Point.

(** * NonlinearDGDiffusionIntegrator *)
Section Boundary.
Variables (F : face) (S : side) (g : nat -> nat -> R) (mu alpha : R).   (* g.Eval in element 1 at eip1 *)
(** :489-500, :587-598; the mesh sensitivity :745 *)
Definition bdr_order : nat := if pk S then (2 * sord S)%nat else (2 * sord S + dim F)%nat.
Definition bdr_mesh_order : nat := (2 * sord S)%nat.
(** :450-541 *)
Definition bdr_vector (XF X : mat) (u : vec) : vec := fun i => let o := bdr_order in
  rsum (np F o) (fun q => let w := alpha * wt F o q in
    - dn F o q XF S X u * mv_ F o q S X u * w * shp S o q i +
    - (vl o q S u - g o q) * mv_ F o q S X u * w * sn F o q XF S X i +
    (vl o q S u - g o q) * mv_ F o q S X u * (w * nn_ F o q XF * mu / We S o q X) * shp S o q i).
(** :543-653 *)
Definition bdr_grad (XF X : mat) (u : vec) : mat := fun i j => let o := bdr_order in
  rsum (np F o) (fun q => let w := alpha * wt F o q in let wq := w * nn_ F o q XF * mu / We S o q X in
    - mv_ F o q S X u * w * (shp S o q i * sn F o q XF S X j) +
    - dn F o q XF S X u * w * (shp S o q i * nd_ F o q S X u j) +
    - mv_ F o q S X u * w * (sn F o q XF S X i * shp S o q j) +
    - (vl o q S u - g o q) * w * (sn F o q XF S X i * nd_ F o q S X u j) +
    mv_ F o q S X u * wq * (shp S o q i * shp S o q j) +
    (vl o q S u - g o q) * wq * (shp S o q i * nd_ F o q S X u j)).

(** NonlinearDGDiffusionIntegratorMeshRevSens::AssembleRHSElementVect :655-928, the body of the loop *)
Section Reverse.
Variables (XF X : mat) (u psi : vec) (q : nat).
Let o := bdr_mesh_order.
Let w := alpha * wt F o q.
Let m := mv_ F o q S X u.
Let du := vl o q S u - g o q.
Let ps := vl o q S psi.
Let pd := dn F o q XF S X psi.
Let ud := dn F o q XF S X u.
Let W := We S o q X.
Let w_q := w * nn_ F o q XF * mu / W.
Definition b_wq_bar : R := 1 * du * m * ps.
Definition b_W_bar : R := b_wq_bar * - w * nn_ F o q XF * mu / W ^ 2.
Definition b_m_bar : R := 1 * du * w_q * ps + 1 * - du * w * pd + 1 * - ud * w * ps.
Definition b_pd_bar : R := 1 * - du * m * w.
Definition b_ud_bar : R := 1 * - m * w * ps.
Definition b_sn_bar : vec := fun i => b_pd_bar * psi i + b_ud_bar * u i.
Definition b_nor_bar : vec := fun k =>
  b_wq_bar * 2 * w * mu / W * n_ F o q XF k + rsum (nd S) (fun i => gr F o q S X i k * b_sn_bar i).
(** :863-870: the derivative is taken at ip; the division by the norm is not guarded *)
Definition b_fl_bar : vec := fun k => b_m_bar * dnu S (fip F o q) (fn F o q S X u) / fn F o q S X u * fl F o q S X u k.
Definition b_gr_bar : mat := fun i k => b_sn_bar i * n_ F o q XF k + u i * b_fl_bar k.
Definition b_ij_bar : mat := fun a k => rsum (nd S) (fun i => dsh S o q i a * b_gr_bar i k).
Definition b_node_bar : mat := fun k j => IJRev S o q X b_ij_bar k j + WeRev S o q X b_W_bar k j.
Definition b_face_bar : mat := norRev F o q XF b_nor_bar.
End Reverse.
Definition flux_nonzero (X : mat) (u : vec) (q : nat) : bool :=
  if Req_EM_T (fn F bdr_mesh_order q S X u) 0 then false else true.
(** mesh_coords_bar before the insertion and mesh_coords_face_bar, as matrices (coordinate, node).  In one dimension
    PointMatFace_bar is read without having been written (:883-895, 909-917) *)
Definition bdr_mesh_bars (XF X : mat) (u psi : vec) : option (mat * mat) :=
  let o := bdr_mesh_order in
  if negb (Nat.eqb (dim F) 1) && forallb (flux_nonzero X u) (seq 0 (np F o)) then
    Some (fun k j => rsum (np F o) (fun q => b_node_bar XF X u psi q k j), fun k j => rsum (np F o) (fun q => b_face_bar XF X u psi q k j))
  else None.
(** mesh_coords_bar :920-928: the face's part is inserted by Array::Find (Thermal.insert) *)
Definition bdr_mesh (vdofs fdofs : list nat) (XF X : mat) (u psi : vec) : option vec :=
  match bdr_mesh_bars XF X u psi with
  | Some (B, BF) => Some (insert vdofs fdofs 0 (flat (fnn F) BF) (flat (snn S) B))
  | None => None
  end.
End Boundary.

(** * DGInteriorFaceDiffusionIntegrator *)
Section Interior.
Variables (F : face) (S1 S2 : side) (mu alpha : R).
(** :979, :1110, :1433 *)
Definition int_order : nat := (2 * Nat.max (sord S1) (sord S2))%nat.
Definition second (u : vec) : vec := fun i => u (nd S1 + i)%nat.
Section At.
Variables (XF X1 X2 : mat) (u : vec) (q : nat).
Let o := int_order.
Let w := alpha * wt F o q.
Definition m1_ := mv_ F o q S1 X1 u.
Definition m2_ := mv_ F o q S2 X2 (second u).
Definition d1_ := dn F o q XF S1 X1 u.
Definition d2_ := dn F o q XF S2 X2 (second u).
Definition v1_ := vl o q S1 u.
Definition v2_ := vl o q S2 (second u).
Definition iwq := w * nn_ F o q XF * mu / 2 * (m1_ / We S1 o q X1 + m2_ / We S2 o q X2).
End At.
(** :930-1049 *)
Definition int_vector (XF X1 X2 : mat) (u : vec) : vec := fun i => let o := int_order in
  rsum (np F o) (fun q => let w := alpha * wt F o q in
    let m1 := m1_ X1 u q in let m2 := m2_ X2 u q in let d1 := d1_ XF X1 u q in let d2 := d2_ XF X2 u q in
    let v1 := v1_ u q in let v2 := v2_ u q in
    if (i <? nd S1)%nat then
      - (m1 * d1 + m2 * d2) / 2 * w * shp S1 o q i + (- v1 + v2) * m1 / 2 * w * sn F o q XF S1 X1 i +
      (v1 - v2) * iwq XF X1 X2 u q * shp S1 o q i
    else
      (m1 * d1 + m2 * d2) / 2 * w * shp S2 o q (i - nd S1)%nat + (- v1 + v2) * m2 / 2 * w * sn F o q XF S2 X2 (i - nd S1)%nat +
      - (v1 - v2) * iwq XF X1 X2 u q * shp S2 o q (i - nd S1)%nat).
(** :1051-1291: elmat11, elmat12, elmat21, elmat22 at a point, in the order of the code *)
Section Blocks.
Variables (XF X1 X2 : mat) (u : vec) (q : nat).
Let o := int_order.
Let w := alpha * wt F o q.
Let m1 := m1_ X1 u q.
Let m2 := m2_ X2 u q.
Let d1 := d1_ XF X1 u q.
Let d2 := d2_ XF X2 u q.
Let v1 := v1_ u q.
Let v2 := v2_ u q.
Let s1 := shp S1 o q.
Let s2 := shp S2 o q.
Let g1 := sn F o q XF S1 X1.
Let g2 := sn F o q XF S2 X2.
Let f1 := nd_ F o q S1 X1 u.
Let f2 := nd_ F o q S2 X2 (second u).
Let wq := iwq XF X1 X2 u q.
Definition b11 : mat := fun i j =>
  - m1 * w / 2 * (s1 i * g1 j) + - d1 * w / 2 * (s1 i * f1 j) + - m1 * w / 2 * (g1 i * s1 j) +
  (- v1 + v2) * w / 2 * (g1 i * f1 j) + wq * (s1 i * s1 j) +
  (v1 - v2) * w * nn_ F o q XF * mu / 2 / We S1 o q X1 * (s1 i * f1 j).
Definition b12 : mat := fun i j =>
  - m2 * w / 2 * (s1 i * g2 j) + - d2 * w / 2 * (s1 i * f2 j) + m1 * w / 2 * (g1 i * s2 j) + - wq * (s1 i * s2 j) +
  (v1 - v2) * w * nn_ F o q XF * mu / 2 / We S2 o q X2 * (s1 i * f2 j).
Definition b21 : mat := fun i j =>
  m1 * w / 2 * (s2 i * g1 j) + d1 * w / 2 * (s2 i * f1 j) + - m2 * w / 2 * (g2 i * s1 j) + - wq * (s2 i * s1 j) +
  - (v1 - v2) * w * nn_ F o q XF * mu / 2 / We S1 o q X1 * (s2 i * f1 j).
Definition b22 : mat := fun i j =>
  m2 * w / 2 * (s2 i * g2 j) + d2 * w / 2 * (s2 i * f2 j) + m2 * w / 2 * (g2 i * s2 j) +
  (- v1 + v2) * w / 2 * (g2 i * f2 j) + wq * (s2 i * s2 j) +
  - (v1 - v2) * w * nn_ F o q XF * mu / 2 / We S2 o q X2 * (s2 i * f2 j).
End Blocks.
Definition int_grad (XF X1 X2 : mat) (u : vec) : mat := fun i j =>
  rsum (np F int_order) (fun q =>
    if (i <? nd S1)%nat
    then if (j <? nd S1)%nat then b11 XF X1 X2 u q i j else b12 XF X1 X2 u q i (j - nd S1)%nat
    else if (j <? nd S1)%nat then b21 XF X1 X2 u q (i - nd S1)%nat j else b22 XF X1 X2 u q (i - nd S1)%nat (j - nd S1)%nat).

(** DGInteriorFaceDiffusionIntegratorMeshRevSens::AssembleRHSElementVect :1293-1752, the body of the loop *)
Section Reverse.
Variables (XF X1 X2 : mat) (u psi : vec) (q : nat).
Let o := int_order.
Let w := alpha * wt F o q.
Let m1 := m1_ X1 u q.
Let m2 := m2_ X2 u q.
Let d1 := d1_ XF X1 u q.
Let d2 := d2_ XF X2 u q.
Let v1 := v1_ u q.
Let v2 := v2_ u q.
Let p1 := v1_ psi q.
Let p2 := v2_ psi q.
Let e1 := d1_ XF X1 psi q.
Let e2 := d2_ XF X2 psi q.
Let W1 := We S1 o q X1.
Let W2 := We S2 o q X2.
Let nn := nn_ F o q XF.
Definition i_wq_bar : R := 1 * - (v1 - v2) * p2 + 1 * (v1 - v2) * p1.
Definition i_nn_bar : R := i_wq_bar * w * mu / 2 * (m1 / W1 + m2 / W2).
Definition i_W1_bar : R := - i_wq_bar * w * nn * mu / 2 * (m1 / W1 ^ 2).
Definition i_W2_bar : R := - i_wq_bar * w * nn * mu / 2 * (m2 / W2 ^ 2).
Definition i_m1_bar : R := i_wq_bar * w * nn * mu / 2 / W1 + 1 * (- v1 + v2) / 2 * w * e1 + 1 * d1 / 2 * w * p2 + - 1 * d1 / 2 * w * p1.
Definition i_m2_bar : R := i_wq_bar * w * nn * mu / 2 / W2 + 1 * (- v1 + v2) / 2 * w * e2 + 1 * d2 / 2 * w * p2 + - 1 * d2 / 2 * w * p1.
Definition i_e1_bar : R := 1 * (- v1 + v2) / 2 * m1 * w.
Definition i_e2_bar : R := 1 * (- v1 + v2) / 2 * m2 * w.
Definition i_d1_bar : R := 1 * m1 / 2 * w * p2 + - 1 * m1 / 2 * w * p1.
Definition i_d2_bar : R := 1 * m2 / 2 * w * p2 + - 1 * m2 / 2 * w * p1.
Definition i_sn1_bar : vec := fun i => i_e1_bar * psi i + i_d1_bar * u i.
Definition i_sn2_bar : vec := fun i => i_e2_bar * second psi i + i_d2_bar * second u i.
Definition i_nor_bar : vec := fun k =>
  2 * i_nn_bar * n_ F o q XF k + rsum (nd S2) (fun i => gr F o q S2 X2 i k * i_sn2_bar i) +
  rsum (nd S1) (fun i => gr F o q S1 X1 i k * i_sn1_bar i).
(** :1656-1680: here the derivative is taken at eip1 and eip2, and the division is guarded *)
Definition i_fl_bar (S : side) (X : mat) (y : vec) (m_bar : R) : vec := fun k =>
  if Rlt_dec tiny (Rabs (fn F o q S X y)) then m_bar * dnu S (eip S o q) (fn F o q S X y) / fn F o q S X y * fl F o q S X y k else 0.
Definition i_gr_bar (S : side) (X : mat) (y sbar : vec) (m_bar : R) : mat := fun i k =>
  sbar i * n_ F o q XF k + y i * i_fl_bar S X y m_bar k.
Definition i_ij_bar (S : side) (X : mat) (y sbar : vec) (m_bar : R) : mat := fun a k =>
  rsum (nd S) (fun i => dsh S o q i a * i_gr_bar S X y sbar m_bar i k).
Definition i_node1_bar : mat := fun k j =>
  IJRev S1 o q X1 (i_ij_bar S1 X1 u i_sn1_bar i_m1_bar) k j + WeRev S1 o q X1 i_W1_bar k j.
Definition i_node2_bar : mat := fun k j =>
  IJRev S2 o q X2 (i_ij_bar S2 X2 (second u) i_sn2_bar i_m2_bar) k j + WeRev S2 o q X2 i_W2_bar k j.
Definition i_face_bar : mat := fun k j => if Nat.eqb (dim F) 1 then 0 else norRev F o q XF i_nor_bar k j.
End Reverse.
Definition int_bar1 (XF X1 : mat) (u psi : vec) : mat := fun k j => rsum (np F int_order) (fun q => i_node1_bar XF X1 u psi q k j).
Definition int_bar2 (XF X2 : mat) (u psi : vec) : mat := fun k j => rsum (np F int_order) (fun q => i_node2_bar XF X2 u psi q k j).
Definition int_barF (XF X1 X2 : mat) (u psi : vec) : mat := fun k j => rsum (np F int_order) (fun q => i_face_bar XF X1 X2 u psi q k j).
(** mesh_coords_bar1 (with the face's part inserted, :1738-1752) and mesh_coords_bar2 *)
Definition int_mesh (vdofs fdofs : list nat) (XF X1 X2 : mat) (u psi : vec) : vec * vec :=
  (insert vdofs fdofs 0 (flat (fnn F) (int_barF XF X1 X2 u psi)) (flat (snn S1) (int_bar1 XF X1 u psi)),
   flat (snn S2) (int_bar2 XF X2 u psi)).
End Interior.
