(** Model of the concrete SBP elements: SBPTriangleElement and SBPTetrahedronElement constructors
    (src/common/sbp_fe.cpp:651-839, 929-1022), which load the tables of SbpTables into the element operators of Sbp.v,
    and the basis evaluations CalcDShape / CalcShape (sbp_fe.cpp:426-506, 841-926, 1024-1126).  Exact rationals of the literals. *)
From Coq Require Import Reals QArith Qreals List Arith ZArith.
From Verif Require Import Num Vec Sbp SbpTables OrthoPoly.
Import ListNotations.
Local Open Scope R_scope.

Record element := { edim : nat; edeg : nat; enodes : list (list Q * Q); eops : list (list Q) }.
Definition nnode (el : element) : nat := length (enodes el).
(** Nodes.IntPoint(i): coordinate k and weight; x(i,k) and H(i) are copies of them (sbp_fe.cpp:814-820, 998-1005) *)
Definition coord (el : element) (i k : nat) : R := Q2R (nth k (fst (nth i (enodes el) ([], 0%Q))) 0%Q).
Definition Hof (el : element) (i : nat) : R := Q2R (snd (nth i (enodes el) ([], 0%Q))).
(** Q[k] = table: DenseMatrix assignment from a double array copies the array in column-major order, so
    Q[k](a, b) = table[a + b * num_nodes]: the row-major table arrives transposed (sbp_operators.hpp:100-101) *)
Definition Qof (el : element) (k : nat) : mat := fun a b => Q2R (nth (a + b * nnode el) (nth k (eops el) []) 0%Q).

(** SBPTriangleElement(degree, num_nodes), sbp_fe.cpp:651-839; None: mfem_error for any other degree *)
Definition triElement (p : nat) : option element :=
  match p with
  | 0%nat => Some {| edim := 2; edeg := 0; enodes := nodes_tri0; eops := [p0Qx_tri; p0Qy_tri] |}
  | 1%nat => Some {| edim := 2; edeg := 1; enodes := nodes_tri1; eops := [p1Qx_tri; p1Qy_tri] |}
  | 2%nat => Some {| edim := 2; edeg := 2; enodes := nodes_tri2; eops := [p2Qx_tri; p2Qy_tri] |}
  | 3%nat => Some {| edim := 2; edeg := 3; enodes := nodes_tri3; eops := [p3Qx_tri; p3Qy_tri] |}
  | 4%nat => Some {| edim := 2; edeg := 4; enodes := nodes_tri4; eops := [p4Qx_tri; p4Qy_tri] |}
  | _ => None
  end.
(** SBPTetrahedronElement(degree, num_nodes), sbp_fe.cpp:929-1022 *)
Definition tetElement (p : nat) : option element :=
  match p with
  | 0%nat => Some {| edim := 3; edeg := 0; enodes := nodes_tet0; eops := [p0Qx_tet; p0Qy_tet; p0Qz_tet] |}
  | 1%nat => Some {| edim := 3; edeg := 1; enodes := nodes_tet1; eops := [p1Qx_tet; p1Qy_tet; p1Qz_tet] |}
  | _ => None
  end.

(** CalcDShape at node ipIdx, sbp_fe.cpp:498-506, 917-926, 1115-1126: column ipIdx of the stored operator becomes
    column k of dshape, then dshape.InvLeftScaling(H), which divides ROW j by H(j) *)
Definition CalcDShape (el : element) (ipIdx : nat) : mat := fun j k => Qof el k j ipIdx / Hof el j.

Section Shape.
Variable tgamma : R -> R.
(** SBPSegmentElement: V = getVandermondeForSeg(2 x - 1) scaled by sqrt(2), sbp_fe.cpp:413-422 *)
Definition segV (xs : nat -> R) (k i : nat) : R := jacobiPoly tgamma (2 * xs k - 1) 0 0 i * sqrt 2.
(** SBPSegmentElement::CalcShape, sbp_fe.cpp:428-466.  [addr]: the node whose IntegrationPoint object (address) was passed,
    if any; a geometrically equal copy of a node is NOT found in ipIdxMap and takes the projection branch *)
Definition segCalcShape (order : nat) (xs H : nat -> R) (addr : option nat) (x : R) : nat -> R :=
  match addr with
  | Some ipIdx => fun k => if Nat.eqb k ipIdx then 1 else 0
  | None => fun k => rsum (S order) (fun i => jacobiPoly tgamma (2 * x - 1) 0 0 i * 2 * segV xs k i * H k)
  end.
(** SBPTriangleElement: V = getVandermondeForTri(2 x - 1, 2 y - 1) scaled by 2, sbp_fe.cpp:824-838; column order of vander_tri *)
Definition triV (xs ys : nat -> R) (k : nat) (ij : nat * nat) : R :=
  prorio2 tgamma (2 * xs k - 1) (2 * ys k - 1) (fst ij) (snd ij) * 2.
(** the loop r = 0..order, j = 0..r visits (r - j, j) in the column order of getVandermondeForTri *)
Definition tri_basis (order : nat) : list (nat * nat) := map snd (snd (vander_tri order)).
(** SBPTriangleElement::CalcShape, sbp_fe.cpp:843-885 *)
Definition triCalcShape (order : nat) (xs ys H : nat -> R) (addr : option nat) (x y : R) : nat -> R :=
  match addr with
  | Some ipIdx => fun k => if Nat.eqb k ipIdx then 1 else 0
  | None => fun k => fold_left (fun s ij => s + prorio2 tgamma (2 * x - 1) (2 * y - 1) (fst ij) (snd ij) * 2 * triV xs ys k ij * H k) (tri_basis order) 0
  end.
End Shape.

(** SBPCollection, sbp_fe.cpp:1128-1288: degrees of freedom per geometry (dim 2 and 3); None: mfem_error *)
Definition dofPoint : nat := 1.
Definition dofSegment (p : nat) : nat := p.
Definition dofTriangle (p : nat) : option Z :=
  match p with
  | 0%nat => Some (3 - 3 - 3 * 0)%Z | 1%nat => Some (7 - 3 - 3 * 1)%Z | 2%nat => Some (12 - 3 - 3 * 2)%Z
  | 3%nat => Some (18 - 3 - 3 * 3)%Z | 4%nat => Some (27 - 3 - 3 * 4)%Z | _ => None end.
Definition dofTet (p : nat) : option Z :=
  match p with
  | 0%nat => Some (4 - 4 - (6 * 0) - (4 * (3 - 3 - 3 * 0)))%Z
  | 1%nat => Some (14 - 4 - (6 * 1) - (4 * (7 - 3 - 3 * 1)))%Z | _ => None end.
(** TriDof = SBPdof[TRIANGLE] + 3 SBPdof[POINT] + 3 SBPdof[SEGMENT], sbp_fe.cpp:1241-1243 *)
Definition triDof (p : nat) : option Z :=
  match dofTriangle p with Some t => Some (t + 3 * Z.of_nat dofPoint + 3 * Z.of_nat (dofSegment p))%Z | None => None end.
(** TetDof, sbp_fe.cpp:1281-1284 *)
Definition tetDof (p : nat) : option Z :=
  match dofTet p, dofTriangle p with
  | Some t, Some f => Some (t + 4 * Z.of_nat dofPoint + 4 * f + 6 * Z.of_nat (dofSegment p))%Z | _, _ => None end.
(** SegDofOrd[0] and SegDofOrd[1], sbp_fe.cpp:1154-1219 *)
Definition nodeOrder (p : nat) : list nat :=
  match p with 0 => [] | 1 => [0] | 2 => [0; 1] | 3 => [0; 1; 2] | 4 => [0; 1; 2; 3] | _ => [] end%nat.
Definition revNodeOrder (p : nat) : list nat :=
  match p with 0 => [] | 1 => [0] | 2 => [1; 0] | 3 => [0; 2; 1] | 4 => [1; 0; 3; 2] | _ => [] end%nat.
(** DofOrderForOrientation(SEGMENT, Or), sbp_fe.cpp:1314-1320 *)
Definition segDofOrder (p : nat) (Or : Z) : list nat := if Z.ltb 0 Or then nodeOrder p else revNodeOrder p.

(** SBPSegmentElement nodes from the num_nodes = degree + 2 Lobatto points pts on [0,1] in increasing order,
    sbp_fe.cpp:360-375: the two ends, then symmetric pairs from the outside in, then the midpoint if there is one *)
Definition segNode (degree : nat) (pts : nat -> R) (i : nat) : R :=
  let num_nodes := (degree + 2)%nat in
  if Nat.eqb i 0 then pts 0%nat
  else if Nat.eqb i 1 then pts (num_nodes - 1)%nat
  else if andb (Nat.eqb (num_nodes mod 2) 1) (Nat.eqb i (num_nodes - 1)) then pts ((num_nodes - 1) / 2)%nat
  else if Nat.eqb (i mod 2) 0 then pts (i / 2)%nat else 1 - pts (i / 2)%nat.

(** physical position (any component) of node i of a triangle with vertices A 0, A 1, A 2: mfem's linear isoparametric map of a straight-sided triangle *)
Definition place (el : element) (A : nat -> R) (i : nat) : R :=
  A 0%nat + coord el i 0 * (A 1%nat - A 0%nat) + coord el i 1 * (A 2%nat - A 0%nat).
