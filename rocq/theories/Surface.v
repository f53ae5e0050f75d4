(** Model of src/common/surface_def.hpp: extraction of a surface mesh and the point-to-surface distance.
    The class refuses dim <> 2 (lines 15-18 and 33-36), so the distance part is for curves in the plane. *)
From Coq Require Import Reals List ZArith Bool.
From Verif Require Import Num Vec.
Import ListNotations.

(** ** Surface(vol_mesh, bdr_attr_marker), lines 29-157 *)

(** a boundary element of the volume mesh: attribute and vertex numbers *)
Record bel := { b_attr : nat; b_verts : list nat }.

(** bdr_attr_marker[bdr_attr - 1] == 0 means skip (lines 51-54).  Simplification: an attribute outside the
    marker array (undefined behaviour) reads as unmarked. *)
Definition marked (marker : list Z) (b : bel) : bool := negb (Z.eqb (nth (b_attr b - 1) marker 0%Z) 0).

Fixpoint wrz (i : nat) (v : Z) (l : list Z) : list Z :=
  match l, i with [] , _ => [] | _ :: r, O => v :: r | a :: r, S k => a :: wrz k v r end.
(** lines 58-61: v2v[v[j]] = 0 *)
Definition flag_verts (vs : list nat) (v2v : list Z) : list Z := fold_left (fun a v => wrz v 0%Z a) vs v2v.
(** lines 42-62: the pass over the boundary elements; returns v2v and num_belem *)
Definition flag_pass (marker : list Z) (bels : list bel) (nv : nat) : list Z * nat :=
  fold_left (fun s b => if marked marker b then (flag_verts (b_verts b) (fst s), S (snd s)) else s)
    bels (repeat (-1)%Z nv, O).
(** lines 64-71: number the flagged vertices *)
Fixpoint number (l : list Z) (nbvt : Z) : list Z :=
  match l with
  | [] => []
  | a :: r => if Z.eqb a 0 then nbvt :: number r (nbvt + 1) else a :: number r nbvt
  end.
Definition v2v_of (marker : list Z) (bels : list bel) (nv : nat) : list Z := number (fst (flag_pass marker bels nv)) 0.
(** lines 77-87: vertices added to the surface mesh: the volume vertex each one copies *)
Definition surf_verts (v2v : list Z) : list nat := filter (fun i => Z.leb 0 (nth i v2v (-1)%Z)) (seq 0 (length v2v)).
(** lines 89-121: elements added to the surface mesh *)
Definition surf_elems (marker : list Z) (bels : list bel) (v2v : list Z) : list (nat * list Z) :=
  map (fun b => (b_attr b, map (fun v => nth v v2v (-1)%Z) (b_verts b))) (filter (marked marker) bels).

(** lines 123-151: copying H1 node coordinates.  Loop index i runs over all boundary elements of the volume mesh;
    for a marked one the nodes of boundary element i are stored in surface element number i.  A write is
    (surface element, boundary element); [None]: a surface element number out of range (undefined behaviour). *)
Fixpoint copy_nodes (marker : list Z) (num_belem i : nat) (bels : list bel) : option (list (nat * nat)) :=
  match bels with
  | [] => Some []
  | b :: r =>
      if marked marker b then
        if Nat.ltb i num_belem then
          match copy_nodes marker num_belem (S i) r with Some w => Some ((i, i) :: w) | None => None end
        else None
      else copy_nodes marker num_belem (S i) r
  end.

(** ** solveDistance, lines 200-330, dim = 2 *)
Local Open Scope R_scope.

(** an ElementTransformation of a segment: Transform, Jacobian (column) and Hessian (column) at the reference
    coordinate *)
Record trans := { t_X : R -> vec; t_J : R -> vec; t_H : R -> vec }.

Inductive dist_result := Dist (r : R) | LinearSolveFailed | NewtonFailed.

Definition tol13 : R := 1 / 10 ^ 13.

(** Geometry::ProjectPoint on the unit segment: end point clipped to [0,1] and whether it was inside *)
Definition project (xi : R) : R * bool :=
  if Rltb xi 0 then (0, false) else if Rltb 1 xi then (1, false) else (xi, true).

(** mfem::LinearSolve for a 1 x 1 matrix fails if |Hess| <= lin_tol (mfem's TOL = 1e-9), a parameter here *)
Fixpoint newton_dist (lin_tol : R) (tr : trans) (x : vec) (n : nat) (xi : R) (hit : bool) : dist_result :=
  match n with
  | O => NewtonFailed
  | S n' =>
      let res := vsub (t_X tr xi) x in
      let gradient := dot 2 (t_J tr xi) res in
      if Rltb (Rabs gradient) tol13 then Dist (norm 2 res)
      else
        let Hess := dot 2 (t_J tr xi) (t_J tr xi) + dot 2 (t_H tr xi) res in
        if Rleb (Rabs Hess) lin_tol then LinearSolveFailed
        else
          let step := - gradient / Hess in
          let step := if Rltb 0 (step * gradient) then - (1 / 10) / Rabs gradient * gradient else step in
          let '(xi', inside) := project (xi + step) in
          if negb inside && hit then Dist (norm 2 res)
          else newton_dist lin_tol tr x n' xi' (negb inside || hit)
  end.
(** starts at the centre of the segment; max_iter = 30 *)
Definition solveDistance (lin_tol : R) (tr : trans) (x : vec) : dist_result := newton_dist lin_tol tr x 30 (1 / 2) false.

(** calcDistance, lines 186-198: [nearest] = tree.nearest(x), a node number; [elementForDof] =
    fes->GetElementForDof *)
Definition calcDistance (lin_tol : R) (elems : nat -> trans) (nearest : vec -> nat) (elementForDof : nat -> nat) (x : vec) : dist_result :=
  solveDistance lin_tol (elems (elementForDof (nearest x))) x.
