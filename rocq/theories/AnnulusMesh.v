(** buildQuarterAnnulusMesh, src/utils/utils.{hpp,cpp}: the mesh of the quarter annulus of radii 1 and 3.

    Simplifications: arithmetic over R (M_PI is PI).  Mesh::MakeCartesian2D is represented by its vertices and by the two
    triangles into which it cuts every cell, from the lower left to the upper right vertex.  The random numbers are arbitrary
    functions of the vertex; the theorems bound them as uniform_real_distribution does.  NewNodes and ProjectCoefficient put
    the nodes of the curved mesh at the images of points of the straight one. *)
From Coq Require Import Reals Bool Arith.
Local Open Scope R_scope.

(** std::numeric_limits<double>::epsilon() utils.cpp:786 *)
Definition eps : R := / 2 ^ 52.
Definition rlt (x y : R) : bool := if Rlt_dec x y then true else false.
(** vertices of the Cartesian mesh :778-784: num_rad by num_ang cells of [0, 2] x [0, PI / 2] *)
Definition grid (num_rad num_ang : nat) (i j : nat) : R * R := (INR i * 2 / INR num_rad, INR j * (PI * 0.5) / INR num_ang).
(** perturbation of the interior vertices :787-804; ux, uy: the numbers drawn for each vertex *)
Definition interior (v : R * R) : bool := rlt eps (fst v) && rlt (fst v) (2 - eps) && rlt eps (snd v) && rlt (snd v) (PI * 0.5 - eps).
Definition vertex (num_rad num_ang : nat) (pert : R) (ux uy : nat -> nat -> R) (i j : nat) : R * R :=
  let v := grid num_rad num_ang i j in
  if rlt eps pert && interior v then (fst v + ux i j * 2 / INR num_rad, snd v + uy i j * PI * 0.5 / INR num_ang) else v.
(** xy_fun :818-823 *)
Definition xy_fun (rt : R * R) : R * R := ((fst rt + 1) * cos (snd rt), (fst rt + 1) * sin (snd rt)).
(** the two triangles of cell (i, j), Mesh::Make2D *)
Definition lower (num_rad num_ang : nat) (pert : R) (ux uy : nat -> nat -> R) (i j : nat) : (R * R) * (R * R) * (R * R) :=
  let V := vertex num_rad num_ang pert ux uy in (V i j, V (S i) j, V (S i) (S j)).
Definition upper (num_rad num_ang : nat) (pert : R) (ux uy : nat -> nat -> R) (i j : nat) : (R * R) * (R * R) * (R * R) :=
  let V := vertex num_rad num_ang pert ux uy in (V i j, V (S i) (S j), V i (S j)).
