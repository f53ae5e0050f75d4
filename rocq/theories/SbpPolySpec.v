(** Specification vocabulary for the SBP element tables: polynomials of d variables as finite sums of monomials, the
    size of their coefficients, integrals over the reference simplices by iterated Riemann integrals. *)
From Coq Require Import Reals List Arith.
From Coquelicot Require Import Coquelicot.
Import ListNotations.
Local Open Scope R_scope.

(** x_0^e_0 x_1^e_1 ... *)
Fixpoint mono (e : list nat) (x : nat -> R) : R :=
  match e with nil => 1 | cons a e' => x 0%nat ^ a * mono e' (fun k => x (S k)) end.
(** a polynomial: a list of (coefficient, exponents) *)
Definition poly := list (R * list nat).
Fixpoint peval (f : poly) (x : nat -> R) : R :=
  match f with nil => 0 | cons (c, e) f' => c * mono e x + peval f' x end.
(** sum of the absolute values of the coefficients *)
Fixpoint psize (f : poly) : R := match f with nil => 0 | cons (c, e) f' => Rabs c + psize f' end.
(** a polynomial of at most d variables and total degree at most p *)
Definition has_degree (d p : nat) (f : poly) : Prop :=
  List.Forall (fun t => length (snd t) = d /\ (list_sum (snd t) <= p)%nat) f.
(** x with its k-th coordinate replaced by t *)
Definition upd_at (x : nat -> R) (k : nat) (t : R) : nat -> R := fun j => if Nat.eqb j k then t else x j.
(** D is the k-th partial derivative of f at x *)
Definition is_partial (f : (nat -> R) -> R) (k : nat) (x : nat -> R) (D : R) : Prop :=
  is_derive (fun t => f (upd_at x k t)) (x k) D.

Definition pt1 (a : R) : nat -> R := fun k => match k with 0%nat => a | _ => 0 end.
Definition pt2 (a b : R) : nat -> R := fun k => match k with 0%nat => a | 1%nat => b | _ => 0 end.
Definition pt3 (a b c : R) : nat -> R := fun k => match k with 0%nat => a | 1%nat => b | 2%nat => c | _ => 0 end.
(** v is the integral of f over the triangle (0,0) (1,0) (0,1) *)
Definition tri_integral (f : (nat -> R) -> R) (v : R) : Prop :=
  exists g, (forall x, is_RInt (fun y => f (pt2 x y)) 0 (1 - x) (g x)) /\ is_RInt g 0 1 v.
(** v is the integral of f over the tetrahedron with vertices at the origin and the unit points *)
Definition tet_integral (f : (nat -> R) -> R) (v : R) : Prop :=
  exists g h, (forall x y, is_RInt (fun z => f (pt3 x y z)) 0 (1 - x - y) (g x y)) /\
              (forall x, is_RInt (fun y => g x y) 0 (1 - x) (h x)) /\ is_RInt h 0 1 v.
(** v is the boundary integral of f n_k over that triangle (k = 0: x component of the outward normal, k = 1: y); the
    hypotenuse (1-t, t) has n ds = (1,1) dt, the leg opposite to the k-th axis has n = -e_k *)
Definition tri_boundary (k : nat) (f : (nat -> R) -> R) (v : R) : Prop :=
  exists h l, is_RInt (fun t => f (pt2 (1 - t) t)) 0 1 h /\
              is_RInt (fun t => f (upd_at (pt2 t t) k 0)) 0 1 l /\ v = h - l.
(** the same for the tetrahedron: the face x+y+z=1 is the graph of z = 1-x-y over the triangle, n dS = (1,1,1) dx dy *)
Definition face_point (k : nat) (x y : R) : nat -> R :=
  match k with 0%nat => pt3 0 x y | 1%nat => pt3 x 0 y | _ => pt3 x y 0 end.
Definition tet_boundary (k : nat) (f : (nat -> R) -> R) (v : R) : Prop :=
  exists h l, tri_integral (fun q => f (pt3 (q 0%nat) (q 1%nat) (1 - q 0%nat - q 1%nat))) h /\
              tri_integral (fun q => f (face_point k (q 0%nat) (q 1%nat))) l /\ v = h - l.

(** MFEM triangle edges (v0 v1) (v1 v2) (v2 v0): start, end and opposite vertex of local edge e *)
Definition estart (e : nat) : nat := match e with 0 => 0 | 1 => 1 | _ => 2 end%nat.
Definition eend (e : nat) : nat := match e with 0 => 1 | 1 => 2 | _ => 0 end%nat.
Definition eother (e : nat) : nat := match e with 0 => 2 | 1 => 0 | _ => 1 end%nat.
(** size of a triangle in one component *)
Definition spread (A : nat -> R) : R := Rabs (A 1%nat - A 0%nat) + Rabs (A 2%nat - A 0%nat) + Rabs (A 2%nat - A 1%nat).
