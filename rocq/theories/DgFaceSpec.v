(** What the theorems about interior penalty terms mean, without the model's helpers. *)
From Coq Require Import Reals List Bool Arith.
From Coquelicot Require Import Coquelicot.
From Verif Require Import Vec EmIntegSpec DgFace.
Local Open Scope R_scope.

Section Point.
Variables (F : face) (o q : nat).
(** the field sum_i u_i phi_i of one side at point q: value, gradient (reference gradients times the inverse Jacobian),
    derivative along the normal vector, magnitude of the gradient, conductivity there, heat (magnetic) flux through the face *)
Section Side.
Variables (S : side) (X : nat -> nat -> R) (u : vec).
Definition value : R := rsum (nd S) (fun i => u i * shp S o q i).
Definition gradient (k : nat) : R := rsum (nd S) (fun i => u i * rsum (dim F) (fun a => dsh S o q i a * IJ S o q X a k)).
Definition slope (XF : nat -> nat -> R) : R := rsum (dim F) (fun k => gradient k * nor F o q XF k).
Definition steepness : R := sqrt (rsum (dim F) (fun k => gradient k * gradient k)).
Definition material : R := nu S (eip S o q) steepness.
End Side.
(** squared length of the normal vector *)
Definition area2 (XF : nat -> nat -> R) : R := rsum (dim F) (fun k => nor F o q XF k * nor F o q XF k).
End Point.
Definition lower (S1 : side) (u : vec) : vec := fun i => u (nd S1 + i)%nat.

(** - < Q du/dn, v > - < u - g, Q dv/dn > + mu < Q (u - g) / h, v >, h = W / |n|^2 *)
Definition weak_dirichlet (F : face) (S : side) (g : nat -> nat -> R) (mu : R) (o q : nat) (XF X : nat -> nat -> R) (u v : vec) : R :=
  let m := material F o q S X u in
  - (m * slope F o q S X u XF) * value o q S v - (value o q S u - g o q) * (m * slope F o q S X v XF) +
  mu * (area2 F o q XF / We S o q X) * m * (value o q S u - g o q) * value o q S v.
(** - < {Q du/dn}, [v] > - < [u], {Q dv/dn} > + mu < {Q / h} [u], [v] > *)
Definition interior_penalty (F : face) (S1 S2 : side) (mu : R) (o q : nat) (XF X1 X2 : nat -> nat -> R) (u v : vec) : R :=
  let jump y := value o q S1 y - value o q S2 (lower S1 y) in
  let m1 := material F o q S1 X1 u in let m2 := material F o q S2 X2 (lower S1 u) in
  let mean y := (m1 * slope F o q S1 X1 y XF + m2 * slope F o q S2 X2 (lower S1 y) XF) / 2 in
  - mean u * jump v - jump u * mean v +
  mu * ((m1 * (area2 F o q XF / We S1 o q X1) + m2 * (area2 F o q XF / We S2 o q X2)) / 2) * jump u * jump v.
(** alpha sum_q w_q f q *)
Definition over_face (F : face) (alpha : R) (o : nat) (f : nat -> R) : R := alpha * rsum (np F o) (fun q => wt F o q * f q).

(** shape functions sum to 1 and their reference gradients to 0 *)
Definition partition (S : side) : Prop := forall o q, rsum (nd S) (shp S o q) = 1 /\ forall a, rsum (nd S) (fun i => dsh S o q i a) = 0.
(** the material law does not depend on the gradient *)
Definition linear_material (S : side) : Prop := forall p x y, nu S p x = nu S p y.
(** the material is the same throughout the element, with EvalStateDeriv its derivative *)
Definition uniform (S : side) : Prop := (forall p p' x, nu S p x = nu S p' x /\ dnu S p x = dnu S p' x).
Definition differentiable (S : side) : Prop := forall p x, 0 < x -> is_derive (nu S p) x (dnu S p x).
(** at every point of the rule the gradient is 0, where the law must be flat, or not below the threshold of the code *)
Definition resolved (F : face) (S : side) (o : nat) (X : nat -> nat -> R) (u : vec) : Prop := forall q, (q < np F o)%nat ->
  steepness F o q S X u = 0 /\ is_derive (nu S (eip S o q)) 0 0 \/ / 10 ^ 14 < steepness F o q S X u.

(** reverse functions at given nodes, for motions V of the nodes *)
Definition matrix_rev_at (d nn : nat) (f : (nat -> nat -> R) -> nat -> nat -> R) (rev : (nat -> nat -> R) -> nat -> nat -> R) (X : nat -> nat -> R) : Prop :=
  forall V B, is_derive (fun t => pairing d d B (f (moved X V t))) 0 (pairing d nn (rev B) V).
Definition vector_rev_at (d nn : nat) (f : (nat -> nat -> R) -> vec) (rev : vec -> nat -> nat -> R) (X : nat -> nat -> R) : Prop :=
  forall V b, is_derive (fun t => rsum d (fun k => b k * f (moved X V t) k)) 0 (pairing d nn (rev b) V).
Definition scalar_rev_at (nn d : nat) (f : (nat -> nat -> R) -> R) (rev : R -> nat -> nat -> R) (X : nat -> nat -> R) : Prop :=
  forall V b, is_derive (fun t => b * f (moved X V t)) 0 (pairing d nn (rev b) V).
(** of the element on one side at its nodes X, and of the face at its nodes *)
Definition side_geometry (F : face) (S : side) (o : nat) (X : nat -> nat -> R) : Prop := forall q, (q < np F o)%nat ->
  0 < We S o q X /\ matrix_rev_at (dim F) (snn S) (IJ S o q) (IJRev S o q X) X /\ scalar_rev_at (snn S) (dim F) (We S o q) (WeRev S o q X) X.
Definition face_geometry (F : face) (o : nat) (XF : nat -> nat -> R) : Prop := forall q, (q < np F o)%nat ->
  vector_rev_at (dim F) (fnn F) (nor F o q) (norRev F o q XF) XF.

(** nu |grad u|^2 h at a point *)
Definition point_energy (F : face) (S : side) (o q : nat) (X : nat -> nat -> R) (u : vec) : R :=
  material F o q S X u * (We S o q X * (steepness F o q S X u * steepness F o q S X u)).
(** the coordinates of an element's (a face's) nodes, given its dofs (coordinate major) in the vector of all nodes *)
Definition nodes_of (nn : nat) (dofs : list nat) (x : nat -> R) : nat -> nat -> R := fun k j => x (nth (k * nn + j) dofs O).
