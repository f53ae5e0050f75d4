(** Heat exchange on boundaries and interfaces, src/physics/thermal/thermal_integ.cpp and .hpp.

    One face at a time.  A rule is what mfem::IntRules.Get(geometry, order) returns for the face, so points, weights and
    shape functions at the points depend on the order the code asks for.  trans.Face->Weight() and trans.Weight() are the
    same number (in MFEM the face transformation is the FaceElementTransformations object itself), SetIntPoint and
    SetAllIntPoints are the same call on such an object, and on a boundary face el2 is el1.  IntRule is null.
    Vectors of the two sides are one vector, side 1 first, as in the code.  Arithmetic is exact. *)
From Coq Require Import Reals String List Bool Arith.
From Verif Require Import Vec Inputs EmInteg.
Import ListNotations.
Local Open Scope R_scope.

Record face := {
  n1 : nat; n2 : nat;                          (* dofs of the two elements *)
  ord1 : nat; ord2 : nat; ordW : nat;          (* GetOrder of the two elements, OrderW of the transformation *)
  npts : nat -> nat; wts : nat -> nat -> R;    (* rule of a given order: number of points, weights *)
  sh1 : nat -> nat -> vec; sh2 : nat -> nat -> vec;   (* CalcShape of both elements at point q of the rule of an order *)
  fdim : nat; fnn : nat;                       (* space dimension, nodes of the face *)
  Wf : nat -> nat -> mat -> R;                 (* Weight of the face at a point, as a function of the face's nodes *)
  WfRev : nat -> nat -> mat -> R -> mat        (* WeightRevDiff *)
}.

(** integrators of the thermal residual: name, parameters, alpha; thermal_integ.hpp:134-176, 387-431, 716-753, 912-945 *)
Inductive integ :=
| Contact (name : string) (h alpha : R)
| InternalConvection (name : string) (h theta_f alpha : R)
| ConvectionBC (h theta_f alpha : R)
| OutfluxBC (flux alpha : R).

(** names of the inputs: thermal_integ.cpp:341-352, 813-826, .hpp:292-303, 580-603, 720-725, 916-919 *)
Definition h_name (name : string) : string := if String.eqb name "" then "h" else append "h:" name.
Definition temp_name (name : string) : string := if String.eqb name "" then "fluid_temp" else append "fluid_temp:" name.

Definition take (l : inputs) (key : string) (old : R) : outcome R := setValueFromInputs l key old false.
Definition obind {A B} (r : outcome A) (f : A -> outcome B) : outcome B :=
  match r with Ok a => f a | MISOException => MISOException | BadVariantAccess => BadVariantAccess end.
(** setInputs of each integrator *)
Definition integ_setInputs (l : inputs) (g : integ) : outcome integ :=
  match g with
  | Contact n h a => obind (take l (h_name n) h) (fun h' => Ok (Contact n h' a))
  | InternalConvection n h t a =>
      obind (take l (h_name n) h) (fun h' => obind (take l (temp_name n) t) (fun t' => Ok (InternalConvection n h' t' a)))
  | ConvectionBC h t a => obind (take l "h" h) (fun h' => obind (take l "fluid_temp" t) (fun t' => Ok (ConvectionBC h' t' a)))
  | OutfluxBC f a => obind (take l "outflux" f) (fun f' => Ok (OutfluxBC f' a))
  end.

Section Face.
Variables (F : face) (X : mat).
Definition both : nat := (2 * Nat.max (ord1 F) (ord2 F))%nat.
(** orders of the rules: vector, matrix, mesh sensitivity, sensitivity to h or the fluid temperature.
    Contact: :382, :446, :598, :751.  Internal convection: :856, :919, :1056, :1211 and :1321.
    Convection: :1405, :1446, :1515, :1603 and :1683.  Outflux: :1750, :1832 (its matrix is 0, :1772-1782) *)
Definition vec_order (g : integ) : nat :=
  match g with
  | Contact _ _ _ => both
  | InternalConvection _ _ _ _ => (both + ordW F)%nat
  | ConvectionBC _ _ _ | OutfluxBC _ _ => (ord1 F + ord1 F + ordW F)%nat
  end.
Definition grad_order (g : integ) : nat :=
  match g with
  | Contact _ _ _ | InternalConvection _ _ _ _ => both
  | ConvectionBC _ _ _ | OutfluxBC _ _ => (ord1 F + ord1 F + ordW F)%nat
  end.
Definition mesh_order (g : integ) : nat :=
  match g with
  | Contact _ _ _ | InternalConvection _ _ _ _ => both
  | ConvectionBC _ _ _ | OutfluxBC _ _ => (2 * ord1 F + ordW F)%nat
  end.
Definition par_order (g : integ) : nat :=
  match g with
  | Contact _ _ _ | InternalConvection _ _ _ _ => (both + ordW F)%nat
  | ConvectionBC _ _ _ | OutfluxBC _ _ => (2 * ord1 F + ordW F)%nat
  end.

(** w = alpha * ip.weight * trans.Weight() *)
Definition wf (o : nat) (alpha : R) (q : nat) : R := alpha * wts F o q * Wf F o q X.
(** elfun1 * shape1 and elfun2 * shape2 *)
Definition val1 (o : nat) (u : vec) (q : nat) : R := dot (n1 F) u (sh1 F o q).
Definition val2 (o : nat) (u : vec) (q : nat) : R := dot (n2 F) (fun i => u (n1 F + i)%nat) (sh2 F o q).

(** AssembleFaceVector: :354-410, :828-885, :1387-1426, :1732-1770 *)
Definition face_vector (g : integ) (u : vec) : vec :=
  let o := vec_order g in
  match g with
  | Contact _ h a => fun i =>
      if (i <? n1 F)%nat then rsum (npts F o) (fun q => wf o a q * (h * (val1 o u q - val2 o u q)) * sh1 F o q i)
      else rsum (npts F o) (fun q => - wf o a q * (h * (val1 o u q - val2 o u q)) * sh2 F o q (i - n1 F)%nat)
  | InternalConvection _ h t a => fun i =>
      if (i <? n1 F)%nat then rsum (npts F o) (fun q => wf o a q * (h * (val1 o u q - t)) * sh1 F o q i)
      else rsum (npts F o) (fun q => wf o a q * (h * (val2 o u q - t)) * sh2 F o q (i - n1 F)%nat)
  | ConvectionBC h t a => fun i => rsum (npts F o) (fun q => wf o a q * (h * (val1 o u q - t)) * sh1 F o q i)
  | OutfluxBC f a => fun i => rsum (npts F o) (fun q => wf o a q * f * sh1 F o q i)
  end.

(** AssembleFaceGrad: :412-508, :887-970, :1428-1465, :1772-1782 *)
Definition face_grad (g : integ) (u : vec) : mat :=
  let o := grad_order g in
  match g with
  | Contact _ h a => fun i j => rsum (npts F o) (fun q =>
      if (i <? n1 F)%nat
      then if (j <? n1 F)%nat then sh1 F o q i * sh1 F o q j * (wf o a q * h)
           else - (sh1 F o q i * sh2 F o q (j - n1 F)%nat * (wf o a q * h))
      else if (j <? n1 F)%nat then - (sh1 F o q j * sh2 F o q (i - n1 F)%nat * (wf o a q * h))
           else sh2 F o q (i - n1 F)%nat * sh2 F o q (j - n1 F)%nat * (wf o a q * h))
  | InternalConvection _ h _ a => fun i j => rsum (npts F o) (fun q =>
      if (i <? n1 F)%nat
      then if (j <? n1 F)%nat then sh1 F o q i * sh1 F o q j * (wf o a q * h) else 0
      else if (j <? n1 F)%nat then 0 else sh2 F o q (i - n1 F)%nat * sh2 F o q (j - n1 F)%nat * (wf o a q * h))
  | ConvectionBC h _ a => fun i j => rsum (npts F o) (fun q => wf o a q * h * sh1 F o q i * sh1 F o q j)
  | OutfluxBC _ _ => fun _ _ => 0
  end.

(** GetFaceEnergy of the ...HRevSens and ...FluidTempRevSens classes with the name each is registered under:
    :693-811, :1153-1275, :1277-1385, :1572-1650, :1652-1730; none is registered for the outflux (.hpp:981-1012) *)
Definition par_sens (g : integ) (u psi : vec) : list (string * R) :=
  let o := par_order g in
  match g with
  | Contact n _ a =>
      [(h_name n, rsum (npts F o) (fun q =>
         (- wf o a q * val2 o psi q + wf o a q * val1 o psi q) * (val1 o u q - val2 o u q)))]
  | InternalConvection n h t a =>
      [(h_name n, rsum (npts F o) (fun q =>
          wf o a q * val2 o psi q * (val2 o u q - t) + wf o a q * val1 o psi q * (val1 o u q - t)));
       (temp_name n, rsum (npts F o) (fun q => - (wf o a q * val2 o psi q) * h - wf o a q * val1 o psi q * h))]
  | ConvectionBC h t a =>
      [("h"%string, rsum (npts F o) (fun q => val1 o psi q * wf o a q * (val1 o u q - t)));
       ("fluid_temp"%string, rsum (npts F o) (fun q => - (val1 o psi q * wf o a q) * h))]
  | OutfluxBC _ _ => []
  end.

(** the node sensitivity of the face, PointMat(Face)_bar summed over the points: :510-681, :972-1141, :1467-1570, :1784-1877 *)
Definition w_bar (g : integ) (u psi : vec) (q : nat) : R :=
  let o := mesh_order g in
  match g with
  | Contact _ h a => (- (h * (val1 o u q - val2 o u q)) * val2 o psi q + h * (val1 o u q - val2 o u q) * val1 o psi q) * a * wts F o q
  | InternalConvection _ h t a => (h * (val2 o u q - t) * val2 o psi q + h * (val1 o u q - t) * val1 o psi q) * a * wts F o q
  | ConvectionBC h t a => val1 o psi q * (h * (val1 o u q - t)) * a * wts F o q
  | OutfluxBC f a => val1 o psi q * f * a * wts F o q
  end.
Definition face_bar (g : integ) (u psi : vec) : mat := fun k j =>
  let o := mesh_order g in rsum (npts F o) (fun q => WfRev F o q X (w_bar g u psi q) k j).
End Face.

(** mesh_coords_face_bar(k * ndof + j) is entry (k, j) *)
Definition flat (nn : nat) (B : mat) : vec := fun i => B (i / nn)%nat (i mod nn)%nat.
(** Array::Find: the first index holding x *)
Fixpoint find_index (x : nat) (l : list nat) : option nat :=
  match l with
  | [] => None
  | y :: r => if Nat.eqb x y then Some O else match find_index x r with Some i => Some (S i) | None => None end
  end.
(** the insertion of the face's vector into that of the first element, :677-691, :1136-1150 *)
Fixpoint insert (vdofs1 vdofs2 : list nat) (j : nat) (fb bar1 : vec) : vec :=
  match vdofs2 with
  | [] => bar1
  | d :: r =>
      insert vdofs1 r (S j) fb
        (match find_index d vdofs1 with
         | None => bar1
         | Some idx => fun i => if Nat.eqb i idx then bar1 i + fb j else bar1 i
         end)
  end.

(** L2ProjectionIntegrator: vector :154-192, matrix :194-229, mesh sensitivity :231-338; TestBCIntegrator :10-50, :52-152 *)
Section Volume.
Variables (ndof nq : nat) (pw : nat -> R) (sh : nat -> vec) (alpha : R).
Variables (Wt : nat -> mat -> R) (WtRev : nat -> mat -> R -> mat).
Variables (gval : nat -> mat -> R) (gRev : nat -> mat -> R -> mat).     (* g.Eval, g.EvalRevDiff *)
Definition l2_vector (X : mat) (u : vec) : vec := fun i =>
  rsum nq (fun q => alpha * pw q * Wt q X * (dot ndof u (sh q) - gval q X) * sh q i).
Definition l2_grad (X : mat) (u : vec) : mat := fun i j => rsum nq (fun q => alpha * pw q * Wt q X * sh q i * sh q j).
Definition l2_mesh_bar (X : mat) (u psi : vec) : mat := fun k j =>
  rsum nq (fun q =>
    gRev q X (- (alpha * pw q * Wt q X) * dot ndof psi (sh q)) k j +
    WtRev q X ((dot ndof u (sh q) - gval q X) * dot ndof psi (sh q) * alpha * pw q) k j).
Definition test_vector (X : mat) (u : vec) : vec := fun i =>
  rsum nq (fun q => dot ndof u (sh q) * (pw q * Wt q X) * sh q i).
Definition test_mesh_bar (X : mat) (u psi : vec) : mat := fun k j =>
  rsum nq (fun q => WtRev q X (dot ndof psi (sh q) * dot ndof u (sh q) * pw q) k j).
End Volume.
