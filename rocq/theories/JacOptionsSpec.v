(** What is asked of the materials, the state and the mesh for the Newton matrix of a set of options. *)
From Coq Require Import Reals List Bool Arith ZArith String.
From Coquelicot Require Import Coquelicot.
From Verif Require Import Vec Inputs Options EmInteg EmIntegSpec Thermal ThermalSpec DgFace DgFaceSpec FlowOptions ThermalOptionsSpec.
From Verif Require ThermalOptions.
Import ListNotations.
Import ThermalOptions (telem, el_n, el_dim, el_nq, el_pw, el_W, el_C, el_nu, el_dnu, el_glob, tface, tf_attr, tf_dg, tf_s1, tf_s2, tf_th,
  tf_XF, tf_X1, tf_X2, tf_XT, tf_g, tf_glob, tmesh, elems, inner, outer).
Local Open Scope R_scope.
Local Open Scope string_scope.

(** the derivatives of the material laws are their derivatives; on faces one law for each element; volumes are positive *)
Definition smooth_materials (M : tmesh) : Prop :=
  (forall e q, In e (elems M) -> (q < el_nq e)%nat -> (forall b, 0 < b -> is_derive (el_nu e q) b (el_dnu e q b)) /\ Continuity.continuous (el_nu e q) 0) /\
  (forall f, In f (inner M ++ outer M) -> uniform (tf_s1 f) /\ differentiable (tf_s1 f) /\ uniform (tf_s2 f) /\ differentiable (tf_s2 f) /\
     forall o q, 0 < We (tf_s1 f) o q (tf_X1 f) /\ 0 < We (tf_s2 f) o q (tf_X2 f)).
(** laws that do not depend on the field *)
Definition linear_materials (M : tmesh) : Prop :=
  (forall e q x y, In e (elems M) -> (q < el_nq e)%nat -> el_nu e q x = el_nu e q y) /\
  (forall f, In f (inner M ++ outer M) -> linear_material (tf_s1 f) /\ linear_material (tf_s2 f)).
(** the gradient at a point of an element *)
Definition field_gradient (e : telem) (q : nat) (u : vec) (k : nat) : R := egrad e q u k.
(** the state's gradient is 0 or not below the threshold of the code: inside elements (its norm before the division by the
    weight), on the boundary faces where a value is held weakly, on the inner faces that are coupled or separated *)
Definition resolved_state (o : opts) (M : tmesh) (u : vec) : Prop :=
  (forall e q, In e (elems M) -> (q < el_nq e)%nat ->
     let s := sqrt (rsum (el_dim e) (fun k => field_gradient e q u k * field_gradient e q u k)) in s = 0 \/ / 10 ^ 14 < s * el_W e q) /\
  (forall f p, In f (outer M) -> held p o f <> O -> resolved (tf_dg f) (tf_s1 f) (bdr_order (tf_dg f) (tf_s1 f)) (tf_X1 f) (local f u)) /\
  (forall f, In f (inner M) -> discontinuous o = true \/ separations o f <> O ->
     resolved (tf_dg f) (tf_s1 f) (int_order (tf_s1 f) (tf_s2 f)) (tf_X1 f) (local f u) /\
     resolved (tf_dg f) (tf_s2 f) (int_order (tf_s1 f) (tf_s2 f)) (tf_X2 f) (lower (tf_s1 f) (local f u))).
(** the faces of channels are straight: their vectors and matrices use the same rule *)
Definition straight_channels (o : opts) (M : tmesh) : Prop := forall f, In f (inner M) -> channels o f <> [] -> ordW (tf_th f) = O.
(** continuous basis, no value held weakly, no interface *)
Definition plain_problem (o : opts) (M : tmesh) : Prop :=
  discontinuous o = false /\ (forall f, In f (outer M) -> held 2 o f = O) /\ (forall f, In f (inner M) -> separations o f = O).
(** nothing takes heat from the cold: weights and transfer coefficients are not negative, and conductivity (reluctivity) and its
    differential are at least k0 *)
Definition dissipative (k0 : R) (o : opts) (M : tmesh) : Prop :=
  (forall e q, In e (elems M) -> (q < el_nq e)%nat -> 0 <= el_pw e q /\
     forall b, 0 <= b -> k0 <= el_nu e q b /\ k0 <= el_nu e q b + el_dnu e q b * b) /\
  (forall f p q, In f (outer M) -> (q < npts (tf_th f) p)%nat -> 0 <= wts (tf_th f) p q * Wf (tf_th f) p q (tf_XT f)) /\
  (forall f, In f (outer M) -> let w := get (get o "bcs") "convection" in lists (attributes w) f = true -> 0 <= num w "h" 1).
(** the integral of the squared gradient *)
Definition gradient_energy (M : tmesh) (v : vec) : R :=
  ThermalOptions.lsum (fun e => rsum (el_nq e) (fun q => el_pw e q * el_W e q * rsum (el_dim e) (fun k => field_gradient e q v k * field_gradient e q v k))) (elems M).
