(** What a user expects of a force: minus the change of the magnetic energy per displacement of a body. *)
From Coq Require Import Reals List.
From Coquelicot Require Import Coquelicot.
From Verif Require Import Vec EmIntegSpec.
Import ListNotations.
Local Open Scope R_scope.

(** nodes j < n move as parts of a rigid body: V = Omega X + tau with Omega antisymmetric *)
Definition rigid_nodes (d n : nat) (X V : nat -> nat -> R) : Prop :=
  exists (Om : nat -> nat -> R) (tau : vec), (forall k c, Om k c = - Om c k) /\
    forall k j, (k < d)%nat -> (j < n)%nat -> V k j = rsum d (fun c => Om k c * X c j) + tau k.
(** F is the force along V of a body in a system with this energy (as a function of the coordinates) *)
Definition virtual_force (energy : (nat -> nat -> R) -> R) (X V : nat -> nat -> R) (F : R) : Prop :=
  is_derive (fun t : R => energy (moved X V t)) 0 (- F).
(** a quantity that may be undefined (NaN) has derivative D at t = 0: it is defined near 0 and differentiable there *)
Definition derivative_of (F : R -> option R) (D : R) : Prop :=
  exists f : R -> R, locally 0 (fun t : R => F t = Some (f t)) /\ is_derive f 0 D.
(** nodes of the body move with velocity vel, the others stay *)
Definition moves_body (d : nat) (body : nat -> Prop) (vel : vec -> vec) (X V : nat -> nat -> R) : Prop :=
  forall k n, (k < d)%nat -> (body n -> V k n = vel (fun c => X c n) k) /\ (~ body n -> V k n = 0).
(** rotation with angular velocity w about the point c: w x (x - c); in the plane w has only its third component *)
Definition rotation (three : bool) (w c x : vec) : vec := fun k =>
  let r i := x i - c i in
  if three then match k with
    | O => w 1%nat * r 2%nat - w 2%nat * r 1%nat
    | S O => w 2%nat * r 0%nat - w 0%nat * r 2%nat
    | _ => w 0%nat * r 1%nat - w 1%nat * r 0%nat end
  else match k with O => - (w 2%nat * r 1%nat) | _ => w 2%nat * r 0%nat end.
(** unit vector along the n entries of axis *)
Definition unit_axis (n : nat) (axis : vec) : vec := fun k => axis k / sqrt (rsum n (fun i => axis i * axis i)).
