(** What a user expects of a residual with prescribed (essential) degrees of freedom; written
    without reference to the model in Form.v. *)
From Coq Require Import Reals List.
From Coquelicot Require Import Coquelicot.
From Verif Require Import Vec.
Local Open Scope R_scope.

(** The residual: the assembled form on free dofs; on an essential dof, state minus prescribed
    value when a boundary field g is given, zero when there is none. *)
Definition residual_spec (E : list nat) (g : option vec) (F : vec -> vec) (u : vec) : vec :=
  fun i => if in_dec Nat.eq_dec i E then match g with Some b => u i - b i | None => 0 end else F u i.

(** d is the derivative of F at u in direction v (first n components) *)
Definition deriv_along (n : nat) (F : vec -> vec) (u v d : vec) : Prop :=
  forall i, (i < n)%nat -> is_derive (fun t => F (axpy u t v) i) 0 (d i).

(** G u is the matrix of partial derivatives of F at u, in the sense that it gives every
    directional derivative *)
Definition gradient_of (n : nat) (F : vec -> vec) (G : vec -> nat -> nat -> R) : Prop :=
  forall u v, deriv_along n F u v (mv n (G u) v).

Definition zero_on (E : list nat) (v : vec) : Prop := forall i, List.In i E -> v i = 0.
Definition agree_on (E : list nat) (u v : vec) : Prop := forall i, List.In i E -> u i = v i.
