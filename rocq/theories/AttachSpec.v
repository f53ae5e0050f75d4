(** What restricting an integrator to attributes means, independently of the forms' code. *)
From Coq Require Import Reals String List ZArith.
From Coquelicot Require Import Coquelicot.
From Verif Require Import Num Vec.
Import ListNotations.
Local Open Scope R_scope.

(** does an item with attribute a belong to the listed part of the mesh?  (no list: the whole mesh) *)
Definition belongs (attrs : option (list Z)) (a : Z) : bool :=
  match attrs with None => true | Some l => if in_dec Z.eq_dec a l then true else false end.
(** sum of the contributions of the items of the listed part *)
Definition part_sum (attrs : option (list Z)) (l : list (Z * nat)) (f : nat -> R) : R :=
  fold_right (fun it s => (if belongs attrs (fst it) then f (snd it) else 0) + s) 0 l.
(** change component k of the input n to t *)
Definition with_input (e : string -> vec) (n : string) (k : nat) (t : R) : string -> vec :=
  fun m j => if String.eqb m n then if Nat.eqb j k then t else e m j else e m j.
(** d is the partial derivative of F with respect to component k of the input n *)
Definition is_partial (F : (string -> vec) -> R) (e : string -> vec) (n : string) (k : nat) (d : R) : Prop :=
  is_derive (fun t => F (with_input e n k t)) (e n k) d.
(** F does not depend on the input n *)
Definition ignores (F : (string -> vec) -> R) (n : string) : Prop :=
  forall e k t, F (with_input e n k t) = F e.
