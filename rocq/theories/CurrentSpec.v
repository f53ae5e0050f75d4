(** What the user said, for the current density properties: read off the calls, without the model's state. *)
From Coq Require Import Reals String List Bool ZArith.
From Verif Require Import Vec Inputs.
Import ListNotations.
Local Open Scope R_scope.

(** the last number given for key k in a sequence of inputs, d if there is none *)
Fixpoint last_given (k : string) (h : list inputs) (d : R) : R :=
  match h with
  | [] => d
  | l :: r => last_given k r (match lookup k l with Some (Scalar v) => v | _ => d end)
  end.
(** no input is a vector (of those named "current_density:g" or g, for the groups g) *)
Definition numbers_for (G : list string) (l : inputs) : Prop :=
  forall g d s, In g G -> lookup (append "current_density:" g) l <> Some (Vector d s) /\ lookup g l <> Some (Vector d s).
(** no group has a name that begins with "current_density:" *)
Definition plain_names (G : list string) : Prop := forall g, In g G -> String.prefix "current_density:" g = false.
