(** What the user wrote in the "magnets" option and in the material library, read off the tables. *)
From Coq Require Import Reals String List Bool ZArith.
From Coquelicot Require Import Coquelicot.
From Verif Require Import Vec CoefMix EmCoef EmIntegSpec.
Import ListNotations.
Local Open Scope R_scope.

(** material -> direction -> attributes *)
Definition magnet_options := list (string * list (string * list Z)).
Definition listed (o : magnet_options) (m s : string) (a : Z) : Prop :=
  exists l attrs, In (m, l) o /\ In (s, attrs) l /\ In a attrs.
(** the directions the manual names *)
Definition directions : list string := ["north"; "south"; "cw"; "ccw"; "x"; "y"; "z"]%string.
(** the attributes magnetised by the options, in order *)
Definition magnetised (o : magnet_options) : list Z :=
  flat_map (fun g => flat_map (fun s => if in_dec string_dec (fst s) directions then snd s else []) (snd g)) o.
(** a number of the material, or its default *)
Definition number (o : jobj) (k : string) (d v : R) : Prop := sfind k o = Some (VNum v) \/ (sfind k o = None /\ v = d).
Definition readable (materials : list (string * jobj)) (m : string) : Prop :=
  exists o a t b, sfind m materials = Some o /\
    number o "alpha_B_r" (- 12 / 100) a /\ number o "T_ref" (29315 / 100) t /\ number o "B_r_T_ref" (139 / 100) b.
(** remnant flux density of the material at temperature T: linear, a per cent per degree *)
Definition remnant_flux (materials : list (string * jobj)) (m : string) (T v : R) : Prop :=
  exists o a t b, sfind m materials = Some o /\
    number o "alpha_B_r" (- 12 / 100) a /\ number o "T_ref" (29315 / 100) t /\ number o "B_r_T_ref" (139 / 100) b /\
    v = b * (1 + a / 100 * (T - t)).
(** the reverse function of a vector valued function of the nodes, at the nodes X *)
Definition rev_vector_at (n sdim nn : nat) (f : (nat -> nat -> R) -> vec) (X : nat -> nat -> R) (rev : vec -> nat -> nat -> R) : Prop :=
  forall V b, is_derive (fun t => dot n b (f (moved X V t))) 0 (pairing sdim nn (rev b) V).
