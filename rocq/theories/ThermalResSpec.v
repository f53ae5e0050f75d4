(** What the user of the thermal residual means by its load: the numbers in the buffer when it was last given. *)
From Coq Require Import Reals String List Bool Arith.
From Verif Require Import Vec Inputs ThermalRes.
Import ListNotations.
Local Open Scope R_scope.

(** the buffers as their owners wrote them *)
Definition owned := nat -> nat -> R.
Definition write (b : owned) (d i : nat) (x : R) : owned := fun d' j => if Nat.eqb d' d && Nat.eqb j i then x else b d' j.
(** buffers, the load last given (0 before any), its buffer, and whether that buffer was written since *)
Record view := { bufs : owned; given_load : nat -> R; from : option nat; touched : bool }.
Definition look (c : tcall) (v : view) : view :=
  match c with
  | TSet l => match lookup "thermal_load" l with
              | Some (Vector d _) => {| bufs := bufs v; given_load := bufs v d; from := Some d; touched := false |}
              | _ => v
              end
  | TEval _ => v
  | TStore d i x => {| bufs := write (bufs v) d i x; given_load := given_load v; from := from v;
                       touched := touched v || match from v with Some d' => Nat.eqb d' d | None => false end |}
  end.
Definition looks (h : list tcall) (v : view) : view := fold_left (fun v c => look c v) h v.
(** every load given is a vector of n numbers *)
Definition good_loads (n : nat) (h : list tcall) : Prop :=
  forall l, In (TSet l) h -> match lookup "thermal_load" l with Some (Vector _ s) => s = n | Some (Scalar _) => False | None => True end.
