(** Model of named inputs, src/physics/miso_input.{hpp,cpp}, on an explicit memory. *)
From Coq Require Import Reals List String Bool Arith.
Import ListNotations.

(** memory: blocks of doubles, block number -> index -> value; [next] is the first unused block *)
Record mem := { blk : nat -> nat -> R; next : nat }.

(** struct InputVector, miso_input.hpp:16-24, and MISOInput = variant<double, InputVector>, line 27 *)
Inductive input := Scalar (x : R) | Vector (data : nat) (size : nat).
(** MISOInputs, line 30 (unordered_map: unique keys; here the first match counts) *)
Definition inputs := list (string * input).
Fixpoint lookup (k : string) (l : inputs) : option input :=
  match l with [] => None | (k', v) :: r => if String.eqb k k' then Some v else lookup k r end.

(** mfem::Vector: data block, size, capacity of the block, does it own the block *)
Record vector := { vdata : nat; vsize : nat; vcap : nat; vown : bool }.

Inductive outcome (A : Type) := Ok (a : A) | MISOException | BadVariantAccess.
Arguments Ok {A}. Arguments MISOException {A}. Arguments BadVariantAccess {A}.

(** setValueFromInput(s), miso_input.cpp:6-25 *)
Definition setValueFromInputs (l : inputs) (key : string) (value : R) (error_if_not_found : bool) : outcome R :=
  match lookup key l with
  | Some (Scalar x) => Ok x
  | Some (Vector _ _) => BadVariantAccess
  | None => if error_if_not_found then MISOException else Ok value
  end.

(** mfem::Vector::SetSize: keeps the block when the new size fits its capacity, else allocates *)
Definition SetSize (m : mem) (v : vector) (s : nat) : mem * vector :=
  if Nat.eqb s (vsize v) then (m, v)
  else if Nat.leb s (vcap v) then (m, {| vdata := vdata v; vsize := s; vcap := vcap v; vown := vown v |})
  else ({| blk := blk m; next := next m + 1 |}, {| vdata := next m; vsize := s; vcap := s; vown := true |}).
(** mfem::Vector::operator= from a raw pointer: copies vsize doubles *)
Definition assign (m : mem) (v : vector) (src : nat) : mem :=
  {| blk := fun b i => if Nat.eqb b (vdata v) && Nat.ltb i (vsize v) then blk m src i else blk m b i; next := next m |}.

(** setVectorFromInput(s), miso_input.cpp:27-57 *)
Definition setVectorFromInputs (m : mem) (l : inputs) (key : string) (v : vector) (deep_copy error_if_not_found : bool)
  : outcome (mem * vector) :=
  match lookup key l with
  | Some (Vector d n) =>
    if deep_copy then let '(m1, v1) := SetSize m v n in Ok (assign m1 v1 d, v1)
    else Ok (m, {| vdata := d; vsize := n; vcap := n; vown := false |})       (* NewDataAndSize *)
  | Some (Scalar _) => BadVariantAccess
  | None => if error_if_not_found then MISOException else Ok (m, v)
  end.

(** contents seen through a vector *)
Definition contents (m : mem) (v : vector) : list R := map (blk m (vdata v)) (seq 0 (vsize v)).
Definition buffer (m : mem) (d n : nat) : list R := map (blk m d) (seq 0 n).
(** a later store by the owner of a block *)
Definition store (m : mem) (d i : nat) (x : R) : mem :=
  {| blk := fun b j => if Nat.eqb b d && Nat.eqb j i then x else blk m b j; next := next m |}.

(** a history of calls on one vector, interleaved with stores of the callers into their own buffers *)
Inductive op := SetDeep (l : inputs) (key : string) | SetShallow (l : inputs) (key : string) | Store (d i : nat) (x : R).
Definition run1 (mv : mem * vector) (o : op) : mem * vector :=
  match o with
  | SetDeep l k => match setVectorFromInputs (fst mv) l k (snd mv) true false with Ok r => r | _ => mv end
  | SetShallow l k => match setVectorFromInputs (fst mv) l k (snd mv) false false with Ok r => r | _ => mv end
  | Store d i x => (store (fst mv) d i x, snd mv)
  end.
Definition run (mv : mem * vector) (h : list op) : mem * vector := fold_left run1 h mv.
