(** Model of the boundary-marker helpers, src/utils/utils.cpp:98-137. *)
From Coq Require Import String List ZArith Bool Lia.
Import ListNotations.
Open Scope Z_scope.

(** the JSON values getMFEMBoundaryArray distinguishes; an array element is an integer or something
    get<std::vector<int>>() refuses (string, object, array, null).  Simplification: non-integer numbers and
    booleans, which nlohmann converts to int, are represented by the integer they convert to. *)
Inductive elt := EInt (z : Z) | EBad.
Inductive jval := JStr (s : string) | JArr (l : list elt) | JOther.

(** how a call ends: normally, with a MISOException, with an nlohmann type_error, or with an
    out-of-range write (undefined behaviour); [arr] is the caller's array afterwards *)
Inductive outcome := Ret (arr : list Z) | ThrowMISO (arr : list Z) | ThrowType (arr : list Z) | UB.

(** mfem::Array<int>::operator=(int): assign every entry, keep the size *)
Definition assign (v : Z) (arr : list Z) : list Z := map (fun _ => v) arr.

(** arr[i] = v with an int index *)
Fixpoint write (i : nat) (v : Z) (arr : list Z) : list Z :=
  match arr, i with
  | [], _ => []
  | _ :: r, O => v :: r
  | a :: r, S k => a :: write k v r
  end.
Definition write_at (i v : Z) (arr : list Z) : option (list Z) :=
  if (0 <=? i) && (i <? Z.of_nat (length arr)) then Some (write (Z.to_nat i) v arr) else None.

(** attrVecToArray, utils.cpp:129-137: the range-for loop after  attributes = 0 *)
Fixpoint mark (vec : list Z) (arr : list Z) : option (list Z) :=
  match vec with
  | [] => Some arr
  | attr :: r => match write_at (attr - 1) 1 arr with Some arr' => mark r arr' | None => None end
  end.
Definition attrVecToArray (vec : list Z) (arr : list Z) : option (list Z) := mark vec (assign 0 arr).

(** boundary.get<std::vector<int>>() *)
Fixpoint get_ints (l : list elt) : option (list Z) :=
  match l with
  | [] => Some []
  | EInt z :: r => match get_ints r with Some v => Some (z :: v) | None => None end
  | EBad :: _ => None
  end.

(** getMFEMBoundaryArray, utils.cpp:98-127 *)
Definition getMFEMBoundaryArray (boundary : jval) (bdr_arr : list Z) : outcome :=
  let bdr_arr := assign 0 bdr_arr in
  match boundary with
  | JStr tmp =>
      if String.eqb tmp "all" then Ret (assign 1 bdr_arr)
      else if String.eqb tmp "none" then Ret (assign 0 bdr_arr)
      else ThrowMISO bdr_arr
  | JArr l =>
      match get_ints l with
      | None => ThrowType bdr_arr
      | Some v => match attrVecToArray v bdr_arr with Some a => Ret a | None => UB end
      end
  | JOther => ThrowMISO bdr_arr
  end.
