(** Model of src/utils/kdtree.hpp (coord_type = double, dim = space dimension).

    Pointers to nodes are indices into nodes_ (valid as long as nodes_ is not reallocated).
    Arithmetic is real arithmetic followed by an arbitrary rounding function [rnd] after every
    operation; [rnd := fun x => x] is exact arithmetic, round-to-nearest-even is IEEE without
    overflow/NaN.  std::nth_element is an arbitrary function (its contract is a hypothesis of the
    theorems: [nth_element_contract]). *)
From Coq Require Import Reals ZArith List Bool Arith Permutation.
From Verif Require Import Num Vec.
Import ListNotations.
Local Open Scope R_scope.

(** struct node, kdtree.hpp:90-115 *)
Record nd := { ndpt : vec; ndidx : Z; ndl : option nat; ndr : option nat }.
(** outcome of running code: a value, a C++ exception, undefined behaviour, model fuel exhausted *)
Inductive res (A : Type) := Val (a : A) | Exn | UB | OutOfFuel.
Arguments Val {A}. Arguments Exn {A}. Arguments UB {A}. Arguments OutOfFuel {A}.

Section Kd.
Context (dim : nat) (rnd : R -> R).
Context (nth_element : nat -> nat -> list nd -> list nd).  (* index n range, as std::nth_element with node_cmp(index) *)

Definition nd0 : nd := {| ndpt := fun _ => 0; ndidx := 0%Z; ndl := None; ndr := None |}.
Definition get (a : nd) (index : nat) : R := ndpt a index.

(** point::distance, kdtree.hpp:48-57: squared distance, accumulated left to right *)
Fixpoint dist_upto (k : nat) (p q : vec) : R :=
  match k with O => 0 | S j => rnd (dist_upto j p q + rnd (rnd (p j - q j) * rnd (p j - q j))) end.
Definition distance (p q : vec) : R := dist_upto dim p q.

Definition slice (b e : nat) (arr : list nd) : list nd := firstn (e - b) (skipn b arr).
Definition splice (b e : nat) (sub arr : list nd) : list nd := firstn b arr ++ sub ++ skipn e arr.
Fixpoint upd (n : nat) (f : nd -> nd) (arr : list nd) : list nd :=
  match arr, n with
  | [], _ => []
  | a :: t, O => f a :: t
  | a :: t, S k => a :: upd k f t
  end.
Definition set_left (p : option nat) (a : nd) : nd := {| ndpt := ndpt a; ndidx := ndidx a; ndl := p; ndr := ndr a |}.
Definition set_right (p : option nat) (a : nd) : nd := {| ndpt := ndpt a; ndidx := ndidx a; ndl := ndl a; ndr := p |}.

(** make_tree, kdtree.hpp:139-153: new array and root pointer *)
Fixpoint make_tree (fuel : nat) (arr : list nd) (b e index : nat) : res (list nd * option nat) :=
  if Nat.leb e b then Val (arr, None) else
  match fuel with
  | O => OutOfFuel
  | S fuel' =>
    let n := (b + (e - b) / 2)%nat in
    let arr1 := splice b e (nth_element index (n - b) (slice b e arr)) arr in
    let index' := ((index + 1) mod dim)%nat in
    match make_tree fuel' arr1 b n index' with
    | Val (arr2, l) =>
      let arr3 := upd n (set_left l) arr2 in
      match make_tree fuel' arr3 (n + 1) e index' with
      | Val (arr4, r) => Val (upd n (set_right r) arr4, Some n)
      | x => x
      end
    | x => x
    end
  end.

(** query state best_, best_dist_, visited_, kdtree.hpp:118-122 *)
Record qst := { best : option nat; best_dist : R; visited : nat }.

(** recursive nearest, kdtree.hpp:156-182.  A pointer outside nodes_ is undefined behaviour. *)
Fixpoint nearest_rec (fuel : nat) (arr : list nd) (root : option nat) (pt : vec) (index : nat) (s : qst) : res qst :=
  match root with
  | None => Val s
  | Some k =>
    match fuel with
    | O => OutOfFuel
    | S fuel' =>
      match nth_error arr k with
      | None => UB
      | Some nd =>
        let d := distance (ndpt nd) pt in
        let s1 := if match best s with None => true | Some _ => Rltb d (best_dist s) end
                  then {| best := Some k; best_dist := d; visited := S (visited s) |}
                  else {| best := best s; best_dist := best_dist s; visited := S (visited s) |} in
        if Reqb (best_dist s1) 0 then Val s1
        else
          let dx := rnd (get nd index - pt index) in
          let index' := ((index + 1) mod dim)%nat in
          match nearest_rec fuel' arr (if Rltb 0 dx then ndl nd else ndr nd) pt index' s1 with
          | Val s2 =>
            if Rleb (best_dist s2) (rnd (dx * dx)) then Val s2
            else nearest_rec fuel' arr (if Rltb 0 dx then ndr nd else ndl nd) pt index' s2
          | x => x
          end
      end
    end
  end.

(** the object: nodes_, root_, query state.  [Dangling]: root_ was obtained before a later emplace_back
    that may have reallocated nodes_ (conservative: any add_node after finalize). *)
Inductive rootptr := Null | Root (k : nat) | Dangling.
Record kd := { nodes : list nd; root : rootptr; q : qst }.
Definition kd_new : kd := {| nodes := []; root := Null; q := {| best := None; best_dist := 0; visited := 0 |} |}.

(** add_node, kdtree.hpp:223-226 *)
Definition add_node (t : kd) (x : vec) (idx : Z) : kd :=
  {| nodes := nodes t ++ [{| ndpt := x; ndidx := idx; ndl := None; ndr := None |}];
     root := match root t with Null => Null | _ => Dangling end; q := q t |}.
(** finalize, kdtree.hpp:229 *)
Definition finalize (t : kd) : res kd :=
  match make_tree (length (nodes t)) (nodes t) 0 (length (nodes t)) 0 with
  | Val (arr, r) => Val {| nodes := arr; root := match r with None => Null | Some k => Root k end; q := q t |}
  | Exn => Exn | UB => UB | OutOfFuel => OutOfFuel
  end.
(** public nearest, kdtree.hpp:255-266: the new object and the returned index *)
Definition nearest (t : kd) (pt : vec) : res (kd * Z) :=
  match root t with
  | Null => Exn
  | Dangling => UB
  | Root k =>
    match nearest_rec (length (nodes t)) (nodes t) (Some k) pt 0 {| best := None; best_dist := 0; visited := 0 |} with
    | Val s =>
      match best s with
      | None => UB
      | Some j => match nth_error (nodes t) j with
                  | Some nd => Val ({| nodes := nodes t; root := root t; q := s |}, ndidx nd)
                  | None => UB
                  end
      end
    | Exn => Exn | UB => UB | OutOfFuel => OutOfFuel
    end
  end.
(** distance(), kdtree.hpp:239 *)
Definition kd_distance (t : kd) : R := rnd (sqrt (best_dist (q t))).

(** histories *)
Inductive kop := Add (x : vec) (idx : Z) | Fin | Query (pt : vec).
Inductive kout := Done | Answer (idx : Z) (dist : R) (nvisited : nat).
Definition kstep (t : kd) (o : kop) : res (kd * kout) :=
  match o with
  | Add x i => Val (add_node t x i, Done)
  | Fin => match finalize t with Val t' => Val (t', Done) | Exn => Exn | UB => UB | OutOfFuel => OutOfFuel end
  | Query p => match nearest t p with
               | Val (t', i) => Val (t', Answer i (kd_distance t') (visited (q t')))
               | Exn => Exn | UB => UB | OutOfFuel => OutOfFuel end
  end.
Fixpoint krun (t : kd) (ops : list kop) : res (kd * list kout) :=
  match ops with
  | [] => Val (t, [])
  | o :: rest =>
    match kstep t o with
    | Val (t', out) => match krun t' rest with Val (t'', outs) => Val (t'', out :: outs) | Exn => Exn | UB => UB | OutOfFuel => OutOfFuel end
    | Exn => Exn | UB => UB | OutOfFuel => OutOfFuel
    end
  end.
End Kd.

(** ** Contracts (specification) *)
(** ISO C++ [alg.nth.element] for the comparator node_cmp(index) *)
Definition nth_element_contract (ne : nat -> nat -> list nd -> list nd) : Prop :=
  forall index n xs, (n < length xs)%nat ->
    Permutation xs (ne index n xs) /\
    (forall i, (i < n)%nat -> get (nth i (ne index n xs) nd0) index <= get (nth n (ne index n xs) nd0) index) /\
    (forall i, (n < i < length xs)%nat -> get (nth n (ne index n xs) nd0) index <= get (nth i (ne index n xs) nd0) index).
(** rounding: monotone, keeps 0, idempotent (true of every IEEE rounding mode without overflow) *)
Definition rounding (rnd : R -> R) : Prop :=
  (forall x y, x <= y -> rnd x <= rnd y) /\ rnd 0 = 0 /\ (forall x, rnd (rnd x) = rnd x).
