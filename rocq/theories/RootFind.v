(** Model of the scalar root finders, src/utils/utils.cpp:288-385. *)
From Coq Require Import Reals ZArith Bool List.
From Verif Require Import Num.

(** Outcome of a call: normal return, or a C++ exception. *)
Inductive outcome (A : Type) := Returned (a : A) | Thrown.
Arguments Returned {A}. Arguments Thrown {A}.

Section Bisection.
Context (N : num).
Let T := T N.
Notation "a + b" := (nadd N a b). Notation "a * b" := (nmul N a b).
Notation "a - b" := (nsub N a b). Notation "a / b" := (ndiv N a b).
Notation zero := (nZ N 0).
Notation half := (nlit N 1 2).

(** Loop of [bisection], src/utils/utils.cpp:305-325.  [rem] is maxiter - iter (maxiter is an int; a
    negative maxiter behaves as 0, since [iter < maxiter] is false and [iter >= maxiter] true).
    Result: the final xm and the remaining iterations. *)
Fixpoint bisect_loop (f : T -> T) (ftol xtol : T) (rem : nat) (xl fl xr fr xm fm : T) : T * nat :=
  match rem with
  | O => (xm, O)
  | S rem' =>
    if nltb N ftol (nabs N fm) && nltb N xtol (nabs N (xr - xl)) then
      if nltb N (fm * fl) zero then
        let xm' := half * (xl + xm) in bisect_loop f ftol xtol rem' xl fl xm fm xm' (f xm')
      else if nltb N (fm * fr) zero then
        let xm' := half * (xm + xr) in bisect_loop f ftol xtol rem' xm fm xr fr xm' (f xm')
      else (xm, rem')
    else (xm, rem)
  end.

(** [bisection], src/utils/utils.cpp:288-332 *)
Definition bisection (f : T -> T) (xl xr ftol xtol : T) (maxiter : nat) : outcome T :=
  let fl := f xl in
  let fr := f xr in
  if nltb N zero (fl * fr) then Thrown
  else
    let xm := half * (xl + xr) in
    let '(x, rem) := bisect_loop f ftol xtol maxiter xl fl xr fr xm (f xm) in
    match rem with O => Thrown | S _ => Returned x end.

(** Loop of [secant], src/utils/utils.cpp:357-379.  [f] may throw a std::exception ([None]), which the
    loop catches: [x] has then already been updated, everything else keeps its value.
    Result: final x, number of iterations done. *)
Fixpoint secant_loop (f : T -> option T) (ftol xtol : T) (rem iter : nat)
                     (x1 f1 x2 f2 x fx : T) : T * nat :=
  match rem with
  | O => (x, iter)
  | S rem' =>
    if nltb N ftol (nabs N fx) then
      let dx := (f2 * (x2 - x1)) / (f2 - f1) in
      let x' := x - dx in
      match f x' with
      | None => secant_loop f ftol xtol rem' (S iter) x1 f1 x2 f2 x' fx
      | Some fx' =>
        if nltb N (nabs N dx) xtol then (x', S iter)
        else secant_loop f ftol xtol rem' (S iter) x2 f2 x' fx' x' fx'
      end
    else (x, iter)
  end.

(** [secant] up to the end of its loop, src/utils/utils.cpp:341-379: final x and iteration count, or
    [None] if one of the first two evaluations (outside the try block) throws *)
Definition secant_run (f : T -> option T) (x1 x2 ftol xtol : T) (maxiter : nat) : option (T * nat) :=
  match f x1, f x2 with
  | Some f1, Some f2 =>
    let '(x1, f1, x2, f2) :=
      if nltb N (nabs N f1) (nabs N f2) then (x2, f2, x1, f1) else (x1, f1, x2, f2) in
    Some (secant_loop f ftol xtol maxiter 0 x1 f1 x2 f2 x2 f2)
  | _, _ => None
  end.

(** [secant], src/utils/utils.cpp:334-385; the final test is [if (iter > maxiter) throw] *)
Definition secant (f : T -> option T) (x1 x2 ftol xtol : T) (maxiter : nat) : outcome T :=
  match secant_run f x1 x2 ftol xtol maxiter with
  | Some (x, iter) => if Nat.ltb maxiter iter then Thrown else Returned x
  | None => Thrown
  end.
End Bisection.
