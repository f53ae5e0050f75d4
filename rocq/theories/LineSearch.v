(** Model of src/common/linesearch.cpp and of quadInterp (src/utils/utils.cpp:140-153). *)
From Coq Require Import Reals ZArith Bool List.
From Verif Require Import Num.
Import ListNotations.

Section LS.
Context (N : num).
Let T := T N.
Notation "a + b" := (nadd N a b). Notation "a * b" := (nmul N a b).
Notation "a - b" := (nsub N a b). Notation "a / b" := (ndiv N a b).
Notation "- a" := (nopp N a).
Notation zero := (nZ N 0).
Notation two := (nZ N 2).
Notation three := (nZ N 3).

(** pow(a,2), pow(a,3): modelled as repeated products *)
Definition sq (a : T) : T := a * a.
Definition cube (a : T) : T := a * a * a.

(** [quadInterp], src/utils/utils.cpp:140-153 *)
Definition quadInterp (x0 y0 dydx0 x1 y1 : T) : T :=
  let den := x0 * x0 - two * x1 * x0 + x1 * x1 in
  let c1 := (two * x0 * y0 - two * x0 * y1 - x0 * x0 * dydx0 + x1 * x1 * dydx0) / den in
  let c2 := (- (y0 - y1 - x0 * dydx0 + x1 * dydx0)) / den in
  (- c1) / (two * c2).

(** [quadratic_interp], src/common/linesearch.cpp:11-21 *)
Definition quadratic_interp (phi0 dphi0 phi_alpha alpha : T) : T :=
  let c := phi0 in
  let b := dphi0 in
  let a := (phi_alpha - b * alpha - c) / sq alpha in
  (- b) / (two * a).

(** [cubic_interp], src/common/linesearch.cpp:25-52; epsilon() = 2^-52 *)
Definition cubic_interp (phi0 dphi0 phi_alpha1 alpha1 phi_alpha2 alpha2 : T) : T :=
  let denom := sq alpha1 * sq alpha2 * (alpha2 - alpha1) in
  let a := (sq alpha1 * (phi_alpha2 - phi0 - dphi0 * alpha2) -
            sq alpha2 * (phi_alpha1 - phi0 - dphi0 * alpha1)) / denom in
  let b := ((- cube alpha1) * (phi_alpha2 - phi0 - dphi0 * alpha2) +
            cube alpha2 * (phi_alpha1 - phi0 - dphi0 * alpha1)) / denom in
  if nltb N (nabs N a) (nlit N 1 (2^52)) then dphi0 / (two * b)
  else
    let d := nmax N (sq b - three * a * dphi0) zero in
    ((- b) + nsqrt N d) / (three * a).

(** members of BacktrackingLineSearch, src/common/linesearch.hpp:31-35 *)
Record ls_opts := { mu : T; rho_hi : T; rho_lo : T; interp_order : Z; max_iter : nat }.
Definition ls_default : ls_opts :=
  {| mu := nlit N 1 10000; rho_hi := nlit N 9 10; rho_lo := nlit N 1 10; interp_order := 3; max_iter := 10 |}.

(** Loop of BacktrackingLineSearch::search, src/common/linesearch.cpp:71-103.  [rem] = max_iter - iter,
    [first] = (iter == 0 before the increment).  Returns the result and the trial steps at which phi
    is evaluated inside the loop, in order. *)
Fixpoint ls_loop (o : ls_opts) (phi : T -> T) (phi0 dphi0 : T) (rem : nat) (first : bool)
                 (alpha1 phi1 alpha2 phi2 : T) : T * list T :=
  if nltb N (phi0 + mu o * alpha2 * dphi0) phi2 then
    match rem with
    | O => (zero, [])
    | S rem' =>
      let alpha_tmp :=
        if first || Z.eqb (interp_order o) 2 then quadratic_interp phi0 dphi0 phi2 alpha2
        else cubic_interp phi0 dphi0 phi1 alpha1 phi2 alpha2 in
      let alpha_tmp := nmin N alpha_tmp (alpha2 * rho_hi o) in
      let alpha2' := nmax N alpha_tmp (alpha2 * rho_lo o) in
      let '(a, tr) := ls_loop o phi phi0 dphi0 rem' false alpha2 phi2 alpha2' (phi alpha2') in
      (a, alpha2' :: tr)
    end
  else (alpha2, []).

(** [BacktrackingLineSearch::search], src/common/linesearch.cpp:58-108; second component: all steps at
    which phi was evaluated, in order *)
Definition ls_search (o : ls_opts) (phi : T -> T) (phi0 dphi0 alpha : T) : T * list T :=
  let phi2 := phi alpha in
  let '(a, tr) := ls_loop o phi phi0 dphi0 (max_iter o) true alpha phi2 alpha phi2 in
  (a, alpha :: tr).
End LS.
