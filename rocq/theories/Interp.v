(** Model of the reconstruction operators buildInterpolation and buildLSInterpolation,
    src/utils/utils.cpp:441-730 (compiled with MFEM_USE_LAPACK).

    A DenseMatrix is a function of (row, column); [x_center a i] is coordinate a of element centre i.
    pow with a non-negative integer exponent is [pow] (both give 1 for exponent 0, also at base 0).
    LAPACK's dgels is not modelled: the routines are split into the matrix handed to it and what is done
    with the solution it returns. *)
From Coq Require Import Reals List Arith.
Import ListNotations.
Local Open Scope R_scope.

(** for (int v = 0; v <= last; ++v) body *)
Definition for_upto {S : Type} (last : nat) (body : S -> nat -> S) (s : S) : S := fold_left body (seq 0 (last + 1)) s.
(** for (int v = first; v <= last; ++v) body *)
Definition for_from {S : Type} (first last : nat) (body : S -> nat -> S) (s : S) : S :=
  fold_left body (seq first (last + 1 - first)) s.
(** for (int c = first; c >= 0; c--) body *)
Definition for_down {S : Type} (first : nat) (body : S -> nat -> S) (s : S) : S := fold_left body (rev (seq 0 (first + 1))) s.

Definition upd (f : nat -> R) (c : nat) (v : R) : nat -> R := fun k => if Nat.eqb k c then v else f k.

(** outcome: a value or the MISOException for an unsupported dimension *)
Inductive res (A : Type) := Ok (a : A) | Throws.
Arguments Ok {A}. Arguments Throws {A}.

(** ** buildInterpolation *)
(** utils.cpp:452-468: number of rows m of the system *)
Definition interp_rows (dim degree : nat) : res nat :=
  match dim with
  | 1%nat => Ok (degree + 1)%nat
  | 2%nat => Ok ((degree + 1) * (degree + 2) / 2)%nat
  | _ => Throws
  end.
(** utils.cpp:489-515: column j of the matrix r for quadrature point i, as a function of the row; the column
    starts as zero (r = 0.0).  The running row number is the first component of the loop state. *)
Definition interp_column (dim degree : nat) (x_center x_quad : nat -> nat -> R) (i j : nat) : res (nat -> R) :=
  match dim with
  | 1%nat =>
      let x_diff := x_center 0%nat j - x_quad 0%nat i in
      let m := (degree + 1)%nat in
      Ok (for_from 1 (m - 1) (fun r order => upd r order (x_diff ^ order)) (upd (fun _ => 0) 0 1))
  | 2%nat =>
      let x_diff := x_center 0%nat j - x_quad 0%nat i in
      let y_diff := x_center 1%nat j - x_quad 1%nat i in
      Ok (snd (for_from 1 degree (fun s order =>
                 for_down order (fun s c => (fst s + 1, upd (snd s) (fst s) (x_diff ^ c * y_diff ^ (order - c)))%nat) s)
               (1%nat, upd (fun _ => 0) 0 1)))
  | _ => Throws
  end.
(** utils.cpp:483-484: right-hand side (1, 0, ..., 0) *)
Definition interp_rhs (row : nat) : R := if Nat.eqb row 0 then 1 else 0.
(** The solution w of  r w = rhs  is copied to row i of interp (utils.cpp:531-534). *)

(** ** buildLSInterpolation *)
(** utils.cpp:560-575 *)
Definition ls_num_basis (dim degree : nat) : res nat :=
  match dim with
  | 1%nat => Ok (degree + 1)%nat
  | 2%nat => Ok ((degree + 1) * (degree + 2) / 2)%nat
  | 3%nat => Ok ((degree + 1) * (degree + 2) * (degree + 3) / 6)%nat
  | _ => Throws
  end.
(** utils.cpp:577-628: row i of the generalized Vandermonde matrix; [V0] are the matrix's previous
    (uninitialised) contents of that row *)
Definition ls_vandermonde (dim degree : nat) (x_center : nat -> nat -> R) (V0 : nat -> R) (i : nat) : nat -> R :=
  match dim with
  | 1%nat =>
      let dx := x_center 0%nat i - x_center 0%nat 0%nat in
      for_upto degree (fun V p => upd V p (dx ^ p)) V0
  | 2%nat =>
      let dx := x_center 0%nat i - x_center 0%nat 0%nat in
      let dy := x_center 1%nat i - x_center 1%nat 0%nat in
      snd (for_upto degree (fun s p =>
             for_upto p (fun s q => (fst s + 1, upd (snd s) (fst s) (dx ^ (p - q) * dy ^ q))%nat) s) (0%nat, V0))
  | 3%nat =>
      let dx := x_center 0%nat i - x_center 0%nat 0%nat in
      let dy := x_center 1%nat i - x_center 1%nat 0%nat in
      let dz := x_center 2%nat i - x_center 2%nat 0%nat in
      snd (for_upto degree (fun s p =>
             for_upto p (fun s q =>
               for_upto (p - q) (fun s r =>
                 (fst s + 1, upd (snd s) (fst s) (dx ^ (p - q - r) * dy ^ r * dz ^ q))%nat) s) s) (0%nat, V0))
  | _ => V0
  end.
(** utils.cpp:659-727: entry (j, i) of interp from the coefficient matrix dgels returned; it starts at 0 *)
Definition ls_interp (dim degree : nat) (x_center x_quad : nat -> nat -> R) (coeff : nat -> nat -> R) (j i : nat) : R :=
  match dim with
  | 1%nat =>
      let dx := x_quad 0%nat j - x_center 0%nat 0%nat in
      for_upto degree (fun acc p => acc + dx ^ p * coeff p i) 0
  | 2%nat =>
      let dx := x_quad 0%nat j - x_center 0%nat 0%nat in
      let dy := x_quad 1%nat j - x_center 1%nat 0%nat in
      snd (for_upto degree (fun s p =>
             for_upto p (fun s q => ((fst s + 1)%nat, snd s + dx ^ (p - q) * dy ^ q * coeff (fst s) i)) s) (0%nat, 0))
  | 3%nat =>
      let dx := x_quad 0%nat j - x_center 0%nat 0%nat in
      let dy := x_quad 1%nat j - x_center 1%nat 0%nat in
      let dz := x_quad 2%nat j - x_center 2%nat 0%nat in
      snd (for_upto degree (fun s p =>
             for_upto p (fun s q =>
               for_upto (p - q) (fun s r =>
                 ((fst s + 1)%nat, snd s + dx ^ (p - q - r) * dy ^ r * dz ^ q * coeff (fst s) i)) s) s) (0%nat, 0))
  | _ => 0
  end.
