(** Model of src/common/matrix_operators.cpp and of the block-Jacobi preconditioner
    (src/common/mfem_extensions.cpp:264-385). *)
From Coq Require Import Reals List Arith Bool.
From Verif Require Import Num Vec.
Import ListNotations.
Local Open Scope R_scope.

Definition zero_tol : R := 1 / 10^16.

(** SumOfOperators: a, b and the operators are fixed here; [work] is the mutable work_vec, [y] the previous
    contents of the destination.  Mult, matrix_operators.cpp:39-60: new work_vec and destination. *)
Record sum_op := { sa : R; sb : R; opA : vec -> vec; opB : vec -> vec }.
Definition sum_mult (o : sum_op) (work y x : vec) : vec * vec :=
  let work' :=
    if Rltb zero_tol (Rabs (sa o)) then
      if Rltb zero_tol (Rabs (sa o - 1)) then vscal (sa o) (opA o x) else opA o x
    else work in
  let y' :=
    if Rltb zero_tol (Rabs (sb o)) then
      if Rltb zero_tol (Rabs (sb o - 1)) then vscal (sb o) (opB o x) else opB o x
    else y in
  (work', vadd y' work').

(** JacobianFree, matrix_operators.{hpp:183-269,cpp:62-112}; n = getSize(res), one MPI rank or global
    inner products *)
Record jacfree := { scale : R; res : vec -> vec; explicit_part : option (vec -> vec); jf_state : vec; res_at_state : vec }.
(** setState, :73-87 *)
Definition jf_setState (j : jacfree) (baseline : vec) : jacfree :=
  {| scale := scale j; res := res j; explicit_part := explicit_part j; jf_state := baseline; res_at_state := res j baseline |}.
(** setScaling, matrix_operators.hpp:208 *)
Definition jf_setScaling (j : jacfree) (s : R) : jacfree :=
  {| scale := s; res := res j; explicit_part := explicit_part j; jf_state := jf_state j; res_at_state := res_at_state j |}.
(** getStepSize, :158-174 *)
Definition getStepSize (n : nat) (pert : vec) : R :=
  let prod := dot n pert pert in
  if Rltb (1 / 10^6) prod then sqrt (1 / 10^10 / prod) else 1 / 10^7.
(** Mult, :89-112; [y]: previous contents of the destination *)
Definition jf_mult (n : nat) (j : jacfree) (y x : vec) : vec :=
  let y1 :=
    if Rltb zero_tol (Rabs (scale j)) then
      let eps := getStepSize n x in
      let d := fun i => 1 / eps * (res j (axpy (jf_state j) eps x) i - res_at_state j i) in
      if Rltb zero_tol (Rabs (scale j - 1)) then vscal (scale j) d else d
    else y in
  match explicit_part j with Some B => vadd y1 (B x) | None => y1 end.

(** ** BlockJacobiPreconditioner: block i covers the indices offsets[i] .. offsets[i+1]-1; None = nullptr *)
Record block_prec := { nBlocks : nat; offsets : nat -> nat; bop : nat -> option (vec -> vec); bopT : nat -> option (vec -> vec) }.
Definition block (off : nat -> nat) (i : nat) (x : vec) : vec := fun d => x (off i + d)%nat.
(** write v into block i of y *)
Definition set_block (off : nat -> nat) (i : nat) (v : vec) (y : vec) : vec :=
  fun d => if Nat.leb (off i) d && Nat.ltb d (off (S i)) then v (d - off i)%nat else y d.
(** loop body of Mult / MultTranspose, :331-341, :361-371 *)
Fixpoint bj_loop (off : nat -> nat) (op : nat -> option (vec -> vec)) (n : nat) (x : vec) : vec :=
  match n with
  | O => fun _ => 0                                     (* y = 0.0, :325 *)
  | S i =>
    let y := bj_loop off op i x in
    match op i with
    | Some A => set_block off i (A (block off i x)) y
    | None => set_block off i (block off i x) y
    end
  end.
Definition bj_mult (p : block_prec) (x : vec) : vec := bj_loop (offsets p) (bop p) (nBlocks p) x.
Definition bj_multT (p : block_prec) (x : vec) : vec := bj_loop (offsets p) (bopT p) (nBlocks p) x.
