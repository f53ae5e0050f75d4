(** The tables themselves: every check evaluated by the kernel, and integrals of monomials over the reference simplices. *)
From Coq Require Import Reals QArith Qreals List Arith ZArith Lia Lra Bool Psatz.
From Coquelicot Require Import Coquelicot.
From Verif Require Import Num Vec Sbp SbpTables SbpElem SbpPolySpec SbpElemProofs SbpIntegrals.
Import ListNotations.
Local Open Scope R_scope.

Definition E14 : Z := Z.pow 10 14.
Definition diag2 (el : element) (k : nat) : list Z := map (fun i => (2 * nth (i + i * nnode el)%nat (oz el k) 0)%Z) (seq 0 (nnode el)).
Definition bdr_ok (E : Z) (p : nat) (el : element) : bool :=
  forallb (fun k => quad_ok E p el (diag2 el k) (bdr_num k) (vol_den (edim el - 1))) (seq 0 (edim el)).
Definition vol_ok (E : Z) (p : nat) (el : element) : bool := quad_ok E p el (hz el) vol_num (vol_den (edim el)).
(** everything a diagonal-E SBP element of degree p must satisfy *)
Definition sbp_ok (el : element) : bool :=
  data_ok el && pos_ok el && skew_ok el && deriv_ok E14 (edeg el) el && vol_ok E14 (2 * edeg el) el && bdr_ok E14 (2 * edeg el + 1) el.
Definition all_ok (els : list (option element)) : bool :=
  forallb (fun o => match o with Some el => sbp_ok el | None => false end) els.
Lemma tables_ok : all_ok [triElement 1; triElement 2; triElement 3; triElement 4; tetElement 1] = true.
Proof. vm_cast_no_check (eq_refl true). Qed.
