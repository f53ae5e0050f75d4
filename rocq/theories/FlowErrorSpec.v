(** Vocabulary for the solution error. *)
From Coq Require Import Reals Arith.
From Verif Require Import Num Vec FlowJacSpec.
Local Open Scope R_scope.

(** mass, momentum and total energy per volume *)
Definition conserved (d : nat) (g : gas) (i m : nat) : R :=
  match m with
  | O => g_rho g i
  | S c => if (c <? d)%nat then g_rho g i * g_u g i c else g_p g i / (2/5) + 1/2 * g_rho g i * dot d (g_u g i) (g_u g i)
  end.
