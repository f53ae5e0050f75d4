(** Vocabulary of the flow-control run theorems. *)
From Coq Require Import Reals List ZArith Bool String.
From Verif Require Import Num TimeLoop ControlRun.
Import ListNotations.
Local Open Scope R_scope.

(** a solver that has not run: no streams; file objects are numbered below w_next *)
Definition fresh (w : world) : Prop := w_streams w = [] /\ forall f i, get String.eqb f (w_dir w) = Some i -> (i < w_next w)%nat.

Section Spec.
Context {St Fl : Type}.
Variable flow : St -> Fl.
Variable step : St -> R -> R -> option (St * R).
Variable full_output : string -> R -> St -> R.
Variable flow_output : string -> R -> Fl -> R.
Variable dt_at : R -> St -> R.
(** the states visited: each step of size dt_at leads from one to the next *)
Inductive trajectory : R -> St -> list (R * St) -> R -> St -> Prop :=
| traj_start t s : trajectory t s [] t s
| traj_step t s t1 s1 l t' s' : step s t (dt_at t s) = Some (s1, t1) -> trajectory t1 s1 l t' s' -> trajectory t s ((t, s) :: l) t' s'.
(** the line of an output at a visited state: "entropy" is an output of the compound state, others of the flow state *)
Definition line (name : string) (p : R * St) : R * R :=
  (fst p, if String.eqb name "entropy" then full_output name (fst p) (snd p) else flow_output name (fst p) (flow (snd p))).
Definition history (name : string) (l : list (R * St)) : list (R * R) := map (line name) l.
End Spec.
