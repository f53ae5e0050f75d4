(** The solution error a flow solver reports: FlowResidual::calcConservativeVarsL2Error,
    src/physics/fluidflow/flow_residual.cpp:632-693 (FlowSolver's forwards to it, flow_solver.cpp:205-212). *)
From Coq Require Import Reals Arith List ZArith Bool.
From Verif Require Import Num Vec Euler Sbp SbpSpec SbpMesh.
Import ListNotations.
Local Open Scope R_scope.

(** node_error, :642-664: both states are converted; None: entry is not the number of a component (reads past the end) *)
Definition nodeError (d : nat) (entvar : bool) (entry : Z) (discrete exact : vec) : option R :=
  let q := calcConservativeVars d entvar discrete in
  let q' := calcConservativeVars d entvar exact in
  if (entry <? 0)%Z then Some (rsum (d + 2) (fun i => (q i - q' i) * (q i - q' i)))
  else if (entry <? Z.of_nat (d + 2))%Z then let err := q (Z.to_nat entry) - q' (Z.to_nat entry) in Some (err * err)
  else None.
(** ip.weight * T->Weight() of the element's nodes, :679-686; the weights of the nodes are the norm's (SbpElem).
    loc_norm += …, in the order of elements and nodes *)
Definition addNode (d : nat) (entvar : bool) (entry : Z) (e : element) (i : nat) (u exact : vec) (acc : option R) : option R :=
  match acc, nodeError d entvar entry u exact with
  | Some a, Some x => Some (a + e_H e i * e_detJ e i * x)
  | _, _ => None
  end.
(** the loops of one process, :672-687.  u: the values of the state at the nodes; xg: the nodes' coordinates *)
Definition locNorm (d : nat) (entvar : bool) (entry : Z) (elements : list element) (xg : nat -> vec) (u : nat -> vec) (u_exact : vec -> vec) : option R :=
  fold_left (fun acc e => loop (e_n e) (fun i acc => addNode d entvar entry e i (u (e_glob e i)) (u_exact (xg (e_glob e i))) acc) acc) elements (Some 0).
(** MPI_Allreduce(SUM) and the root, :688-693 *)
Definition sumAll (l : list (option R)) : option R :=
  fold_left (fun a x => match a, x with Some a, Some x => Some (a + x) | _, _ => None end) l (Some 0).
Definition l2Error (d : nat) (entvar : bool) (entry : Z) (ranks : list (list element)) (xg : nat -> vec) (u : nat -> vec) (u_exact : vec -> vec) : option R :=
  match sumAll (map (fun es => locNorm d entvar entry es xg u u_exact) ranks) with
  | Some norm => Some (if Rltb norm 0 then - sqrt (- norm) else sqrt norm)
  | None => None
  end.
