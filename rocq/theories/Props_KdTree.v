(** C08, C09 *)
From Coq Require Import Reals ZArith List Bool Arith Permutation Lra Lia.
From Verif Require Import Num Vec KdTree KdTreeProofs KdTreeWitness.
Import ListNotations.
Local Open Scope R_scope.

(** C08 and C09.  For every history in which queries are made on a finalized non-empty tree: the run
    has no exception, no undefined behaviour and does not get stuck; the answer to the k-th operation,
    if it is a query, is the index of a point that was added before it, at minimal distance from the
    query among all points added before; distance() is the (rounded) root of that squared distance;
    at most every node is visited once.  Holds for every rounding and every nth_element. *)
Theorem C08_nearest_is_exact :
  forall (dim : nat) (rnd : R -> R) (nth_element : nat -> nat -> list nd -> list nd) (ops : list kop),
  (0 < dim)%nat -> rounding rnd -> nth_element_contract nth_element ->
  proper false 0 ops ->
  exists t outs, krun dim rnd nth_element kd_new ops = Val (t, outs) /\ length outs = length ops /\
    forall k pt, nth_error ops k = Some (Query pt) ->
      exists x i v, nth_error outs k = Some (Answer i (rnd (sqrt (distance dim rnd x pt))) v) /\
        In (x, i) (added (firstn k ops)) /\
        (forall y j, In (y, j) (added (firstn k ops)) -> distance dim rnd x pt <= distance dim rnd y pt) /\
        (v <= length (added (firstn k ops)))%nat.
Proof.
  intros dim rnd ne ops Hd Hr Hn Hp.
  destruct (krun_ok dim rnd ne Hd Hr Hn ops kd_new false []) as (t & outs & E & L & H);
    [discriminate|reflexivity|exact Hp|].
  exists t, outs. split; [exact E|]. split; [exact L|]. intros k pt Hk.
  destruct (H k pt Hk) as (out & Ho & x & i & Hi & Hm & v & -> & Hv).
  exists x, i, v. cbn [app] in *. auto.
Qed.
Print Assumptions C08_nearest_is_exact.

(** exact arithmetic: the distance compared is the Euclidean one *)
Theorem C08_distance_euclidean :
  forall dim (p q : vec), distance dim (fun x => x) p q = rsum dim (fun i => (p i - q i) * (p i - q i)).
Proof. exact dist_id_euclid. Qed.
Print Assumptions C08_distance_euclidean.

(** the contracts are met by exact arithmetic, by IEEE binary64 rounding, and by a sorting nth_element *)
Theorem C08_contracts_satisfiable :
  rounding (fun x => x) /\ rounding rnd64 /\ nth_element_contract ne_sort.
Proof. split; [exact rounding_id|split; [exact rounding_ieee|exact ne_sort_contract]]. Qed.
Print Assumptions C08_contracts_satisfiable.

Example C08_nonvacuous : proper false 0
  [Add (fun _ => 1) 7%Z; Add (fun _ => 2) 8%Z; Add (fun _ => 1) 9%Z; Fin; Query (fun _ => 0); Query (fun _ => 3); Add (fun _ => 0) 10%Z; Fin; Query (fun _ => 0)].
Proof. cbn. repeat split; lia. Qed.

(** C09: queries before finalize / on an empty tree throw; adding after finalize without a new
    finalize leaves root_ pointing into possibly reallocated memory *)
Theorem C09_empty_tree_throws :
  forall dim rnd (nth_element : nat -> nat -> list nd -> list nd) pt,
  nearest dim rnd kd_new pt = Exn /\
  (forall t, finalize dim nth_element kd_new = Val t -> nearest dim rnd t pt = Exn) /\
  (forall x i, nearest dim rnd (add_node kd_new x i) pt = Exn).
Proof.
  intros dim rnd ne pt. split; [reflexivity|]. split; [|reflexivity].
  intros t H. cbv in H. injection H as <-. reflexivity.
Qed.
Print Assumptions C09_empty_tree_throws.

Theorem C09_add_after_finalize_refuted :
  forall dim rnd x i pt k nds s, nearest dim rnd (add_node {| nodes := nds; root := Root k; q := s |} x i) pt = UB.
Proof. reflexivity. Qed.
Print Assumptions C09_add_after_finalize_refuted.

(** a query leaves nodes and root alone, and the answer does not depend on the earlier query state *)
Theorem C09_queries_do_not_interfere :
  forall dim rnd t pt t' i, nearest dim rnd t pt = Val (t', i) ->
  nodes t' = nodes t /\ root t' = root t /\
  forall s, nearest dim rnd {| nodes := nodes t; root := root t; q := s |} pt = Val (t', i).
Proof.
  intros dim rnd t pt t' i H. split; [|split].
  - unfold nearest in H. destruct (root t); try discriminate. destruct nearest_rec as [s| | |]; try discriminate.
    destruct (best s); [|discriminate]. destruct nth_error; [|discriminate]. injection H as <- _. reflexivity.
  - unfold nearest in H. destruct (root t) eqn:E; try discriminate. destruct nearest_rec as [s| | |]; try discriminate.
    destruct (best s); [|discriminate]. destruct nth_error; [|discriminate]. injection H as <- _. reflexivity.
  - intros s. unfold nearest in *. cbn [root nodes]. exact H.
Qed.
Print Assumptions C09_queries_do_not_interfere.
