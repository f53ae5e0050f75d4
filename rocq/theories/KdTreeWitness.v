(** Witnesses that the contracts used for the kd-tree are satisfiable: a sorting nth_element, and IEEE rounding. *)
From Coq Require Import Reals ZArith List Bool Arith Permutation Lra Lia Sorted.
From Flocq Require Import Core.
From Verif Require Import Num Vec KdTree.
Import ListNotations.
Local Open Scope R_scope.

Fixpoint ins (k : nat) (a : nd) (l : list nd) : list nd :=
  match l with [] => [a] | b :: t => if Rleb (get a k) (get b k) then a :: l else b :: ins k a t end.
Fixpoint isort (k : nat) (l : list nd) : list nd := match l with [] => [] | a :: t => ins k a (isort k t) end.
Definition ne_sort (index n : nat) (xs : list nd) : list nd := isort index xs.

Lemma ins_perm k a l : Permutation (a :: l) (ins k a l).
Proof. induction l as [|b l IH]; simpl; [reflexivity|]. destruct (Rleb_spec (get a k) (get b k)); [reflexivity|]. rewrite perm_swap, IH. reflexivity. Qed.
Lemma isort_perm k l : Permutation l (isort k l).
Proof. induction l as [|a l IH]; simpl; [reflexivity|]. rewrite <- ins_perm, <- IH. reflexivity. Qed.
Definition srt k (l : list nd) := StronglySorted (fun a b => get a k <= get b k) l.
Lemma ins_sorted k a l : srt k l -> srt k (ins k a l).
Proof.
  induction 1 as [|b l Hs IH Hf]; simpl; [repeat constructor|].
  destruct (Rleb_spec (get a k) (get b k)) as [H|H].
  - constructor; [constructor; assumption|]. constructor; [exact H|]. eapply Forall_impl; [|exact Hf]. simpl; intros; lra.
  - constructor; [exact IH|]. apply (Permutation_Forall (ins_perm k a l)). constructor; [lra|exact Hf].
Qed.
Lemma isort_sorted k l : srt k (isort k l).
Proof. induction l; simpl; [constructor|apply ins_sorted; assumption]. Qed.
Lemma sorted_nth k l : srt k l -> forall i j, (i < j < length l)%nat -> get (nth i l nd0) k <= get (nth j l nd0) k.
Proof.
  induction 1 as [|b l Hs IH Hf]; intros i j Hij; simpl in Hij; [lia|].
  destruct j as [|j]; [lia|]. destruct i as [|i]; simpl.
  - rewrite Forall_forall in Hf. apply Hf, nth_In. lia.
  - apply IH; lia.
Qed.
Lemma ne_sort_contract : nth_element_contract ne_sort.
Proof.
  intros index n xs Hn. unfold ne_sort. split; [apply isort_perm|].
  assert (L : length (isort index xs) = length xs) by (symmetry; apply Permutation_length, isort_perm).
  split; intros i Hi; apply (sorted_nth index); try apply isort_sorted; lia.
Qed.

(** binary64 round-to-nearest-even without overflow *)
Definition rnd64 : R -> R := round radix2 (FLT_exp (-1074) 53) ZnearestE.
Lemma rounding_ieee : rounding rnd64.
Proof.
  assert (Hp : Prec_gt_0 53) by (unfold Prec_gt_0; lia).
  repeat split.
  - intros x y H. apply round_le; [apply FLT_exp_valid; exact Hp|apply valid_rnd_N|exact H].
  - apply round_0. apply valid_rnd_N.
  - intros x. apply round_generic; [apply valid_rnd_N|]. apply generic_format_round; [apply FLT_exp_valid; exact Hp|apply valid_rnd_N].
Qed.
