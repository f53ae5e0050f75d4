From Coq Require Import String List ZArith Bool Lia.
From Verif Require Import BdrArray.
Import ListNotations.
Open Scope Z_scope.

Lemma assign_length v a : length (assign v a) = length a.
Proof. apply map_length. Qed.
Lemma assign_nth v a i : (i < length a)%nat -> nth i (assign v a) (-1) = v.
Proof. revert i. induction a as [|x a IH]; simpl; intros i H; [lia|]. destruct i; [reflexivity|]. apply IH. lia. Qed.
Lemma write_length i v a : length (write i v a) = length a.
Proof. revert i. induction a as [|x a IH]; intros [|i]; simpl; auto. Qed.
Lemma write_nth i v a j : (i < length a)%nat -> nth j (write i v a) (-1) = if Nat.eqb j i then v else nth j a (-1).
Proof.
  revert i j. induction a as [|x a IH]; simpl; intros i j H; [lia|].
  destruct i, j; simpl; try reflexivity. apply IH. lia.
Qed.

(** what the marker array must be: entry a-1 is 1 for the listed attributes a and 0 for the others *)
Definition marks (arr : list Z) (listed : list Z) : Prop :=
  forall a, 1 <= a <= Z.of_nat (length arr) ->
    nth (Z.to_nat (a - 1)) arr (-1) = if in_dec Z.eq_dec a listed then 1 else 0.

Lemma mark_spec vec : forall arr,
  (forall a, In a vec -> 1 <= a <= Z.of_nat (length arr)) ->
  exists arr', mark vec arr = Some arr' /\ length arr' = length arr /\
  forall a, 1 <= a <= Z.of_nat (length arr) ->
    nth (Z.to_nat (a - 1)) arr' (-1) = if in_dec Z.eq_dec a vec then 1 else nth (Z.to_nat (a - 1)) arr (-1).
Proof.
  induction vec as [|x vec IH]; simpl; intros arr H; [now eauto|].
  pose proof (H x (or_introl eq_refl)) as Hx. unfold write_at.
  destruct (Z.leb_spec 0 (x - 1)); [|lia]. destruct (Z.ltb_spec (x - 1) (Z.of_nat (length arr))); [|lia]. simpl.
  destruct (IH (write (Z.to_nat (x - 1)) 1 arr)) as (arr' & E & L & N).
  - intros a Ha. rewrite write_length. auto.
  - exists arr'. rewrite write_length in *. repeat split; auto. intros a Ha. rewrite N by assumption.
    rewrite write_nth by lia.
    destruct (in_dec Z.eq_dec a vec) as [i|i], (Z.eq_dec x a) as [e|e]; destruct (Nat.eqb_spec (Z.to_nat (a - 1)) (Z.to_nat (x - 1))); try reflexivity; try lia.
Qed.
Lemma mark_ub vec : forall arr a, In a vec -> ~ 1 <= a <= Z.of_nat (length arr) -> mark vec arr = None.
Proof.
  induction vec as [|x vec IH]; simpl; intros arr a H Ha; [easy|]. unfold write_at.
  destruct (Z.leb_spec 0 (x - 1)), (Z.ltb_spec (x - 1) (Z.of_nat (length arr))); simpl; try reflexivity.
  destruct H as [->|H]; [lia|]. apply (IH _ a H). now rewrite write_length.
Qed.
Lemma attr_spec vec arr :
  (forall a, In a vec -> 1 <= a <= Z.of_nat (length arr)) ->
  exists arr', attrVecToArray vec arr = Some arr' /\ length arr' = length arr /\ marks arr' vec.
Proof.
  intros H. unfold attrVecToArray. destruct (mark_spec vec (assign 0 arr)) as (arr' & E & L & N).
  - now rewrite assign_length.
  - rewrite assign_length in *. exists arr'. repeat split; auto. intros a Ha. rewrite L in Ha. rewrite N by assumption.
    destruct in_dec; [reflexivity|]. apply assign_nth. lia.
Qed.
Lemma attr_ub vec arr a : In a vec -> ~ 1 <= a <= Z.of_nat (length arr) -> attrVecToArray vec arr = None.
Proof. intros H1 H2. unfold attrVecToArray. apply (mark_ub _ _ a H1). now rewrite assign_length. Qed.
Lemma get_ints_ok v : get_ints (map EInt v) = Some v.
Proof. induction v as [|x v IH]; simpl; [|rewrite IH]; reflexivity. Qed.
Lemma get_ints_bad l : In EBad l -> get_ints l = None.
Proof. induction l as [|[z|] l IH]; simpl; intros H; [easy| |reflexivity]. destruct H as [H|H]; [discriminate|]. now rewrite IH. Qed.
Lemma assign_assign u v a : assign u (assign v a) = assign u a.
Proof. unfold assign. now rewrite map_map. Qed.
