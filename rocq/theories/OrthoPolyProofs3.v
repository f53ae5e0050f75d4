(** Orthonormality of the triangle and tetrahedron bases; Vandermonde column bookkeeping. *)
From Coq Require Import Reals Lra Lia List Arith FinFun.
From Coquelicot Require Import Coquelicot.
From Verif Require Import OrthoPoly OrthoPolySpec OrthoPolyProofs OrthoPolyProofs2.
Import ListNotations.
Open Scope R_scope.

Ltac rr := match goal with |- ?l = ?r => change (@eq R l r) end.
Section Tri.
Variable tg : R -> R.
Hypothesis Htg : is_gamma_function tg.

Lemma leg_orth m n : is_RInt (fun x => jacobiPoly tg x 0 0 m * jacobiPoly tg x 0 0 n) (-1) 1 (delta m n).
Proof.
  generalize (jacobi_orthonormal tg Htg 0 m n). apply is_RInt_ext. intros x _. simpl. ring.
Qed.
Lemma jac_orth (b : nat) (r : R) m n : r = INR b ->
  is_RInt (fun x => (1 - x) ^ b * (jacobiPoly tg x r 0 m * jacobiPoly tg x r 0 n)) (-1) 1 (delta m n).
Proof. intros ->. now apply jacobi_orthonormal. Qed.

Lemma lin_sub (f : R -> R) (u v C p q l : R) :
  is_RInt f (u * p + v) (u * q + v) l -> is_RInt (fun x => C * (u * f (u * x + v))) p q (C * l).
Proof. intros H. apply (is_RInt_scal (V:=R_NormedModule) (fun x => u * f (u * x + v)) p q C l), (is_RInt_comp_lin (V:=R_NormedModule) f u v p q l H). Qed.

Lemma is_RInt_eq (f : R -> R) p q l l' : is_RInt f p q l -> l = l' -> is_RInt f p q l'.
Proof. now intros H <-. Qed.

Lemma is_RInt_empty (f : R -> R) p q l : p = q -> l = 0 -> is_RInt f p q l.
Proof. intros <- ->. apply (is_RInt_point (V:=R_NormedModule)). Qed.
Lemma is_RInt_zero p q : is_RInt (fun _ : R => 0) p q 0.
Proof. eapply is_RInt_eq; [apply (is_RInt_const (V:=R_NormedModule) p q 0)|]. unfold scal; simpl; unfold mult; simpl. ring. Qed.

Lemma tri_orthonormal i j k l :
  is_triangle_integral (fun x y => prorio2 tg x y i j * prorio2 tg x y k l) (delta i k * delta j l).
Proof.
  exists (fun y => (1 - y) * (1 - y)^(i+k) * (jacobiPoly tg y (2*INR i+1) 0 j * jacobiPoly tg y (2*INR k+1) 0 l) * delta i k).
  split.
  - intros y Hy. destruct (Req_dec y 1) as [->|Hne].
    + apply is_RInt_empty; rr; ring.
    + assert (0 < 1 - y) by lra.
      set (C := (1 - y) * (1 - y)^(i+k) * (jacobiPoly tg y (2*INR i+1) 0 j * jacobiPoly tg y (2*INR k+1) 0 l)).
      eapply is_RInt_ext; [|apply (lin_sub (fun x => jacobiPoly tg x 0 0 i * jacobiPoly tg x 0 0 k) (2/(1-y)) (2/(1-y) - 1) C)].
      * intros x _. unfold prorio2. destruct (Req_EM_T y 1); [lra|].
        replace (2 * (1 + x) / (1 - y) - 1) with (2 / (1 - y) * x + (2 / (1 - y) - 1)) by (field; lra).
        set (Li := jacobiPoly tg _ 0 0 i). set (Lk := jacobiPoly tg _ 0 0 k).
        unfold C. rewrite pow_add.
        match goal with |- ?l = ?r => change (@eq R l r) end.
        transitivity ((sqrt 2 * sqrt 2) * ((1 - y) ^ i * (1 - y) ^ k * (jacobiPoly tg y (2 * INR i + 1) 0 j * jacobiPoly tg y (2 * INR k + 1) 0 l) * (Li * Lk))); [|rr; ring].
        rewrite sqrt_sqrt by lra. field. lra.
      * replace (2 / (1 - y) * -1 + (2 / (1 - y) - 1)) with (-1) by (field; lra).
        replace (2 / (1 - y) * - y + (2 / (1 - y) - 1)) with 1 by (field; lra).
        apply leg_orth.
  - unfold delta at 1 2. destruct (Nat.eqb_spec i k) as [<-|Hne].
    + apply (is_RInt_ext (fun y => (1 - y) ^ (2*i+1) * (jacobiPoly tg y (2*INR i+1) 0 j * jacobiPoly tg y (2*INR i+1) 0 l))).
      * intros y _. match goal with |- ?l = ?r => change (@eq R l r) end.
        replace (2*i+1)%nat with (1 + (i+i))%nat by lia. rewrite (pow_add _ 1). ring.
      * eapply is_RInt_eq; [apply jac_orth|rr; ring]. rewrite plus_INR, mult_INR. simpl. ring.
    + apply (is_RInt_ext (fun _ => 0)); [intros; match goal with |- ?l = ?r => change (@eq R l r) end; ring|].
      eapply is_RInt_eq; [apply is_RInt_zero|rr; ring].
Qed.

Lemma tet_orthonormal i j k i' j' k' :
  is_tet_integral (fun x y z => prorio3 tg x y z i j k * prorio3 tg x y z i' j' k') (delta i i' * delta j j' * delta k k').
Proof.
  set (eta := fun y z => if Req_EM_T z 1 then -1 else 2 * (1 + y) / (1 - z) - 1).
  set (JJ := fun e => jacobiPoly tg e (2*INR i+1) 0 j * jacobiPoly tg e (2*INR i'+1) 0 j').
  set (KK := fun z => jacobiPoly tg z (2 * INR i + 2 * INR j + 2) 0 k * jacobiPoly tg z (2 * INR i' + 2 * INR j' + 2) 0 k').
  exists (fun y z => -4 * (y + z) * ((1 - eta y z)^(i+i') * JJ (eta y z) * KK z * (1-z)^(i+j+(i'+j'))) * delta i i').
  exists (fun z => (1-z)^2 * (1-z)^(i+j+(i'+j')) * KK z * (delta i i' * delta j j')).
  split; [|split].
  - intros y z Hz Hy. destruct (Req_dec (y + z) 0) as [H0|H0].
    + apply is_RInt_empty; [lra|]. rewrite H0. rr; ring.
    + assert (y + z < 0) by lra. assert (z < 1) by lra.
      set (C := -4 * (y + z) * ((1 - eta y z)^(i+i') * JJ (eta y z) * KK z * (1-z)^(i+j+(i'+j')))).
      eapply is_RInt_ext; [|apply (lin_sub (fun x => jacobiPoly tg x 0 0 i * jacobiPoly tg x 0 0 i') (-2/(y+z)) (-2/(y+z) - 1) C)].
      * intros x _. unfold prorio3. fold (eta y z). destruct (Req_EM_T (y+z) 0); [lra|].
        replace (-2 * (1 + x) / (y + z) - 1) with (-2 / (y + z) * x + (-2 / (y + z) - 1)) by (field; lra).
        set (Li := jacobiPoly tg _ 0 0 i). set (Lk := jacobiPoly tg _ 0 0 i').
        unfold C, JJ, KK. rewrite (pow_add _ i i'), (pow_add _ (i+j) (i'+j')).
        match goal with |- ?l = ?r => change (@eq R l r) end.
        match goal with |- _ = sqrt 8 * ?A1 * ?A2 * ?A3 * ?A4 * ?A5 * (sqrt 8 * ?B1 * ?B2 * ?B3 * ?B4 * ?B5) =>
          transitivity ((sqrt 8 * sqrt 8) * (A1*A2*A3*A4*A5*(B1*B2*B3*B4*B5))); [|ring] end.
        rewrite sqrt_sqrt by lra. field. lra.
      * replace (-2 / (y + z) * -1 + (-2 / (y + z) - 1)) with (-1) by (field; lra).
        replace (-2 / (y + z) * (- 1 - y - z) + (-2 / (y + z) - 1)) with 1 by (field; lra).
        apply leg_orth.
  - intros z Hz. destruct (Req_dec z 1) as [->|Hne].
    + apply is_RInt_empty; [lra|]. replace (1 - 1) with 0 by ring. rewrite (pow_i 2) by lia. rr; ring.
    + assert (0 < 1 - z) by lra.
      unfold delta at 1 2. destruct (Nat.eqb_spec i i') as [<-|Hii].
      * set (C := (1-z)^2 * (1-z)^(i+j+(i+j')) * KK z).
        eapply is_RInt_ext; [|eapply is_RInt_eq; [apply (lin_sub (fun e => (1-e)^(2*i+1) * JJ e) (2/(1-z)) (2/(1-z) - 1) C (-1) (-z) (delta j j'))|]].
        -- intros y _. assert (E : eta y z = 2/(1-z)*y + (2/(1-z) - 1)).
           { unfold eta. destruct (Req_EM_T z 1); [lra|]. field. lra. }
           cbv beta. rewrite <- E.
           assert (E2 : - (y + z) = (1 - eta y z) * (1 - z) / 2). { rewrite E. field. lra. }
           match goal with |- ?l = ?r => change (@eq R l r) end.
           transitivity (4 * (-(y + z)) * ((1 - eta y z)^(i+i) * JJ (eta y z) * KK z * (1-z)^(i+j+(i+j')))); [|rr; ring].
           rewrite E2. unfold C. replace (2*i+1)%nat with (1 + (i+i))%nat by lia. rewrite (pow_add (1 - eta y z) 1).
           field. lra.
        -- replace (2 / (1 - z) * -1 + (2 / (1 - z) - 1)) with (-1) by (field; lra).
           replace (2 / (1 - z) * - z + (2 / (1 - z) - 1)) with 1 by (field; lra).
           apply jac_orth. rewrite plus_INR, mult_INR. simpl. ring.
        -- rr; ring.
      * apply (is_RInt_ext (fun _ => 0)); [intros; match goal with |- ?l = ?r => change (@eq R l r) end; ring|].
        eapply is_RInt_eq; [apply is_RInt_zero|rr; ring].
  - unfold delta at 1 2 3 4. destruct (Nat.eqb_spec i i') as [<-|Hii]; [destruct (Nat.eqb_spec j j') as [<-|Hjj]|].
    + apply (is_RInt_ext (fun z => (1 - z) ^ (2*i+2*j+2) * (jacobiPoly tg z (2*INR i+2*INR j+2) 0 k * jacobiPoly tg z (2*INR i+2*INR j+2) 0 k'))).
      * intros z _. match goal with |- ?l = ?r => change (@eq R l r) end.
        replace (2*i+2*j+2)%nat with (2 + (i+j+(i+j)))%nat by lia. rewrite (pow_add _ 2). unfold KK. ring.
      * eapply is_RInt_eq; [apply jac_orth|rr; ring]. rewrite !plus_INR, !mult_INR. simpl. ring.
    + apply (is_RInt_ext (fun _ => 0)); [intros; match goal with |- ?l = ?r => change (@eq R l r) end; ring|].
      eapply is_RInt_eq; [apply is_RInt_zero|rr; ring].
    + apply (is_RInt_ext (fun _ => 0)); [intros; match goal with |- ?l = ?r => change (@eq R l r) end; ring|].
      eapply is_RInt_eq; [apply is_RInt_zero|rr; ring].
Qed.
End Tri.

(** Column bookkeeping *)
Local Open Scope nat_scope.
Definition good {I : Type} (s : nat * writes I) : Prop :=
  map fst (snd s) = seq 0 (fst s).

Lemma write_col_good {I} (s : nat * writes I) i : good s -> good (write_col s i).
Proof. unfold good, write_col. simpl. intros H. rewrite map_app, H. simpl. now rewrite seq_app. Qed.
Lemma for_to_inv {S} (Q : S -> Prop) last body (s : S) :
  (forall s r, r <= last -> Q s -> Q (body s r)) -> Q s -> Q (for_to last body s).
Proof.
  intros H. unfold for_to. assert (A : forall r, In r (seq 0 (last+1)) -> r <= last) by (intros r; rewrite in_seq; lia).
  revert A s. generalize (seq 0 (last+1)). induction l as [|r l IH]; intros A s Hs; simpl; [assumption|].
  apply IH; [intros; apply A; now right|]. apply H; [apply A; now left|assumption].
Qed.
Lemma for_to_concat {I} (last : nat) (f : nat -> list I) (body : nat * writes I -> nat -> nat * writes I) s :
  (forall s r, r <= last -> map snd (snd (body s r)) = map snd (snd s) ++ f r) ->
  map snd (snd (for_to last body s)) = map snd (snd s) ++ flat_map f (seq 0 (last + 1)).
Proof.
  intros H. unfold for_to. assert (A : forall r, In r (seq 0 (last+1)) -> r <= last) by (intros r; rewrite in_seq; lia).
  revert A s. generalize (seq 0 (last+1)). induction l as [|r l IH]; intros A s; simpl; [now rewrite app_nil_r|].
  rewrite IH by (intros; apply A; now right). rewrite H by (apply A; now left). now rewrite app_assoc.
Qed.

Lemma write_col_snd {I} (s : nat * writes I) i : map snd (snd (write_col s i)) = map snd (snd s) ++ [i].
Proof. unfold write_col. simpl. now rewrite map_app. Qed.

Lemma seg_idx d : map snd (snd (vander_seg d)) = seq 0 (d + 1).
Proof.
  unfold vander_seg. rewrite (for_to_concat d (fun r => [r])) by (intros; apply write_col_snd).
  simpl. induction (seq 0 (d+1)); simpl; congruence.
Qed.
Definition tri_row (r : nat) : list (nat * nat) := map (fun j => (r - j, j)) (seq 0 (r + 1)).
Definition tet_row (r k : nat) : list (nat * nat * nat) := map (fun j => (r - j - k, j, k)) (seq 0 (r - k + 1)).
Lemma flat_map_single {A B} (f : A -> B) l : flat_map (fun x => [f x]) l = map f l.
Proof. induction l; simpl; congruence. Qed.
Lemma tri_idx d : map snd (snd (vander_tri d)) = flat_map tri_row (seq 0 (d + 1)).
Proof.
  unfold vander_tri. rewrite (for_to_concat d tri_row); [reflexivity|].
  intros s r _. rewrite (for_to_concat r (fun j => [(r - j, j)])) by (intros; apply write_col_snd).
  f_equal; try apply flat_map_single.
Qed.
Lemma tet_idx d : map snd (snd (vander_tet d)) = flat_map (fun r => flat_map (tet_row r) (seq 0 (r + 1))) (seq 0 (d + 1)).
Proof.
  unfold vander_tet. rewrite (for_to_concat d (fun r => flat_map (tet_row r) (seq 0 (r + 1)))); [reflexivity|].
  intros s r _. rewrite (for_to_concat r (tet_row r)); [reflexivity|].
  intros s' k _. rewrite (for_to_concat (r - k) (fun j => [(r - j - k, j, k)])) by (intros; apply write_col_snd).
  f_equal; try apply flat_map_single.
Qed.
Lemma seg_good d : good (vander_seg d).
Proof. unfold vander_seg. apply for_to_inv; [|reflexivity]. intros. now apply write_col_good. Qed.
Lemma tri_good d : good (vander_tri d).
Proof.
  unfold vander_tri. apply for_to_inv; [|reflexivity]. intros. apply for_to_inv; [|assumption].
  intros. now apply write_col_good.
Qed.
Lemma tet_good d : good (vander_tet d).
Proof.
  unfold vander_tet. apply for_to_inv; [|reflexivity]. intros. apply for_to_inv; [|assumption].
  intros. apply for_to_inv; [|assumption]. intros. now apply write_col_good.
Qed.

Lemma NoDup_flat_map {A B} (f : A -> list B) l :
  NoDup l -> (forall x, In x l -> NoDup (f x)) ->
  (forall x y b, In x l -> In y l -> In b (f x) -> In b (f y) -> x = y) -> NoDup (flat_map f l).
Proof.
  induction 1 as [|x l Hx Hl IH]; simpl; intros H1 H2; [constructor|].
  assert (ND : forall (u v : list B), NoDup u -> NoDup v -> (forall b, In b u -> ~ In b v) -> NoDup (u ++ v)).
  { induction u as [|b u IHu]; simpl; intros v Hu Hv Hd; [assumption|]. inversion Hu; subst.
    constructor; [rewrite in_app_iff; intros [?|?]; [auto|eapply Hd; eauto]|]. apply IHu; auto. }
  apply ND; [apply H1; now left|apply IH; [intros; apply H1; now right|intros x0 y0 b0 ? ? ? ?; apply (H2 x0 y0 b0); auto]|].
  intros b Hb Hb'. apply in_flat_map in Hb' as (y & Hy & Hby).
  assert (x = y) by (eapply (H2 x y b); auto). congruence.
Qed.
Lemma tri_complete d i j : In (i, j) (map snd (snd (vander_tri d))) <-> i + j <= d.
Proof.
  rewrite tri_idx, in_flat_map. unfold tri_row. split.
  - intros (r & Hr & H). apply in_seq in Hr. apply in_map_iff in H as (j' & E & Hj). apply in_seq in Hj.
    inversion E; subst. lia.
  - intros H. exists (i + j). rewrite in_seq. split; [lia|]. apply in_map_iff. exists j. rewrite in_seq.
    split; [f_equal; lia|lia].
Qed.
Lemma tri_nodup d : NoDup (map snd (snd (vander_tri d))).
Proof.
  rewrite tri_idx. apply NoDup_flat_map; [apply seq_NoDup| |].
  - intros r _. unfold tri_row. apply FinFun.Injective_map_NoDup; [|apply seq_NoDup]. intros x y E. congruence.
  - intros x y b _ _ Hx Hy. unfold tri_row in *. apply in_map_iff in Hx as (p & Ep & Hp). apply in_map_iff in Hy as (q & Eq & Hq).
    apply in_seq in Hp. apply in_seq in Hq. subst b. inversion Eq. lia.
Qed.
Lemma tet_complete d i j k : In (i, j, k) (map snd (snd (vander_tet d))) <-> i + j + k <= d.
Proof.
  rewrite tet_idx, in_flat_map. unfold tet_row. split.
  - intros (r & Hr & H). apply in_seq in Hr. apply in_flat_map in H as (k' & Hk & H).
    apply in_seq in Hk. apply in_map_iff in H as (j' & E & Hj). apply in_seq in Hj. inversion E; subst. lia.
  - intros H. exists (i + j + k). rewrite in_seq. split; [lia|]. apply in_flat_map. exists k. rewrite in_seq.
    split; [lia|]. apply in_map_iff. exists j. rewrite in_seq. split; [repeat f_equal; lia|lia].
Qed.
Lemma tet_nodup d : NoDup (map snd (snd (vander_tet d))).
Proof.
  rewrite tet_idx. apply NoDup_flat_map; [apply seq_NoDup| |].
  - intros r _. apply NoDup_flat_map; [apply seq_NoDup| |].
    + intros k _. unfold tet_row. apply FinFun.Injective_map_NoDup; [|apply seq_NoDup]. intros x y E. congruence.
    + intros x y b _ _ Hx Hy. unfold tet_row in *. apply in_map_iff in Hx as (p & Ep & Hp). apply in_map_iff in Hy as (q & Eq & Hq).
      congruence.
  - intros x y b _ _ Hx Hy. apply in_flat_map in Hx as (k1 & Hk1 & Hx). apply in_flat_map in Hy as (k2 & Hk2 & Hy).
    unfold tet_row in *. apply in_map_iff in Hx as (p & Ep & Hp). apply in_map_iff in Hy as (q & Eq & Hq).
    apply in_seq in Hp, Hq, Hk1, Hk2. subst b. inversion Eq. lia.
Qed.

(** counts *)
Lemma len_of {I} (s : nat * writes I) : good s -> fst s = length (map snd (snd s)).
Proof. unfold good. intros H. rewrite map_length. rewrite <- (map_length fst), H. now rewrite seq_length. Qed.
Lemma tri_count d : 2 * fst (vander_tri d) = (d + 1) * (d + 2).
Proof.
  rewrite (len_of _ (tri_good d)), tri_idx. induction d as [|d IH]; [reflexivity|].
  replace (S d + 1) with (d + 1 + 1) by lia. rewrite seq_app, flat_map_app, app_length. cbn [seq flat_map].
  rewrite app_nil_r, Nat.mul_add_distr_l, IH. unfold tri_row. rewrite map_length, seq_length. lia.
Qed.
Lemma tet_row_count r : 2 * length (flat_map (tet_row r) (seq 0 (r + 1))) = (r + 1) * (r + 2).
Proof.
  assert (G : forall n, n <= r + 1 -> 2 * length (flat_map (tet_row r) (seq 0 n)) = n * (2 * r + 3 - n)).
  { induction n as [|n IH]; intros Hn; [reflexivity|].
    replace (S n) with (n + 1) by lia. rewrite seq_app, flat_map_app, app_length. cbn [seq flat_map].
    rewrite app_nil_r, Nat.mul_add_distr_l, IH by lia. unfold tet_row. rewrite map_length, seq_length. nia. }
  rewrite G by lia. nia.
Qed.
Lemma tet_count d : 6 * fst (vander_tet d) = (d + 1) * (d + 2) * (d + 3).
Proof.
  rewrite (len_of _ (tet_good d)), tet_idx. induction d as [|d IH]; [reflexivity|].
  replace (S d + 1) with (d + 1 + 1) by lia. rewrite seq_app, flat_map_app, app_length. cbn [seq flat_map].
  rewrite app_nil_r, Nat.mul_add_distr_l, IH. pose proof (tet_row_count (0 + (d + 1))) as E. nia.
Qed.
Lemma seg_cols d : fst (vander_seg d) = vander_seg_cols d.
Proof. rewrite (len_of _ (seg_good d)), seg_idx. now rewrite seq_length. Qed.
Lemma tri_cols d : fst (vander_tri d) = vander_tri_cols d.
Proof. unfold vander_tri_cols. rewrite <- tri_count, Nat.mul_comm, Nat.div_mul; lia. Qed.
Lemma tet_cols d : fst (vander_tet d) = vander_tet_cols d.
Proof. unfold vander_tet_cols. rewrite <- tet_count, Nat.mul_comm, Nat.div_mul; lia. Qed.
