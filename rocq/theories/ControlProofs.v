(** Lemmas about the controller model. *)
From Coq Require Import Reals String List Bool Arith Lra Lia Psatz.
From Coquelicot Require Import Coquelicot.
From Verif Require Import Num Vec Control MmsProofs.
Import ListNotations.
Local Open Scope R_scope.

Definition supplied_num (l : cins) (k : string) (old new : R) : Prop :=
  match find k l with Some (Num v) => new = v | Some (Arr _) => False | None => new = old end.

Lemma eps_lt_1 : 0 < eps < 1.
Proof.
  unfold eps. split; [apply Rinv_0_lt_compat, pow_lt; lra|]. rewrite <- Rinv_1 at 1. apply Rinv_lt_contravar.
  - rewrite Rmult_1_l. apply pow_lt; lra.
  - apply Rlt_pow_R1; [lra|lia].
Qed.
Lemma seq_fine a b s s' : seq a b s = (s', Fine) <-> exists s1, a s = (s1, Fine) /\ b s1 = (s', Fine).
Proof.
  unfold seq. destruct (a s) as [s1 []]; split; intros H; try discriminate; try (destruct H as (? & H & ?); try discriminate).
  - eauto.
  - injection H as <-. assumption.
Qed.

(** whatever the inputs, every step preserves a property that every update preserves *)
Lemma setInputs_inv (I : cstate -> Prop) l :
  (forall v s, I s -> I (upd_time v s)) -> (forall v s, I s -> I (upd_bent v s)) -> (forall v s, I s -> I (upd_x v s)) ->
  (forall v s, I s -> I (upd_Kp v s)) -> (forall v s, I s -> I (upd_Td v s)) -> (forall v s, I s -> I (upd_Ti v s)) ->
  (forall v s, I s -> I (upd_eta v s)) -> (forall v s, I s -> I (upd_beta v s)) -> (forall v s, I s -> I (upd_target v s)) ->
  (forall v s, I s -> I (upd_closed v s)) -> (forall s, I s -> I (fst (set_P l s))) ->
  forall s, I s -> I (fst (setInputs l s)).
Proof.
  intros H1 H2 H3 H4 H5 H6 H7 H8 H9 H10 H11. unfold setInputs.
  assert (N : forall k upd (b : act), (forall v s, I s -> I (upd v s)) -> (forall s, I s -> I (fst (b s))) -> forall s, I s -> I (fst (seq (set_num k l upd) b s))).
  { intros k upd b Hu Hb s Hs. unfold seq, set_num. destruct (find k l) as [[]|]; cbn; auto. }
  assert (A : forall k upd (b : act), (forall v s, I s -> I (upd v s)) -> (forall s, I s -> I (fst (b s))) -> forall s, I s -> I (fst (seq (set_arr k l upd) b s))).
  { intros k upd b Hu Hb s Hs. unfold seq, set_arr. destruct (find k l) as [[]|]; cbn; auto. }
  repeat first [apply N; [assumption|] | apply A; [assumption|]].
  intros s Hs. unfold seq, set_closed. destruct (find "closed-loop" l) as [[]|]; cbn [fst]; auto.
Qed.

Definition P_symmetric (s : cstate) : Prop := P s 0%nat 1%nat = P s 1%nat 0%nat.
Lemma setInputs_symmetric l s : P_symmetric s -> P_symmetric (fst (setInputs l s)).
Proof.
  apply setInputs_inv; intros; try assumption. unfold set_P. destruct (find "P-matrix" l) as [[]|]; auto. reflexivity.
Qed.

Definition num_or (k : string) (l : cins) (d : R) : R := match find k l with Some (Num v) => v | _ => d end.
Definition arr_or (k : string) (l : cins) (d : vec) : vec := match find k l with Some (Arr v) => v | _ => d end.
Definition not_arr (k : string) (l : cins) : Prop := match find k l with Some (Arr _) => False | _ => True end.
Lemma set_num_fine k l upd (f : cstate -> R) s s' : (forall s, upd (f s) s = s) -> set_num k l upd s = (s', Fine) ->
  s' = upd (num_or k l (f s)) s /\ not_arr k l.
Proof. intros U. unfold set_num, num_or, not_arr. destruct (find k l) as [[v|]|]; intros H; try discriminate; injection H as <-; [auto|]. now rewrite U. Qed.
Lemma supplied k l o : not_arr k l -> supplied_num l k o (num_or k l o).
Proof. unfold not_arr, supplied_num, num_or. destruct (find k l) as [[]|]; auto. Qed.

(** what a successful call leaves in the members *)
Lemma setInputs_members l s s' : setInputs l s = (s', Fine) ->
  supplied_num l "Kp" (Kp s) (Kp s') /\ supplied_num l "Td" (Td s) (Td s') /\ supplied_num l "Ti" (Ti s) (Ti s') /\
  supplied_num l "eta" (eta s) (eta s') /\ supplied_num l "beta" (beta s) (beta s') /\
  supplied_num l "target-entropy" (target_entropy s) (target_entropy s') /\
  supplied_num l "boundary-entropy" (boundary_entropy s) (boundary_entropy s') /\
  supplied_num l "time" (time s) (time s') /\
  match find "state" l with Some (Arr v) => cx s' = v | Some (Num _) => False | None => cx s' = cx s end /\
  match find "closed-loop" l with Some (Num v) => closed_loop s' = true <-> eps <= Rabs v | Some (Arr _) => False | None => closed_loop s' = true end /\
  match find "P-matrix" l with
  | Some (Arr p) => P s' 0%nat 0%nat = p 0%nat /\ P s' 0%nat 1%nat = p 1%nat /\ P s' 1%nat 0%nat = p 1%nat /\ P s' 1%nat 1%nat = p 3%nat /\
                    Rabs (p 1%nat - p 2%nat) <= 10000 * eps
  | Some (Num _) => False | None => P s' = P s end.
Proof.
  unfold setInputs. intros H.
  apply seq_fine in H; destruct H as (s1 & E1 & H). apply (set_num_fine _ _ _ time) in E1; [|now intros []]. destruct E1 as [-> N1].
  apply seq_fine in H; destruct H as (s1 & E1 & H). apply (set_num_fine _ _ _ boundary_entropy) in E1; [|now intros []]. destruct E1 as [-> N2].
  apply seq_fine in H; destruct H as (s1 & E1 & H).
  assert (EX : s1 = upd_x (arr_or "state" l (cx s)) (upd_bent (num_or "boundary-entropy" l (boundary_entropy s)) (upd_time (num_or "time" l (time s)) s)) /\
               match find "state" l with Some (Num _) => False | _ => True end).
  { unfold set_arr, arr_or in *. destruct (find "state" l) as [[]|]; try discriminate; injection E1 as <-; auto. }
  clear E1. destruct EX as [-> N3].
  apply seq_fine in H; destruct H as (s1 & E1 & H). apply (set_num_fine _ _ _ Kp) in E1; [|now intros []]. destruct E1 as [-> N4].
  apply seq_fine in H; destruct H as (s1 & E1 & H). apply (set_num_fine _ _ _ Td) in E1; [|now intros []]. destruct E1 as [-> N5].
  apply seq_fine in H; destruct H as (s1 & E1 & H). apply (set_num_fine _ _ _ Ti) in E1; [|now intros []]. destruct E1 as [-> N6].
  apply seq_fine in H; destruct H as (s1 & E1 & H). apply (set_num_fine _ _ _ eta) in E1; [|now intros []]. destruct E1 as [-> N7].
  apply seq_fine in H; destruct H as (s1 & E1 & H). apply (set_num_fine _ _ _ beta) in E1; [|now intros []]. destruct E1 as [-> N8].
  apply seq_fine in H; destruct H as (s1 & E1 & H). apply (set_num_fine _ _ _ target_entropy) in E1; [|now intros []]. destruct E1 as [-> N9].
  apply seq_fine in H; destruct H as (s2 & E1 & H).
  cbn [Kp Td Ti eta beta target_entropy boundary_entropy time cx P closed_loop upd_time upd_bent upd_x upd_Kp upd_Td upd_Ti upd_eta upd_beta upd_target] in E1.
  match type of E1 with set_closed l ?s0 = _ =>
    assert (EC : exists b, s2 = upd_closed b s0 /\ match find "closed-loop" l with Some (Num v) => b = true <-> eps <= Rabs v | Some (Arr _) => False | None => b = true end) end.
  { unfold set_closed in E1. destruct (find "closed-loop" l) as [[]|]; try discriminate; injection E1 as <-; eexists; split; try reflexivity.
    - destruct (Rltb (Rabs v) eps) eqn:B; cbn; [apply Rltb_true in B|apply Rltb_false in B]; split; intros; try discriminate; try lra; auto.
    - rewrite Rabs_R1. rewrite (proj2 (Rltb_false 1 eps)); [reflexivity|]. pose proof eps_lt_1. lra. }
  clear E1. destruct EC as (b & -> & NB).
  assert (EP : exists p, s' = upd_P p (upd_closed b (upd_target (num_or "target-entropy" l (target_entropy s)) (upd_beta (num_or "beta" l (beta s))
      (upd_eta (num_or "eta" l (eta s)) (upd_Ti (num_or "Ti" l (Ti s)) (upd_Td (num_or "Td" l (Td s)) (upd_Kp (num_or "Kp" l (Kp s))
      (upd_x (arr_or "state" l (cx s)) (upd_bent (num_or "boundary-entropy" l (boundary_entropy s)) (upd_time (num_or "time" l (time s)) s)))))))))) /\
    match find "P-matrix" l with
    | Some (Arr q) => p 0%nat 0%nat = q 0%nat /\ p 0%nat 1%nat = q 1%nat /\ p 1%nat 0%nat = q 1%nat /\ p 1%nat 1%nat = q 3%nat /\ Rabs (q 1%nat - q 2%nat) <= 10000 * eps
    | Some (Num _) => False | None => p = P s end).
  { unfold set_P in H. destruct (find "P-matrix" l) as [[|q]|]; try discriminate.
    - destruct (Rltb (10000 * eps) (Rabs (q 1%nat - q 2%nat))) eqn:B; try discriminate. injection H as <-. apply Rltb_false in B. eexists; split; [reflexivity|]. repeat split; auto; lra.
    - injection H as <-. exists (P s). split; reflexivity. }
  destruct EP as (p & -> & NP). clear H.
  cbn [Kp Td Ti eta beta target_entropy boundary_entropy time cx P closed_loop upd_time upd_bent upd_x upd_Kp upd_Td upd_Ti upd_eta upd_beta upd_target upd_closed upd_P].
  repeat (split; [now apply supplied|]). split; [unfold arr_or; destruct (find "state" l) as [[]|]; auto|]. split; assumption.
Qed.
