From Coq Require Import Reals List ZArith Bool Ascii String Lia DecimalString DecimalNat DecimalFacts.
From Verif Require Import Num TimeLoop Logger LoggerProofs ControlRun ControlRunSpec.
Import ListNotations.
Local Open Scope R_scope.

(** ** association lists *)
Section Assoc.
Context {K V : Type}. Variable eqb : K -> K -> bool.
Hypothesis E : forall a b, reflect (a = b) (eqb a b).
Lemma get_filter_other k k' (l : list (K * V)) : k <> k' -> get eqb k (filter (fun e => negb (eqb k' (fst e))) l) = get eqb k l.
Proof.
  intros H. induction l as [|[a v] l IH]; cbn; [reflexivity|]. destruct (E k' a) as [->|N]; cbn.
  - destruct (E k a); [contradiction|exact IH].
  - destruct (E k a); [reflexivity|exact IH].
Qed.
Lemma get_put_same k v (l : list (K * V)) : get eqb k (put eqb k v l) = Some v.
Proof. cbn. destruct (E k k); [reflexivity|contradiction]. Qed.
Lemma get_put_other k k' v (l : list (K * V)) : k <> k' -> get eqb k (put eqb k' v l) = get eqb k l.
Proof. intros H. cbn. destruct (E k k'); [contradiction|]. now apply get_filter_other. Qed.
Lemma get_del_same k (l : list (K * V)) : get eqb k (del eqb k l) = None.
Proof. unfold del. induction l as [|[a v] l IH]; cbn; [reflexivity|]. destruct (E k a) as [->|N]; cbn; [exact IH|]. destruct (E k a); [contradiction|exact IH]. Qed.
Lemma get_del_other k k' (l : list (K * V)) : k <> k' -> get eqb k (del eqb k' l) = get eqb k l.
Proof. apply get_filter_other. Qed.
End Assoc.
Notation gets := (get String.eqb). Notation getn := (get Nat.eqb).
Lemma sE : forall a b, reflect (a = b) (String.eqb a b). Proof. apply String.eqb_spec. Qed.
Lemma nE : forall a b, reflect (a = b) (Nat.eqb a b). Proof. apply Nat.eqb_spec. Qed.
Lemma puts_same {V} k (v : V) l : gets k (put String.eqb k v l) = Some v. Proof. apply get_put_same, sE. Qed.
Lemma puts_other {V} k k' (v : V) l : k <> k' -> gets k (put String.eqb k' v l) = gets k l. Proof. apply get_put_other, sE. Qed.
Lemma putn_same {V} k (v : V) l : getn k (put Nat.eqb k v l) = Some v. Proof. apply get_put_same, nE. Qed.
Lemma putn_other {V} k k' (v : V) l : k <> k' -> getn k (put Nat.eqb k' v l) = getn k l. Proof. apply get_put_other, nE. Qed.

(** ** file names *)
Lemma append_inj_r a b c : (a ++ c = b ++ c)%string -> a = b.
Proof.
  assert (Len : forall x y, String.length (x ++ y) = (String.length x + String.length y)%nat) by (induction x; intros; cbn; [reflexivity|now rewrite IHx]).
  revert b. induction a as [|x a IH]; intros [|y b] H; cbn in H; try reflexivity.
  - exfalso. apply (f_equal String.length) in H. cbn in H. rewrite Len in H. lia.
  - exfalso. apply (f_equal String.length) in H. cbn in H. rewrite Len in H. lia.
  - injection H as -> H. f_equal. now apply IH.
Qed.
Lemma file_name_inj a b n : file_name a n = file_name b n -> a = b.
Proof. apply append_inj_r. Qed.

(** ** invariants *)
(** all file objects in use are numbered below w_next *)
Definition wf (w : world) : Prop := (forall f i, gets f (w_dir w) = Some i -> (i < w_next w)%nat) /\ (forall n i, gets n (w_streams w) = Some (Some i) -> (i < w_next w)%nat).
(** the file f holds c and only the stream of name writes to it *)
Definition live (name f : string) (c : list (R * R)) (w : world) : Prop := exists i,
  gets f (w_dir w) = Some i /\ getn i (w_data w) = Some c /\ gets name (w_streams w) = Some (Some i) /\
  (forall n, n <> name -> gets n (w_streams w) <> Some (Some i)) /\ (i < w_next w)%nat.
(** the file f holds c and no stream writes to it *)
Definition dead (f : string) (c : list (R * R)) (w : world) : Prop := exists i,
  gets f (w_dir w) = Some i /\ getn i (w_data w) = Some c /\ (forall n, gets n (w_streams w) <> Some (Some i)) /\ (i < w_next w)%nat.
Definition absent (f : string) (w : world) : Prop := gets f (w_dir w) = None.

Lemma wf_remove f w : wf w -> wf (remove_file f w).
Proof. intros [A B]. split; [|exact B]. intros g i H. cbn in H. destruct (String.eqb_spec g f) as [->|N]; [rewrite get_del_same in H by apply sE; discriminate|]. rewrite get_del_other in H by (try apply sE; exact N). now apply (A g). Qed.
Lemma wf_open f w : wf w -> wf (fst (open_app f w)).
Proof.
  intros [A B]. unfold open_app. destruct (gets f (w_dir w)); [split; assumption|]. split; cbn [fst w_dir w_next w_streams].
  - intros g i H. destruct (String.eqb_spec g f) as [->|N]; [rewrite puts_same in H; injection H as <-; lia|]. rewrite puts_other in H by exact N. apply A in H. lia.
  - intros n i H. apply B in H. lia.
Qed.
Lemma open_lt f w : wf w -> (snd (open_app f w) < w_next (fst (open_app f w)))%nat.
Proof. intros [A B]. unfold open_app. destruct (gets f (w_dir w)) eqn:E; cbn; [now apply (A f)|lia]. Qed.
Lemma wf_emplace n i w : wf w -> (i < w_next w)%nat -> wf (emplace n i w).
Proof.
  intros [A B] H. unfold emplace. destruct (gets n (w_streams w)); [split; assumption|]. split; cbn [w_dir w_next w_streams]; [exact A|].
  intros m j K. destruct (String.eqb_spec m n) as [->|N]; [rewrite puts_same in K; injection K as <-; exact H|]. rewrite puts_other in K by exact N. now apply (B m).
Qed.
Lemma wf_touch n w : wf w -> wf (touch n w).
Proof.
  intros [A B]. unfold touch. destruct (gets n (w_streams w)); [split; assumption|]. split; cbn [w_dir w_next w_streams]; [exact A|].
  intros m j K. destruct (String.eqb_spec m n) as [->|N]; [rewrite puts_same in K; discriminate|]. rewrite puts_other in K by exact N. now apply (B m).
Qed.
Lemma write_proj n l w : w_dir (write n l w) = w_dir w /\ w_next (write n l w) = w_next w /\ w_streams (write n l w) = w_streams (touch n w).
Proof. unfold write. assert (T : w_dir (touch n w) = w_dir w /\ w_next (touch n w) = w_next w) by (unfold touch; destruct (gets n (w_streams w)); now split). destruct T as [T1 T2].
  destruct (gets n (w_streams (touch n w))) as [[i|]|]; cbn; auto. Qed.
Lemma wf_write n l w : wf w -> wf (write n l w).
Proof. intros H. destruct (write_proj n l w) as (A & B & C). destruct (wf_touch n w H) as [D E]. assert (Tn : w_next (touch n w) = w_next w) by (unfold touch; destruct (gets n (w_streams w)); reflexivity).
  assert (Td : w_dir (touch n w) = w_dir w) by (unfold touch; destruct (gets n (w_streams w)); reflexivity).
  split; rewrite ?A, ?B, ?C; [rewrite <- Td, <- Tn; exact D|rewrite <- Tn; exact E]. Qed.
Lemma wf_close n w : wf w -> wf (close n w).
Proof. intros [A B]. split; cbn [close w_dir w_next w_streams]; [exact A|]. intros m j K. destruct (String.eqb_spec m n) as [->|N]; [rewrite puts_same in K; discriminate|]. rewrite puts_other in K by exact N. now apply (B m). Qed.

(** streams that exist stay *)
Lemma has_touch n w : gets n (w_streams (touch n w)) <> None.
Proof. unfold touch. destruct (gets n (w_streams w)) eqn:E; [congruence|]. cbn [w_streams]. rewrite puts_same. congruence. Qed.
Lemma touch_get n m w : n <> m -> gets m (w_streams (touch n w)) = gets m (w_streams w).
Proof. intros H. unfold touch. destruct (gets n (w_streams w)); [reflexivity|]. cbn [w_streams]. apply puts_other. congruence. Qed.
Lemma touch_id n w : gets n (w_streams w) <> None -> touch n w = w.
Proof. intros H. unfold touch. destruct (gets n (w_streams w)); congruence. Qed.

(** *** live *)
Lemma live_write name f c l w : live name f c w -> live name f (c ++ [l]) (write name l w).
Proof.
  intros (i & A & B & C & D & N). exists i. unfold write. rewrite touch_id by congruence. rewrite C. cbn [w_dir w_data w_streams w_next]. rewrite B, putn_same. auto.
Qed.
Lemma live_write_other name n f c l w : n <> name -> live name f c w -> live name f c (write n l w).
Proof.
  intros Hn (i & A & B & C & D & N). exists i. destruct (write_proj n l w) as (P1 & P2 & P3). rewrite P1, P2, P3.
  assert (T : forall m, m <> name -> gets m (w_streams (touch n w)) <> Some (Some i)).
  { intros m Hm. destruct (String.eqb_spec n m) as [->|Nm]; [|rewrite touch_get by exact Nm; now apply D].
    unfold touch. destruct (gets m (w_streams w)) eqn:Em; [now apply D|]. cbn [w_streams]. rewrite puts_same. congruence. }
  repeat split; auto.
  - unfold write. assert (Td : w_data (touch n w) = w_data w) by (unfold touch; destruct (gets n (w_streams w)); reflexivity).
    specialize (T n Hn). destruct (gets n (w_streams (touch n w))) as [[j|]|] eqn:Ej; rewrite ?Td; try exact B. cbn [w_data].
    rewrite putn_other by congruence. exact B.
  - rewrite touch_get by exact Hn. exact C.
Qed.
Lemma live_close_other name n f c w : n <> name -> live name f c w -> live name f c (close n w).
Proof.
  intros Hn (i & A & B & C & D & N). exists i. cbn [close w_dir w_data w_streams w_next]. repeat split; auto.
  - rewrite puts_other by congruence. exact C.
  - intros m Hm. destruct (String.eqb_spec m n) as [->|Nm]; [rewrite puts_same; congruence|]. rewrite puts_other by exact Nm. now apply D.
Qed.
Lemma live_close name f c w : live name f c w -> dead f c (close name w).
Proof.
  intros (i & A & B & C & D & N). exists i. cbn [close w_dir w_data w_streams w_next]. repeat split; auto.
  intros m. destruct (String.eqb_spec m name) as [->|Nm]; [rewrite puts_same; congruence|]. rewrite puts_other by exact Nm. now apply D.
Qed.
(** *** dead *)
Lemma dead_touch n f c w : dead f c w -> dead f c (touch n w).
Proof.
  intros (i & A & B & D & N). exists i. unfold touch. destruct (gets n (w_streams w)); [auto|]. cbn [w_dir w_data w_streams w_next]. repeat split; auto.
  intros m. destruct (String.eqb_spec m n) as [->|Nm]; [rewrite puts_same; congruence|]. rewrite puts_other by exact Nm. apply D.
Qed.
Lemma dead_write n f c l w : dead f c w -> dead f c (write n l w).
Proof.
  intros H. apply (dead_touch n) in H. unfold write. revert H. generalize (touch n w). clear w. intros w (i & A & B & D & N).
  destruct (gets n (w_streams w)) as [[j|]|] eqn:E; [|exists i; auto|exists i; auto]. exists i. cbn [w_dir w_data w_streams w_next]. repeat split; auto.
  rewrite putn_other; [exact B|]. intros ->. now apply (D n).
Qed.
Lemma dead_close n f c w : dead f c w -> dead f c (close n w).
Proof.
  intros (i & A & B & D & N). exists i. cbn [close w_dir w_data w_streams w_next]. repeat split; auto.
  intros m. destruct (String.eqb_spec m n) as [->|Nm]; [rewrite puts_same; congruence|]. rewrite puts_other by exact Nm. apply D.
Qed.
(** *** opening *)
Definition start (name f : string) (w : world) : world := let '(w, i) := open_app f (remove_file f w) in touch name (emplace name i w).
Lemma start_eq name f w : start name f w =
  touch name (emplace name (w_next w) {| w_dir := put String.eqb f (w_next w) (del String.eqb f (w_dir w)); w_data := put Nat.eqb (w_next w) [] (w_data w); w_next := S (w_next w); w_streams := w_streams w |}).
Proof. unfold start, open_app, remove_file. cbn [w_dir w_data w_next w_streams]. rewrite get_del_same by apply sE. reflexivity. Qed.
Lemma start_wf name f w : wf w -> wf (start name f w).
Proof.
  intros [A B]. rewrite start_eq. apply wf_touch, wf_emplace; [|cbn; lia]. split; cbn [w_dir w_next w_streams].
  - intros g i H. destruct (String.eqb_spec g f) as [->|N]; [rewrite puts_same in H; injection H as <-; lia|]. rewrite puts_other, get_del_other in H by (try apply sE; exact N). apply A in H. lia.
  - intros n i H. apply B in H. lia.
Qed.
Lemma start_has name f w : gets name (w_streams (start name f w)) <> None.
Proof. rewrite start_eq. apply has_touch. Qed.
Lemma start_has_other name f w n : gets n (w_streams w) <> None -> gets n (w_streams (start name f w)) <> None.
Proof.
  intros H. rewrite start_eq. destruct (String.eqb_spec name n) as [->|N]; [apply has_touch|]. rewrite touch_get by exact N. unfold emplace. cbn [w_streams].
  destruct (gets name (w_streams w)); cbn [w_streams]; [exact H|]. rewrite puts_other by congruence. exact H.
Qed.
Lemma start_get_other name f w n : n <> name -> gets n (w_streams (start name f w)) = gets n (w_streams w).
Proof.
  intros N. rewrite start_eq. rewrite touch_get by congruence. unfold emplace. cbn [w_streams].
  destruct (gets name (w_streams w)); cbn [w_streams]; [reflexivity|]. rewrite puts_other by congruence. reflexivity.
Qed.
Lemma start_live name f w : wf w -> gets name (w_streams w) = None -> live name f [] (start name f w).
Proof.
  intros [A B] H. rewrite start_eq. unfold emplace. cbn [w_streams]. rewrite H. cbn [w_dir w_data w_next w_streams]. rewrite touch_id by (cbn [w_streams]; rewrite puts_same; congruence).
  exists (w_next w). cbn [w_dir w_data w_next w_streams]. rewrite puts_same, putn_same, puts_same. repeat split; auto.
  intros n Hn. rewrite puts_other by exact Hn. intros K. apply B in K. lia.
Qed.
Lemma start_dead name f w : wf w -> gets name (w_streams w) <> None -> dead f [] (start name f w).
Proof.
  intros [A B] H. rewrite start_eq. unfold emplace. cbn [w_streams]. destruct (gets name (w_streams w)) eqn:E; [|congruence]. rewrite touch_id by (cbn [w_streams]; rewrite E; congruence).
  exists (w_next w). cbn [w_dir w_data w_next w_streams]. rewrite puts_same, putn_same. repeat split; auto. intros n K. apply B in K. lia.
Qed.
Lemma start_other (name f : string) w g : g <> f -> gets g (w_dir (start name f w)) = gets g (w_dir w).
Proof.
  intros H. rewrite start_eq. transitivity (gets g (put String.eqb f (w_next w) (del String.eqb f (w_dir w)))).
  - unfold emplace. cbn [w_streams]. destruct (gets name (w_streams w)); unfold touch; cbn [w_streams]; destruct (gets name _); reflexivity.
  - rewrite puts_other, get_del_other by (try apply sE; exact H). reflexivity.
Qed.
Lemma start_data (name f : string) w i : (i < w_next w)%nat -> getn i (w_data (start name f w)) = getn i (w_data w).
Proof.
  intros H. rewrite start_eq. transitivity (getn i (put Nat.eqb (w_next w) [] (w_data w))).
  - unfold emplace. cbn [w_streams]. destruct (gets name (w_streams w)); unfold touch; cbn [w_streams]; destruct (gets name _); reflexivity.
  - apply putn_other. lia.
Qed.
Lemma start_next (name f : string) w : w_next (start name f w) = S (w_next w).
Proof. rewrite start_eq. unfold emplace. cbn [w_streams]. destruct (gets name (w_streams w)); unfold touch; cbn [w_streams]; destruct (gets name _); reflexivity. Qed.
Lemma start_stream_i (name f : string) w n i : (i < w_next w)%nat -> gets n (w_streams (start name f w)) = Some (Some i) -> gets n (w_streams w) = Some (Some i).
Proof.
  intros H K. destruct (String.eqb_spec n name) as [->|N]; [|now rewrite start_get_other in K].
  rewrite start_eq in K. unfold emplace in K. cbn [w_streams] in K. destruct (gets name (w_streams w)) eqn:E.
  - rewrite touch_id in K by (cbn [w_streams]; rewrite E; congruence). cbn [w_streams] in K. congruence.
  - rewrite touch_id in K by (cbn [w_streams]; rewrite puts_same; congruence). cbn [w_streams] in K. rewrite puts_same in K. injection K as <-. lia.
Qed.
Lemma live_start_other name f c n g w : n <> name -> g <> f -> live name f c w -> live name f c (start n g w).
Proof.
  intros Hn Hg (i & A & B & C & D & N). exists i. rewrite start_other by congruence. rewrite start_data by exact N. rewrite start_get_other by congruence. rewrite start_next.
  repeat split; auto. intros m Hm K. apply start_stream_i in K; [|exact N]. now apply (D m).
Qed.
Lemma dead_start_other f c n g w : g <> f -> dead f c w -> dead f c (start n g w).
Proof.
  intros Hg (i & A & B & D & N). exists i. rewrite start_other by congruence. rewrite start_data by exact N. rewrite start_next.
  repeat split; auto. intros m K. apply start_stream_i in K; [|exact N]. now apply (D m).
Qed.
Lemma live_content name f c w : live name f c w -> file_content f w = Some c.
Proof. intros (i & A & B & _). unfold file_content. now rewrite A. Qed.
Lemma dead_content f c w : dead f c w -> file_content f w = Some c.
Proof. intros (i & A & B & _). unfold file_content. now rewrite A. Qed.

(** ** folds over the outputs *)
Lemma fold_keep {A : Type} (P : world -> Prop) (op : A -> world -> world) l : (forall a w, In a l -> P w -> P (op a w)) -> forall w, P w -> P (fold_left (fun w a => op a w) l w).
Proof. induction l as [|a l IH]; intros H w Hw; cbn; [exact Hw|]. apply IH; [intros b v Hb; apply H; now right|]. apply H; [now left|exact Hw]. Qed.
Lemma fold_once {A : Type} (P Q : world -> Prop) (op : A -> world -> world) l a : NoDup l -> In a l ->
  (forall b w, b <> a -> P w -> P (op b w)) -> (forall w, P w -> Q (op a w)) -> (forall b w, b <> a -> Q w -> Q (op b w)) ->
  forall w, P w -> Q (fold_left (fun w a => op a w) l w).
Proof.
  intros ND HI H1 H2 H3. induction l as [|b l IH]; intros w Hw; [destruct HI|]. inversion ND as [|x y Hx Hy]; subst. cbn. destruct HI as [->|HI].
  - apply fold_keep; [|now apply H2]. intros b v Hb. apply H3. intros ->. contradiction.
  - apply IH; [exact Hy|exact HI|]. apply H1; [|exact Hw]. intros ->. contradiction.
Qed.

(** ** the run *)
Section Run.
Context {St Fl : Type}.
Variable flow : St -> Fl.
Variable step : St -> R -> R -> option (St * R).
Variable full_output : string -> R -> St -> R.
Variable flow_output : string -> R -> Fl -> R.
Variable min_cfl : R -> Fl -> R.
Variable o : options.
Variable lo : log_opts.
Variable outs : list string.
Notation hist := (history flow full_output flow_output).
Notation solve0 := (solve flow step full_output flow_output min_cfl o lo outs).
Notation march0 := (march flow step full_output flow_output min_cfl o lo outs).
Definition dt_at (t : R) (s : St) : R := if c_const_cfl o then min_cfl (c_cfl o) (flow s) else calcStepSize (c_time o) t.

Lemma hist_snoc name l p : hist name (l ++ [p]) = hist name l ++ [line flow full_output flow_output name p].
Proof. unfold history. now rewrite map_app. Qed.
Section Rank0.
Hypothesis HE : c_each o = true.
Hypothesis ND : NoDup outs.
Lemma initial_eq w : each_initial o outs 0 w = fold_left (fun w name => start name (file_name name (c_sample o)) w) outs w.
Proof. unfold each_initial. rewrite HE. reflexivity. Qed.
Lemma write_eq t s w : each_write flow full_output flow_output o outs 0 t s w = fold_left (fun w name => write name (line flow full_output flow_output name (t, s)) w) outs w.
Proof. unfold each_write. rewrite HE. reflexivity. Qed.
Lemma terminal_eq t s w : each_terminal flow full_output flow_output o outs 0 t s w = fold_left (fun w name => close name (write name (line flow full_output flow_output name (t, s)) w)) outs w.
Proof. unfold each_terminal. rewrite HE. reflexivity. Qed.
Variable name : string. Hypothesis HN : In name outs.
Let f := file_name name (c_sample o).
Lemma initial_live w : wf w -> gets name (w_streams w) = None -> live name f [] (each_initial o outs 0 w).
Proof.
  intros Hw Hs. rewrite initial_eq.
  apply (fold_once (fun w => wf w /\ gets name (w_streams w) = None) (live name f []) (fun name w => start name (file_name name (c_sample o)) w) outs name ND HN).
  - intros b v Hb [A B]. split; [now apply start_wf|]. rewrite start_get_other by congruence. exact B.
  - intros v [A B]. now apply start_live.
  - intros b v Hb L. apply live_start_other; [exact Hb| |exact L]. intros E. apply file_name_inj in E. contradiction.
  - now split.
Qed.
Lemma initial_dead w : wf w -> gets name (w_streams w) <> None -> dead f [] (each_initial o outs 0 w).
Proof.
  intros Hw Hs. rewrite initial_eq.
  apply (fold_once (fun w => wf w /\ gets name (w_streams w) <> None) (dead f []) (fun name w => start name (file_name name (c_sample o)) w) outs name ND HN).
  - intros b v Hb [A B]. split; [now apply start_wf|]. now apply start_has_other.
  - intros v [A B]. now apply start_dead.
  - intros b v Hb L. apply dead_start_other; [|exact L]. intros E. apply file_name_inj in E. contradiction.
  - now split.
Qed.
Lemma write_live t s w c : live name f c w -> live name f (c ++ [line flow full_output flow_output name (t, s)]) (each_write flow full_output flow_output o outs 0 t s w).
Proof.
  intros H. rewrite write_eq. apply (fold_once (live name f c) (live name f (c ++ [line flow full_output flow_output name (t, s)]))
    (fun name w => write name (line flow full_output flow_output name (t, s)) w) outs name ND HN).
  - intros b v Hb. now apply live_write_other.
  - intros v. apply live_write.
  - intros b v Hb. now apply live_write_other.
  - exact H.
Qed.
Lemma terminal_dead t s w c : live name f c w -> dead f (c ++ [line flow full_output flow_output name (t, s)]) (each_terminal flow full_output flow_output o outs 0 t s w).
Proof.
  intros H. rewrite terminal_eq. apply (fold_once (live name f c) (dead f (c ++ [line flow full_output flow_output name (t, s)]))
    (fun name w => close name (write name (line flow full_output flow_output name (t, s)) w)) outs name ND HN).
  - intros b v Hb L. apply live_close_other; [exact Hb|]. now apply live_write_other.
  - intros v L. apply live_close. now apply live_write.
  - intros b v Hb L. apply dead_close. now apply dead_write.
  - exact H.
Qed.
Lemma march_live n : forall ti t s w log acc, live name f (hist name acc) w ->
  let r := march0 0%nat n ti t s w log acc in
  match o_end r with
  | Finished t' s' => dead f (hist name (o_passes r ++ [(t', s')])) (o_world r)
  | Threw => live name f (hist name (o_passes r)) (o_world r)
  end.
Proof.
  induction n as [|n IH]; intros ti t s w log acc H; cbn [march].
  - cbn [o_end o_passes o_world]. rewrite hist_snoc. now apply terminal_dead.
  - destruct (step_size flow min_cfl o t s) as [dt|]; [|exact H]. cbv zeta.
    assert (H1 : live name f (hist name (acc ++ [(t, s)])) (each_write flow full_output flow_output o outs 0 t s w)) by (rewrite hist_snoc; now apply write_live).
    destruct (step s t dt) as [[s' t']|]; [|exact H1].
    destruct (iterationExit (c_time o) t' dt); [cbn [o_end o_passes o_world]; rewrite hist_snoc; now apply terminal_dead|]. now apply IH.
Qed.
End Rank0.

(** what any run keeps *)
Lemma run_keep (P : world -> Prop) rank : (forall n w, In n outs -> P w -> P (start n (file_name n (c_sample o)) w)) -> (forall n l w, In n outs -> P w -> P (write n l w)) -> (forall n w, In n outs -> P w -> P (close n w)) ->
  forall s w, P w -> P (o_world (solve0 rank s w)).
Proof.
  intros H1 H2 H3 s w Hw. unfold solve. destruct (c_steady o); [exact Hw|].
  assert (W0 : P (each_initial o outs rank w)).
  { unfold each_initial. destruct (c_each o && Nat.eqb rank 0); [|exact Hw]. apply (fold_keep P (fun name w => start name (file_name name (c_sample o)) w)); [|exact Hw]. intros a v Ha. now apply H1. }
  assert (Wr : forall t s w, P w -> P (each_write flow full_output flow_output o outs rank t s w)).
  { intros t s1 w1 Q. unfold each_write. destruct (c_each o && Nat.eqb rank 0); [|exact Q]. apply (fold_keep P (fun name w => write name (t, output_value flow full_output flow_output name t s1) w)); [|exact Q]. intros a v Ha. now apply H2. }
  assert (Wt : forall t s w, P w -> P (each_terminal flow full_output flow_output o outs rank t s w)).
  { intros t s1 w1 Q. unfold each_terminal. destruct (c_each o && Nat.eqb rank 0); [|exact Q]. apply (fold_keep P (fun name w => close name (write name (t, output_value flow full_output flow_output name t s1) w))); [|exact Q]. intros a v Ha K. apply H3; [exact Ha|]. now apply H2. }
  revert W0. generalize (each_initial o outs rank w), (initialHook lo (flow s) []), (@nil (R * St)), 0%Z, (t_initial (c_time o)). generalize s. clear - Wr Wt.
  induction (Z.to_nat (max_iter (c_time o))) as [|n IH]; intros s w log acc ti t W0; cbn [march]; [now apply Wt|].
  destruct (step_size flow min_cfl o t s) as [dt|]; [|exact W0]. cbv zeta. destruct (step s t dt) as [[s' t']|]; [|now apply Wr].
  destruct (iterationExit (c_time o) t' dt); [cbn; now apply Wt, Wr|]. apply IH. now apply Wr.
Qed.
Lemma run_wf rank s w : wf w -> wf (o_world (solve0 rank s w)).
Proof. apply run_keep; intros; [now apply start_wf|now apply wf_write|now apply wf_close]. Qed.
Lemma run_dead rank s w f c : (forall n, In n outs -> f <> file_name n (c_sample o)) -> dead f c w -> dead f c (o_world (solve0 rank s w)).
Proof. intros H. apply run_keep; intros; [apply dead_start_other; [apply not_eq_sym, H; assumption|assumption]|now apply dead_write|now apply dead_close]. Qed.
Lemma run_absent rank s w f : (forall n, In n outs -> f <> file_name n (c_sample o)) -> absent f w -> absent f (o_world (solve0 rank s w)).
Proof.
  intros H A0. apply (run_keep (absent f)); [| | |exact A0]; unfold absent; intros n.
  - intros v Hn A. rewrite start_other by now apply H. exact A.
  - intros l v Hn A. destruct (write_proj n l v) as (P1 & _ & _). now rewrite P1.
  - intros v Hn A. exact A.
Qed.
Lemma has_write n m l w : gets m (w_streams w) <> None -> gets m (w_streams (write n l w)) <> None.
Proof. intros H. destruct (write_proj n l w) as (_ & _ & P3). rewrite P3. destruct (String.eqb_spec n m) as [->|N]; [apply has_touch|]. now rewrite touch_get. Qed.
Lemma has_close n m w : gets m (w_streams w) <> None -> gets m (w_streams (close n w)) <> None.
Proof. intros H. cbn [close w_streams]. destruct (String.eqb_spec m n) as [->|N]; [rewrite puts_same; congruence|]. now rewrite puts_other. Qed.
Lemma run_has_again rank s w name : gets name (w_streams w) <> None -> gets name (w_streams (o_world (solve0 rank s w))) <> None.
Proof. apply (run_keep (fun w => gets name (w_streams w) <> None)); intros; [now apply start_has_other|now apply has_write|now apply has_close]. Qed.
Lemma march_keep (P : world -> Prop) : (forall n l w, In n outs -> P w -> P (write n l w)) -> (forall n w, In n outs -> P w -> P (close n w)) ->
  forall rank n ti t s w log acc, P w -> P (o_world (march0 rank n ti t s w log acc)).
Proof.
  intros H2 H3 rank.
  assert (Wr : forall t s w, P w -> P (each_write flow full_output flow_output o outs rank t s w)).
  { intros t s1 w1 Q. unfold each_write. destruct (c_each o && Nat.eqb rank 0); [|exact Q]. apply (fold_keep P (fun name w => write name (t, output_value flow full_output flow_output name t s1) w)); [|exact Q]. intros a v Ha. now apply H2. }
  assert (Wt : forall t s w, P w -> P (each_terminal flow full_output flow_output o outs rank t s w)).
  { intros t s1 w1 Q. unfold each_terminal. destruct (c_each o && Nat.eqb rank 0); [|exact Q]. apply (fold_keep P (fun name w => close name (write name (t, output_value flow full_output flow_output name t s1) w))); [|exact Q]. intros a v Ha K. apply H3; [exact Ha|]. now apply H2. }
  induction n as [|n IH]; intros ti t s w log acc W0; cbn [march]; [now apply Wt|].
  destruct (step_size flow min_cfl o t s) as [dt|]; [|exact W0]. cbv zeta. destruct (step s t dt) as [[s' t']|]; [|now apply Wr].
  destruct (iterationExit (c_time o) t' dt); [cbn; now apply Wt, Wr|]. apply IH. now apply Wr.
Qed.
Lemma run_has s w name : c_each o = true -> c_steady o = false -> NoDup outs -> In name outs -> gets name (w_streams (o_world (solve0 0%nat s w))) <> None.
Proof.
  intros HE HS ND HN. unfold solve. rewrite HS.
  apply (march_keep (fun w => gets name (w_streams w) <> None)); [intros; now apply has_write|intros; now apply has_close|].
  rewrite initial_eq by exact HE. apply (fold_once (fun _ => True) (fun w => gets name (w_streams w) <> None) (fun name w => start name (file_name name (c_sample o)) w) outs name ND HN); auto.
  - intros v _. apply start_has.
  - intros b v _ H. now apply start_has_other.
Qed.

(** the states visited *)
Lemma march_traj (HS : c_steady o = false) n : forall rank ti t s w log acc,
  let r := march0 rank n ti t s w log acc in
  exists l, o_passes r = acc ++ l /\
  match o_end r with
  | Finished t' s' => trajectory step dt_at t s l t' s'
  | Threw => exists l0 t1 s1, l = l0 ++ [(t1, s1)] /\ trajectory step dt_at t s l0 t1 s1 /\ step s1 t1 (dt_at t1 s1) = None
  end.
Proof.
  induction n as [|n IH]; intros rank ti t s w log acc; cbn [march].
  - exists []. cbn. rewrite List.app_nil_r. split; [reflexivity|constructor].
  - assert (SZ : step_size flow min_cfl o t s = Some (dt_at t s)) by (unfold step_size, dt_at; now rewrite HS). rewrite SZ. cbv zeta.
    destruct (step s t (dt_at t s)) as [[s' t']|] eqn:E.
    + destruct (iterationExit (c_time o) t' (dt_at t s)).
      * exists [(t, s)]. cbn. split; [reflexivity|]. econstructor; [exact E|constructor].
      * destruct (IH rank (ti + 1)%Z t' s' (each_write flow full_output flow_output o outs rank t s w) (iterationHook lo ti t (flow s) log) (acc ++ [(t, s)])) as [l [A B]].
        exists ((t, s) :: l). rewrite A, <- List.app_assoc. split; [reflexivity|].
        destruct (o_end _) as [t2 s2|]; [econstructor; [exact E|exact B]|]. destruct B as (l0 & t1 & s1 & -> & B & C).
        exists ((t, s) :: l0), t1, s1. repeat split; [|exact C]. econstructor; [exact E|exact B].
    + exists [(t, s)]. cbn. split; [reflexivity|]. exists [], t, s. repeat split; [constructor|exact E].
Qed.
End Run.

(** ** file names *)
Lemma dash_split (a b x y : string) :
  (a ++ "-" ++ x = b ++ "-" ++ y)%string -> Logger.has_char "-" x = false -> Logger.has_char "-" y = false -> a = b /\ x = y.
Proof.
  revert b. induction a as [|c a IH]; intros b H Hx Hy.
  - destruct b as [|d b]; cbn in H.
    + injection H as H. auto.
    + injection H as <- H. exfalso. rewrite H in Hx. rewrite LoggerProofs.has_char_app in Hx. cbn in Hx. rewrite orb_true_r in Hx. discriminate.
  - destruct b as [|d b]; cbn in H.
    + injection H as -> H. exfalso. rewrite <- H in Hy. rewrite LoggerProofs.has_char_app in Hy. cbn in Hy. rewrite orb_true_r in Hy. discriminate.
    + injection H as <- H. destruct (IH b H Hx Hy) as [-> ->]. auto.
Qed.
Lemma uint_no_dash d : Logger.has_char "-" (DecimalString.NilEmpty.string_of_uint d) = false.
Proof. induction d; cbn; auto. Qed.
Lemma zuint_no_dash d : Logger.has_char "-" (DecimalString.NilZero.string_of_uint d) = false.
Proof. destruct d; cbn; auto using uint_no_dash. Qed.
Lemma str_len_app (a b : string) : String.length (a ++ b)%string = (String.length a + String.length b)%nat.
Proof. induction a; cbn; congruence. Qed.
Lemma suffix_inj (t a b : string) : (a ++ t = b ++ t)%string -> a = b.
Proof.
  revert b. induction a as [|c a IH]; intros b H.
  - destruct b as [|d b]; [reflexivity|]. exfalso. apply (f_equal String.length) in H. rewrite !str_len_app in H. cbn in H. lia.
  - destruct b as [|d b].
    + exfalso. apply (f_equal String.length) in H. rewrite !str_len_app in H. cbn in H. lia.
    + cbn in H. injection H as <- H. f_equal. auto.
Qed.
Lemma file_name_inj2 n s n' s' : file_name n s = file_name n' s' -> n = n' /\ s = s'.
Proof.
  unfold file_name. intros H. apply dash_split in H; try (rewrite LoggerProofs.has_char_app, zuint_no_dash; reflexivity).
  destruct H as [-> H]. split; [reflexivity|]. apply suffix_inj in H.
  apply (f_equal DecimalString.NilZero.uint_of_string) in H.
  assert (NN : forall k, Nat.to_uint k <> Decimal.Nil).
  { intros k Hk. assert (E := DecimalNat.Unsigned.to_of (Nat.to_uint k)). rewrite DecimalNat.Unsigned.of_to, Hk in E. discriminate. }
  rewrite !DecimalString.NilZero.usu in H by apply NN.
  injection H as H. now apply DecimalNat.Unsigned.to_uint_inj in H.
Qed.
