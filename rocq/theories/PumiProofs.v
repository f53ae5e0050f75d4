From Coq Require Import String Ascii List ZArith Bool Lia.
From Verif Require Import Pumi.
Import ListNotations.
Open Scope Z_scope.

(** a history the language rules allow: only live objects are moved from, assigned to or destroyed *)
Fixpoint valid (n : nat) (es : list event) : Prop :=
  match es with
  | [] => True
  | Ctor :: r => valid (S n) r
  | MoveCtor :: r => (1 <= n)%nat /\ valid (S n) r
  | MoveAssign :: r => (1 <= n)%nat /\ valid n r
  | Dtor :: r => (1 <= n)%nat /\ valid (pred n) r
  | _ :: r => valid n r
  end.
Definition external (e : event) : bool := match e with ExtInit | ExtFree => true | _ => false end.
Definition no_external (es : list event) : Prop := forallb (fun e => negb (external e)) es = true.

(** Init, Free, Init, Free, ... *)
Fixpoint alternating (next : call) (l : list call) : Prop :=
  match l with
  | [] => True
  | c :: r => c = next /\ alternating (match next with Init => Free | Free => Init end) r
  end.
Definition other (c : call) := match c with Init => Free | Free => Init end.
(** the next call after an alternating list *)
Fixpoint next_call (c : call) (l : list call) : call := match l with [] => c | _ :: r => next_call (other c) r end.
Lemma alt_app c l x : alternating c l -> x = next_call c l -> alternating c (l ++ [x]).
Proof. revert c. induction l as [|a l IH]; simpl; intros c H E; [auto|]. destruct H as [-> H]. split; [reflexivity|]. apply IH; auto. Qed.
Lemma next_app c l x : next_call c (l ++ [x]) = other (next_call c l).
Proof. revert c. induction l as [|a l IH]; simpl; intros c; auto. Qed.

Definition inv (s : st) : Prop :=
  count s = Z.of_nat (live s) /\ prev s = false /\ pcu s = negb (Nat.eqb (live s) 0) /\
  alternating Init (calls s) /\ next_call Init (calls s) = (if Nat.eqb (live s) 0 then Init else Free).

Lemma inv_step s e : inv s -> external e = false -> valid (live s) [e] -> inv (step s e).
Proof.
  intros (C & P & U & A & N) Hx V. destruct e; try discriminate; simpl in *; unfold inv, ctor, moveCtor, moveAssign, dtor; simpl.
  - rewrite P, U, C. destruct (live s) as [|n] eqn:L; simpl in *.
    + repeat split; auto. { apply alt_app; auto. } rewrite next_app, N. reflexivity.
    + split; [lia|]. auto 6 using conj.
  - destruct V as [V _]. rewrite C, P, U. destruct (live s) as [|n]; simpl in *; [lia|]. split; [lia|]. auto 6 using conj.
  - auto 6 using conj.
  - destruct V as [V _]. rewrite C, P, U. destruct (live s) as [|[|n]] eqn:L; [lia| |].
    + simpl in *. repeat split; auto. { apply alt_app; auto. } rewrite next_app, N. reflexivity.
    + assert (E : Z.of_nat (S (S n)) - 1 = Z.of_nat (S n)) by lia. rewrite E.
      replace (Z.of_nat (S n) =? 0) with false by reflexivity. cbn [negb andb pred Nat.eqb] in *. auto 6 using conj.
  - auto 6 using conj.
Qed.
Lemma live_step s e : live (step s e) = match e with Ctor | MoveCtor => S (live s) | Dtor => pred (live s) | _ => live s end.
Proof. destruct e; reflexivity. Qed.
Lemma valid_cons n e r : valid n (e :: r) -> valid n [e] /\ valid (match e with Ctor | MoveCtor => S n | Dtor => pred n | _ => n end) r.
Proof. destruct e; simpl; intuition. Qed.
Lemma inv_run es : forall s, inv s -> no_external es -> valid (live s) es -> inv (run es s).
Proof.
  induction es as [|e es IH]; intros s I X V; [assumption|]. unfold no_external in X. simpl in X. apply andb_prop in X as [X1 X2].
  apply valid_cons in V as [V1 V2]. apply negb_true_iff in X1. apply IH; [now apply inv_step|assumption|]. now rewrite live_step.
Qed.
Lemma inv0 : inv st0. Proof. repeat split; auto. Qed.
Lemma bad_run_gen es : forall s, inv s -> no_external es -> valid (live s) es -> bad_use s = false ->
  (forall a b, es = a ++ Use :: b -> (1 <= live (run a s))%nat) -> bad_use (run es s) = false.
Proof.
  induction es as [|e es IH]; intros s I X V B H; [assumption|]. unfold no_external in X. simpl in X.
  apply andb_prop in X as [X1 X2]. apply valid_cons in V as [V1 V2]. apply negb_true_iff in X1. simpl.
  apply IH; [now apply inv_step|assumption|now rewrite live_step| |].
  - destruct e; try discriminate; simpl; auto. rewrite B. destruct I as (_ & _ & U & _). rewrite U.
    specialize (H [] es eq_refl). simpl in H. destruct (live s); [lia|reflexivity].
  - intros a b E. apply (H (e :: a) b). now rewrite E.
Qed.

(** somebody else holds the library for the whole history *)
Definition inv_ext (s : st) : Prop := count s = Z.of_nat (live s) /\ (prev s = true \/ live s = 0%nat) /\ pcu s = true /\ calls s = [] /\ bad_use s = false.
Lemma inv_ext_step s e : inv_ext s -> external e = false -> valid (live s) [e] -> inv_ext (step s e).
Proof.
  intros (C & P & U & A & N) Hx V. destruct e; try discriminate; simpl in *; unfold inv_ext, ctor, moveCtor, moveAssign, dtor; simpl.
  - rewrite U, C, A, N. destruct P as [P|P]; rewrite P.
    + destruct (live s) as [|n]; simpl; repeat split; auto; lia.
    + simpl. repeat split; auto.
  - destruct V as [V _]. destruct P as [P|P]; [|lia]. rewrite C, P, U, A, N. repeat split; auto; lia.
  - auto 6 using conj.
  - destruct V as [V _]. destruct P as [P|P]; [|lia]. rewrite C, P, U, A, N. simpl. repeat split; auto; lia.
  - rewrite U, N. simpl. auto 6 using conj.
Qed.
Lemma inv_ext_run es : forall s, inv_ext s -> no_external es -> valid (live s) es -> inv_ext (run es s).
Proof.
  induction es as [|e es IH]; intros s I X V; [assumption|]. unfold no_external in X. simpl in X. apply andb_prop in X as [X1 X2].
  apply valid_cons in V as [V1 V2]. apply negb_true_iff in X1. apply IH; [now apply inv_ext_step|assumption|]. now rewrite live_step.
Qed.

(** extension *)
Fixpoint has_dot (s : string) : Prop := match s with EmptyString => False | String c r => c = "."%char \/ has_dot r end.
Lemma mesh_ext_no_dot f e : mesh_ext f = Some e -> ~ has_dot e.
Proof.
  revert e. induction f as [|c f IH]; simpl; intros e H; [discriminate|]. destruct (mesh_ext f) eqn:E.
  - apply IH. congruence.
  - destruct (Ascii.eqb_spec c "."%char); [|discriminate]. injection H as <-. clear - E.
    induction f as [|c f IH]; simpl in *; [tauto|]. destruct (mesh_ext f); [discriminate|].
    destruct (Ascii.eqb_spec c "."%char); [discriminate|]. intros [H|H]; [easy|]. now apply IH.
Qed.
Lemma mesh_ext_split f e : mesh_ext f = Some e -> exists p, f = append p (String "."%char e).
Proof.
  revert e. induction f as [|c f IH]; simpl; intros e H; [discriminate|]. destruct (mesh_ext f) eqn:E.
  - injection H as <-. destruct (IH _ eq_refl) as [p ->]. now exists (String c p).
  - destruct (Ascii.eqb_spec c "."%char) as [->|]; [|discriminate]. injection H as <-. now exists EmptyString.
Qed.
Lemma mesh_ext_nodot_none f : ~ has_dot f -> mesh_ext f = None.
Proof.
  induction f as [|c f IH]; simpl; intros H; [reflexivity|]. rewrite IH by tauto.
  destruct (Ascii.eqb_spec c "."%char); [tauto|reflexivity].
Qed.
Lemma mesh_ext_app p e : ~ has_dot e -> mesh_ext (append p (String "."%char e)) = Some e.
Proof.
  intros H. induction p as [|c p IH]; simpl; [|now rewrite IH]. now rewrite (mesh_ext_nodot_none e H).
Qed.
Lemma mesh_ext_some f e : mesh_ext f = Some e <-> exists p, f = append p (String "."%char e) /\ ~ has_dot e.
Proof.
  split.
  - intros H. destruct (mesh_ext_split _ _ H) as [p E]. exists p. split; [assumption|]. now apply (mesh_ext_no_dot f).
  - intros (p & -> & H). now apply mesh_ext_app.
Qed.
Lemma mesh_ext_none f : mesh_ext f = None <-> ~ has_dot f.
Proof.
  split; [|apply mesh_ext_nodot_none]. induction f as [|c f IH]; simpl; intros H; [tauto|].
  destruct (mesh_ext f); [discriminate|]. destruct (Ascii.eqb_spec c "."%char); [discriminate|]. intros [D|D]; [easy|]. now apply IH.
Qed.
