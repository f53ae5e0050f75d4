From Coq Require Import Reals Lra Lia List Bool Arith.
From Coquelicot Require Import Coquelicot.
From Verif Require Import Num Vec Deriv Form FormProofs Evolver EvolverSpec.
Import ListNotations.
Local Open Scope R_scope.

Lemma elim_nil A i j : elim_left [] A i j = A i j. Proof. reflexivity. Qed.
Lemma mv_ext n A B v i : (forall j, (j < n)%nat -> A i j = B i j) -> mv n A v i = mv n B v i.
Proof. intros H. unfold mv. apply rsum_ext. intros j Hj. now rewrite H. Qed.
Lemma mv_vext n A u v i : veq n u v -> mv n A u i = mv n A v i.
Proof. intros H. unfold mv. apply rsum_ext. intros j Hj. now rewrite H. Qed.
Lemma mv_scal n A a v i : mv n A (fun j => a * v j) i = a * mv n A v i.
Proof. unfold mv. rewrite <- rsum_scal. apply rsum_ext; intros; ring. Qed.
Lemma mv_plus n A u v i : mv n A (fun j => u j + v j) i = mv n A u i + mv n A v i.
Proof. unfold mv. rewrite <- rsum_plus. apply rsum_ext; intros; ring. Qed.
Lemma mv_elim_free n E A v i : ~ List.In i E -> (forall j, List.In j E -> v j = 0) -> mv n (elim_left E A) v i = mv n A v i.
Proof.
  intros HE Hv. unfold mv. apply rsum_ext. intros j _. unfold elim_left.
  assert (memb i E = false) as -> by (destruct (memb i E) eqn:B; [apply memb_in in B; contradiction|reflexivity]). cbn [orb].
  destruct (memb j E) eqn:B; [|reflexivity]. apply memb_in in B. rewrite Hv by auto. ring.
Qed.

(** what the constructor leaves, kept by every call *)
Definition built (c : config) (e : evolver) : Prop :=
  e_cfg e = c /\ e_mass e = option_map (fun b => elim_left [] (b_mat b)) (c_mass c) /\
  e_stiff e = option_map (fun b => elim_left (c_ess c) (b_mat b)) (c_stiff c).
Lemma built_construct c w0 e : construct c w0 = EOk e -> built c e /\ e_work e = w0 /\ e_par e = {| p_dt := 0; p_x := None; p_stage := 0 |}.
Proof.
  unfold construct, built. destruct (check c); try discriminate. cbn [ebind].
  destruct (c_stiff c) as [b|]; [destruct (b_level b)|]; intros H; try discriminate; injection H as <-; cbn; auto.
Qed.
Lemma built_step c e k e1 : built c e -> estep e k = EOk e1 -> built c e1.
Proof.
  intros [B1 [B2 B3]]. destruct k as [cg x y|w dt x|x|x|dt x k]; cbn [estep].
  - unfold ev_mult. rewrite B1. destruct (c_nmass c); [discriminate|]. rewrite B2. destruct (c_mass c) as [b|] eqn:HM; cbn; [|discriminate].
    intros H. injection H as <-. unfold built. cbn. rewrite HM. auto.
  - unfold implicitSolve. destruct w as [nw|]; [|discriminate]. destruct (newton_mult _ _ _ _) as [[k conv]| | |]; cbn; try discriminate.
    destruct (_ && _); cbn; [discriminate|]. intros H. injection H as <-. unfold built. cbn. auto.
  - destruct (ev_gradient _ _); cbn; try discriminate. intros H. injection H as <-. unfold built; auto.
  - destruct (ev_entropy _ _); cbn; try discriminate. intros H. injection H as <-. unfold built; auto.
  - destruct (ev_entropy_change _ _ _ _); cbn; try discriminate. intros H. injection H as <-. unfold built; auto.
Qed.
Lemma built_run c l : forall e e1, built c e -> erun e l = EOk e1 -> built c e1.
Proof.
  induction l as [|k l IH]; intros e e1 B H; cbn [erun] in H; [injection H as <-; exact B|].
  destruct (estep e k) as [e2| | |] eqn:S; try discriminate. apply (IH e2); [|exact H]. now apply (built_step c e k).
Qed.
Lemma work_step_other e k e1 : (forall cg x y, k <> EMult cg x y) -> estep e k = EOk e1 -> e_work e1 = e_work e.
Proof.
  intros Hk. destruct k as [cg x y|w dt x|x|x|dt x k]; cbn [estep]; [now contradiction (Hk cg x y)|..].
  - unfold implicitSolve. destruct w as [nw|]; [|discriminate]. destruct (newton_mult _ _ _ _) as [[k conv]| | |]; cbn; try discriminate.
    destruct (_ && _); cbn; [discriminate|]. intros H. injection H as <-. reflexivity.
  - destruct (ev_gradient _ _); cbn; try discriminate. intros H. now injection H as <-.
  - destruct (ev_entropy _ _); cbn; try discriminate. intros H. now injection H as <-.
  - destruct (ev_entropy_change _ _ _ _); cbn; try discriminate. intros H. now injection H as <-.
Qed.

(** derivative of a form along the slope *)
Lemma step_derive n F G x dt k v i : on_entries n F -> jacobian_of n F G -> (i < n)%nat ->
  is_derive (fun t : R => F (axpy x dt (fun j => k j + t * v j)) i) 0 (dt * mv n (G (axpy x dt k)) v i).
Proof.
  intros HE HJ Hi. pose proof (HJ (axpy x dt k) (fun j => dt * v j) i Hi) as K. rewrite mv_scal in K.
  eapply is_derive_ext; [|exact K]. intros t. cbv beta. apply HE; [|exact Hi]. intros j _. unfold axpy. ring.
Qed.
Lemma zero_at_free E (v : vec) i : ~ List.In i E -> zero_at E v i = v i.
Proof. apply zero_at_out. Qed.

(** value of the system operator on a free row *)
Definition inertia (c : config) (p : params) (x k : vec) (i : nat) : R :=
  match c_nmass c with None => 0 | Some N => (nl_mult N (axpy x (p_stage p) k) i - nl_mult N x i) * (1 / p_stage p) end.
Lemma sys_value c p x F k : p_x p = Some x -> c_res c = Some F -> exists r, sys_mult c p k = EOk r /\
  (forall i, ~ List.In i (c_ess c) -> r i = inertia c p x k i + nl_mult F (axpy x (p_dt p) k) i + vector_term (c_load c) i
     + match c_mass c with Some b => mv (c_n c) (b_mat b) k i | None => 0 end) /\
  (forall i b, c_mass c = Some b -> List.In i (c_ess c) -> r i = 0).
Proof.
  intros HX HF. unfold sys_mult. rewrite HX, HF. eexists. split; [reflexivity|]. unfold inertia, sys_ess. rewrite HF.
  split.
  - intros i Hi. destruct (c_nmass c), (c_load c), (c_mass c); cbn [vector_term]; repeat rewrite zero_at_out by auto; unfold vadd;
      repeat rewrite zero_at_out by auto; ring.
  - intros i b HM Hi. rewrite HM. now apply zero_at_in.
Qed.
Lemma sys_grad_value c p x F k : p_x p = Some x -> c_res c = Some F -> exists J, sys_grad c p k = EOk J /\
  (forall v i, List.In i (c_ess c) -> (i < c_n c)%nat -> mv (c_n c) J v i = v i) /\
  (forall v i, ~ List.In i (c_ess c) -> (forall j, List.In j (c_ess c) -> v j = 0) -> mv (c_n c) J v i =
     match c_nmass c, c_mass c with
     | Some N, _ => mv (c_n c) (nl_grad N (axpy x (p_stage p) k)) v i + p_dt p * mv (c_n c) (nl_grad F (axpy x (p_dt p) k)) v i
     | None, Some b => mv (c_n c) (b_mat b) v i + p_dt p * mv (c_n c) (nl_grad F (axpy x (p_dt p) k)) v i
     | None, None => mv (c_n c) (nl_grad F (axpy x (p_dt p) k)) v i
     end).
Proof.
  intros HX HF. unfold sys_grad. rewrite HX, HF. eexists. split; [reflexivity|].
  assert (sys_ess c = c_ess c) as -> by (unfold sys_ess; rewrite HF; now destruct (c_mass c)).
  split.
  - intros v i Hi Hn. now apply row_ess.
  - intros v i Hi Hv. rewrite mv_elim_free by auto. destruct (c_nmass c), (c_mass c); try reflexivity;
      unfold mv; rewrite <- rsum_scal, <- rsum_plus; apply rsum_ext; intros; ring.
Qed.

(** Newton's method *)
Lemma newton_inv w c p x F goal : p_x p = Some x -> c_res c = Some F ->
  forall (I : vec -> Prop),
  (forall k r J, I k -> sys_mult c p k = EOk r -> sys_grad c p k = EOk J -> I (axpy k (-1) (nw_lin w J r))) ->
  forall rem k r, I k -> sys_mult c p k = EOk r ->
  exists k1 b r1, newton_loop w c p goal rem k r = EOk (k1, b) /\ I k1 /\ sys_mult c p k1 = EOk r1 /\ (b = true -> norm (c_n c) r1 <= goal).
Proof.
  intros HX HF I HI. induction rem as [|rem IH]; intros k r Ik Hr; cbn [newton_loop].
  - destruct (Rleb_spec (norm (c_n c) r) goal).
    + exists k, true, r. auto.
    + exists k, false, r. repeat split; auto. discriminate.
  - destruct (Rleb_spec (norm (c_n c) r) goal).
    + exists k, true, r. auto.
    + destruct (sys_grad_value c p x F k HX HF) as [J [HJ _]]. rewrite HJ. cbn [ebind].
      destruct (sys_value c p x F (axpy k (-1) (nw_lin w J r)) HX HF) as [r1 [H1 _]]. rewrite H1. cbn [ebind].
      apply IH; [|exact H1]. eapply HI; eauto.
Qed.
