From Coq Require Import Reals Lra Lia List Bool Arith String FunctionalExtensionality.
From Coquelicot Require Import Coquelicot.
From Verif Require Import Vec Deriv EmIntegSpec EmInteg EmIntegProofs EmMeshProofs SbpSpec SbpMeshProofs CommonFun CommonFunSpec CommonFunProofs
  FieldFun FieldFunSpec FieldFunProofs Transfer TransferSpec.
Import ListNotations.
Local Open Scope R_scope.

Section Transfer.
Variable OS : ospace.
Variable sg : elem -> nat -> R.
Notation el := (el_state sg).

(** ** assembly *)
Lemma transfer_dot Op M X u ob NO : (forall e, In e M -> forall q c, (q < e_nq e)%nat -> (c < o_nc Op)%nat -> (os_dof OS e q c < NO)%nat) ->
  dot NO ob (transfer OS sg Op M X u) =
  lsum (fun e => rsum (e_nq e) (fun q => rsum (o_nc Op) (fun c => el_adj OS e ob q c * o_val Op e (nodes_of e X) (el e u) q c))) M.
Proof.
  intros H. unfold dot, transfer.
  rewrite (rsum_ext NO _ (fun J => lsum (fun e => ob J * rsum (e_nq e) (fun q => rsum (o_nc Op) (fun c =>
    if Nat.eqb J (os_dof OS e q c) then o_val Op e (nodes_of e X) (el e u) q c else 0))) M)) by (intros; now rewrite lsum_scal).
  rewrite <- lsum_rsum. apply lsum_ext. intros e He.
  rewrite (rsum_ext NO _ (fun J => rsum (e_nq e) (fun q => rsum (o_nc Op) (fun c =>
     if Nat.eqb J (os_dof OS e q c) then ob J * o_val Op e (nodes_of e X) (el e u) q c else 0)))).
  - rewrite rsum_swap. apply rsum_ext. intros q Hq. rewrite rsum_swap. apply rsum_ext. intros c Hc.
    now rewrite (rsum_delta NO (fun J => ob J * o_val Op e (nodes_of e X) (el e u) q c)) by (now apply H).
  - intros J _. rewrite <- rsum_scal. apply rsum_ext. intros q _. rewrite <- rsum_scal. apply rsum_ext. intros c _. destruct (Nat.eqb J (os_dof OS e q c)); ring.
Qed.
Lemma el_along e u v t : el e (along u v t) = along (el e u) (el e v) t.
Proof. apply functional_extensionality; intros i. unfold el_state, along. ring. Qed.

Definition psi_value (Op : operation) (e : elem) (X : mat) (u : vec) (psi : mat) : R :=
  rsum (e_nq e) (fun q => rsum (o_nc Op) (fun c => psi q c * o_val Op e X u q c)).
Lemma state_vjp_ok Op M X u v ob wb N NO NN : numbered OS (o_nc Op) N NO NN M -> all_defined sg Op M X u = true ->
  (forall e psi, In e M -> is_derive (fun t => psi_value Op e (nodes_of e X) (along (el e u) (el e v) t) psi) 0
     (dot (e_ndof e) (o_state_bar Op e (nodes_of e X) (el e u) psi) (el e v))) ->
  exists r d, transfer_state_vjp OS sg Op M X u ob wb = Some r /\
    is_derive (fun t => dot NO ob (transfer OS sg Op M X (along u v t))) 0 d /\ dot N r v = dot N wb v + d.
Proof.
  intros H D K. unfold transfer_state_vjp. rewrite D. do 2 eexists. split; [reflexivity|]. split.
  - apply (DV_ext (fun t => lsum (fun e => psi_value Op e (nodes_of e X) (along (el e u) (el e v) t) (el_adj OS e ob)) M)).
    + intros t. rewrite transfer_dot by (intros e He; apply (H e He)). apply lsum_ext. intros e _. rewrite el_along. reflexivity.
    + apply (lsum_derive (fun e t => psi_value Op e (nodes_of e X) (along (el e u) (el e v) t) (el_adj OS e ob))). intros e He. exact (K e _ He).
  - unfold dot at 1 2.
    rewrite (rsum_ext N _ (fun J => wb J * v J + lsum (fun e => rsum (e_ndof e) (fun i => if Nat.eqb J (e_dof e i) then
        sg e i * o_state_bar Op e (nodes_of e X) (el e u) (el_adj OS e ob) i else 0) * v J) M)) by (intros; rewrite lsum_scal_r; ring).
    rewrite rsum_plus. f_equal. rewrite <- lsum_rsum. apply lsum_ext. intros e He.
    assert (Q := scatter_dot N (e_ndof e) (e_dof e) (fun i => sg e i * o_state_bar Op e (nodes_of e X) (el e u) (el_adj OS e ob) i) v (proj1 (H e He))).
    unfold scatter_to in Q. rewrite Q. unfold dot. apply rsum_ext. intros i _. unfold el_state. ring.
Qed.
Lemma mesh_vjp_ok Op M X V u ob wb sdim N NO NN : numbered OS (o_nc Op) N NO NN M -> all_defined sg Op M X u = true ->
  (forall e psi, In e M -> is_derive (fun t => psi_value Op e (moved (nodes_of e X) (nodes_of e V) t) (el e u) psi) 0
     (pairing sdim (e_nn e) (o_mesh_bar Op e (nodes_of e X) (el e u) psi) (nodes_of e V))) ->
  exists r d, transfer_mesh_vjp OS sg Op M X u ob wb = Some r /\
    is_derive (fun t => dot NO ob (transfer OS sg Op M (moved X V t) u)) 0 d /\ pairing sdim NN r V = pairing sdim NN wb V + d.
Proof.
  intros H D K. unfold transfer_mesh_vjp. rewrite D. do 2 eexists. split; [reflexivity|]. split.
  - apply (DV_ext (fun t => lsum (fun e => psi_value Op e (moved (nodes_of e X) (nodes_of e V) t) (el e u) (el_adj OS e ob)) M)).
    + intros t. rewrite transfer_dot by (intros e He; apply (H e He)). apply lsum_ext. intros e _. rewrite nodes_moved. reflexivity.
    + apply (lsum_derive (fun e t => psi_value Op e (moved (nodes_of e X) (nodes_of e V) t) (el e u) (el_adj OS e ob))). intros e He. exact (K e _ He).
  - rewrite pairing_plus. f_equal.
    assert (Q : forall k, rsum NN (fun J => lsum (fun e => rsum (e_nn e) (fun j => if Nat.eqb J (e_node e j) then
        o_mesh_bar Op e (nodes_of e X) (el e u) (el_adj OS e ob) k j else 0)) M * V k J) =
      lsum (fun e => rsum (e_nn e) (fun j => o_mesh_bar Op e (nodes_of e X) (el e u) (el_adj OS e ob) k j * V k (e_node e j))) M).
    { intros k. rewrite (rsum_ext NN _ (fun J => lsum (fun e => scatter_to (e_nn e) (e_node e) (o_mesh_bar Op e (nodes_of e X) (el e u) (el_adj OS e ob) k) J * V k J) M))
        by (intros; now rewrite <- lsum_scal_r).
      rewrite <- lsum_rsum. apply lsum_ext. intros e He. exact (scatter_dot NN (e_nn e) (e_node e) _ (V k) (proj2 (proj2 (H e He)))). }
    unfold pairing at 1. rewrite (rsum_ext sdim _ _ (fun k _ => Q k)). rewrite <- lsum_rsum. reflexivity.
Qed.

(** ** the value at a dof *)
Lemma lsum_nth {A} (f : A -> R) (l : list A) : forall a e, nth_error l a = Some e -> (forall b g, nth_error l b = Some g -> b <> a -> f g = 0) -> lsum f l = f e.
Proof.
  induction l as [|x l IH]; intros a e Ha Hz; [destruct a; discriminate|]. unfold lsum. cbn [fold_right]. fold (lsum f l).
  destruct a as [|a].
  - cbn in Ha. injection Ha as ->. rewrite (lsum_ext f (fun _ => 0) l).
    + rewrite lsum_0. ring.
    + intros y Hy. destruct (In_nth_error l y Hy) as [b Hb]. apply (Hz (Datatypes.S b)); [exact Hb|lia].
  - rewrite (Hz 0%nat x eq_refl ltac:(lia)), Rplus_0_l. apply (IH a e Ha). intros b g Hb Hn. apply (Hz (Datatypes.S b)); [exact Hb|lia].
Qed.
Lemma transfer_value Op M X u a e q c : discontinuous OS (o_nc Op) M -> nth_error M a = Some e -> (q < e_nq e)%nat -> (c < o_nc Op)%nat ->
  transfer OS sg Op M X u (os_dof OS e q c) = o_val Op e (nodes_of e X) (el e u) q c.
Proof.
  intros D Ha Hq Hc. unfold transfer. rewrite (lsum_nth _ M a e Ha).
  - rewrite (rsum_ext (e_nq e) _ (fun r => if Nat.eqb r q then o_val Op e (nodes_of e X) (el e u) r c else 0)).
    + now rewrite (rsum_delta (e_nq e) (fun r => o_val Op e (nodes_of e X) (el e u) r c) q Hq).
    + intros r Hr. rewrite (rsum_ext (o_nc Op) _ (fun d => if Nat.eqb d c then (if Nat.eqb r q then o_val Op e (nodes_of e X) (el e u) r d else 0) else 0)).
      * now rewrite (rsum_delta (o_nc Op) (fun d => if Nat.eqb r q then o_val Op e (nodes_of e X) (el e u) r d else 0) c Hc).
      * intros d Hd. destruct (Nat.eqb_spec (os_dof OS e q c) (os_dof OS e r d)) as [E|E].
        -- destruct (D a a e e q r c d Ha Ha Hq Hr Hc Hd E) as [_ [-> ->]]. now rewrite !Nat.eqb_refl.
        -- destruct (Nat.eqb_spec d c); [|reflexivity]. destruct (Nat.eqb_spec r q); [subst; congruence|reflexivity].
  - intros b g Hb Hn. rewrite (rsum_ext (e_nq g) _ (fun _ => 0)); [apply rsum_0|]. intros r Hr.
    rewrite (rsum_ext (o_nc Op) _ (fun _ => 0)); [apply rsum_0|]. intros d Hd.
    destruct (Nat.eqb_spec (os_dof OS e q c) (os_dof OS g r d)) as [E|E]; [|reflexivity].
    destruct (D a b e g q r c d Ha Hb Hq Hr Hc Hd E) as [F _]. congruence.
Qed.

(** ** elements *)
Lemma adj_nodal M e X psi q c : nodal OS M -> In e M -> (q < e_nq e)%nat -> adj_at OS e X psi q c = psi q c.
Proof.
  intros H He Hq. unfold adj_at. destruct (H e q He Hq) as [S _].
  rewrite (rsum_ext (e_nq e) _ (fun p => if Nat.eqb p q then psi p c else 0)).
  - now rewrite (rsum_delta (e_nq e) (fun p => psi p c) q Hq).
  - intros p Hp. rewrite S by exact Hp. destruct (Nat.eqb p q); ring.
Qed.

Section SI.
Variables (N : elem -> nat -> mat -> vec) (NRev : elem -> nat -> mat -> vec -> mat).
Lemma si_state M e X u v psi : nodal OS M -> In e M ->
  is_derive (fun t => psi_value (ScalarIdentity OS N NRev) e X (along u v t) psi) 0 (dot (e_ndof e) (si_state_bar OS N e X u psi) v).
Proof.
  intros H He. unfold si_state_bar. rewrite (grad_dot (e_ndof e) (e_nq e) (fun q => 1 * adj_at OS e X psi q 0) (fun q => N e q X) v).
  unfold psi_value. cbn [o_nc o_val ScalarIdentity rsum].
  apply (DV_sum (e_nq e) (fun q t => 0 + psi q 0%nat * si_val N e X (along u v t) q 0)). intros q Hq.
  rewrite (adj_nodal M e X psi q 0 H He Hq).
  apply (DV_eq _ 0 (0 + psi q 0%nat * dot (e_ndof e) (N e q X) v)); [|ring].
  apply DV_plus; [exact (DV_const 0 0)|]. apply DV_scal. apply shape_derive.
Qed.
Lemma pairing_zero n m V : pairing n m (fun _ _ => 0) V = 0.
Proof. unfold pairing. rewrite (rsum_ext n _ (fun _ => 0)); [apply rsum_0|]. intros; rewrite (rsum_ext m _ (fun _ => 0)); [apply rsum_0|]; intros; ring. Qed.
Lemma os_rev_zero M e X B q sdim V : nodal OS M -> In e M -> (q < e_nq e)%nat -> pairing sdim (e_nn e) (os_rev OS e q X B) V = 0.
Proof. intros H He Hq. rewrite (pairing_ext _ _ _ (fun _ _ => 0)); [apply pairing_zero|]. intros k j _ _. now apply (H e q He Hq). Qed.
Lemma si_mesh M e X V u psi sdim : nodal OS M -> In e M -> (forall q, (q < e_nq e)%nat -> rev_vector sdim (e_nn e) (e_ndof e) (N e q) (NRev e q)) ->
  is_derive (fun t => psi_value (ScalarIdentity OS N NRev) e (moved X V t) u psi) 0 (pairing sdim (e_nn e) (si_mesh_bar OS N NRev e X u psi) V).
Proof.
  intros H He HN. unfold si_mesh_bar. rewrite pairing_sum. unfold psi_value. cbn [o_nc o_val ScalarIdentity rsum].
  apply (DV_sum (e_nq e) (fun q t => 0 + psi q 0%nat * si_val N e (moved X V t) u q 0)). intros q Hq.
  rewrite pairing_plus, (os_rev_zero M) by assumption.
  rewrite (adj_nodal M e X psi q 0 H He Hq).
  assert (K := HN q Hq X V (fun i => 1 * psi q 0%nat * u i)).
  apply (DV_eq _ 0 (pairing sdim (e_nn e) (NRev e q X (fun i => 1 * psi q 0%nat * u i)) V)); [|ring].
  revert K. apply DV_ext. intros t. unfold si_val, dot. rewrite Rplus_0_l, <- rsum_scal. apply rsum_ext. intros; ring.
Qed.
End SI.

Section VI.
Variables (sdim : nat) (Vs : elem -> nat -> mat -> mat) (VRev : elem -> nat -> mat -> mat -> mat) (junk : elem -> vec).
Notation op := (VectorIdentity OS sdim Vs VRev junk).
Lemma vi_value_lin e X u v t q c : vi_val Vs e X (along u v t) q c = vi_val Vs e X u q c + t * vi_val Vs e X v q c.
Proof. unfold vi_val, along. rewrite <- rsum_scal, <- rsum_plus. apply rsum_ext; intros; ring. Qed.
Lemma lin_derive (a b : R) : is_derive (fun t => a + t * b) 0 b.
Proof. apply (DV_eq _ 0 (0 + 1 * b)); [|ring]. apply DV_plus; [exact (DV_const a 0)|]. apply DV_scal_r. exact (DV_id 0). Qed.
Lemma vi_state M e X u v psi : nodal OS M -> In e M ->
  is_derive (fun t => psi_value op e X (along u v t) psi) 0 (dot (e_ndof e) (vi_state_bar OS sdim Vs e X u psi) v).
Proof.
  intros H He.
  assert (G : dot (e_ndof e) (vi_state_bar OS sdim Vs e X u psi) v = rsum (e_nq e) (fun q => rsum sdim (fun c => psi q c * vi_val Vs e X v q c))).
  { unfold dot, vi_state_bar.
    rewrite (rsum_ext (e_ndof e) _ (fun i => rsum (e_nq e) (fun q => rsum sdim (fun c => psi q c * (Vs e q X i c * v i))))).
    - rewrite rsum_swap. apply rsum_ext. intros q _. rewrite rsum_swap. apply rsum_ext. intros c _. unfold vi_val. now rewrite rsum_scal.
    - intros i _. rewrite <- rsum_scal_r. apply rsum_ext. intros q Hq. rewrite <- rsum_scal_r. apply rsum_ext. intros c _. rewrite (adj_nodal M e X psi q c H He Hq). ring. }
  rewrite G. unfold psi_value. cbn [o_nc o_val VectorIdentity].
  apply (DV_sum (e_nq e) (fun q t => rsum sdim (fun c => psi q c * vi_val Vs e X (along u v t) q c))). intros q _.
  apply (DV_sum sdim (fun c t => psi q c * vi_val Vs e X (along u v t) q c)). intros c _. apply DV_scal.
  apply (DV_ext (fun t => vi_val Vs e X u q c + t * vi_val Vs e X v q c)); [intros; symmetry; apply vi_value_lin|]. apply lin_derive.
Qed.
Lemma vi_mesh M e X V u psi : nodal OS M -> In e M -> (forall q, (q < e_nq e)%nat -> rev_table sdim (e_nn e) (e_ndof e) sdim (Vs e q) (VRev e q)) ->
  is_derive (fun t => psi_value op e (moved X V t) u psi) 0 (pairing sdim (e_nn e) (vi_mesh_bar OS sdim Vs VRev junk e X u psi) V).
Proof.
  intros H He HV. unfold vi_mesh_bar. rewrite pairing_sum. unfold psi_value. cbn [o_nc o_val VectorIdentity].
  apply (DV_sum (e_nq e) (fun q t => rsum sdim (fun c => psi q c * vi_val Vs e (moved X V t) u q c))). intros q Hq.
  rewrite pairing_plus, (os_rev_zero M) by assumption. rewrite Rplus_0_l.
  assert (K := HV q Hq X V (fun i c => u i * (1 * adj_at OS e X psi q c))).
  revert K. apply DV_ext. intros t. unfold pairing. rewrite rsum_swap. apply rsum_ext. intros c _. unfold vi_val. rewrite <- rsum_scal. apply rsum_ext. intros i _.
  rewrite (adj_nodal M e X psi q c H He Hq). ring.
Qed.
End VI.

Section Curls.
Variables (sdim : nat) (shape : elem -> nat -> mat) (Adj Jac : elem -> nat -> mat -> mat) (AdjRev JacRev : elem -> nat -> mat -> mat -> mat).
Variable three : bool.
Variable junk : elem -> vec.
Notation cop := (Curl OS sdim shape Adj Jac AdjRev JacRev three junk).
Notation cmop := (CurlMagnitude OS sdim shape Adj Jac AdjRev JacRev three).
Notation S_ := (co_S sdim shape Adj Jac three).
Notation vec_ := (co_vec sdim shape Adj Jac three).
Lemma co_vec_lin e X u v t q c : vec_ e X (along u v t) q c = vec_ e X u q c + t * vec_ e X v q c.
Proof. unfold co_vec, along. rewrite <- rsum_scal, <- rsum_plus. apply rsum_ext; intros; ring. Qed.
Lemma co_state M e X u v psi : nodal OS M -> In e M ->
  is_derive (fun t => psi_value cop e X (along u v t) psi) 0 (dot (e_ndof e) (co_state_bar OS sdim shape Adj Jac three e X u psi) v).
Proof.
  intros H He.
  assert (G : dot (e_ndof e) (co_state_bar OS sdim shape Adj Jac three e X u psi) v = rsum (e_nq e) (fun q => rsum sdim (fun c => psi q c * (vec_ e X v q c * / e_W e q X)))).
  { unfold dot, co_state_bar.
    rewrite (rsum_ext (e_ndof e) _ (fun i => rsum (e_nq e) (fun q => rsum sdim (fun c => psi q c * / e_W e q X * (S_ e X q i c * v i))))).
    - rewrite rsum_swap. apply rsum_ext. intros q _. rewrite rsum_swap. apply rsum_ext. intros c _. unfold co_vec. rewrite rsum_scal. ring.
    - intros i _. rewrite <- rsum_scal_r. apply rsum_ext. intros q Hq. rewrite <- rsum_scal_r. apply rsum_ext. intros c _. rewrite (adj_nodal M e X psi q c H He Hq). unfold Rdiv. ring. }
  rewrite G. unfold psi_value. cbn [o_nc o_val Curl].
  apply (DV_sum (e_nq e) (fun q t => rsum sdim (fun c => psi q c * co_val sdim shape Adj Jac three e X (along u v t) q c))). intros q _.
  apply (DV_sum sdim (fun c t => psi q c * co_val sdim shape Adj Jac three e X (along u v t) q c)). intros c _. apply DV_scal. unfold co_val, Rdiv. apply DV_scal_r.
  apply (DV_ext (fun t => vec_ e X u q c + t * vec_ e X v q c)); [intros; symmetry; apply co_vec_lin|]. apply lin_derive.
Qed.
(** one node: the bars of the shapes and of the weight *)
Lemma co_point e X V u q (psi : vec) (dS : mat) dW : e_W e q X <> 0 ->
  (forall i c, (i < e_ndof e)%nat -> (c < sdim)%nat -> is_derive (fun t => S_ e (moved X V t) q i c) 0 (dS i c)) ->
  is_derive (fun t => e_W e q (moved X V t)) 0 dW ->
  is_derive (fun t => rsum sdim (fun c => psi c * co_val sdim shape Adj Jac three e (moved X V t) u q c)) 0
    (rsum sdim (fun c => rsum (e_ndof e) (fun i => 1 / e_W e q X * psi c * u i * dS i c)) + -1 * dot sdim psi (vec_ e X u q) / e_W e q X ^ 2 * dW).
Proof.
  intros Z HS HW.
  assert (E : rsum sdim (fun c => rsum (e_ndof e) (fun i => 1 / e_W e q X * psi c * u i * dS i c)) + -1 * dot sdim psi (vec_ e X u q) / e_W e q X ^ 2 * dW =
    rsum sdim (fun c => psi c * ((rsum (e_ndof e) (fun i => dS i c * u i) * e_W e q X - vec_ e X u q c * dW) / (e_W e q X * e_W e q X)))).
  { rewrite (rsum_ext sdim _ (fun c => 1 / e_W e q X * (psi c * rsum (e_ndof e) (fun i => dS i c * u i)))).
    - rewrite (rsum_ext sdim (fun c => psi c * _) (fun c => 1 / e_W e q X * (psi c * rsum (e_ndof e) (fun i => dS i c * u i)) + (-1 / e_W e q X ^ 2 * dW) * (psi c * vec_ e X u q c))).
      + rewrite rsum_plus, (rsum_scal sdim (-1 / e_W e q X ^ 2 * dW)). unfold dot. f_equal. field. exact Z.
      + intros c _. field. exact Z.
    - intros c _. rewrite <- !rsum_scal. apply rsum_ext. intros; ring. }
  rewrite E. apply (DV_sum sdim (fun c t => psi c * co_val sdim shape Adj Jac three e (moved X V t) u q c)). intros c Hc. apply DV_scal. unfold co_val.
  assert (DQ := DV_div (fun t => vec_ e (moved X V t) u q c) (fun t => e_W e q (moved X V t)) 0 (rsum (e_ndof e) (fun i => dS i c * u i)) dW).
  cbv beta in DQ. rewrite !moved_0' in DQ. apply DQ; [|exact HW|exact Z].
  unfold co_vec. apply (DV_sum (e_ndof e) (fun i t => S_ e (moved X V t) q i c * u i)). intros i Hi. apply DV_scal_r. now apply HS.
Qed.
Lemma gtc_pair n m (u b : vec) (G : mat) : m = 2%nat -> rsum m (fun c => rsum n (fun i => b c * u i * grad_to_curl G i c)) =
  rsum m (fun k => rsum n (fun i => -1 * grad_to_curl (fun i c => u i * b c) i k * G i k)).
Proof. intros ->. cbn [rsum grad_to_curl]. rewrite !Rplus_0_l, <- !rsum_plus. apply rsum_ext. intros; ring. Qed.
Lemma co_mesh M e X V u psi : nodal OS M -> In e M -> (three = false -> sdim = 2%nat) ->
  (forall q, (q < e_nq e)%nat -> rev_scalar sdim (e_nn e) (e_W e q) (e_WRev e q)) ->
  (if three then forall q, (q < e_nq e)%nat -> rev_matrix sdim (e_nn e) (Jac e q) (JacRev e q)
   else forall q, (q < e_nq e)%nat -> rev_matrix sdim (e_nn e) (Adj e q) (AdjRev e q)) ->
  (forall q, (q < e_nq e)%nat -> e_W e q X <> 0) ->
  is_derive (fun t => psi_value cop e (moved X V t) u psi) 0 (pairing sdim (e_nn e) (co_mesh_bar OS sdim shape Adj Jac AdjRev JacRev three junk e X u psi) V).
Proof.
  intros H He H2 HR HM HZ. unfold co_mesh_bar. rewrite pairing_sum. unfold psi_value. cbn [o_nc o_val Curl].
  apply (DV_sum (e_nq e) (fun q t => rsum sdim (fun c => psi q c * co_val sdim shape Adj Jac three e (moved X V t) u q c))). intros q Hq.
  rewrite !pairing_plus, (os_rev_zero M) by assumption. rewrite Rplus_0_r.
  destruct (rev_scalar_entries _ _ _ _ X V (HR q Hq)) as [dW [D3 D4]]. rewrite D4.
  assert (WB : co_W_bar OS sdim shape Adj Jac three e X u psi q = -1 * dot sdim (psi q) (vec_ e X u q) / e_W e q X ^ 2).
  { unfold co_W_bar. do 2 f_equal. unfold dot. apply rsum_ext. intros c _. now rewrite (adj_nodal M e X psi q c H He Hq). }
  rewrite WB. clear WB.
  assert (VB : forall c, co_vec_bar OS e X psi q c = 1 / e_W e q X * psi q c) by (intros c; unfold co_vec_bar; now rewrite (adj_nodal M e X psi q c H He Hq)).
  destruct three eqn:E3.
  - destruct (rev_matrix_entries _ _ _ _ X V (HM q Hq)) as [dA [D1 D2]]. rewrite D2.
    rewrite (pairing_ext sdim sdim _ (fun k a => rsum (e_ndof e) (fun i => (fun i k => u i * (1 / e_W e q X * psi q k)) i k * shape e q i a)))
      by (intros k a _ _; apply rsum_ext; intros; rewrite VB; ring).
    rewrite (jac_bar_pair (e_ndof e) sdim (shape e) q).
    assert (K := co_point e X V u q (psi q) (fun i k => rsum sdim (fun a => shape e q i a * dA k a)) dW (HZ q Hq)). rewrite E3 in K.
    apply (DV_eq _ 0 _ _ (K ltac:(intros i c Hi Hc; unfold co_S; exact (cshape_derive (e_ndof e) sdim (shape e) (Jac e) X V q dA D1 i c Hi Hc)) D3)).
    rewrite Rplus_comm. f_equal. apply rsum_ext. intros c _. apply rsum_ext. intros i _. ring.
  - specialize (H2 eq_refl).
    destruct (rev_matrix_entries _ _ _ _ X V (HM q Hq)) as [dA [D1 D2]]. rewrite D2.
    rewrite (adj_bar_pair (e_ndof e) sdim (shape e) q (co_scratch_bar OS e X u psi q)).
    assert (DS := dshape_derive (e_ndof e) sdim (shape e) (Adj e) X V q dA D1).
    assert (K := co_point e X V u q (psi q) (grad_to_curl (fun i k => rsum sdim (fun a => shape e q i a * dA a k))) dW (HZ q Hq)). rewrite E3 in K.
    apply (DV_eq _ 0 _ _ (K ltac:(intros i c Hi Hc; unfold co_S, grad_to_curl; destruct c as [|c];
      [exact (is_derive_opp (fun t => dshapedxt sdim (shape e) (Adj e) (moved X V t) q i 1%nat) 0 (rsum sdim (fun a => shape e q i a * dA a 1%nat)) (DS i 1%nat Hi ltac:(lia)))
      |exact (DS i 0%nat Hi ltac:(lia))]) D3)).
    rewrite Rplus_comm. f_equal.
    rewrite (gtc_pair (e_ndof e) sdim u (fun c => 1 / e_W e q X * psi q c) (fun i k => rsum sdim (fun a => shape e q i a * dA a k)) H2).
    apply rsum_ext. intros c _. apply rsum_ext. intros i _. unfold co_scratch_bar. do 2 f_equal. unfold grad_to_curl. destruct c; now rewrite VB.
Qed.
(** magnitude: the element functionals of FieldFun with the adjoint as weight *)
Definition weighted (psi : elem -> nat -> R) : pointfun := {|
  pf_val := fun e q n W => psi e q * (n / W);
  pf_norm_bar := fun e q n W => 1 * psi e q / W;
  pf_W_bar := fun e q n W => - (1 * psi e q) * n / W ^ 2 |}.
Lemma weighted_ok psi : partials_ok (weighted psi).
Proof.
  intros e q n W dn dW N P A B. cbn [pf_val pf_norm_bar pf_W_bar weighted].
  apply (DV_eq _ 0 (psi e q * ((dn * W 0 - n 0 * dW) / (W 0 * W 0)))); [|field; lra]. apply DV_scal. now apply mag_path.
Qed.
Lemma cm_state M e X u v psi : nodal OS M -> In e M -> (forall q, (q < e_nq e)%nat -> 0 < e_W e q X) ->
  (forall q, (q < e_nq e)%nat -> ff_norm sdim shape Adj Jac three e X q u <> 0) ->
  is_derive (fun t => psi_value cmop e X (along u v t) psi) 0 (dot (e_ndof e) (cm_state_bar OS sdim shape Adj Jac three e X u psi) v).
Proof.
  intros H He HW HN. set (w := fun (_ : elem) q => psi q 0%nat).
  assert (D := ff_state_derive sdim shape Adj Jac three (weighted w) e (weighted_ok w) X u v HW HN).
  apply (DV_eq _ 0 (dot (e_ndof e) (ff_grad sdim shape Adj Jac three (weighted w) e X u) v)).
  - revert D. apply DV_ext. intros t. unfold ff_energy, psi_value. cbn [o_nc o_val CurlMagnitude pf_val weighted rsum]. apply rsum_ext. intros q _. unfold cm_val, w. ring.
  - unfold dot. apply rsum_ext. intros i _. f_equal. unfold ff_grad, cm_state_bar. apply rsum_ext. intros q Hq. apply rsum_ext. intros k _. f_equal.
    unfold ff_b_bar, cm_vec_bar. cbn [pf_norm_bar weighted]. rewrite (adj_nodal M e X psi q 0 H He Hq). reflexivity.
Qed.
Lemma cm_mesh M e X V u psi : nodal OS M -> In e M ->
  (forall q, (q < e_nq e)%nat -> rev_scalar sdim (e_nn e) (e_W e q) (e_WRev e q)) ->
  (if three then forall q, (q < e_nq e)%nat -> rev_matrix sdim (e_nn e) (Jac e q) (JacRev e q)
   else forall q, (q < e_nq e)%nat -> rev_matrix sdim (e_nn e) (Adj e q) (AdjRev e q)) ->
  (forall q, (q < e_nq e)%nat -> 0 < e_W e q X) -> (forall q, (q < e_nq e)%nat -> ff_norm sdim shape Adj Jac three e X q u <> 0) ->
  is_derive (fun t => psi_value cmop e (moved X V t) u psi) 0 (pairing sdim (e_nn e) (cm_mesh_bar OS sdim shape Adj Jac AdjRev JacRev three e X u psi) V).
Proof.
  intros H He HR HM HW HN. set (w := fun (_ : elem) q => psi q 0%nat).
  assert (D := ff_mesh_derive sdim shape Adj Jac AdjRev JacRev three (weighted w) e (weighted_ok w) X V u HR HM HW HN).
  apply (DV_eq _ 0 (pairing sdim (e_nn e) (ff_mesh sdim shape Adj Jac AdjRev JacRev three (weighted w) e X u) V)).
  - revert D. apply DV_ext. intros t. unfold ff_energy, psi_value. cbn [o_nc o_val CurlMagnitude pf_val weighted rsum]. apply rsum_ext. intros q _. unfold cm_val, w. ring.
  - unfold ff_mesh, cm_mesh_bar. rewrite !pairing_sum. apply rsum_ext. intros q Hq. rewrite !pairing_plus, (os_rev_zero M) by assumption.
    rewrite Rplus_0_l, Rplus_comm. f_equal.
    + cbn [pf_W_bar weighted]. rewrite (adj_nodal M e X psi q 0 H He Hq). reflexivity.
    + assert (VB : ff_b_bar sdim shape Adj Jac three (weighted w) e X q u = cm_vec_bar OS sdim shape Adj Jac three e X u psi q).
      { apply functional_extensionality. intros k. unfold ff_b_bar, cm_vec_bar. cbn [pf_norm_bar weighted]. rewrite (adj_nodal M e X psi q 0 H He Hq). reflexivity. }
      rewrite VB. reflexivity.
Qed.
End Curls.
End Transfer.
