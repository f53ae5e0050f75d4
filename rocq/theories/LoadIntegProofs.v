From Coq Require Import Reals ZArith List Bool Arith Lia Lra FunctionalExtensionality String.
From Coquelicot Require Import Coquelicot.
From Verif Require Import Vec Deriv Form EmInteg EmIntegSpec EmMeshProofs SbpSpec SbpMeshProofs CommonFun CommonFunProofs Projector ProjectorProofs CurrentAsmProofs LoadInteg LoadIntegSpec.
Import ListNotations.
Local Open Scope R_scope.
Local Notation mat := (nat -> nat -> R).

Lemma rect_entries a b dim nn f rev X V : rev_rect_at a b dim nn f rev X -> exists dA : mat,
  (forall i k, (i < a)%nat -> (k < b)%nat -> is_derive (fun t => f (moved X V t) i k) 0 (dA i k)) /\
  (forall B, pairing dim nn (rev X B) V = pairing a b B dA).
Proof.
  intros H. exists (fun i k => pairing dim nn (rev X (del i k)) V).
  assert (E : forall i k, (i < a)%nat -> (k < b)%nat -> is_derive (fun t => f (moved X V t) i k) 0 (pairing dim nn (rev X (del i k)) V)).
  { intros i k Hi Hk. apply (DV_ext (fun t => pairing a b (del i k) (f (moved X V t)))); [intros t; now apply pairing_del|]. apply H. }
  split; [exact E|]. intros B. apply (DV_unique (fun t => pairing a b B (f (moved X V t))) 0); [apply H|].
  unfold pairing at 1 3. apply (DV_sum a (fun i t => rsum b (fun k => B i k * f (moved X V t) i k))). intros i Hi.
  apply (DV_sum b (fun k t => B i k * f (moved X V t) i k)). intros k Hk. apply DV_scal. now apply E.
Qed.
Lemma pos_moved nn r X V t q : le_pos nn r (moved X V t) q = fun k => le_pos nn r X q k + t * le_pos nn r V q k.
Proof. extensionality k. unfold le_pos, moved. rewrite <- rsum_scal, <- rsum_plus. apply rsum_ext. intros; ring. Qed.
Lemma pos_pair dim nn r V q (xb : vec) : pairing dim nn (fun k j => xb k * lr_N r q j) V = dot dim xb (le_pos nn r V q).
Proof. unfold pairing, dot, le_pos. apply rsum_ext. intros k _. rewrite <- rsum_scal. apply rsum_ext. intros j _. ring. Qed.
Lemma scaled_eq alpha v i : scaled alpha v i = alpha * v i.
Proof. unfold scaled. destruct (Req_EM_T alpha 1) as [->|_]; ring. Qed.

(** ** one element *)
Section Element.
Variables (dim : nat) (e : lelem) (X V : mat).
Lemma dom_point r q Q alpha psi : rev_scalar dim (le_nn e) (lr_W r q) (lr_WRev r q) -> scalar_rev_at dim Q (le_attr e) (le_pos (le_nn e) r X q) ->
  is_derive (fun t => alpha * (lr_pw r q * lr_W r q (moved X V t) * sc_eval Q (le_attr e) (le_pos (le_nn e) r (moved X V t) q) * dot (le_nd e) psi (lr_S r q))) 0
    (pairing dim (le_nn e) (fun k j => sc_rev Q (le_attr e) (le_pos (le_nn e) r X q) (1 * dot (le_nd e) psi (lr_S r q) * (alpha * lr_pw r q * lr_W r q X)) k * lr_N r q j +
      lr_WRev r q X (1 * sc_eval Q (le_attr e) (le_pos (le_nn e) r X q) * dot (le_nd e) psi (lr_S r q) * alpha * lr_pw r q) k j) V).
Proof.
  intros HW HQ. destruct (rev_scalar_entries dim (le_nn e) _ _ X V HW) as [dW [D1 D2]].
  set (x := le_pos (le_nn e) r X q) in *. set (d := le_pos (le_nn e) r V q).
  assert (D3 : is_derive (fun t => sc_eval Q (le_attr e) (le_pos (le_nn e) r (moved X V t) q)) 0 (dot dim (sc_rev Q (le_attr e) x 1) d)).
  { eapply DV_ext; [|exact (HQ 1 d)]. intros t. cbv beta. rewrite pos_moved. ring_simplify. reflexivity. }
  assert (D4 : forall b, dot dim (sc_rev Q (le_attr e) x b) d = b * dot dim (sc_rev Q (le_attr e) x 1) d).
  { intros b. eapply DV_unique; [exact (HQ b d)|]. apply DV_scal. eapply DV_ext; [|exact D3]. intros t. cbv beta. rewrite pos_moved. reflexivity. }
  eapply DV_eq; [apply DV_scal, DV_scal_r, DV_mult; [apply DV_scal; exact D1|exact D3]|].
  cbv beta. rewrite !moved_0'. rewrite pairing_plus, pos_pair, D2. fold x d. rewrite (D4 (1 * dot (le_nd e) psi (lr_S r q) * (alpha * lr_pw r q * lr_W r q X))). ring.
Qed.
Lemma dom_element Q alpha psi : dom_sens_rule dim e = dom_rule e ->
  (forall q, (q < lr_nq (dom_rule e))%nat -> rev_scalar dim (le_nn e) (lr_W (dom_rule e) q) (lr_WRev (dom_rule e) q) /\ scalar_rev_at dim Q (le_attr e) (le_pos (le_nn e) (dom_rule e) X q)) ->
  is_derive (fun t => dot (le_nd e) psi (dom_elvect e Q alpha (moved X V t))) 0 (pairing dim (le_nn e) (dom_mesh dim e Q alpha X psi) V).
Proof.
  intros E H. unfold dom_mesh. rewrite E. cbv zeta. rewrite pairing_sum.
  eapply DV_ext; [|apply (DV_sum (lr_nq (dom_rule e)) (fun q t => alpha * (lr_pw (dom_rule e) q * lr_W (dom_rule e) q (moved X V t) * sc_eval Q (le_attr e) (le_pos (le_nn e) (dom_rule e) (moved X V t) q) * dot (le_nd e) psi (lr_S (dom_rule e) q))));
    intros q Hq; destruct (H q Hq); now apply dom_point].
  intros t. cbv beta. unfold dot at 2. unfold dom_elvect.
  rewrite (rsum_ext (le_nd e) (fun i => psi i * _) (fun i => rsum (lr_nq (dom_rule e)) (fun q => alpha * (lr_pw (dom_rule e) q * lr_W (dom_rule e) q (moved X V t) * sc_eval Q (le_attr e) (le_pos (le_nn e) (dom_rule e) (moved X V t) q) * (psi i * lr_S (dom_rule e) q i))))).
  - rewrite (rsum_swap (le_nd e) (lr_nq (dom_rule e))). apply rsum_ext. intros q _. rewrite rsum_scal. f_equal. unfold dot. now rewrite rsum_scal.
  - intros i _. rewrite scaled_eq, <- Rmult_assoc, (Rmult_comm (psi i)), Rmult_assoc, <- rsum_scal, <- rsum_scal. apply rsum_ext. intros q _. ring.
Qed.
Lemma curl_element F alpha psi :
  (forall q, (q < lr_nq (curl_rule e))%nat -> rev_scalar dim (le_nn e) (lr_W (curl_rule e) q) (lr_WRev (curl_rule e) q) /\
     rev_rect_at (le_nd e) dim dim (le_nn e) (lr_C (curl_rule e) q) (lr_CRev (curl_rule e) q) X /\ vector_rev_at dim F (le_attr e) (le_pos (le_nn e) (curl_rule e) X q)) ->
  is_derive (fun t => dot (le_nd e) psi (curl_elvect dim e F alpha (moved X V t))) 0 (pairing dim (le_nn e) (curl_mesh dim e F alpha X psi) V).
Proof.
  intros H. unfold curl_mesh. cbv zeta. rewrite pairing_sum. set (r := curl_rule e) in *.
  eapply DV_ext; [|apply (DV_sum (lr_nq r) (fun q t => alpha * (lr_pw r q * lr_W r q (moved X V t)) * dot dim (Projector.at_point (le_nd e) (lr_C r q (moved X V t)) psi) (vc_eval F (le_attr e) (le_pos (le_nn e) r (moved X V t) q))))].
  - intros t. cbv beta. unfold curl_elvect. fold r. unfold dot at 2.
    rewrite (rsum_ext (le_nd e) (fun i => psi i * _) (fun i => rsum (lr_nq r) (fun q => rsum dim (fun c => alpha * (lr_pw r q * lr_W r q (moved X V t)) * (lr_C r q (moved X V t) i c * psi i * vc_eval F (le_attr e) (le_pos (le_nn e) r (moved X V t) q) c))))).
    + rewrite (rsum_swap (le_nd e) (lr_nq r)). apply rsum_ext. intros q _. rewrite (rsum_swap (le_nd e) dim). unfold dot. rewrite <- rsum_scal. apply rsum_ext. intros c _. rewrite rsum_scal. f_equal.
      unfold Projector.at_point. now rewrite <- rsum_scal_r.
    + intros i _. rewrite scaled_eq, <- Rmult_assoc, (Rmult_comm (psi i)), Rmult_assoc, <- rsum_scal, <- rsum_scal. apply rsum_ext. intros q _. rewrite <- rsum_scal, <- rsum_scal. apply rsum_ext. intros c _. ring.
  - intros q Hq. destruct (H q Hq) as [HW [HC HF]].
    destruct (rev_scalar_entries dim (le_nn e) _ _ X V HW) as [dW [D1 D2]]. destruct (rect_entries _ _ _ _ _ _ X V HC) as [dC [C1 C2]].
    set (x := le_pos (le_nn e) r X q) in *. set (d := le_pos (le_nn e) r V q).
    set (df := fun c => dot dim (vc_rev F (le_attr e) x (ProjectorProofs.unit c)) d).
    assert (F1 : forall c, (c < dim)%nat -> is_derive (fun t => vc_eval F (le_attr e) (fun k => x k + t * d k) c) 0 (df c)).
    { intros c Hc. eapply DV_ext; [|exact (HF (ProjectorProofs.unit c) d)]. intros t. now apply dot_unit. }
    assert (F2 : forall b, dot dim (vc_rev F (le_attr e) x b) d = dot dim b df).
    { intros b. eapply DV_unique; [exact (HF b d)|]. unfold dot at 1. unfold dot at 1. apply (DV_sum dim (fun c t => b c * vc_eval F (le_attr e) (fun k => x k + t * d k) c)). intros c Hc. apply DV_scal. now apply F1. }
    eapply DV_eq.
    + apply DV_mult; [apply DV_scal, DV_scal; exact D1|].
      apply (DV_dot dim (fun t => Projector.at_point (le_nd e) (lr_C r q (moved X V t)) psi) (fun t => vc_eval F (le_attr e) (le_pos (le_nn e) r (moved X V t) q)) (Projector.at_point (le_nd e) dC psi) df).
      * intros c Hc. unfold Projector.at_point. apply (DV_sum (le_nd e) (fun i t => lr_C r q (moved X V t) i c * psi i)). intros i Hi. apply DV_scal_r. now apply C1.
      * intros c Hc. eapply DV_ext; [|exact (F1 c Hc)]. intros t. cbv beta. now rewrite pos_moved.
    + cbv beta. rewrite !moved_0'. fold x. rewrite !pairing_plus, pos_pair, D2, C2. fold d. rewrite F2.
      assert (P : pairing (le_nd e) dim (fun i c => psi i * (1 * (lr_pw r q * lr_W r q X * alpha) * vc_eval F (le_attr e) x c)) dC = lr_pw r q * lr_W r q X * alpha * dot dim (Projector.at_point (le_nd e) dC psi) (vc_eval F (le_attr e) x)).
      { unfold pairing. rewrite (rsum_swap (le_nd e) dim). unfold dot. rewrite <- rsum_scal. apply rsum_ext. intros c _. unfold Projector.at_point. rewrite <- rsum_scal_r, <- rsum_scal. apply rsum_ext. intros i _. ring. }
      rewrite P.
      assert (P2 : dot dim (fun c => 1 * (lr_pw r q * lr_W r q X * alpha) * Projector.at_point (le_nd e) (lr_C r q X) psi c) df = lr_pw r q * lr_W r q X * alpha * dot dim (Projector.at_point (le_nd e) (lr_C r q X) psi) df).
      { unfold dot. rewrite <- rsum_scal. apply rsum_ext. intros c _. ring. }
      rewrite P2. ring.
Qed.
End Element.

(** ** assembly *)
Section Assembly.
Variables (dim m NN : nat) (M : list lelem).
Hypothesis HN : lnumbered m NN M.
Lemma load_pair marked el (psi : vec) : dot m psi (assembled_vec M marked el) = lsum (fun e => if marked (le_attr e) then dot (le_nd e) (le_vals e psi) (el e) else 0) M.
Proof.
  unfold dot at 1, assembled_vec.
  rewrite (rsum_ext m _ (fun I => lsum (fun e => psi I * (if marked (le_attr e) then rsum (le_nd e) (fun i => if Nat.eqb I (le_dof e i) then le_sg e i * el e i else 0) else 0)) M)) by (intros; now rewrite lsum_scal).
  rewrite <- lsum_rsum. apply lsum_ext. intros e He. destruct (marked (le_attr e)); [|rewrite (rsum_ext m _ (fun _ => 0)) by (intros; ring); apply rsum_0].
  rewrite (rsum_ext m _ (fun I => rsum (le_nd e) (fun i => if Nat.eqb I (le_dof e i) then psi I * (le_sg e i * el e i) else 0))).
  - rewrite (rsum_swap m (le_nd e)). unfold dot, le_vals. apply rsum_ext. intros i Hi.
    etransitivity; [exact (rsum_delta m (fun I => psi I * (le_sg e i * el e i)) (le_dof e i) (proj1 (HN e He) i Hi))|]. cbv beta. ring.
  - intros I _. rewrite <- rsum_scal. apply rsum_ext. intros i _. destruct (Nat.eqb I (le_dof e i)); ring.
Qed.
Lemma mesh_pair marked el (V : mat) : pairing dim NN (assembled_mat M marked el) V = lsum (fun e => if marked (le_attr e) then pairing dim (le_nn e) (el e) (le_nodes e V) else 0) M.
Proof.
  unfold pairing at 1, assembled_mat.
  rewrite (rsum_ext dim _ (fun k => lsum (fun e => rsum NN (fun J => (if marked (le_attr e) then rsum (le_nn e) (fun j => if Nat.eqb J (le_node e j) then el e k j else 0) else 0) * V k J)) M)).
  2:{ intros k _. rewrite (rsum_ext NN _ (fun J => lsum (fun e => (if marked (le_attr e) then rsum (le_nn e) (fun j => if Nat.eqb J (le_node e j) then el e k j else 0) else 0) * V k J) M)) by (intros; now rewrite <- lsum_scal_r). now rewrite lsum_rsum. }
  rewrite <- lsum_rsum. apply lsum_ext. intros e He. destruct (marked (le_attr e)).
  2:{ rewrite (rsum_ext dim _ (fun _ => 0)); [apply rsum_0|]. intros k _. rewrite (rsum_ext NN _ (fun _ => 0)) by (intros; ring). apply rsum_0. }
  unfold pairing. apply rsum_ext. intros k _.
  rewrite (rsum_ext NN _ (fun J => rsum (le_nn e) (fun j => if Nat.eqb J (le_node e j) then el e k j * V k J else 0))).
  - rewrite (rsum_swap NN (le_nn e)). apply rsum_ext. intros j Hj.
    exact (rsum_delta NN (fun J => el e k j * V k J) (le_node e j) (proj2 (HN e He) j Hj)).
  - intros J _. rewrite <- rsum_scal_r. apply rsum_ext. intros j _. destruct (Nat.eqb J (le_node e j)); ring.
Qed.
Lemma vec_mat (A : mat) k J : (J < NN)%nat -> mesh_vec NN A (k * NN + J)%nat = A k J.
Proof. intros H. unfold mesh_vec. rewrite Nat.add_comm, Nat.div_add, Nat.div_small, Nat.mod_add, Nat.mod_small by lia. reflexivity. Qed.
Lemma with_nodes_pair (A V : mat) : with_nodes dim NN (mesh_vec NN A) V = pairing dim NN A V.
Proof. unfold with_nodes, pairing. apply rsum_ext. intros k _. apply rsum_ext. intros J HJ. now rewrite vec_mat. Qed.
Lemma with_nodes_diff acc A (V : mat) : with_nodes dim NN (fun i => (acc i + mesh_vec NN A i) - acc i) V = pairing dim NN A V.
Proof. rewrite <- with_nodes_pair. unfold with_nodes. apply rsum_ext. intros k _. apply rsum_ext. intros J HJ. ring. Qed.
Lemma zero_dot ess (b v : vec) : dot m b (zero_at ess v) = dot m (zero_at ess b) v.
Proof. unfold dot, zero_at. apply rsum_ext. intros i _. destruct (memb i ess); ring. Qed.
(** the derivative of an assembled form *)
Lemma assembled_derive marked (el : lelem -> mat -> vec) (sens : lelem -> mat) (X V : mat) psi :
  (forall e, In e M -> marked (le_attr e) = true -> is_derive (fun t => dot (le_nd e) (le_vals e psi) (el e (moved (le_nodes e X) (le_nodes e V) t))) 0 (pairing dim (le_nn e) (sens e) (le_nodes e V))) ->
  is_derive (fun t => dot m psi (assembled_vec M marked (fun e => el e (le_nodes e (moved X V t))))) 0 (pairing dim NN (assembled_mat M marked sens) V).
Proof.
  intros H. rewrite mesh_pair. eapply DV_ext; [intros t; symmetry; apply load_pair|].
  apply (lsum_derive (fun e t => if marked (le_attr e) then dot (le_nd e) (le_vals e psi) (el e (le_nodes e (moved X V t))) else 0)).
  intros e He. destruct (marked (le_attr e)) eqn:D; [|apply DV_const]. exact (H e He D).
Qed.
End Assembly.
