From Coq Require Import Reals ZArith List Bool Arith Lia Lra FunctionalExtensionality.
From Coquelicot Require Import Coquelicot.
From Verif Require Import Vec Deriv EmInteg EmIntegSpec EmMeshProofs SbpSpec SbpMeshProofs CommonFun CommonFunProofs Projector ProjectorSpec ProjectorProofs CurrentAsm CurrentAsmSpec.
Import ListNotations.
Local Open Scope R_scope.

(** ** forms *)
Section Forms.
Variables (dim n m NN : nat) (M : list celem).
Notation P := (map c_el M).
Notation nd e := (p_nd (c_el e)).
Definition mform (X : mat) (u psi : vec) : R :=
  lsum (fun e => rsum (r_nq (c_mass e)) (fun q => r_pw (c_mass e) q / r_W (c_mass e) q (cnodes e X) *
    dot dim (at_point (nd e) (Vxt dim (c_mass e) (cnodes e X) q) (d_el (c_el e) psi)) (at_point (nd e) (Vxt dim (c_mass e) (cnodes e X) q) (d_el (c_el e) u)))) M.
Definition lform (c : density) (X : mat) (psi : vec) : R :=
  lsum (fun e => rsum (r_nq (c_lf e)) (fun q => r_pw (c_lf e) q * r_W (c_lf e) q (cnodes e X) / r_W (c_lf e) q (cnodes e X) *
    dot dim (at_point (nd e) (Vxt dim (c_lf e) (cnodes e X) q) (d_el (c_el e) psi)) (d_eval c (c_attr e) (position e (cnodes e X) q)))) M.
Hypothesis HN : pnumbered n m NN P.
Lemma numbered_el e : In e M -> (forall i, (i < nd e)%nat -> (p_d (c_el e) i < m)%nat) /\ (forall j, (j < p_nn (c_el e))%nat -> (p_node (c_el e) j < NN)%nat).
Proof. intros He. destruct (HN (c_el e) (in_map c_el M e He)) as [_ [A B]]. now split. Qed.
Lemma el_vmass_eq r Y i j : el_vmass dim r Y i j = rsum (r_nq r) (fun q => r_pw r q / r_W r q Y * rsum dim (fun k => Vxt dim r Y q i k * Vxt dim r Y q j k)).
Proof.
  unfold el_vmass. apply rsum_ext. intros q _. rewrite <- !rsum_scal. apply rsum_ext. intros k _.
  destruct (Req_EM_T (r_W r q Y) 0) as [Z|W]; [|field; exact W]. rewrite Z. unfold Rdiv. rewrite Rinv_0. ring.
Qed.
Lemma mass_form X psi u : dot m psi (mv m (nd_mass dim M X) u) = mform X u psi.
Proof.
  unfold nd_mass. rewrite lsum_form. unfold mform. apply lsum_ext. intros e He. destruct (numbered_el e He) as [H _].
  rewrite two_sums by assumption.
  rewrite <- (pull_point (r_nq (c_mass e)) (nd e) (nd e) dim (fun q => r_pw (c_mass e) q / r_W (c_mass e) q (cnodes e X)) (Vxt dim (c_mass e) (cnodes e X)) (Vxt dim (c_mass e) (cnodes e X)) (d_el (c_el e) psi) (d_el (c_el e) u)).
  apply rsum_ext. intros i _. apply rsum_ext. intros j _. rewrite el_vmass_eq. unfold d_el. ring.
Qed.
Lemma scatter_form {A} (l : list A) (cnt : A -> nat) (gl : A -> nat -> nat) (f : A -> vec) (psi : vec) : (forall e, In e l -> forall i, (i < cnt e)%nat -> (gl e i < m)%nat) ->
  dot m psi (fun I => lsum (fun e => rsum (cnt e) (fun i => if Nat.eqb I (gl e i) then f e i else 0)) l) = lsum (fun e => rsum (cnt e) (fun i => psi (gl e i) * f e i)) l.
Proof.
  intros H. unfold dot. rewrite (rsum_ext m _ (fun I => lsum (fun e => rsum (cnt e) (fun i => if Nat.eqb I (gl e i) then psi I * f e i else 0)) l)).
  - rewrite <- lsum_rsum. apply lsum_ext. intros e He. rewrite rsum_swap. apply rsum_ext. intros i Hi.
    rewrite (rsum_delta m (fun I => psi I * f e i) (gl e i)); [reflexivity|now apply H].
  - intros I _. rewrite <- lsum_scal. apply lsum_ext. intros e _. rewrite <- rsum_scal. apply rsum_ext. intros i _. destruct (Nat.eqb I (gl e i)); ring.
Qed.
Lemma load_form c X psi : dot m psi (nd_load dim M c X) = lform c X psi.
Proof.
  unfold nd_load. rewrite (scatter_form M (fun e => nd e) (fun e => p_d (c_el e)) (fun e i => p_sg (c_el e) i * el_vload dim e c (cnodes e X) i) psi) by (intros e He; now apply numbered_el).
  unfold lform. apply lsum_ext. intros e He. unfold el_vload.
  rewrite (rsum_ext (nd e) _ (fun i => rsum (r_nq (c_lf e)) (fun q => r_pw (c_lf e) q * r_W (c_lf e) q (cnodes e X) / r_W (c_lf e) q (cnodes e X) *
    rsum dim (fun k => Vxt dim (c_lf e) (cnodes e X) q i k * d_el (c_el e) psi i * d_eval c (c_attr e) (position e (cnodes e X) q) k)))).
  - rewrite rsum_swap. apply rsum_ext. intros q _. rewrite rsum_scal. f_equal. unfold dot, at_point. rewrite rsum_swap. apply rsum_ext. intros k _. now rewrite <- rsum_scal_r.
  - intros i _. rewrite <- !rsum_scal. apply rsum_ext. intros q _. rewrite <- !rsum_scal. apply rsum_ext. intros k _. unfold d_el, Rdiv. ring.
Qed.
Lemma mass_product X y z : lvalid M X -> field_product dim M X y z = mform X z y.
Proof.
  intros V. unfold field_product, mform. apply lsum_ext. intros e He. apply rsum_ext. intros q Hq. unfold nedelec.
  rewrite dot_covariant; [reflexivity|]. apply Rgt_not_eq, (proj1 (V e He) q Hq).
Qed.
Lemma load_product c X y : lvalid M X -> current_product dim M X c y = lform c X y.
Proof.
  intros V. unfold current_product, lform. apply lsum_ext. intros e He. apply rsum_ext. intros q Hq. unfold nedelec, dot. rewrite <- !rsum_scal. apply rsum_ext. intros k _.
  rewrite covariant_at. change (nodes_at X e) with (cnodes e X). unfold Vxt, d_el. field. now apply (proj2 (V e He)).
Qed.
Lemma mform_comm X u v : mform X u v = mform X v u.
Proof. unfold mform. apply lsum_ext. intros e _. apply rsum_ext. intros q _. now rewrite dot_comm. Qed.
Lemma mass_symmetric X i j : (i < m)%nat -> (j < m)%nat -> nd_mass dim M X i j = nd_mass dim M X j i.
Proof.
  intros Hi Hj. assert (K : forall i j, (i < m)%nat -> (j < m)%nat -> nd_mass dim M X i j = mform X (unit j) (unit i)).
  { intros a b Ha Hb. rewrite <- mass_form. rewrite dot_unit by exact Ha. now rewrite mv_unit. }
  rewrite (K i j), (K j i) by assumption. apply mform_comm.
Qed.
Lemma at_point_lin a S u c v k : at_point a S (fun i => u i + c * v i) k = at_point a S u k + c * at_point a S v k.
Proof. unfold at_point. rewrite <- rsum_scal, <- rsum_plus. apply rsum_ext. intros; ring. Qed.
Lemma mform_lin X u a v psi : mform X (fun i => u i + a * v i) psi = mform X u psi + a * mform X v psi.
Proof.
  rewrite <- !mass_form. rewrite <- (Rmult_1_l (dot m psi (mv m (nd_mass dim M X) u))). unfold dot. rewrite <- !rsum_scal, <- rsum_plus. apply rsum_ext. intros i _. rewrite mv_lin. ring.
Qed.
Lemma mform_pos X u : lvalid M X -> 0 <= mform X u u.
Proof.
  intros V. unfold mform. apply CommonFunProofs.lsum_nonneg. intros e He. apply rsum_nonneg. intros q Hq. destruct (proj1 (V e He) q Hq) as [A B].
  apply Rmult_le_pos; [|apply dot_pos]. apply Rlt_le, Rdiv_lt_0_compat; assumption.
Qed.
Lemma mform_zero X u : lvalid M X -> rule_sees_fields dim M X m -> mform X u u = 0 -> veq m u (fun _ => 0).
Proof.
  intros V R Z. apply R. intros e q c He Hq Hc. unfold nedelec. rewrite covariant_at. change (nodes_at X e) with (cnodes e X).
  set (t := fun e => rsum (r_nq (c_mass e)) (fun q => r_pw (c_mass e) q / r_W (c_mass e) q (cnodes e X) *
    dot dim (at_point (nd e) (Vxt dim (c_mass e) (cnodes e X) q) (d_el (c_el e) u)) (at_point (nd e) (Vxt dim (c_mass e) (cnodes e X) q) (d_el (c_el e) u)))) in *.
  assert (Pq : forall e q, In e M -> (q < r_nq (c_mass e))%nat -> 0 <= r_pw (c_mass e) q / r_W (c_mass e) q (cnodes e X) *
    dot dim (at_point (nd e) (Vxt dim (c_mass e) (cnodes e X) q) (d_el (c_el e) u)) (at_point (nd e) (Vxt dim (c_mass e) (cnodes e X) q) (d_el (c_el e) u))).
  { intros e' q' He' Hq'. destruct (proj1 (V e' He') q' Hq') as [A B]. apply Rmult_le_pos; [|apply dot_pos]. apply Rlt_le, Rdiv_lt_0_compat; assumption. }
  assert (Pt : forall a, In a M -> 0 <= t a) by (intros a Ha; apply rsum_nonneg; intros; now apply Pq).
  assert (Te : t e = 0). { apply Rle_antisym; [|now apply Pt]. rewrite <- Z. apply (lsum_one t M e He Pt). }
  assert (D := rsum_nonneg_zero _ _ (fun q' Hq' => Pq e q' He Hq') Te q Hq). cbv beta in D. destruct (proj1 (V e He) q Hq) as [A B].
  set (f := at_point (nd e) (Vxt dim (c_mass e) (cnodes e X) q) (d_el (c_el e) u)) in *.
  assert (D0 : dot dim f f = 0).
  { apply Rmult_integral in D. destruct D as [D|D]; [|exact D]. exfalso. assert (0 < r_pw (c_mass e) q / r_W (c_mass e) q (cnodes e X)) by (now apply Rdiv_lt_0_compat). lra. }
  assert (E := rsum_nonneg_zero dim _ (fun k _ => Rle_0_sqr (f k)) D0 c Hc). unfold Rsqr in E.
  change (f c / r_W (c_mass e) q (cnodes e X) = 0). assert (F : f c = 0) by nra. rewrite F. unfold Rdiv. ring.
Qed.
Lemma mass_injective X y : lvalid M X -> rule_sees_fields dim M X m -> veq m (mv m (nd_mass dim M X) y) (fun _ => 0) -> veq m y (fun _ => 0).
Proof.
  intros V R H. apply (mform_zero X y V R). rewrite <- mass_form. unfold dot. rewrite (rsum_ext m _ (fun _ => 0)); [apply rsum_0|]. intros i Hi. rewrite (H i Hi). ring.
Qed.
Lemma mform_unit X psi u : mform X u psi = rsum m (fun j => u j * mform X (unit j) psi).
Proof.
  rewrite <- mass_form. rewrite mv_adj. rewrite dot_comm. unfold dot. apply rsum_ext. intros j Hj. f_equal. rewrite <- mass_form, mv_adj, dot_comm. now rewrite dot_unit.
Qed.

(** ** mesh derivatives of the forms *)
Variables (X V : mat).
Hypothesis HV : lvalid M X.
Hypothesis HRm : forall e, In e M -> rule_rev dim (p_nn (c_el e)) (c_mass e).
Hypothesis HRl : forall e, In e M -> rule_rev dim (p_nn (c_el e)) (c_lf e).
Lemma vmass_element e u psi : In e M ->
  is_derive (fun t => rsum (r_nq (c_mass e)) (fun q => r_pw (c_mass e) q / r_W (c_mass e) q (cnodes e (moved X V t)) *
    dot dim (at_point (nd e) (Vxt dim (c_mass e) (cnodes e (moved X V t)) q) psi) (at_point (nd e) (Vxt dim (c_mass e) (cnodes e (moved X V t)) q) u))) 0
   (pairing dim (p_nn (c_el e)) (vmass_mesh dim (nd e) (c_mass e) 1 (cnodes e X) u psi) (cnodes e V)).
Proof.
  intros He. unfold vmass_mesh. rewrite pairing_sum.
  apply (DV_sum (r_nq (c_mass e)) (fun q t => r_pw (c_mass e) q / r_W (c_mass e) q (cnodes e (moved X V t)) *
    dot dim (at_point (nd e) (Vxt dim (c_mass e) (cnodes e (moved X V t)) q) psi) (at_point (nd e) (Vxt dim (c_mass e) (cnodes e (moved X V t)) q) u))). intros q Hq.
  destruct (HRm e He q Hq) as [HA HW]. assert (W0 : r_W (c_mass e) q (cnodes e X) <> 0) by (apply Rgt_not_eq, (proj1 (HV e He) q Hq)).
  assert (K := mesh_point dim (p_nn (c_el e)) (nd e) (nd e) (r_V (c_mass e) q) (r_V (c_mass e) q) (r_Adj (c_mass e) q) (r_AdjRev (c_mass e) q) (r_W (c_mass e) q) (r_WRev (c_mass e) q)
    (cnodes e X) (cnodes e V) psi u 1 (r_pw (c_mass e) q) HA HW W0).
  eapply DV_eq; [eapply DV_ext; [|exact K]|].
  - intros t. unfold Vxt, dshapedxt, cnodes, pnodes. change (fun k j => moved X V t k (p_node (c_el e) j)) with (moved (fun k j => X k (p_node (c_el e) j)) (fun k j => V k (p_node (c_el e) j)) t). ring.
  - apply pairing_ext. intros k j _ _. cbv zeta. f_equal.
    + rewrite (dot_comm dim (at_point (nd e) (Vxt dim (c_mass e) (cnodes e X) q) u)). unfold Vxt, dshapedxt. unfold Rdiv. ring.
    + f_equal. extensionality a. extensionality c. rewrite <- rsum_plus. apply rsum_ext. intros i _. unfold Vxt, dshapedxt. unfold Rdiv. ring.
Qed.
Lemma mform_derive u psi : is_derive (fun t => mform (moved X V t) u psi) 0
  (lsum (fun e => pairing dim (p_nn (c_el e)) (vmass_mesh dim (nd e) (c_mass e) 1 (cnodes e X) (d_el (c_el e) u) (d_el (c_el e) psi)) (cnodes e V)) M).
Proof. unfold mform. apply (lsum_derive (fun e t => rsum (r_nq (c_mass e)) (fun q => r_pw (c_mass e) q / r_W (c_mass e) q (cnodes e (moved X V t)) *
    dot dim (at_point (nd e) (Vxt dim (c_mass e) (cnodes e (moved X V t)) q) (d_el (c_el e) psi)) (at_point (nd e) (Vxt dim (c_mass e) (cnodes e (moved X V t)) q) (d_el (c_el e) u))))). intros e He. now apply vmass_element. Qed.
Variable c : density.
Hypothesis HC : density_rev dim M X c.
Lemma position_moved e t q : position e (cnodes e (moved X V t)) q = fun k => position e (cnodes e X) q k + t * position e (cnodes e V) q k.
Proof. extensionality k. unfold position, cnodes, pnodes, moved. rewrite <- rsum_scal, <- rsum_plus. apply rsum_ext. intros; ring. Qed.
Lemma density_entries e q d : In e M -> (q < r_nq (c_lf e))%nat -> exists df : vec,
  (forall k, (k < dim)%nat -> is_derive (fun t => d_eval c (c_attr e) (fun k => position e (cnodes e X) q k + t * d k) k) 0 (df k)) /\
  (forall b, dot dim (d_rev c (c_attr e) (position e (cnodes e X) q) b) d = dot dim b df).
Proof.
  intros He Hq. exists (fun k => dot dim (d_rev c (c_attr e) (position e (cnodes e X) q) (unit k)) d).
  assert (E : forall k, (k < dim)%nat -> is_derive (fun t => d_eval c (c_attr e) (fun k => position e (cnodes e X) q k + t * d k) k) 0 (dot dim (d_rev c (c_attr e) (position e (cnodes e X) q) (unit k)) d)).
  { intros k Hk. eapply DV_ext; [|exact (HC e q (unit k) d He Hq)]. intros t. now apply dot_unit. }
  split; [exact E|]. intros b. eapply DV_unique; [exact (HC e q b d He Hq)|]. unfold dot at 1. unfold dot at 1.
  apply (DV_sum dim (fun k t => b k * d_eval c (c_attr e) (fun k => position e (nodes_at X e) q k + t * d k) k)). intros k Hk. apply DV_scal. now apply E.
Qed.
Lemma lform_derive alpha psi : is_derive (fun t => alpha * lform c (moved X V t) psi) 0
  (lsum (fun e => pairing dim (p_nn (c_el e)) (vload_mesh dim e c alpha (cnodes e X) (d_el (c_el e) psi)) (cnodes e V)) M).
Proof.
  apply (DV_ext (fun t => lsum (fun e => rsum (r_nq (c_lf e)) (fun q => alpha * (r_pw (c_lf e) q * r_W (c_lf e) q (cnodes e (moved X V t)) / r_W (c_lf e) q (cnodes e (moved X V t)) *
    dot dim (at_point (nd e) (Vxt dim (c_lf e) (cnodes e (moved X V t)) q) (d_el (c_el e) psi)) (d_eval c (c_attr e) (position e (cnodes e (moved X V t)) q))))) M)).
  { intros t. unfold lform. rewrite <- lsum_scal. apply lsum_ext. intros e _. now rewrite rsum_scal. }
  apply (lsum_derive (fun e t => rsum (r_nq (c_lf e)) (fun q => alpha * (r_pw (c_lf e) q * r_W (c_lf e) q (cnodes e (moved X V t)) / r_W (c_lf e) q (cnodes e (moved X V t)) *
    dot dim (at_point (nd e) (Vxt dim (c_lf e) (cnodes e (moved X V t)) q) (d_el (c_el e) psi)) (d_eval c (c_attr e) (position e (cnodes e (moved X V t)) q)))))).
  intros e He. unfold vload_mesh. rewrite pairing_sum.
  apply (DV_sum (r_nq (c_lf e)) (fun q t => alpha * (r_pw (c_lf e) q * r_W (c_lf e) q (cnodes e (moved X V t)) / r_W (c_lf e) q (cnodes e (moved X V t)) *
    dot dim (at_point (nd e) (Vxt dim (c_lf e) (cnodes e (moved X V t)) q) (d_el (c_el e) psi)) (d_eval c (c_attr e) (position e (cnodes e (moved X V t)) q))))). intros q Hq.
  destruct (HRl e He q Hq) as [HA HW]. assert (W0 := proj2 (HV e He) q Hq). change (nodes_at X e) with (cnodes e X) in W0.
  destruct (rev_matrix_entries dim (p_nn (c_el e)) (r_Adj (c_lf e) q) (r_AdjRev (c_lf e) q) (cnodes e X) (cnodes e V) HA) as [dA [D1 D2]].
  destruct (rev_scalar_entries dim (p_nn (c_el e)) (r_W (c_lf e) q) (r_WRev (c_lf e) q) (cnodes e X) (cnodes e V) HW) as [dW [D3 _]].
  destruct (density_entries e q (position e (cnodes e V) q) He Hq) as [df [D5 D6]].
  assert (Mv : forall t, cnodes e (moved X V t) = moved (cnodes e X) (cnodes e V) t) by reflexivity.
  apply (is_derive_ext_loc (fun t => alpha * r_pw (c_lf e) q * dot dim (at_point (nd e) (Vxt dim (c_lf e) (cnodes e (moved X V t)) q) (d_el (c_el e) psi)) (d_eval c (c_attr e) (position e (cnodes e (moved X V t)) q)))).
  { assert (C := DV_continuous _ _ _ D3).
    assert (L : locally 0 (fun t => r_W (c_lf e) q (moved (cnodes e X) (cnodes e V) t) <> 0)).
    { cbv beta in C. assert (Pz : 0 < Rabs (r_W (c_lf e) q (cnodes e X))) by (now apply Rabs_pos_lt).
      assert (K := proj1 (filterlim_locally _ _) C (mkposreal _ Pz)). revert K. apply filter_imp. intros t B Z. cbv beta in B.
      change (Rabs (r_W (c_lf e) q (moved (cnodes e X) (cnodes e V) t) - r_W (c_lf e) q (moved (cnodes e X) (cnodes e V) 0)) < Rabs (r_W (c_lf e) q (cnodes e X))) in B.
      rewrite Z, moved_0', Rminus_0_l, Rabs_Ropp in B. lra. }
    revert L. apply filter_imp. intros t L. rewrite Mv. match goal with |- ?a = ?b => change (@eq R a b) end. field. exact L. }
  eapply DV_eq.
  - apply DV_scal. apply (DV_dot dim (fun t => at_point (nd e) (Vxt dim (c_lf e) (cnodes e (moved X V t)) q) (d_el (c_el e) psi)) (fun t => d_eval c (c_attr e) (position e (cnodes e (moved X V t)) q))
      (at_point (nd e) (fun i k => rsum dim (fun l => r_V (c_lf e) q i l * dA l k)) (d_el (c_el e) psi)) df).
    + intros k Hk. unfold at_point. apply (DV_sum (nd e) (fun i t => Vxt dim (c_lf e) (cnodes e (moved X V t)) q i k * d_el (c_el e) psi i)). intros i Hi.
      apply (DV_scal_r (d_el (c_el e) psi i) (fun t => Vxt dim (c_lf e) (cnodes e (moved X V t)) q i k)). unfold Vxt, dshapedxt.
      apply (DV_sum dim (fun l t => r_V (c_lf e) q i l * r_Adj (c_lf e) q (cnodes e (moved X V t)) l k)). intros l Hl. apply DV_scal. exact (D1 l k Hl Hk).
    + intros k Hk. eapply DV_ext; [|exact (D5 k Hk)]. intros t. cbv beta. now rewrite position_moved.
  - cbv beta zeta. rewrite moved_0'. rewrite pairing_plus, D2.
    assert (Ep : forall xb : vec, pairing dim (p_nn (c_el e)) (fun k j => xb k * c_N e q j) (cnodes e V) = dot dim xb (position e (cnodes e V) q)).
    { intros xb. unfold pairing, dot, position. apply rsum_ext. intros k _. rewrite <- rsum_scal. apply rsum_ext. intros j _. ring. }
    rewrite Ep, D6.
    assert (K := adj_bar_pair (nd e) dim (r_V (c_lf e)) q (fun i k => d_el (c_el e) psi i * (1 * (r_pw (c_lf e) q * alpha) * d_eval c (c_attr e) (position e (cnodes e X) q) k)) dA). rewrite K.
    rewrite Rmult_plus_distr_l, Rplus_comm. f_equal.
    + unfold dot. rewrite <- rsum_scal. apply rsum_ext. intros k _. ring.
    + unfold dot, at_point. rewrite <- rsum_scal. apply rsum_ext. intros k _. rewrite (Rmult_comm (rsum _ _)), <- !rsum_scal. apply rsum_ext. intros i _. ring.
Qed.
End Forms.

Lemma pairing_assembled {A} dim NN (l : list A) (cnt : A -> nat) (gl : A -> nat -> nat) (T : A -> mat) (V : mat) : (forall e, In e l -> forall j, (j < cnt e)%nat -> (gl e j < NN)%nat) ->
  pairing dim NN (fun k J => lsum (fun e => rsum (cnt e) (fun j => if Nat.eqb J (gl e j) then T e k j else 0)) l) V = lsum (fun e => pairing dim (cnt e) (T e) (fun k j => V k (gl e j))) l.
Proof.
  intros H. unfold pairing. rewrite (CommonFunProofs.lsum_rsum dim (fun e k => rsum (cnt e) (fun j => T e k j * V k (gl e j)))). apply rsum_ext. intros k _.
  rewrite (rsum_ext NN _ (fun J => lsum (fun e => rsum (cnt e) (fun j => if Nat.eqb J (gl e j) then T e k j * V k J else 0)) l)).
  - rewrite <- CommonFunProofs.lsum_rsum. apply lsum_ext. intros e He. rewrite rsum_swap. apply rsum_ext. intros j Hj.
    rewrite (rsum_delta NN (fun J => T e k j * V k J) (gl e j)); [reflexivity|now apply H].
  - intros J _. rewrite <- lsum_scal_r. apply lsum_ext. intros e _. rewrite <- rsum_scal_r. apply rsum_ext. intros j _. destruct (Nat.eqb J (gl e j)); ring.
Qed.
(** a form that is linear in its vector argument, at a vector that only varies continuously *)
Lemma frozen n (F : R -> vec -> R) (u : R -> vec) (D : R) : (forall t v, F t v = rsum n (fun j => v j * F t (unit j))) ->
  (forall v, exists d, is_derive (fun t => F t v) 0 d) -> is_derive (fun t => F t (u 0)) 0 D ->
  (forall j, (j < n)%nat -> continuous (fun t => u t j) 0) -> is_derive (fun t => F t (u t) - F 0 (u t)) 0 D.
Proof.
  intros L E D0 C. apply (DV_ext (fun t => rsum n (fun j => u t j * (F t (unit j) - F 0 (unit j))))).
  { intros t. rewrite (L t), (L 0 (u t)), <- rsum_minus. apply rsum_ext. intros; ring. }
  assert (K : exists d : nat -> R, forall j, is_derive (fun t => F t (unit j)) 0 (d j)).
  { exists (fun j => Derive (fun t => F t (unit j)) 0). intros j. apply Derive_correct. destruct (E (unit j)) as [d Hd]. now exists d. }
  destruct K as [d Hd].
  apply (DV_eq _ 0 (rsum n (fun j => u 0 j * d j))).
  - apply (DV_sum n (fun j t => u t j * (F t (unit j) - F 0 (unit j)))). intros j Hj.
    apply (DV_zero_mult (fun t => u t j) (fun t => F t (unit j) - F 0 (unit j)) 0 (d j) (C j Hj)); [|ring].
    apply (DV_eq _ 0 (d j - 0)); [|ring]. apply (DV_minus (fun t => F t (unit j)) (fun _ => F 0 (unit j))); [apply Hd|apply DV_const].
  - eapply DV_unique; [|exact D0]. apply (DV_ext (fun t => rsum n (fun j => u 0 j * F t (unit j)))); [intros t; now rewrite <- L|].
    apply (DV_sum n (fun j t => u 0 j * F t (unit j))). intros j Hj. apply DV_scal. apply Hd.
Qed.

(** ** the object *)
Section Object.
Variables (dim n m NN : nat) (M : list celem) (hess : nat -> bool) (G : mat) (pcg : mat -> vec -> vec) (gmres : mat -> vec -> vec -> vec) (hpcg : mat -> vec -> vec) (ess : nat -> bool).
Notation P := (map c_el M).
Hypothesis HN : pnumbered n m NN P.
Notation fresh X := (refresh dim P X new_projector).
Notation pot X x := (potential n m hess pcg (fresh X) x).
Notation step := (lstep dim M n m hess G pcg gmres hpcg ess).
Notation clean := (clean dim M n m hess G pcg gmres).
Notation assemble := (assemble_load dim M n m hess G pcg gmres).
Definition free_part (X : mat) (x : vec) : vec := fun i => x i - mv n G (pot X x) i.
(** the invariant *)
Definition in_sync (s : cload) : Prop := refresh dim P (l_X s) (l_proj s) = fresh (l_X s).
Definition assembled (s : cload) : Prop := exists g, l_j s = gmres (nd_mass dim M (l_X s)) (nd_load dim M (l_cur s) (l_X s)) g /\
  l_k s = free_part (l_X s) (l_j s) /\ forall i, cut ess (l_load s) i = cut ess (mv m (nd_mass dim M (l_X s)) (l_k s)) i.
Definition good (s : cload) : Prop := in_sync s /\ (l_dirty s = false -> assembled s).
Lemma refresh_idem X p : refresh dim P X (refresh dim P X p) = refresh dim P X p.
Proof. unfold refresh at 1. destruct (dirty (refresh dim P X p)) eqn:E; [|reflexivity]. unfold refresh in E. destruct (dirty p) eqn:Ep; cbn in E; congruence. Qed.
Lemma good_new X c j k l : good (new_load X c j k l).
Proof. split; [reflexivity|discriminate]. Qed.
Lemma assemble_ok c s : in_sync s -> let s' := assemble c s in
  l_X s' = l_X s /\ l_cur s' = l_cur s /\ l_dirty s' = l_dirty s /\ l_proj s' = fresh (l_X s) /\
  l_j s' = gmres (nd_mass dim M (l_X s)) (nd_load dim M c (l_X s)) (l_j s) /\ l_k s' = free_part (l_X s) (l_j s') /\ l_load s' = mv m (nd_mass dim M (l_X s)) (l_k s').
Proof.
  intros S. unfold in_sync in S. unfold assemble_load, divfree_mult, irrot_mult. rewrite S. cbn.
  repeat (split; [reflexivity|]). split; [|reflexivity]. extensionality i. unfold free_part. cbn. ring.
Qed.
Lemma clean_ok s : good s -> good (clean s) /\ l_X (clean s) = l_X s /\ l_cur (clean s) = l_cur s /\ l_dirty (clean s) = false /\ assembled (clean s).
Proof.
  intros [S A]. unfold CurrentAsm.clean. destruct (l_dirty s) eqn:D.
  - destruct (assemble_ok (l_cur s) s S) as [E1 [E2 [E3 [E4 [E5 [E6 E7]]]]]].
    assert (Q : assembled {| l_X := l_X (assemble (l_cur s) s); l_cur := l_cur (assemble (l_cur s) s); l_proj := l_proj (assemble (l_cur s) s); l_j := l_j (assemble (l_cur s) s); l_k := l_k (assemble (l_cur s) s); l_load := l_load (assemble (l_cur s) s); l_dirty := false |}).
    { exists (l_j s). cbn [l_X l_cur l_j l_k l_load]. rewrite E1, E2, E5. split; [reflexivity|]. rewrite <- E5. split; [exact E6|]. intros i. now rewrite E7. }
    split; [split; [|intros _; exact Q]|].
    + unfold in_sync. cbn [l_X l_proj]. rewrite E1, E4. apply refresh_idem.
    + cbn [l_X l_cur l_dirty]. now rewrite E1, E2.
  - split; [split; [exact S|intros _; now apply A]|]. split; [reflexivity|]. split; [reflexivity|]. split; [exact D|now apply A].
Qed.
Lemma cut_cut v i : cut ess (cut ess v) i = cut ess v i.
Proof. unfold cut. now destruct (ess i). Qed.
Lemma step_ok s c : good s -> good (step s c) /\ l_X (step s c) = last_mesh (l_X s) [c] /\ l_cur (step s c) = last_density (l_cur s) [c].
Proof.
  intros Gs. destruct c as [mesh cur|tv|u bar|bar acc]; cbn [lstep].
  - destruct Gs as [S A]. destruct mesh as [Y|], cur as [d|]; cbn; (split; [|now split]); (split; [|first [discriminate|exact A]]); unfold in_sync; cbn; try reflexivity; exact S.
  - destruct (clean_ok s Gs) as [[S A] [E1 [E2 [E3 [g [A1 [A2 A3]]]]]]]. unfold add_load. cbn [snd l_X l_cur]. split; [|now split].
    split; [exact S|]. intros _. exists g. cbn [l_X l_cur l_j l_k l_load]. split; [exact A1|split; [exact A2|]]. intros i. rewrite cut_cut. apply A3.
  - destruct Gs as [S A]. destruct (assemble_ok u s S) as [E1 [E2 [E3 [E4 _]]]]. unfold vjp_density. cbn [snd l_X l_cur l_dirty l_proj]. split; [|split; [exact E1|exact E2]].
    split; [|discriminate]. unfold in_sync. cbn [l_X l_proj]. rewrite E1, E4. apply refresh_idem.
  - destruct (clean_ok s Gs) as [[S A] [E1 [E2 [E3 K]]]]. unfold vjp_mesh, divfree_vjp_in, irrot_vjp_in, divfree_vjp_mesh, irrot_vjp_mesh. cbn [snd l_X l_cur]. split; [|now split].
    split; [|intros _; exact K]. unfold in_sync in *. cbn [l_X l_proj]. now rewrite !refresh_idem, S.
Qed.
Lemma history_ok cs : forall s, good s -> good (lhistory dim M n m hess G pcg gmres hpcg ess s cs) /\
  l_X (lhistory dim M n m hess G pcg gmres hpcg ess s cs) = last_mesh (l_X s) cs /\ l_cur (lhistory dim M n m hess G pcg gmres hpcg ess s cs) = last_density (l_cur s) cs.
Proof.
  induction cs as [|c cs IH]; intros s Gs; [split; [exact Gs|split; reflexivity]|].
  destruct (step_ok s c Gs) as [G1 [E1 E2]]. destruct (IH _ G1) as [G2 [E3 E4]]. unfold lhistory in *. cbn [fold_left]. split; [exact G2|]. rewrite E3, E4, E1, E2.
  destruct c as [[Y|] [d|]|tv|u bar|bar acc]; split; reflexivity.
Qed.

(** the solution of the mass system *)
Definition mass_solver (X : mat) : Prop := forall b g, veq m (mv m (nd_mass dim M X) (gmres (nd_mass dim M X) b g)) b.
Lemma l2_projection X c g y : mass_solver X -> mform dim M X (gmres (nd_mass dim M X) (nd_load dim M c X) g) y = lform dim M c X y.
Proof.
  intros S. rewrite <- (mass_form dim n m NN M HN), <- (load_form dim n m NN M HN). apply dot_ext; [intros i _; reflexivity|]. apply S.
Qed.
Lemma mass_unique X u v : lvalid M X -> rule_sees_fields dim M X m -> (forall y, mform dim M X u y = mform dim M X v y) -> veq m u v.
Proof.
  intros V R E. assert (K := mform_zero dim m M X (fun i => u i + -1 * v i) V R). intros i Hi. assert (Z : u i + -1 * v i = 0); [|lra]. apply K; [|exact Hi].
  rewrite (mform_lin dim n m NN M HN), E. ring.
Qed.

(** ** the mesh derivative *)
Section MeshDerivative.
Variables (X V : mat) (c : density) (psi_l : vec) (g : R -> vec).
Hypothesis HV : lvalid M X.
Hypothesis HF : rule_sees_fields dim M X m.
Hypothesis VX : pvalid P X.
Hypothesis RX : rule_sees_gradients dim n hess P X.
Hypothesis SM : locally 0 (fun t => mass_solver (moved X V t)).
Hypothesis SX : locally 0 (fun t => solves_system n pcg (eliminated hess (diffusion dim P (moved X V t)))).
Hypothesis TX : solves_system n pcg (transposed (eliminated hess (diffusion dim P X))).
Hypothesis TM : solves_system m hpcg (transposed (nd_mass dim M X)).
Hypothesis WD : forall e q, In e P -> (q < r_nq (p_diff_rule e))%nat -> r_W (p_diff_rule e) q (pnodes e X) <> 0.
Hypothesis WB : forall e q, In e P -> (q < r_nq (p_div_rule e))%nat -> r_W (p_div_rule e) q (pnodes e X) <> 0.
Hypothesis RD : forall e, In e P -> rule_rev dim (p_nn e) (p_diff_rule e).
Hypothesis RB : forall e, In e P -> rule_rev dim (p_nn e) (p_div_rule e).
Hypothesis AD : forall Y psi lam, ProjectorProofs.dform dim P p_diff_rule Y psi lam = ProjectorProofs.dform dim P p_rule Y psi lam.
Hypothesis AB : forall Y z lam, ProjectorProofs.bform dim P p_div_rule Y z lam = ProjectorProofs.bform dim P p_rule Y z lam.
Hypothesis RM : forall e, In e M -> rule_rev dim (p_nn (c_el e)) (c_mass e).
Hypothesis RL : forall e, In e M -> rule_rev dim (p_nn (c_el e)) (c_lf e).
Hypothesis HC : density_rev dim M X c.
Notation mform := (mform dim M). Notation lform := (lform dim M c).
Notation dform := (ProjectorProofs.dform dim P p_rule). Notation bform := (ProjectorProofs.bform dim P p_rule).
Notation jt t := (gmres (nd_mass dim M (moved X V t)) (nd_load dim M c (moved X V t)) (g t)).
Notation pt t := (pot (moved X V t) (jt t)).
Notation kt t := (free_part (moved X V t) (jt t)).
Lemma mass_entry Y i j : (i < m)%nat -> (j < m)%nat -> nd_mass dim M Y i j = mform Y (unit j) (unit i).
Proof. intros Hi Hj. rewrite <- (mass_form dim n m NN M HN). rewrite dot_unit by exact Hi. now rewrite mv_unit. Qed.
Lemma mform_d u psi : exists d, is_derive (fun t => mform (moved X V t) u psi) 0 d.
Proof. eexists. now apply mform_derive. Qed.
Lemma lform_d psi : exists d, is_derive (fun t => lform (moved X V t) psi) 0 d.
Proof. eexists. apply (DV_ext (fun t => 1 * lform (moved X V t) psi)); [intros; apply Rmult_1_l|]. apply (lform_derive dim M X V HV RL c HC 1 psi). Qed.
Lemma dform_dd psi lam : exists d, is_derive (fun t => dform (moved X V t) psi lam) 0 d.
Proof. eexists. now apply (dform_d dim P). Qed.
Lemma bform_dd z lam : exists d, is_derive (fun t => bform (moved X V t) z lam) 0 d.
Proof. eexists. now apply (bform_d dim P). Qed.
Lemma j_continuous i : (i < m)%nat -> continuous (fun t => jt t i) 0.
Proof.
  apply (solution_continuous m (fun t => nd_mass dim M (moved X V t)) (fun t => jt t) (fun t => nd_load dim M c (moved X V t)) (fun b => gmres (nd_mass dim M X) b zero_vec)).
  - intros k j Hk Hj. apply (continuous_ext (fun t => mform (moved X V t) (unit j) (unit k))); [intros t; symmetry; now apply mass_entry|].
    destruct (mform_d (unit j) (unit k)) as [d D]. eapply DV_continuous, D.
  - intros k Hk. apply (continuous_ext (fun t => lform (moved X V t) (unit k))).
    + intros t. rewrite <- (load_form dim n m NN M HN). now apply dot_unit.
    + destruct (lform_d (unit k)) as [d D]. eapply DV_continuous, D.
  - revert SM. apply filter_imp. intros t S. apply S.
  - cbv beta. rewrite moved_0'. assert (K := locally_singleton _ _ SM). cbv beta in K. rewrite moved_0' in K. intros b. apply K.
  - cbv beta. rewrite moved_0'. intros y. now apply (mass_injective dim n m NN M HN).
Qed.
Lemma p_continuous i : (i < n)%nat -> continuous (fun t => pt t i) 0.
Proof.
  apply (solution_continuous n (fun t => eliminated hess (diffusion dim P (moved X V t))) (fun t => pt t) (fun t => system_rhs n hess (diffusion dim P (moved X V t)) zero_vec (fun i => -1 * mv m (weak_div dim P (moved X V t)) (jt t) i)) (pcg (eliminated hess (diffusion dim P X)))).
  - intros k j Hk Hj. unfold eliminated. destruct (hess k || hess j); [apply continuous_const|].
    apply (continuous_ext (fun t => dform (moved X V t) (unit j) (unit k))).
    + intros t. rewrite <- (diffusion_form dim n m NN P HN). rewrite dot_unit by exact Hk. now apply mv_unit.
    + destruct (dform_dd (unit j) (unit k)) as [d D]. eapply DV_continuous, D.
  - intros k Hk. apply (continuous_ext (fun t => if hess k then 0 else -1 * rsum m (fun l => bform (moved X V t) (unit l) (unit k) * jt t l))).
    + intros t. rewrite rhs_zero. destruct (hess k); [reflexivity|]. f_equal. apply rsum_ext. intros l Hl. f_equal. rewrite <- (weak_div_form dim n m NN P HN).
      rewrite dot_unit by exact Hk. now apply mv_unit.
    + destruct (hess k); [apply continuous_const|]. apply (continuous_mult (fun _ => -1) (fun t => rsum m (fun l => bform (moved X V t) (unit l) (unit k) * jt t l))); [apply continuous_const|].
      apply (cont_rsum m (fun l t => bform (moved X V t) (unit l) (unit k) * jt t l)). intros l Hl.
      apply (continuous_mult (fun t => bform (moved X V t) (unit l) (unit k)) (fun t => jt t l)); [|now apply j_continuous].
      destruct (bform_dd (unit l) (unit k)) as [d D]. eapply DV_continuous, D.
  - revert SX. apply filter_imp. intros t S. exact (S _).
  - cbv beta. rewrite moved_0'. assert (K := locally_singleton _ _ SX). cbv beta in K. rewrite moved_0' in K. exact K.
  - cbv beta. rewrite moved_0'. now apply (sys_injective dim n m NN P hess HN).
Qed.
Lemma k_continuous i : (i < m)%nat -> continuous (fun t => kt t i) 0.
Proof.
  intros Hi. unfold free_part. apply (continuous_minus (fun t => jt t i) (fun t => mv n G (pt t) i)); [now apply j_continuous|].
  unfold mv. apply (cont_rsum n (fun l t => G i l * pt t l)). intros l Hl. apply (continuous_mult (fun _ => G i l) (fun t => pt t l)); [apply continuous_const|now apply p_continuous].
Qed.
Lemma bform_unit Y lam x : bform Y x lam = rsum m (fun j => x j * bform Y (unit j) lam).
Proof.
  rewrite <- (weak_div_form dim n m NN P HN), mv_adj_rect, dot_comm. unfold dot. apply rsum_ext. intros j Hj. f_equal.
  rewrite <- (weak_div_form dim n m NN P HN), mv_adj_rect, dot_comm. now rewrite dot_unit.
Qed.
Lemma dform_unit Y lam x : dform Y x lam = rsum n (fun j => x j * dform Y (unit j) lam).
Proof. apply (dform_sum dim n m NN P HN p_rule Y). Qed.

Notation psi_k := (mvT m (nd_mass dim M X) psi_l).
Notation lam := (adjoint_potential n m hess G pcg (fresh X) (fun j => -1 * psi_k j)).
Notation back := (fun i => (zero_vec i + mvT n (weak_div dim P X) lam i) + psi_k i).
Notation psi_j := (hpcg (transposed (nd_mass dim M X)) (fun i => -1 * back i)).
Lemma load_mesh_derive : is_derive (fun t => mform (moved X V t) (kt t) psi_l) 0
  (pairing dim NN (load_mesh_sens dim M c X (jt 0) psi_j (kt 0) psi_l) V + pairing dim NN (mesh_sens dim P X (pt 0) lam (jt 0)) V).
Proof.
  destruct (adj_ok dim n m NN P hess G pcg HN X (fun j => -1 * psi_k j) TX) as [VL EL].
  set (lam0 := lam) in *. set (psj := psi_j) in *.
  assert (EJ : forall z, mform X z psj = - dot m back z).
  { intros z. rewrite <- (mass_form dim n m NN M HN), mv_adj. rewrite (dot_ext m (mvT m (nd_mass dim M X) psj) (fun i => -1 * back i) z z); [|exact (TM _)|intros i _; reflexivity].
    unfold dot. rewrite <- rsum_opp. apply rsum_ext. intros i _. ring. }
  set (F := fun t => (mform (moved X V t) (kt t) psi_l - mform (moved X V 0) (kt t) psi_l) + (dform (moved X V t) (pt t) lam0 - dform (moved X V 0) (pt t) lam0) +
    (bform (moved X V t) (jt t) lam0 - bform (moved X V 0) (jt t) lam0) + (mform (moved X V t) (jt t) psj - mform (moved X V 0) (jt t) psj) + -1 * lform (moved X V t) psj).
  apply (is_derive_ext_loc F).
  { generalize (filter_and _ _ SM SX). apply filter_imp. intros t [S1 S2]. unfold F. rewrite moved_0'.
    destruct (pot_ok dim n m NN P hess pcg HN (moved X V t) (jt t) S2) as [Vt Et].
    assert (A1 := EL (pt t) Vt). assert (A2 := Et lam0 VL).
    assert (A3 := l2_projection (moved X V t) c (g t) psj S1).
    assert (A4 := EJ (jt t)).
    assert (A5 : mform X (kt t) psi_l = dot m psi_k (jt t) - dot m psi_k (mv n G (pt t))).
    { rewrite <- (mass_form dim n m NN M HN), mv_adj. unfold dot at 1 2 3. rewrite <- rsum_minus. apply rsum_ext. intros i _. unfold free_part. ring. }
    assert (A6 : dot m (fun j => -1 * psi_k j) (mv n G (pt t)) = - dot m psi_k (mv n G (pt t))).
    { unfold dot. rewrite <- rsum_opp. apply rsum_ext. intros i _. ring. }
    assert (A7 : dot m back (jt t) = bform X (jt t) lam0 + dot m psi_k (jt t)).
    { rewrite <- (weak_div_form dim n m NN P HN), mv_adj_rect. fold lam0. unfold dot. rewrite <- rsum_plus. apply rsum_ext. intros i _. unfold zero_vec. ring. }
    match goal with |- ?a = ?b => change (@eq R a b) end. lra. }
  unfold F.
  assert (D1 : exists d1, is_derive (fun t => mform (moved X V t) (kt 0) psi_l) 0 d1) by apply mform_d.
  assert (B1 := mform_derive dim M X V HV RM (kt 0) psi_l).
  assert (B2 := mform_derive dim M X V HV RM (jt 0) psj).
  assert (B3 := dform_d dim P X V WD RD AD (pt 0) lam0).
  assert (B4 := bform_d dim P X V WB RB AB (jt 0) lam0).
  assert (B5 := lform_derive dim M X V HV RL c HC (-1) psj).
  eapply DV_eq.
  - apply (DV_plus (fun t => (mform (moved X V t) (kt t) psi_l - mform (moved X V 0) (kt t) psi_l) + (dform (moved X V t) (pt t) lam0 - dform (moved X V 0) (pt t) lam0) +
      (bform (moved X V t) (jt t) lam0 - bform (moved X V 0) (jt t) lam0) + (mform (moved X V t) (jt t) psj - mform (moved X V 0) (jt t) psj)) (fun t => -1 * lform (moved X V t) psj)); [|exact B5].
    apply (DV_plus (fun t => (mform (moved X V t) (kt t) psi_l - mform (moved X V 0) (kt t) psi_l) + (dform (moved X V t) (pt t) lam0 - dform (moved X V 0) (pt t) lam0) +
      (bform (moved X V t) (jt t) lam0 - bform (moved X V 0) (jt t) lam0)) (fun t => mform (moved X V t) (jt t) psj - mform (moved X V 0) (jt t) psj)).
    + apply (DV_plus (fun t => (mform (moved X V t) (kt t) psi_l - mform (moved X V 0) (kt t) psi_l) + (dform (moved X V t) (pt t) lam0 - dform (moved X V 0) (pt t) lam0))
         (fun t => bform (moved X V t) (jt t) lam0 - bform (moved X V 0) (jt t) lam0)).
      * apply (DV_plus (fun t => mform (moved X V t) (kt t) psi_l - mform (moved X V 0) (kt t) psi_l) (fun t => dform (moved X V t) (pt t) lam0 - dform (moved X V 0) (pt t) lam0)).
        -- apply (frozen m (fun t v => mform (moved X V t) v psi_l) (fun t => kt t)); [intros; apply (mform_unit dim n m NN M HN)|intros; apply mform_d|exact B1|exact k_continuous].
        -- apply (frozen n (fun t v => dform (moved X V t) v lam0) (fun t => pt t)); [intros; apply dform_unit|intros; apply dform_dd|exact B3|exact p_continuous].
      * apply (frozen m (fun t v => bform (moved X V t) v lam0) (fun t => jt t)); [intros; apply bform_unit|intros; apply bform_dd|exact B4|exact j_continuous].
    + apply (frozen m (fun t v => mform (moved X V t) v psj) (fun t => jt t)); [intros; apply (mform_unit dim n m NN M HN)|intros; apply mform_d|exact B2|exact j_continuous].
  - rewrite (mesh_sens_pair dim n m NN P X V HN). fold lam0 psj.
    assert (E : pairing dim NN (load_mesh_sens dim M c X (jt 0) psj (kt 0) psi_l) V =
      lsum (fun e => pairing dim (p_nn (c_el e)) (vmass_mesh dim (p_nd (c_el e)) (c_mass e) 1 (cnodes e X) (d_el (c_el e) (jt 0)) (d_el (c_el e) psj)) (cnodes e V)) M +
      lsum (fun e => pairing dim (p_nn (c_el e)) (vload_mesh dim e c (-1) (cnodes e X) (d_el (c_el e) psj)) (cnodes e V)) M +
      lsum (fun e => pairing dim (p_nn (c_el e)) (vmass_mesh dim (p_nd (c_el e)) (c_mass e) 1 (cnodes e X) (d_el (c_el e) (kt 0)) (d_el (c_el e) psi_l)) (cnodes e V)) M).
    { rewrite <- !lsum_plus. unfold load_mesh_sens. generalize (jt 0) (kt 0). intros j0 k0.
      set (T := fun e k jj => vmass_mesh dim (p_nd (c_el e)) (c_mass e) 1 (cnodes e X) (d_el (c_el e) j0) (d_el (c_el e) psj) k jj +
        vload_mesh dim e c (-1) (cnodes e X) (d_el (c_el e) psj) k jj + vmass_mesh dim (p_nd (c_el e)) (c_mass e) 1 (cnodes e X) (d_el (c_el e) k0) (d_el (c_el e) psi_l) k jj).
      etransitivity; [apply (pairing_assembled dim NN M (fun e => p_nn (c_el e)) (fun e => p_node (c_el e)) T V); intros e He; now apply (numbered_el n m NN M HN)|].
      apply lsum_ext. intros e He. rewrite <- !pairing_plus. reflexivity. }
    etransitivity; [|apply Rplus_eq_compat_r; symmetry; exact E]. ring.
Qed.
End MeshDerivative.
End Object.
