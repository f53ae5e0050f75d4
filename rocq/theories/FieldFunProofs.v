From Coq Require Import Reals Lra Lia List Bool.
From Coquelicot Require Import Coquelicot.
From Verif Require Import Vec Deriv EmIntegSpec EmInteg EmIntegProofs EmMeshProofs SbpSpec SbpMeshProofs CommonFun CommonFunSpec CommonFunProofs FieldFun FieldFunSpec.
Import ListNotations.
Local Open Scope R_scope.

(** the partial derivatives of a point functional *)
Definition partials_ok (F : pointfun) : Prop := forall e q (n W : R -> R) dn dW, 0 < n 0 -> 0 < W 0 -> is_derive n 0 dn -> is_derive W 0 dW ->
  is_derive (fun t => pf_val F e q (n t) (W t)) 0 (pf_norm_bar F e q (n 0) (W 0) * dn + pf_W_bar F e q (n 0) (W 0) * dW).

Lemma mag_path (n W : R -> R) dn dW : 0 < W 0 -> is_derive n 0 dn -> is_derive W 0 dW -> is_derive (fun t => n t / W t) 0 ((dn * W 0 - n 0 * dW) / (W 0 * W 0)).
Proof. intros P A B. apply DV_div; [exact A|exact B|lra]. Qed.
Lemma curl_magnitude_ok : partials_ok curl_magnitude.
Proof.
  intros e q n W dn dW N P A B. cbn [pf_val pf_norm_bar pf_W_bar curl_magnitude].
  apply (DV_eq _ 0 ((dn * W 0 - n 0 * dW) / (W 0 * W 0) * (e_pw e q * W 0) + n 0 / W 0 * (e_pw e q * dW))); [|field; lra].
  apply (DV_mult (fun t => n t / W t) (fun t => e_pw e q * W t)); [now apply mag_path|now apply DV_scal].
Qed.
Lemma exp_path rho amax (m : R -> R) dm : is_derive m 0 dm -> is_derive (fun t => exp (rho * (m t / amax))) 0 (rho * (dm / amax) * exp (rho * (m 0 / amax))).
Proof.
  intros H. apply (DV_eq _ 0 (exp (rho * (m 0 / amax)) * (rho * (dm / amax)))); [|ring].
  apply (DV_comp exp (fun t => rho * (m t / amax))); [apply is_derive_exp|]. apply DV_scal. unfold Rdiv. now apply DV_scal_r.
Qed.
Lemma curl_numerator_ok rho amax : amax <> 0 -> partials_ok (curl_numerator rho amax).
Proof.
  intros Z e q n W dn dW N P A B. cbn [pf_val pf_norm_bar pf_W_bar curl_numerator]. cbv zeta.
  assert (M := mag_path n W dn dW P A B). set (dm := (dn * W 0 - n 0 * dW) / (W 0 * W 0)) in *.
  set (m := fun t => n t / W t). change (n 0 / W 0) with (m 0).
  apply (DV_eq _ 0 ((dm * exp (rho * (m 0 / amax)) + m 0 * (rho * (dm / amax) * exp (rho * (m 0 / amax)))) * (e_pw e q * W 0) +
     m 0 * exp (rho * (m 0 / amax)) * (e_pw e q * dW))).
  - apply (DV_mult (fun t => m t * exp (rho * (m t / amax))) (fun t => e_pw e q * W t)); [|now apply DV_scal].
    apply (DV_mult m (fun t => exp (rho * (m t / amax)))); [exact M|now apply exp_path].
  - set (E := exp (rho * (m 0 / amax))). unfold dm, m. field; split; (exact Z || lra).
Qed.
Lemma curl_denominator_ok rho amax : amax <> 0 -> partials_ok (curl_denominator rho amax).
Proof.
  intros Z e q n W dn dW N P A B. cbn [pf_val pf_norm_bar pf_W_bar curl_denominator]. cbv zeta.
  assert (M := mag_path n W dn dW P A B). set (dm := (dn * W 0 - n 0 * dW) / (W 0 * W 0)) in *.
  set (m := fun t => n t / W t). change (n 0 / W 0) with (m 0).
  apply (DV_eq _ 0 (rho * (dm / amax) * exp (rho * (m 0 / amax)) * (e_pw e q * W 0) + exp (rho * (m 0 / amax)) * (e_pw e q * dW))).
  - apply (DV_mult (fun t => exp (rho * (m t / amax))) (fun t => e_pw e q * W t)); [now apply exp_path|now apply DV_scal].
  - set (E := exp (rho * (m 0 / amax))). unfold dm, m. field; split; (exact Z || lra).
Qed.

(** assembly, with the element hypotheses at the given nodes and state only *)
Lemma total_state_at (en : elem -> mat -> vec -> R) gr M X u v N : (forall e, In e M -> forall i, (i < e_ndof e)%nat -> (e_dof e i < N)%nat) ->
  (forall e, In e M -> is_derive (fun t => en e (nodes_of e X) (along (gather (e_ndof e) (e_dof e) u) (gather (e_ndof e) (e_dof e) v) t)) 0
      (dot (e_ndof e) (gr e (nodes_of e X) (gather (e_ndof e) (e_dof e) u)) (gather (e_ndof e) (e_dof e) v))) ->
  is_derive (fun t => total en M X (along u v t)) 0 (dot N (assembled gr M X u) v).
Proof.
  intros H D. rewrite assembled_dot by exact H. unfold total.
  apply (lsum_derive (fun e t => en e (nodes_of e X) (gather (e_ndof e) (e_dof e) (along u v t)))). intros e He. exact (D e He).
Qed.
Lemma total_mesh_at (en : elem -> mat -> vec -> R) ms M X V u sdim NN : (forall e, In e M -> forall j, (j < e_nn e)%nat -> (e_node e j < NN)%nat) ->
  (forall e, In e M -> is_derive (fun t => en e (moved (nodes_of e X) (nodes_of e V) t) (gather (e_ndof e) (e_dof e) u)) 0
      (pairing sdim (e_nn e) (ms e (nodes_of e X) (gather (e_ndof e) (e_dof e) u)) (nodes_of e V))) ->
  is_derive (fun t => total en M (moved X V t) u) 0 (pairing sdim NN (assembled_mesh ms M X u) V).
Proof.
  intros H D. rewrite assembled_pair by exact H. unfold total.
  apply (lsum_derive (fun e t => en e (nodes_of e (moved X V t)) (gather (e_ndof e) (e_dof e) u))). intros e He. exact (D e He).
Qed.

Section Field.
Variables (sdim : nat) (shape : elem -> nat -> mat) (Adj Jac : elem -> nat -> mat -> mat) (AdjRev JacRev : elem -> nat -> mat -> mat -> mat) (three : bool).
Notation Sh := (ff_S sdim shape Adj Jac three).
Notation nrm := (ff_norm sdim shape Adj Jac three).
Notation bb := (ff_b sdim shape Adj Jac three).
Section Elem.
Variables (F : pointfun) (e : elem).
Hypothesis PF : partials_ok F.
Lemma ff_state_derive X u v : (forall q, (q < e_nq e)%nat -> 0 < e_W e q X) -> (forall q, (q < e_nq e)%nat -> nrm e X q u <> 0) ->
  is_derive (fun t => ff_energy sdim shape Adj Jac three F e X (along u v t)) 0 (dot (e_ndof e) (ff_grad sdim shape Adj Jac three F e X u) v).
Proof.
  intros HW HN.
  assert (G : dot (e_ndof e) (ff_grad sdim shape Adj Jac three F e X u) v =
    rsum (e_nq e) (fun q => pf_norm_bar F e q (nrm e X q u) (e_W e q X) * (dot sdim (bb e X q u) (bb e X q v) / nrm e X q u) + pf_W_bar F e q (nrm e X q u) (e_W e q X) * 0)).
  { unfold ff_grad, dot at 1.
    rewrite (rsum_ext (e_ndof e) _ (fun i => rsum (e_nq e) (fun q => rsum sdim (fun k => Sh e X q i k * ff_b_bar sdim shape Adj Jac three F e X q u k) * v i))) by (intros; now rewrite rsum_scal_r).
    rewrite rsum_swap. apply rsum_ext. intros q _.
    rewrite (rsum_ext (e_ndof e) _ (fun i => rsum sdim (fun k => Sh e X q i k * v i * ff_b_bar sdim shape Adj Jac three F e X q u k))) by (intros; rewrite <- rsum_scal_r; apply rsum_ext; intros; ring).
    rewrite rsum_swap. rewrite Rmult_0_r, Rplus_0_r. unfold dot, Rdiv. rewrite <- rsum_scal_r, <- rsum_scal. apply rsum_ext. intros k _.
    rewrite rsum_scal_r. unfold ff_b_bar. unfold ff_b at 3, flux. unfold Rdiv. ring. }
  rewrite G. unfold ff_energy.
  apply (DV_sum (e_nq e) (fun q t => pf_val F e q (nrm e X q (along u v t)) (e_W e q X))). intros q Hq.
  assert (D : is_derive (fun t => nrm e X q (along u v t)) 0 (dot sdim (bb e X q u) (bb e X q v) / nrm e X q u)).
  { assert (E0 : forall k, bb e X q (along u v 0) k = bb e X q u k) by (intros k; apply flux_along_0).
    apply (DV_eq _ 0 (dot sdim (bb e X q (along u v 0)) (bb e X q v) / norm sdim (bb e X q (along u v 0)))).
    - apply (DV_norm sdim (fun t => bb e X q (along u v t))).
      + intros k _. apply flux_derive.
      + unfold ff_norm in HN. intros Z. apply (HN q Hq). rewrite <- Z. unfold norm, dot. f_equal. apply rsum_ext. intros k _. now rewrite E0.
    - unfold ff_norm, norm, dot. f_equal; [apply rsum_ext; intros k _; now rewrite E0|]. f_equal. apply rsum_ext. intros k _. now rewrite E0. }
  assert (N0 : nrm e X q (along u v 0) = nrm e X q u) by apply nrm_along_0.
  assert (K := PF e q (fun t => nrm e X q (along u v t)) (fun _ => e_W e q X) (dot sdim (bb e X q u) (bb e X q v) / nrm e X q u) 0). cbv beta in K. rewrite N0 in K.
  apply K; [|now apply HW|exact D|exact (DV_const (e_W e q X) 0)]. destruct (norm_nonzero _ _ (HN q Hq)) as [_ P]. exact P.
Qed.
Lemma ff_point_adjoint X V u q (dS : mat) dW : 0 < e_W e q X -> nrm e X q u <> 0 ->
  (forall i k, (i < e_ndof e)%nat -> (k < sdim)%nat -> is_derive (fun t => Sh e (moved X V t) q i k) 0 (dS i k)) ->
  is_derive (fun t => e_W e q (moved X V t)) 0 dW ->
  is_derive (fun t => pf_val F e q (nrm e (moved X V t) q u) (e_W e q (moved X V t))) 0
    (rsum sdim (fun k => rsum (e_ndof e) (fun i => u i * ff_b_bar sdim shape Adj Jac three F e X q u k * dS i k)) +
     pf_W_bar F e q (nrm e X q u) (e_W e q X) * dW).
Proof.
  intros P N HS HW.
  assert (D : is_derive (fun t => nrm e (moved X V t) q u) 0 (dot sdim (bb e X q u) (flux (e_ndof e) (fun _ => dS) 0%nat u) / nrm e X q u)).
  { apply (DV_eq _ 0 (dot sdim (bb e (moved X V 0) q u) (flux (e_ndof e) (fun _ => dS) 0%nat u) / norm sdim (bb e (moved X V 0) q u))).
    - apply (DV_norm sdim (fun t => bb e (moved X V t) q u)); [|rewrite moved_0'; exact N]. intros k Hk.
      exact (path_flux (e_ndof e) sdim (fun t => Sh e (moved X V t) q) dS HS u k Hk).
    - now rewrite moved_0'. }
  assert (K := PF e q (fun t => nrm e (moved X V t) q u) (fun t => e_W e q (moved X V t)) (dot sdim (bb e X q u) (flux (e_ndof e) (fun _ => dS) 0%nat u) / nrm e X q u) dW). cbv beta in K. rewrite !moved_0' in K.
  apply (DV_eq _ 0 _ _ (K ltac:(destruct (norm_nonzero _ _ N) as [_ PN]; exact PN) P D HW)). f_equal.
  unfold dot, Rdiv. rewrite <- rsum_scal_r, <- rsum_scal. apply rsum_ext. intros k _. unfold ff_b_bar, Rdiv. unfold flux. rewrite <- !rsum_scal, <- rsum_scal_r, <- rsum_scal.
  apply rsum_ext. intros i _. ring.
Qed.
Lemma ff_mesh_derive X V u : (forall q, (q < e_nq e)%nat -> rev_scalar sdim (e_nn e) (e_W e q) (e_WRev e q)) ->
  (if three then forall q, (q < e_nq e)%nat -> rev_matrix sdim (e_nn e) (Jac e q) (JacRev e q)
   else forall q, (q < e_nq e)%nat -> rev_matrix sdim (e_nn e) (Adj e q) (AdjRev e q)) ->
  (forall q, (q < e_nq e)%nat -> 0 < e_W e q X) -> (forall q, (q < e_nq e)%nat -> nrm e X q u <> 0) ->
  is_derive (fun t => ff_energy sdim shape Adj Jac three F e (moved X V t) u) 0
    (pairing sdim (e_nn e) (ff_mesh sdim shape Adj Jac AdjRev JacRev three F e X u) V).
Proof.
  intros HR HM HW HN. unfold ff_energy, ff_mesh. rewrite pairing_sum.
  apply (DV_sum (e_nq e) (fun q t => pf_val F e q (nrm e (moved X V t) q u) (e_W e q (moved X V t)))). intros q Hq.
  destruct (rev_scalar_entries _ _ _ _ X V (HR q Hq)) as [dW [D3 D4]]. rewrite pairing_plus, D4.
  destruct three eqn:E3.
  - destruct (rev_matrix_entries _ _ _ _ X V (HM q Hq)) as [dA [D1 D2]]. rewrite D2.
    rewrite (pairing_ext sdim sdim _ (fun k a => rsum (e_ndof e) (fun i => (fun i k => u i * ff_b_bar sdim shape Adj Jac true F e X q u k) i k * shape e q i a)))
      by (intros k a _ _; apply rsum_ext; intros; ring).
    rewrite (jac_bar_pair (e_ndof e) sdim (shape e) q). rewrite <- E3.
    apply ff_point_adjoint; [now apply HW|rewrite E3; now apply HN| |exact D3].
    intros i k Hi Hk. unfold ff_S. rewrite E3. exact (cshape_derive (e_ndof e) sdim (shape e) (Jac e) X V q dA D1 i k Hi Hk).
  - destruct (rev_matrix_entries _ _ _ _ X V (HM q Hq)) as [dA [D1 D2]]. rewrite D2.
    rewrite (adj_bar_pair (e_ndof e) sdim (shape e) q (fun i k => u i * ff_b_bar sdim shape Adj Jac false F e X q u k)). rewrite <- E3.
    apply ff_point_adjoint; [now apply HW|rewrite E3; now apply HN| |exact D3].
    intros i k Hi Hk. unfold ff_S. rewrite E3. exact (dshape_derive (e_ndof e) sdim (shape e) (Adj e) X V q dA D1 i k Hi Hk).
Qed.
End Elem.

(** ** samples *)
Definition mat_of : elem -> nat -> mat -> mat := if three then Jac else Adj.
Notation fs := (field_samples sdim three shape mat_of).
Lemma physical_S e X q i k : physical sdim three (shape e q) (mat_of e q X) i k = Sh e X q i k.
Proof. unfold physical, mat_of, ff_S, curlshape_dFt, dshapedxt. destruct three; reflexivity. Qed.
Lemma sample_mag e X q u : 0 < e_W e q X -> field_magnitude (e_ndof e) sdim (physical sdim three (shape e q) (mat_of e q X)) (e_W e q X) u = nrm e X q u / e_W e q X.
Proof.
  intros P.
  transitivity (field_magnitude (e_ndof e) sdim (Sh e X q) (e_W e q X) u).
  - unfold field_magnitude, field. f_equal. apply rsum_ext. intros k _. rewrite !(rsum_ext (e_ndof e) (fun i => physical sdim three (shape e q) (mat_of e q X) i k * u i) (fun i => Sh e X q i k * u i)) by (intros; now rewrite physical_S). reflexivity.
  - exact (magnitude_fmag (e_ndof e) sdim (fun q => e_W e q X) (Sh e X) q u P).
Qed.
Lemma fs_sum (G : R -> R -> R) M X u : weights_ok M X ->
  lsum (fun p => G (fst p) (snd p)) (fs M X u) =
  lsum (fun e => rsum (e_nq e) (fun q => G (nrm e (nodes_of e X) q (gather (e_ndof e) (e_dof e) u) / e_W e q (nodes_of e X)) (e_pw e q * e_W e q (nodes_of e X)))) M.
Proof.
  intros H. unfold field_samples. rewrite lsum_flat_map. apply lsum_ext. intros e He. rewrite lsum_map, lsum_seq. apply rsum_ext. intros q Hq. cbv zeta. cbn [fst snd].
  f_equal. apply (sample_mag e (nodes_of e X) q (gather (e_ndof e) (e_dof e) u)). exact (H e q He Hq).
Qed.
Lemma magnitude_samples M X u : weights_ok M X -> total (ff_energy sdim shape Adj Jac three curl_magnitude) M X u = lsum (fun p => fst p * snd p) (fs M X u).
Proof. intros H. rewrite (fs_sum (fun g w => g * w)) by exact H. reflexivity. Qed.
Lemma numerator_samples rho amax M X u : weights_ok M X ->
  total (ff_energy sdim shape Adj Jac three (curl_numerator rho amax)) M X u = lsum (fun p => fst p * exp (rho / amax * fst p) * snd p) (fs M X u).
Proof.
  intros H. rewrite (fs_sum (fun g w => g * exp (rho / amax * g) * w)) by exact H. unfold total, ff_energy. apply lsum_ext. intros e _. apply rsum_ext. intros q _.
  cbn [pf_val curl_numerator]. cbv zeta. do 3 f_equal. unfold Rdiv. ring.
Qed.
Lemma denominator_samples rho amax M X u : weights_ok M X ->
  total (ff_energy sdim shape Adj Jac three (curl_denominator rho amax)) M X u = lsum (fun p => exp (rho / amax * fst p) * snd p) (fs M X u).
Proof.
  intros H. rewrite (fs_sum (fun g w => exp (rho / amax * g) * w)) by exact H. unfold total, ff_energy. apply lsum_ext. intros e _. apply rsum_ext. intros q _.
  cbn [pf_val curl_denominator]. cbv zeta. do 2 f_equal. unfold Rdiv. ring.
Qed.
Lemma agg_induced M X u rho : weights_ok M X -> curl_agg sdim shape Adj Jac three M X u rho = induced_exponential rho (fs M X u).
Proof. intros H. unfold curl_agg. rewrite numerator_samples, denominator_samples by exact H. replace (rho / 1) with rho by field. reflexivity. Qed.

(** ** definedness *)
Lemma nonzero_samples M X u : weights_ok M X -> no_zero_field (fs M X u) ->
  forall e q, In e M -> (q < e_nq e)%nat -> nrm e (nodes_of e X) q (gather (e_ndof e) (e_dof e) u) <> 0.
Proof.
  intros H Z e q He Hq E. assert (P := H e q He Hq).
  apply (Z (nrm e (nodes_of e X) q (gather (e_ndof e) (e_dof e) u) / e_W e q (nodes_of e X)) (e_pw e q * e_W e q (nodes_of e X))); [|rewrite E; unfold Rdiv; ring].
  unfold field_samples. apply in_flat_map. exists e. split; [exact He|]. apply in_map_iff. exists q. split; [|apply in_seq; lia].
  cbv zeta. f_equal. apply (sample_mag e (nodes_of e X) q (gather (e_ndof e) (e_dof e) u)). exact P.
Qed.
Lemma defined_nonzero M X u : weights_ok M X -> (ff_defined sdim shape Adj Jac three M X u = true <-> no_zero_field (fs M X u)).
Proof.
  intros H. unfold ff_defined. rewrite forallb_forall. split.
  - intros D g w I. unfold field_samples in I. apply in_flat_map in I as [e [He I]]. apply in_map_iff in I as [q [E I]]. cbv zeta in E. injection E as <- _.
    apply in_seq in I. specialize (D e He). rewrite fluxes_all in D. assert (D' := proj2 (all_nonzero (e_ndof e) sdim _ _ (e_nq e)) D q ltac:(lia)). clear D. rename D' into D.
    assert (P := H e q He ltac:(lia)). change (fun k j => X k (e_node e j)) with (nodes_of e X). change (fun i => u (e_dof e i)) with (gather (e_ndof e) (e_dof e) u).
    rewrite (sample_mag e (nodes_of e X) q (gather (e_ndof e) (e_dof e) u) P).
    intros Z. apply D. unfold ff_norm, ff_b in Z. apply (f_equal (fun z => z * e_W e q (nodes_of e X))) in Z. unfold Rdiv in Z. rewrite Rmult_assoc, Rinv_l, Rmult_1_r, Rmult_0_l in Z by (apply Rgt_not_eq; exact P). exact Z.
  - intros Z e He. rewrite fluxes_all. apply all_nonzero. intros q Hq. exact (nonzero_samples M X u H Z e q He Hq).
Qed.
End Field.
