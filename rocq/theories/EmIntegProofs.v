From Coq Require Import Reals Lra Lia.
From Coquelicot Require Import Coquelicot.
From Verif Require Import Vec Deriv EmIntegSpec EmInteg.
Local Open Scope R_scope.

Section Element.
Variables (ndof sdim nq : nat) (pw pW : nat -> R) (C : nat -> mat) (pnu pdnu : nat -> R -> R) (alpha : R).
Hypothesis HW : forall q, (q < nq)%nat -> 0 < pW q.
Notation flx := (flux ndof C).
Notation nrm q u := (norm sdim (flx q u)).
Notation mag := (fmag ndof sdim pW C).
Notation vect := (elem_vector ndof sdim nq pw pW C pnu alpha).
Notation w := (wq pw pW alpha).

Lemma flux_along q u v t k : flx q (along u v t) k = flx q u k + t * flx q v k.
Proof. unfold flux, along. rewrite <- rsum_scal, <- rsum_plus. apply rsum_ext; intros; ring. Qed.
Lemma flux_derive q u v k x : is_derive (fun t => flx q (along u v t) k) x (flx q v k).
Proof.
  apply (DV_ext (fun t => flx q u k + t * flx q v k)); [intros; symmetry; apply flux_along|].
  apply (DV_eq _ x (0 + 1 * flx q v k)); [apply DV_plus; [apply DV_const|apply DV_scal_r, DV_id]|ring].
Qed.
Lemma along_0 u v i : along u v 0 i = u i. Proof. unfold along. ring. Qed.
Lemma flux_along_0 q u v k : flx q (along u v 0) k = flx q u k.
Proof. rewrite flux_along. ring. Qed.
Lemma nrm_along_0 q u v : nrm q (along u v 0) = nrm q u.
Proof. apply norm_ext. intros k _. apply flux_along_0. Qed.
Lemma magnitude_fmag q u : 0 < pW q -> field_magnitude ndof sdim (C q) (pW q) u = mag q u.
Proof.
  intros P. unfold field_magnitude, fmag, norm. rewrite (rsum_ext sdim _ (fun k => (flx q u k * flx q u k) * (/ pW q * / pW q))).
  2:{ intros k _. unfold field, flux. field. lra. }
  rewrite rsum_scal_r. fold (dot sdim (flx q u) (flx q u)). rewrite sqrt_mult_alt by apply dot_pos.
  rewrite sqrt_square by (left; now apply Rinv_0_lt_compat). reflexivity.
Qed.
Lemma bmag_fmag q u : 0 < pW q -> bmag ndof sdim pW C q u = mag q u.
Proof. intros P. rewrite <- magnitude_fmag by exact P. unfold bmag, norm, dot, field_magnitude, bvec, field, flux. reflexivity. Qed.
Lemma mag_nonneg q u : 0 < pW q -> 0 <= mag q u.
Proof. intros P. unfold fmag. apply Rmult_le_pos; [apply norm_pos|left; now apply Rinv_0_lt_compat]. Qed.

(** ** energy *)
Lemma vect_dot u v : dot ndof (vect u) v = rsum nq (fun q => w q * pnu q (mag q u) * dot sdim (flx q u) (flx q v)).
Proof.
  unfold dot, elem_vector. rewrite (rsum_ext ndof _ (fun i => rsum nq (fun q => rsum sdim (fun k => C q i k * (w q * pnu q (mag q u) * flx q u k) * v i)))).
  2:{ intros i _. rewrite <- rsum_scal_r. apply rsum_ext. intros q _. now rewrite <- rsum_scal_r. }
  rewrite rsum_swap. apply rsum_ext. intros q _. rewrite rsum_swap. rewrite <- rsum_scal. apply rsum_ext. intros k _.
  unfold flux at 3. rewrite <- !rsum_scal. apply rsum_ext. intros i _. ring.
Qed.

Lemma zero_kink (E : R -> R) K : is_derive E 0 0 -> is_derive (fun t => E (Rabs t * K)) 0 0.
Proof.
  intros D. apply is_derive_Reals. apply is_derive_Reals in D. intros eps He.
  assert (PK : 0 < Rabs K + 1) by (assert (Z := Rabs_pos K); lra).
  destruct (D (eps / (Rabs K + 1))) as [d Hd]; [now apply Rdiv_lt_0_compat|].
  assert (Hd' : 0 < d / (Rabs K + 1)) by (apply Rdiv_lt_0_compat; [apply cond_pos|exact PK]).
  exists (mkposreal _ Hd'). intros h Hh Hb. cbn in Hb. rewrite Rplus_0_l, Rabs_R0, Rmult_0_l, Rminus_0_r.
  destruct (Req_EM_T (Rabs h * K) 0) as [Z|Z].
  - rewrite Z. replace (E 0 - E 0) with 0 by ring. unfold Rdiv. rewrite Rmult_0_l, Rabs_R0. exact He.
  - specialize (Hd (Rabs h * K) Z). rewrite Rplus_0_l, Rminus_0_r in Hd.
    assert (A : Rabs (Rabs h * K) < d).
    { rewrite Rabs_mult, Rabs_Rabsolu. apply Rle_lt_trans with (Rabs h * (Rabs K + 1)).
      - apply Rmult_le_compat_l; [apply Rabs_pos|lra].
      - apply (Rmult_lt_compat_r (Rabs K + 1)) in Hb; [|exact PK]. replace (d / (Rabs K + 1) * (Rabs K + 1)) with (pos d) in Hb by (field; lra). exact Hb. }
    specialize (Hd A). assert (Kz : K <> 0) by (intros ->; apply Z; ring). assert (Ph : 0 < Rabs h) by (now apply Rabs_pos_lt).
    unfold Rdiv at 1. rewrite Rabs_mult. unfold Rdiv at 1 in Hd. rewrite Rabs_mult in Hd.
    rewrite Rabs_inv. rewrite Rabs_inv, Rabs_mult, Rabs_Rabsolu in Hd.
    assert (PKz : 0 < Rabs K) by (now apply Rabs_pos_lt).
    set (N := Rabs (E (Rabs h * K) - E 0)) in *. assert (PN : 0 <= N) by apply Rabs_pos.
    apply Rle_lt_trans with (N * / (Rabs h * Rabs K) * Rabs K); [right; field; lra|].
    apply Rlt_le_trans with (eps / (Rabs K + 1) * Rabs K); [apply Rmult_lt_compat_r; assumption|].
    apply Rle_trans with (eps / (Rabs K + 1) * (Rabs K + 1)); [|right; field; lra].
    apply Rmult_le_compat_l; [left; now apply Rdiv_lt_0_compat|lra].
Qed.

Lemma mag_derive q u v : (q < nq)%nat -> nrm q u <> 0 ->
  is_derive (fun t => mag q (along u v t)) 0 (dot sdim (flx q u) (flx q v) / nrm q u / pW q).
Proof.
  intros Hq N. unfold fmag at 1. apply (DV_ext (fun t => nrm q (along u v t) * / pW q)); [reflexivity|].
  apply (DV_eq _ 0 (dot sdim (flx q (along u v 0)) (flx q v) / nrm q (along u v 0) * / pW q)).
  - apply DV_scal_r. apply (DV_norm sdim (fun t => flx q (along u v t)) (flx q v) 0).
    + intros k _. apply flux_derive.
    + now rewrite nrm_along_0.
  - rewrite nrm_along_0, (dot_ext sdim (flx q (along u v 0)) (flx q u) (flx q v) (flx q v)); [reflexivity|intros k _; apply flux_along_0|intros k _; reflexivity].
Qed.
Lemma nrm_zero_line q u v t : nrm q u = 0 -> nrm q (along u v t) = Rabs t * nrm q v.
Proof.
  intros Z. unfold norm at 1. rewrite (dot_ext sdim _ (vscal t (flx q v)) _ (vscal t (flx q v))).
  - rewrite dot_scal_l, dot_scal_r. rewrite <- Rmult_assoc. rewrite sqrt_mult_alt by nra. f_equal. change (t * t) with (Rsqr t). apply sqrt_Rsqr_abs.
  - intros k Hk. rewrite flux_along. rewrite (norm_0 sdim _ Z k Hk). unfold vscal. ring.
  - intros k Hk. rewrite flux_along. rewrite (norm_0 sdim _ Z k Hk). unfold vscal. ring.
Qed.
Lemma dot_zero_l q u (v : vec) : nrm q u = 0 -> dot sdim (flx q u) v = 0.
Proof. intros Z. unfold dot. rewrite (rsum_ext sdim _ (fun _ => 0)); [apply rsum_0|]. intros k Hk. rewrite (norm_0 sdim _ Z k Hk). ring. Qed.

Lemma energy_gradient (E : nat -> R -> R) u v :
  (forall q b, (q < nq)%nat -> 0 <= b -> is_derive (E q) b (pnu q b * b)) ->
  is_derive (fun t => rsum nq (fun q => alpha * pw q * pW q * E q (mag q (along u v t)))) 0 (dot ndof (vect u) v).
Proof.
  intros HE. rewrite vect_dot. apply (DV_sum nq (fun q t => alpha * pw q * pW q * E q (mag q (along u v t)))). intros q Hq.
  assert (P := HW q Hq). destruct (Req_EM_T (nrm q u) 0) as [Z|Z].
  - rewrite (dot_zero_l q u _ Z), Rmult_0_r. apply (DV_eq _ 0 (alpha * pw q * pW q * 0)); [|ring]. apply DV_scal.
    apply (DV_ext (fun t => E q (Rabs t * (nrm q v / pW q)))).
    { intros t. f_equal. unfold fmag. rewrite nrm_zero_line by exact Z. field. lra. }
    apply zero_kink. apply (DV_eq _ 0 (pnu q 0 * 0)); [apply HE; [exact Hq|lra]|ring].
  - destruct (norm_nonzero _ _ Z) as [_ PN].
    apply (DV_eq _ 0 (alpha * pw q * pW q * (pnu q (mag q (along u v 0)) * mag q (along u v 0) * (dot sdim (flx q u) (flx q v) / nrm q u / pW q)))).
    + apply DV_scal. apply (DV_comp (E q) (fun t => mag q (along u v t))); [apply HE; [exact Hq|now apply mag_nonneg]|now apply mag_derive].
    + assert (M0 : mag q (along u v 0) = mag q u) by (unfold fmag; now rewrite nrm_along_0). rewrite M0.
      unfold wq. unfold fmag at 2. field. split; lra.
Qed.

(** ** Jacobians *)
Definition jac_ok (u : vec) : Prop := forall q, (q < nq)%nat -> nrm q u = 0 \/ tiny < nrm q u.
Hypothesis Hnu : forall q b, (q < nq)%nat -> 0 < b -> is_derive (pnu q) b (pdnu q b).
Hypothesis Hnu0 : forall q, (q < nq)%nat -> continuous (pnu q) 0.

(** the derivative of the residual, free of thresholds *)
Definition true_jv (u v : vec) : vec := fun i =>
  rsum nq (fun q => rsum sdim (fun k => C q i k * (w q * (pnu q (mag q u) * flx q v k +
     (if Req_EM_T (nrm q u) 0 then 0 else pdnu q (mag q u) * (dot sdim (flx q u) (flx q v) / nrm q u / pW q) * flx q u k))))).
Lemma true_jv_derive u v i : is_derive (fun t => vect (along u v t) i) 0 (true_jv u v i).
Proof.
  unfold elem_vector, true_jv.
  apply (DV_sum nq (fun q t => rsum sdim (fun k => C q i k * (w q * pnu q (mag q (along u v t)) * flx q (along u v t) k)))). intros q Hq.
  apply (DV_sum sdim (fun k t => C q i k * (w q * pnu q (mag q (along u v t)) * flx q (along u v t) k))). intros k Hk. apply DV_scal.
  apply (DV_ext (fun t => w q * (pnu q (mag q (along u v t)) * flx q (along u v t) k))); [intros; ring|]. apply DV_scal.
  assert (P := HW q Hq). assert (M0 : mag q (along u v 0) = mag q u) by (unfold fmag; now rewrite nrm_along_0).
  destruct (Req_EM_T (nrm q u) 0) as [Z|Z].
  - rewrite Rplus_0_r. rewrite <- M0. apply (DV_zero_mult (fun t => pnu q (mag q (along u v t))) (fun t => flx q (along u v t) k)).
    + apply (continuous_comp (fun t => mag q (along u v t)) (pnu q)).
      * unfold fmag. apply (continuous_scal_l (fun t => nrm q (along u v t)) (/ pW q)).
        apply (norm_continuous sdim (fun t => flx q (along u v t))). intros j _. apply (DV_continuous _ 0 (flx q v j)), flux_derive.
      * rewrite M0. unfold fmag. rewrite Z. unfold Rdiv. rewrite Rmult_0_l. now apply Hnu0.
    + apply flux_derive.
    + rewrite flux_along_0. exact (norm_0 sdim _ Z k Hk).
  - destruct (norm_nonzero _ _ Z) as [_ PN].
    apply (DV_eq _ 0 (pdnu q (mag q (along u v 0)) * (dot sdim (flx q u) (flx q v) / nrm q u / pW q) * flx q (along u v 0) k +
                      pnu q (mag q (along u v 0)) * flx q v k)).
    + apply (DV_mult (fun t => pnu q (mag q (along u v t))) (fun t => flx q (along u v t) k)); [|apply flux_derive].
      apply (DV_comp (pnu q) (fun t => mag q (along u v t))); [|now apply mag_derive]. apply Hnu; [exact Hq|].
      rewrite M0. unfold fmag. now apply Rdiv_lt_0_compat.
    + rewrite M0, flux_along_0. ring.
Qed.

Lemma nld_grad_v u v i :
  mv ndof (nld_grad ndof sdim nq pw pW C pnu pdnu alpha u) v i =
  rsum nq (fun q => rsum sdim (fun k => C q i k * (w q * (pnu q (mag q u) * flx q v k +
     (if Rlt_dec tiny (Rabs (nrm q u)) then pdnu q (mag q u) * (dot sdim (flx q u) (flx q v) * (1 / nrm q u) / pW q) * flx q u k else 0))))).
Proof.
  unfold mv, nld_grad. rewrite (rsum_ext ndof _ (fun j => rsum nq (fun q => rsum sdim (fun k => C q i k * nld_2_dot ndof sdim pw pW C pnu pdnu alpha q u j k * v j)))).
  2:{ intros j _. rewrite <- rsum_scal_r. apply rsum_ext. intros q _. now rewrite <- rsum_scal_r. }
  rewrite rsum_swap. apply rsum_ext. intros q _. rewrite rsum_swap. apply rsum_ext. intros k _.
  unfold nld_2_dot. destruct (Rlt_dec tiny (Rabs (nrm q u))).
  - rewrite (rsum_ext ndof _ (fun j => C q i k * w q * (pnu q (mag q u) * (C q j k * v j) + flx q u k * (nld_norm_dot ndof sdim pW C pdnu q u j * v j)))) by (intros; ring).
    rewrite rsum_scal, rsum_plus, !rsum_scal. fold (flx q v k).
    assert (S : rsum ndof (fun j => nld_norm_dot ndof sdim pW C pdnu q u j * v j) = pdnu q (mag q u) * (dot sdim (flx q u) (flx q v) * (1 / nrm q u) / pW q)).
    { unfold nld_norm_dot. rewrite (rsum_ext ndof _ (fun j => pdnu q (mag q u) * (1 / nrm q u / pW q) * rsum sdim (fun k => flx q u k * (C q j k * v j)))).
      - rewrite rsum_scal, rsum_swap. unfold dot. unfold Rdiv. rewrite (rsum_ext sdim _ (fun k0 => flx q u k0 * flx q v k0)); [ring|].
        intros k0 _. rewrite rsum_scal. reflexivity.
      - intros j _. rewrite (rsum_ext sdim (fun k0 => C q j k0 * _) (fun k0 => 1 / nrm q u * (flx q u k0 * C q j k0))) by (intros; ring).
        rewrite (rsum_ext sdim (fun k0 => flx q u k0 * (C q j k0 * v j)) (fun k0 => v j * (flx q u k0 * C q j k0))) by (intros; ring).
        rewrite !rsum_scal. unfold Rdiv. ring. }
    rewrite S. change (rsum ndof (fun j => C q j k * v j)) with (flx q v k). ring.
  - rewrite (rsum_ext ndof _ (fun j => C q i k * w q * pnu q (mag q u) * (C q j k * v j))) by (intros; ring). rewrite rsum_scal. change (rsum ndof (fun j => C q j k * v j)) with (flx q v k). ring.
Qed.
Lemma nld_grad_true u v i : jac_ok u -> mv ndof (nld_grad ndof sdim nq pw pW C pnu pdnu alpha u) v i = true_jv u v i.
Proof.
  intros J. rewrite nld_grad_v. unfold true_jv. apply rsum_ext. intros q Hq. apply rsum_ext. intros k _. f_equal. f_equal. f_equal.
  assert (T : 0 < tiny) by (unfold tiny; apply Rinv_0_lt_compat; apply pow_lt; lra). assert (P := HW q Hq).
  destruct (J q Hq) as [Z|L].
  - rewrite Z, Rabs_R0. destruct (Rlt_dec tiny 0); [lra|]. destruct (Req_EM_T 0 0); [reflexivity|lra].
  - rewrite Rabs_pos_eq by lra. destruct (Rlt_dec tiny (nrm q u)); [|lra]. destruct (Req_EM_T (nrm q u) 0); [lra|]. field. split; lra.
Qed.

Lemma scratch_v q u v : rsum ndof (fun j => cc_scratch ndof sdim pW C q u j * v j) = dot sdim (flx q u) (flx q v) / pW q.
Proof.
  unfold cc_scratch. rewrite (rsum_ext ndof _ (fun j => rsum sdim (fun k => bvec ndof pW C q u k * (C q j k * v j)))).
  2:{ intros j _. rewrite <- rsum_scal_r. apply rsum_ext; intros; ring. }
  rewrite rsum_swap. unfold dot. rewrite <- rsum_div. apply rsum_ext. intros k _. rewrite rsum_scal. unfold bvec.
  change (rsum ndof (fun i => C q i k * v i)) with (flx q v k). unfold Rdiv. ring.
Qed.
Lemma cc_grad_v u v i :
  mv ndof (cc_grad ndof sdim nq pw pW C pnu pdnu alpha u) v i =
  rsum nq (fun q => pnu q (bmag ndof sdim pW C q u) * w q * rsum sdim (fun k => C q i k * flx q v k) +
     (if Rlt_dec tiny (Rabs (bmag ndof sdim pW C q u)) then pdnu q (bmag ndof sdim pW C q u) * w q / bmag ndof sdim pW C q u *
         (cc_scratch ndof sdim pW C q u i * (dot sdim (flx q u) (flx q v) / pW q)) else 0)).
Proof.
  unfold mv, cc_grad. rewrite (rsum_ext ndof _ (fun j => rsum nq (fun q => (pnu q (bmag ndof sdim pW C q u) * w q * rsum sdim (fun k => C q i k * C q j k) +
    (if Rlt_dec tiny (Rabs (bmag ndof sdim pW C q u)) then pdnu q (bmag ndof sdim pW C q u) * w q / bmag ndof sdim pW C q u *
       (cc_scratch ndof sdim pW C q u i * cc_scratch ndof sdim pW C q u j) else 0)) * v j))).
  2:{ intros j _. now rewrite <- rsum_scal_r. }
  rewrite rsum_swap. apply rsum_ext. intros q _.
  set (nb := pnu q (bmag ndof sdim pW C q u)). set (b := bmag ndof sdim pW C q u).
  assert (S1 : rsum ndof (fun j => rsum sdim (fun k => C q i k * C q j k) * v j) = rsum sdim (fun k => C q i k * flx q v k)).
  { rewrite (rsum_ext ndof _ (fun j => rsum sdim (fun k => C q i k * (C q j k * v j)))) by (intros; rewrite <- rsum_scal_r; apply rsum_ext; intros; ring).
    rewrite rsum_swap. apply rsum_ext. intros k _. now rewrite rsum_scal. }
  rewrite <- S1. rewrite <- (scratch_v q u v). destruct (Rlt_dec tiny (Rabs b)).
  - rewrite <- !rsum_scal, <- rsum_plus. apply rsum_ext. intros j _. ring.
  - rewrite Rplus_0_r, <- !rsum_scal. apply rsum_ext. intros j _. ring.
Qed.
Definition cc_ok (u : vec) : Prop := forall q, (q < nq)%nat -> mag q u = 0 \/ tiny < mag q u.
Lemma mag_zero q u : (q < nq)%nat -> mag q u = 0 -> nrm q u = 0.
Proof.
  intros Hq Z. assert (P := HW q Hq). unfold fmag in Z.
  assert (E : nrm q u = nrm q u / pW q * pW q) by (field; lra). rewrite E, Z. ring.
Qed.
Lemma cc_grad_true u v i : cc_ok u -> mv ndof (cc_grad ndof sdim nq pw pW C pnu pdnu alpha u) v i = true_jv u v i.
Proof.
  intros J. rewrite cc_grad_v. unfold true_jv. apply rsum_ext. intros q Hq. assert (P := HW q Hq). rewrite bmag_fmag by exact P.
  assert (T : 0 < tiny) by (unfold tiny; apply Rinv_0_lt_compat; apply pow_lt; lra).
  rewrite Rabs_pos_eq by (now apply mag_nonneg).
  destruct (J q Hq) as [Z|L].
  - assert (ZN := mag_zero q u Hq Z). rewrite Z, ZN. destruct (Rlt_dec tiny 0); [lra|]. destruct (Req_EM_T 0 0); [|lra].
    rewrite Rplus_0_r, <- rsum_scal. apply rsum_ext. intros k _. ring.
  - destruct (Rlt_dec tiny (mag q u)); [|lra]. destruct (Req_EM_T (nrm q u) 0) as [Z|Z].
    { exfalso. unfold fmag in L. rewrite Z in L. unfold Rdiv in L. rewrite Rmult_0_l in L. lra. }
    unfold cc_scratch. rewrite <- rsum_scal_r, <- !rsum_scal, <- rsum_plus. apply rsum_ext. intros k _.
    unfold bvec. set (a := pnu q (mag q u)). set (b := pdnu q (mag q u)). unfold fmag. field. split; lra.
Qed.

(** symmetry and definiteness *)
Lemma jv_dot u v x : dot ndof (true_jv u v) x = rsum nq (fun q => w q * (pnu q (mag q u) * dot sdim (flx q v) (flx q x) +
     (if Req_EM_T (nrm q u) 0 then 0 else pdnu q (mag q u) * (dot sdim (flx q u) (flx q v) / nrm q u / pW q) * dot sdim (flx q u) (flx q x)))).
Proof.
  unfold true_jv. set (T := fun q k => w q * (pnu q (mag q u) * flx q v k + (if Req_EM_T (nrm q u) 0 then 0 else pdnu q (mag q u) * (dot sdim (flx q u) (flx q v) / nrm q u / pW q) * flx q u k))).
  change (dot ndof (fun i => rsum nq (fun q => rsum sdim (fun k => C q i k * T q k))) x = rsum nq (fun q => w q * (pnu q (mag q u) * dot sdim (flx q v) (flx q x) +
     (if Req_EM_T (nrm q u) 0 then 0 else pdnu q (mag q u) * (dot sdim (flx q u) (flx q v) / nrm q u / pW q) * dot sdim (flx q u) (flx q x))))).
  unfold dot at 1. rewrite (rsum_ext ndof _ (fun i => rsum nq (fun q => rsum sdim (fun k => C q i k * T q k * x i)))).
  2:{ intros i _. rewrite <- rsum_scal_r. apply rsum_ext. intros q _. now rewrite <- rsum_scal_r. }
  rewrite rsum_swap. apply rsum_ext. intros q _. rewrite rsum_swap.
  rewrite (rsum_ext sdim _ (fun k => T q k * flx q x k)).
  2:{ intros k _. unfold flux. rewrite <- rsum_scal. apply rsum_ext. intros; ring. }
  unfold T, dot. destruct (Req_EM_T (nrm q u) 0).
  - rewrite Rplus_0_r, <- !rsum_scal. apply rsum_ext. intros k _. ring.
  - rewrite Rmult_plus_distr_l, <- !rsum_scal, <- rsum_plus. apply rsum_ext. intros k _. ring.
Qed.
End Element.
