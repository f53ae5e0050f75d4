(** C72-C74: residual and energy integrators of magnetostatics (and of nonlinear diffusion). *)
From Coq Require Import Reals Lra Lia.
From Coquelicot Require Import Coquelicot.
From Verif Require Import Vec Deriv EmIntegSpec EmInteg EmIntegProofs EmMeshProofs IsoGeom.
Local Open Scope R_scope.

(** C72: the element residual is the gradient of the element's energy, sum of weights times int_0^|B| nu b db, at every
    state, including those with zero field. *)
Theorem C72_variational : forall ndof sdim nq pw pW C pnu alpha (E : nat -> R -> R),
  (forall q, (q < nq)%nat -> 0 < pW q) ->
  (forall q b, (q < nq)%nat -> 0 <= b -> is_derive (E q) b (pnu q b * b)) ->
  forall u v, is_derive (fun t => rsum nq (fun q => alpha * pw q * pW q * E q (field_magnitude ndof sdim (C q) (pW q) (along u v t)))) 0
                        (dot ndof (elem_vector ndof sdim nq pw pW C pnu alpha u) v).
Proof.
  intros ndof sdim nq pw pW C pnu alpha E HW HE u v.
  apply (DV_ext (fun t => rsum nq (fun q => alpha * pw q * pW q * E q (fmag ndof sdim pW C q (along u v t))))).
  { intros t. apply rsum_ext. intros q Hq. now rewrite magnitude_fmag by auto. }
  now apply energy_gradient.
Qed.
Print Assumptions C72_variational.
Example C72_variational_met : forall b : R, is_derive (fun b => b * b / 2 + b * b * b / 3) b ((1 + b) * b).
Proof. intros b. auto_derive; [exact Logic.I|field]. Qed.

(** C72: both Jacobian matrices times a direction are the directional derivative of the residual at every state whose
    field at each quadrature point is 0 or above the cut-off 1e-14. *)
Theorem C72_jacobian_partial : forall ndof sdim nq pw pW C pnu pdnu alpha,
  (forall q, (q < nq)%nat -> 0 < pW q) ->
  (forall q b, (q < nq)%nat -> 0 < b -> is_derive (pnu q) b (pdnu q b)) -> (forall q, (q < nq)%nat -> continuous (pnu q) 0) ->
  forall u v,
  ((forall q, (q < nq)%nat -> field_magnitude ndof sdim (C q) (pW q) u = 0 \/ / 10 ^ 14 < field_magnitude ndof sdim (C q) (pW q) u * pW q) ->
     derivative_at ndof (elem_vector ndof sdim nq pw pW C pnu alpha) u v (mv ndof (nld_grad ndof sdim nq pw pW C pnu pdnu alpha u) v)) /\
  ((forall q, (q < nq)%nat -> field_magnitude ndof sdim (C q) (pW q) u = 0 \/ / 10 ^ 14 < field_magnitude ndof sdim (C q) (pW q) u) ->
     derivative_at ndof (elem_vector ndof sdim nq pw pW C pnu alpha) u v (mv ndof (cc_grad ndof sdim nq pw pW C pnu pdnu alpha u) v) /\
     cc_fwd ndof sdim nq pw pW C pnu pdnu alpha u v = mv ndof (cc_grad ndof sdim nq pw pW C pnu pdnu alpha u) v).
Proof.
  intros ndof sdim nq pw pW C pnu pdnu alpha HW Hnu Hnu0 u v. split; intros H.
  - intros i Hi. rewrite (nld_grad_true ndof sdim nq pw pW C pnu pdnu alpha HW u v i).
    + apply (true_jv_derive ndof sdim nq pw pW C pnu pdnu alpha HW Hnu Hnu0 u v i).
    + intros q Hq. assert (P := HW q Hq). assert (M := magnitude_fmag ndof sdim pW C q u P). destruct (H q Hq) as [Z|L].
      * left. apply (mag_zero ndof sdim nq pW C HW q u Hq). now rewrite <- M.
      * right. rewrite M in L. unfold fmag in L. unfold Rdiv in L. rewrite Rmult_assoc, Rinv_l, Rmult_1_r in L by lra. exact L.
  - split; [|reflexivity]. intros i Hi. rewrite (cc_grad_true ndof sdim nq pw pW C pnu pdnu alpha HW u v i).
    + apply (true_jv_derive ndof sdim nq pw pW C pnu pdnu alpha HW Hnu Hnu0 u v i).
    + intros q Hq. rewrite <- (magnitude_fmag ndof sdim pW C q u) by auto. apply (H q Hq).
Qed.
Print Assumptions C72_jacobian_partial.

(** Below the cut-off both matrices omit the derivative of the coefficient: one dof, B = u, nu(b) = 1 + b. *)
Definition one1 : nat -> mat := fun _ _ _ => 1.
Theorem C72_cutoff_refuted : forall u : R, 0 < u <= / 10 ^ 14 ->
  let nu := fun (_ : nat) b => 1 + b in let dnu := fun (_ : nat) (_ : R) => 1 in
  is_derive (fun t => elem_vector 1 1 1 (fun _ => 1) (fun _ => 1) one1 nu 1 (along (fun _ => u) (fun _ => 1) t) 0%nat) 0 (1 + 2 * u) /\
  nld_grad 1 1 1 (fun _ => 1) (fun _ => 1) one1 nu dnu 1 (fun _ => u) 0%nat 0%nat = 1 + u /\
  cc_grad 1 1 1 (fun _ => 1) (fun _ => 1) one1 nu dnu 1 (fun _ => u) 0%nat 0%nat = 1 + u.
Proof.
  intros u [U1 U2] nu dnu.
  assert (N : norm 1 (flux 1 one1 0%nat (fun _ => u)) = u).
  { unfold norm, dot, flux, one1. cbn. replace (0 + (0 + 1 * u) * (0 + 1 * u)) with (u * u) by ring. apply sqrt_square. lra. }
  assert (M : fmag 1 1 (fun _ => 1) one1 0%nat (fun _ => u) = u) by (unfold fmag; rewrite N; field).
  split; [|split].
  - apply (DV_eq _ 0 _ _ (true_jv_derive 1 1 1 (fun _ => 1) (fun _ => 1) one1 nu dnu 1 ltac:(intros; lra)
       ltac:(intros q b _ _; unfold nu, dnu; auto_derive; [exact Logic.I|ring]) ltac:(intros q _; unfold nu; apply (DV_continuous _ 0 1); auto_derive; [exact Logic.I|ring])
       (fun _ => u) (fun _ => 1) 0%nat)).
    unfold true_jv. cbn [rsum]. rewrite N, M. destruct (Req_EM_T u 0); [lra|]. unfold wq, nu, dnu, dot, flux, one1. cbn. field. lra.
  - unfold nld_grad, nld_2_dot. cbn [rsum]. rewrite N, M. rewrite Rabs_pos_eq by lra. unfold tiny. destruct (Rlt_dec (/ 10 ^ 14) u); [lra|].
    unfold wq, nu, one1. field.
  - unfold cc_grad. cbn [rsum]. rewrite bmag_fmag by lra. rewrite M. rewrite Rabs_pos_eq by lra. unfold tiny. destruct (Rlt_dec (/ 10 ^ 14) u); [lra|].
    unfold wq, nu, one1. field.
Qed.
Print Assumptions C72_cutoff_refuted.

(** C72: both matrices are symmetric, so forward and reverse products agree; they are positive semi-definite when weights
    and reluctivity are non-negative and the field H(b) = nu(b) b does not decrease. *)
Theorem C72_symmetric : forall ndof sdim nq pw pW C pnu pdnu alpha u,
  (forall i j, nld_grad ndof sdim nq pw pW C pnu pdnu alpha u i j = nld_grad ndof sdim nq pw pW C pnu pdnu alpha u j i) /\
  (forall i j, cc_grad ndof sdim nq pw pW C pnu pdnu alpha u i j = cc_grad ndof sdim nq pw pW C pnu pdnu alpha u j i) /\
  (forall psi u_dot, dot ndof psi (cc_fwd ndof sdim nq pw pW C pnu pdnu alpha u u_dot) = dot ndof (cc_rev ndof sdim nq pw pW C pnu pdnu alpha u psi) u_dot) /\
  (forall psi i, cc_rev ndof sdim nq pw pW C pnu pdnu alpha u psi i = cc_fwd ndof sdim nq pw pW C pnu pdnu alpha u psi i).
Proof.
  intros ndof sdim nq pw pW C pnu pdnu alpha u.
  assert (SC : forall i j, cc_grad ndof sdim nq pw pW C pnu pdnu alpha u i j = cc_grad ndof sdim nq pw pW C pnu pdnu alpha u j i).
  { intros i j. unfold cc_grad. apply rsum_ext. intros q _. rewrite (rsum_ext sdim (fun k => C q i k * C q j k) (fun k => C q j k * C q i k)) by (intros; ring).
    rewrite (Rmult_comm (cc_scratch ndof sdim pW C q u i)). reflexivity. }
  split; [|split; [exact SC|split]].
  - intros i j. unfold nld_grad, nld_2_dot. apply rsum_ext. intros q _. destruct (Rlt_dec tiny (Rabs (norm sdim (flux ndof C q u)))).
    + set (f := flux ndof C q u). set (m := fmag ndof sdim pW C q u). set (w := wq pw pW alpha q). unfold nld_norm_dot. fold f m.
      assert (E : forall a c, rsum sdim (fun k => C q a k * ((C q c k * pnu q m + rsum sdim (fun k0 => C q c k0 * (1 / norm sdim f * f k0)) / pW q * pdnu q m * f k) * w)) =
        w * pnu q m * rsum sdim (fun k => C q a k * C q c k) + w * pdnu q m * (1 / norm sdim f) / pW q * (rsum sdim (fun k => C q a k * f k) * rsum sdim (fun k => C q c k * f k))).
      { intros a c. rewrite (rsum_ext sdim (fun k0 => C q c k0 * (1 / norm sdim f * f k0)) (fun k0 => 1 / norm sdim f * (C q c k0 * f k0))) by (intros; ring). rewrite rsum_scal.
        set (Sc := rsum sdim (fun k => C q c k * f k)). rewrite <- rsum_scal_r, <- !rsum_scal, <- rsum_plus. apply rsum_ext. intros k _. unfold Rdiv. ring. }
      rewrite !E. rewrite (rsum_ext sdim (fun k => C q i k * C q j k) (fun k => C q j k * C q i k)) by (intros; ring). ring.
    + apply rsum_ext. intros k _. ring.
  - intros psi ud. unfold cc_fwd, cc_rev. apply mv_adj.
  - intros psi i. unfold cc_fwd, cc_rev, mv, mvT. apply rsum_ext. intros j _. now rewrite SC.
Qed.
Print Assumptions C72_symmetric.

Theorem C72_definite : forall ndof sdim nq pw pW C pnu pdnu alpha,
  0 <= alpha -> (forall q, (q < nq)%nat -> 0 < pW q /\ 0 <= pw q) ->
  (forall q b, (q < nq)%nat -> 0 <= b -> 0 <= pnu q b /\ 0 <= pnu q b + pdnu q b * b) ->
  forall u x, 0 <= dot ndof (mv ndof (nld_grad ndof sdim nq pw pW C pnu pdnu alpha u) x) x /\
              0 <= dot ndof (mv ndof (cc_grad ndof sdim nq pw pW C pnu pdnu alpha u) x) x.
Proof.
  intros ndof sdim nq pw pW C pnu pdnu alpha Ha HW HN u x.
  assert (K : forall q, (q < nq)%nat -> 0 <= wq pw pW alpha q).
  { intros q Hq. destruct (HW q Hq). unfold wq. apply Rmult_le_pos; [now apply Rmult_le_pos|left; now apply Rinv_0_lt_compat]. }
  (* one point: nu |f_x|^2 + nu' (f_u . f_x)^2 / (n W) >= 0 *)
  assert (POINT : forall q, (q < nq)%nat -> let f := flux ndof C q u in let g := flux ndof C q x in let m := fmag ndof sdim pW C q u in
     norm sdim f <> 0 -> 0 <= pnu q m * dot sdim g g + pdnu q m * (dot sdim f g * dot sdim f g / (norm sdim f * pW q))).
  { intros q Hq f g m N. destruct (HW q Hq) as [P _]. destruct (norm_nonzero _ _ N) as [_ PN].
    destruct (HN q m Hq) as [N1 N2]; [unfold m; now apply mag_nonneg|].
    assert (CS : dot sdim f g * dot sdim f g <= norm sdim f * norm sdim f * dot sdim g g).
    { assert (C1 := cauchy sdim f g). assert (C2 := cauchy sdim f (vscal (-1) g)).
      rewrite dot_scal_r in C2. assert (NS : norm sdim (vscal (-1) g) = norm sdim g).
      { unfold norm. rewrite dot_scal_l, dot_scal_r. f_equal. ring. }
      rewrite NS in C2. rewrite <- (norm_sq sdim g). assert (Q1 := norm_pos sdim f). assert (Q2 := norm_pos sdim g).
      assert (0 <= norm sdim f * norm sdim g) by (now apply Rmult_le_pos). nra. }
    assert (GG := dot_pos sdim g). assert (PNW : 0 < norm sdim f * pW q) by nra.
    set (Y := dot sdim f g * dot sdim f g / (norm sdim f * pW q)).
    assert (Y0 : 0 <= Y) by (unfold Y; apply Rmult_le_pos; [apply Rle_0_sqr|left; now apply Rinv_0_lt_compat]).
    assert (Y1 : Y <= m * dot sdim g g).
    { unfold Y, m, fmag. fold f. apply Rle_trans with (norm sdim f * norm sdim f * dot sdim g g / (norm sdim f * pW q)).
      - apply Rmult_le_compat_r; [left; now apply Rinv_0_lt_compat|exact CS].
      - right. field. lra. }
    destruct (Rle_dec 0 (pdnu q m)) as [D|D]; [assert (0 <= pdnu q m * Y) by (now apply Rmult_le_pos); assert (0 <= pnu q m * dot sdim g g) by (now apply Rmult_le_pos); lra|].
    assert (pdnu q m * (m * dot sdim g g) <= pdnu q m * Y) by nra.
    assert (0 <= (pnu q m + pdnu q m * m) * dot sdim g g) by (now apply Rmult_le_pos). lra. }
  (* the quadratic form of either matrix, point by point *)
  assert (SUM : forall (T : nat -> nat -> R), dot ndof (fun i => rsum nq (fun q => rsum sdim (fun k => C q i k * T q k))) x = rsum nq (fun q => rsum sdim (fun k => T q k * flux ndof C q x k))).
  { intros T. unfold dot. rewrite (rsum_ext ndof _ (fun i => rsum nq (fun q => rsum sdim (fun k => C q i k * T q k * x i)))).
    2:{ intros i _. rewrite <- rsum_scal_r. apply rsum_ext. intros q _. now rewrite <- rsum_scal_r. }
    rewrite rsum_swap. apply rsum_ext. intros q _. rewrite rsum_swap. apply rsum_ext. intros k _. unfold flux. rewrite <- rsum_scal. apply rsum_ext. intros; ring. }
  assert (T0 := tiny_pos). split.
  - rewrite (dot_ext ndof (mv ndof (nld_grad ndof sdim nq pw pW C pnu pdnu alpha u) x) _ x x (fun i _ => nld_grad_v ndof sdim nq pw pW C pnu pdnu alpha u x i) (veq_refl _ _)).
    rewrite SUM. apply rsum_nonneg. intros q Hq. assert (Kq := K q Hq). destruct (HW q Hq) as [P _].
    destruct (Rlt_dec tiny (Rabs (norm sdim (flux ndof C q u)))) as [L|L].
    + rewrite Rabs_pos_eq in L by apply norm_pos. specialize (POINT q Hq). cbn zeta in POINT. specialize (POINT ltac:(lra)).
      set (f := flux ndof C q u) in *. set (g := flux ndof C q x) in *. set (m := fmag ndof sdim pW C q u) in *.
      match goal with |- 0 <= ?s => assert (ES : s = wq pw pW alpha q * (pnu q m * dot sdim g g + pdnu q m * (dot sdim f g * dot sdim f g / (norm sdim f * pW q)))) end.
      { unfold dot at 2 4. rewrite Rmult_plus_distr_l.
        rewrite (rsum_ext sdim _ (fun k => wq pw pW alpha q * pnu q m * (g k * g k) + wq pw pW alpha q * pdnu q m * (dot sdim f g * (1 / norm sdim f) / pW q) * (f k * g k))) by (intros; ring).
        rewrite rsum_plus, !rsum_scal. field. split; lra. }
      rewrite ES. now apply Rmult_le_pos.
    + destruct (HN q (fmag ndof sdim pW C q u) Hq) as [N1 _]; [now apply mag_nonneg|].
      rewrite (rsum_ext sdim _ (fun k => wq pw pW alpha q * pnu q (fmag ndof sdim pW C q u) * (flux ndof C q x k * flux ndof C q x k))) by (intros; ring).
      rewrite rsum_scal. apply Rmult_le_pos; [now apply Rmult_le_pos|apply dot_pos].
  - rewrite (dot_ext ndof (mv ndof (cc_grad ndof sdim nq pw pW C pnu pdnu alpha u) x) (fun i => rsum nq (fun q => rsum sdim (fun k => C q i k *
        (wq pw pW alpha q * (pnu q (bmag ndof sdim pW C q u) * flux ndof C q x k +
          (if Rlt_dec tiny (Rabs (bmag ndof sdim pW C q u)) then pdnu q (bmag ndof sdim pW C q u) / bmag ndof sdim pW C q u * (dot sdim (flux ndof C q u) (flux ndof C q x) / pW q) * bvec ndof pW C q u k else 0)))))) x x).
    2:{ intros i _. rewrite cc_grad_v. apply rsum_ext. intros q _. destruct (Rlt_dec tiny (Rabs (bmag ndof sdim pW C q u))).
        - unfold cc_scratch. rewrite <- rsum_scal_r, <- !rsum_scal, <- rsum_plus. apply rsum_ext. intros k _. unfold Rdiv. ring.
        - rewrite Rplus_0_r, <- rsum_scal. apply rsum_ext. intros k _. ring. }
    2:{ apply veq_refl. }
    rewrite SUM. apply rsum_nonneg. intros q Hq. assert (Kq := K q Hq). destruct (HW q Hq) as [P _]. rewrite bmag_fmag by exact P.
    destruct (Rlt_dec tiny (Rabs (fmag ndof sdim pW C q u))) as [L|L].
    + rewrite Rabs_pos_eq in L by (now apply mag_nonneg). specialize (POINT q Hq). cbn zeta in POINT.
      assert (NZ : norm sdim (flux ndof C q u) <> 0). { intros Z. unfold fmag in L. rewrite Z in L. unfold Rdiv in L. rewrite Rmult_0_l in L. lra. }
      specialize (POINT NZ). destruct (norm_nonzero _ _ NZ) as [_ PN].
      assert (EM : fmag ndof sdim pW C q u = norm sdim (flux ndof C q u) / pW q) by reflexivity.
      set (f := flux ndof C q u) in *. set (g := flux ndof C q x) in *. set (m := fmag ndof sdim pW C q u) in *.
      match goal with |- 0 <= ?s => assert (ES : s = wq pw pW alpha q * (pnu q m * dot sdim g g + pdnu q m * (dot sdim f g * dot sdim f g / (norm sdim f * pW q)))) end.
      { unfold dot at 2 4. rewrite Rmult_plus_distr_l.
        rewrite (rsum_ext sdim _ (fun k => wq pw pW alpha q * pnu q m * (g k * g k) + wq pw pW alpha q * (pdnu q m / m * (dot sdim f g / pW q)) / pW q * (f k * g k))).
        2:{ intros k _. unfold bvec. fold f. unfold Rdiv. ring. }
        rewrite rsum_plus, !rsum_scal. set (dn := pdnu q m). set (nv := pnu q m). rewrite EM. field. split; lra. }
      rewrite ES. now apply Rmult_le_pos.
    + destruct (HN q (fmag ndof sdim pW C q u) Hq) as [N1 _]; [now apply mag_nonneg|].
      rewrite (rsum_ext sdim _ (fun k => wq pw pW alpha q * pnu q (fmag ndof sdim pW C q u) * (flux ndof C q x k * flux ndof C q x k))) by (intros; ring).
      rewrite rsum_scal. apply Rmult_le_pos; [now apply Rmult_le_pos|apply dot_pos].
Qed.
Print Assumptions C72_definite.
Example C72_definite_met : forall b : R, 0 <= b -> 0 <= / (1 + b) /\ 0 <= / (1 + b) + - / ((1 + b) * (1 + b)) * b.
Proof.
  intros b Hb. split; [left; apply Rinv_0_lt_compat; lra|].
  match goal with |- 0 <= ?u => replace u with (/ ((1 + b) * (1 + b))) by (field; lra) end. left. apply Rinv_0_lt_compat. nra.
Qed.

(** C72: the residual is monotone in the state when H(b) = nu(b) b does not decrease and nu is non-negative; so the
    difference of two states with the same residual stores no energy. *)
Theorem C72_monotone : forall ndof sdim nq pw pW C pnu alpha,
  0 <= alpha -> (forall q, (q < nq)%nat -> 0 < pW q /\ 0 <= pw q) ->
  (forall q b, (q < nq)%nat -> 0 <= b -> 0 <= pnu q b) ->
  (forall q a b, (q < nq)%nat -> 0 <= a <= b -> pnu q a * a <= pnu q b * b) ->
  forall u v, 0 <= dot ndof (vsub (elem_vector ndof sdim nq pw pW C pnu alpha u) (elem_vector ndof sdim nq pw pW C pnu alpha v)) (vsub u v).
Proof.
  intros ndof sdim nq pw pW C pnu alpha Ha HW HN HM u v.
  assert (E : dot ndof (vsub (elem_vector ndof sdim nq pw pW C pnu alpha u) (elem_vector ndof sdim nq pw pW C pnu alpha v)) (vsub u v) =
    rsum nq (fun q => wq pw pW alpha q * (dot sdim (vsub (vscal (pnu q (fmag ndof sdim pW C q u)) (flux ndof C q u)) (vscal (pnu q (fmag ndof sdim pW C q v)) (flux ndof C q v))) (vsub (flux ndof C q u) (flux ndof C q v))))).
  { assert (L : forall z, dot ndof (vsub (elem_vector ndof sdim nq pw pW C pnu alpha u) (elem_vector ndof sdim nq pw pW C pnu alpha v)) z =
      dot ndof (elem_vector ndof sdim nq pw pW C pnu alpha u) z - dot ndof (elem_vector ndof sdim nq pw pW C pnu alpha v) z).
    { intros z. unfold dot. rewrite <- rsum_minus. apply rsum_ext. intros; unfold vsub; ring. }
    rewrite L, !vect_dot, <- rsum_minus. apply rsum_ext. intros q _.
    assert (F : forall k, flux ndof C q (vsub u v) k = flux ndof C q u k - flux ndof C q v k).
    { intros k. unfold flux. rewrite <- rsum_minus. apply rsum_ext. intros; unfold vsub; ring. }
    unfold dot. rewrite <- !rsum_scal, <- rsum_minus. apply rsum_ext. intros k _. unfold vsub, vscal. change (fun i => u i - v i) with (vsub u v). rewrite F. ring. }
  rewrite E. apply rsum_nonneg. intros q Hq. destruct (HW q Hq) as [P Q]. apply Rmult_le_pos.
  { unfold wq. apply Rmult_le_pos; [now apply Rmult_le_pos|left; now apply Rinv_0_lt_compat]. }
  set (f := flux ndof C q u). set (g := flux ndof C q v).
  assert (Mu : fmag ndof sdim pW C q u = norm sdim f / pW q) by reflexivity. assert (Mv : fmag ndof sdim pW C q v = norm sdim g / pW q) by reflexivity.
  assert (U0 := mag_nonneg ndof sdim pW C q u P). assert (V0 := mag_nonneg ndof sdim pW C q v P).
  set (a := fmag ndof sdim pW C q u) in *. set (b := fmag ndof sdim pW C q v) in *.
  assert (ED : dot sdim (vsub (vscal (pnu q a) f) (vscal (pnu q b) g)) (vsub f g) = pnu q a * dot sdim f f + pnu q b * dot sdim g g - (pnu q a + pnu q b) * dot sdim f g).
  { unfold dot. rewrite <- !rsum_scal, <- rsum_plus, <- rsum_minus. apply rsum_ext. intros; unfold vsub, vscal; ring. }
  rewrite ED. assert (CS := cauchy sdim f g). rewrite <- (norm_sq sdim f), <- (norm_sq sdim g).
  assert (Na := HN q a Hq U0). assert (Nb := HN q b Hq V0).
  assert (Ef : norm sdim f = a * pW q) by (rewrite Mu; field; lra). assert (Eg : norm sdim g = b * pW q) by (rewrite Mv; field; lra).
  rewrite Ef, Eg in *.
  assert (S1 : (pnu q a + pnu q b) * dot sdim f g <= (pnu q a + pnu q b) * (a * pW q * (b * pW q))) by (apply Rmult_le_compat_l; [lra|exact CS]).
  assert (MM : 0 <= (pnu q a * a - pnu q b * b) * (a - b)).
  { destruct (Rle_dec a b) as [L|L]; [assert (X := HM q a b Hq ltac:(lra)); nra|assert (X := HM q b a Hq ltac:(lra)); nra]. }
  assert (0 <= pW q * pW q * ((pnu q a * a - pnu q b * b) * (a - b))) by (apply Rmult_le_pos; nra). nra.
Qed.
Print Assumptions C72_monotone.

(** The magnetization integrator's Jacobian is 0 though its residual depends on the state when nu does. *)
Theorem C72_magnetization_refuted : forall u : R, 0 < u ->
  let nu := fun (_ : nat) b => 1 + b in let M := fun (_ _ : nat) => 1 in
  is_derive (fun t => mag_vector 1 1 1 (fun _ => 1) (fun _ => 1) one1 nu 1 M (along (fun _ => u) (fun _ => 1) t) 0%nat) 0 1 /\
  mag_grad (fun _ => u) 0%nat 0%nat = 0.
Proof.
  intros u U nu M. split; [|reflexivity]. unfold mag_vector. cbn [rsum]. unfold one1, nu, M.
  apply (DV_eq _ 0 (0 + (0 + 1 * ((0 + dot 1 (flux 1 one1 0%nat (along (fun _ => u) (fun _ => 1) 0)) (flux 1 one1 0%nat (fun _ => 1)) /
     norm 1 (flux 1 one1 0%nat (along (fun _ => u) (fun _ => 1) 0))) * (1 * 1 / 1) * 1)))).
  - apply DV_plus; [apply DV_const|]. apply DV_plus; [apply DV_const|]. apply DV_scal. apply DV_scal_r, DV_scal_r. apply DV_plus; [apply DV_const|].
    apply (DV_norm 1 (fun t => flux 1 one1 0%nat (along (fun _ => u) (fun _ => 1) t)) (flux 1 one1 0%nat (fun _ => 1))).
    + intros k _. apply flux_derive.
    + unfold norm, dot, flux, along, one1. cbn. match goal with |- sqrt ?s <> 0 => replace s with (u * u) by ring end. rewrite sqrt_square; lra.
  - assert (N : norm 1 (flux 1 one1 0%nat (along (fun _ => u) (fun _ => 1) 0)) = u).
    { unfold norm, dot, flux, along, one1. cbn. match goal with |- sqrt ?s = _ => replace s with (u * u) by ring end. apply sqrt_square. lra. }
    rewrite N. unfold dot, flux, along, one1. cbn. field. lra.
Qed.
Print Assumptions C72_magnetization_refuted.

(** C73: the energy density is int_0^B nu b db when the rule is exact for that integrand; the two derivative functions are
    its first and second derivative. *)
Theorem C73_density : forall ns sx sw nu B,
  (forall b, continuous nu b) ->
  rsum ns (fun j => sw j * ((sx j * B) * nu (sx j * B))) = RInt (fun s => (s * B) * nu (s * B)) 0 1 ->
  calcMagneticEnergy ns sx sw nu B = RInt (fun b => nu b * b) 0 B.
Proof.
  intros ns sx sw nu B Cn H. unfold calcMagneticEnergy.
  rewrite (rsum_ext ns _ (fun j => sw j * ((sx j * B) * nu (sx j * B)))) by (intros; ring). rewrite H.
  assert (CI : forall a b, ex_RInt (fun b => nu b * b) a b).
  { intros a b. apply (ex_RInt_continuous (fun b => nu b * b)). intros z _. apply (continuous_mult nu (fun b => b)); [apply Cn|apply continuous_id]. }
  set (g := fun s : R => (s * B) * nu (s * B)).
  assert (IG : ex_RInt g 0 1).
  { apply (ex_RInt_continuous g). intros z _. apply (continuous_mult (fun s => s * B) (fun s => nu (s * B))).
    + apply (continuous_scal_l (fun s => s) B). apply continuous_id.
    + apply (continuous_comp (fun s => s * B) nu); [|apply Cn]. apply (continuous_scal_l (fun s => s) B). apply continuous_id. }
  assert (S1 : RInt (fun s => scal B (g s)) 0 1 = scal B (RInt g 0 1)) by exact (RInt_scal (V := R_CompleteNormedModule) g 0 1 B IG).
  assert (L : RInt (fun y => scal B ((fun b => nu b * b) (B * y + 0))) 0 1 = RInt (fun b => nu b * b) (B * 0 + 0) (B * 1 + 0)) by exact (RInt_comp_lin (V := R_CompleteNormedModule) (fun b => nu b * b) B 0 0 1 (CI _ _)).
  replace (B * 0 + 0) with 0 in L by ring. replace (B * 1 + 0) with B in L by ring.
  assert (X : RInt (fun s => scal B (g s)) 0 1 = RInt (fun y => scal B ((fun b => nu b * b) (B * y + 0))) 0 1).
  { apply RInt_ext. intros s _. unfold g, scal; cbn; unfold mult; cbn. rewrite !Rplus_0_r, (Rmult_comm B s). ring. }
  rewrite X, L in S1. rewrite S1. unfold scal; cbn; unfold mult; cbn. ring.
Qed.
Print Assumptions C73_density.
Example C73_density_met : rsum 1 (fun j => 1 * ((1 / 2 * 3) * 2)) = RInt (fun s => (s * 3) * 2) 0 1.
Proof.
  symmetry.
  assert (K : is_RInt (fun s => s * 3 * 2) 0 1 (minus (3 * (1 * 1)) (3 * (0 * 0)))).
  { apply (is_RInt_derive (fun s => 3 * (s * s)) (fun s => s * 3 * 2)).
    - intros x _. auto_derive; [exact Logic.I|ring].
    - intros x _. apply (DV_continuous _ x 6). auto_derive; [exact Logic.I|ring]. }
  rewrite (is_RInt_unique _ _ _ _ K). cbn [rsum]. unfold minus, plus, opp; cbn. field.
Qed.
Theorem C73_density_derivatives : forall ns sx sw (nu dnu d2nu : R -> R) B,
  (forall j, (j < ns)%nat -> is_derive nu (sx j * B) (dnu (sx j * B)) /\ is_derive dnu (sx j * B) (d2nu (sx j * B))) ->
  is_derive (calcMagneticEnergy ns sx sw nu) B (calcMagneticEnergyDot ns sx sw nu dnu B) /\
  is_derive (calcMagneticEnergyDot ns sx sw nu dnu) B (calcMagneticEnergyDoubleDot ns sx sw nu dnu d2nu B).
Proof. intros ns sx sw nu dnu d2nu B H. split; [apply energy_dot|apply energy_double_dot]; intros j Hj; apply (H j Hj). Qed.
Print Assumptions C73_density_derivatives.

(** C73: where the field vanishes at no quadrature point, the vector returned is the gradient of the energy functional. *)
Theorem C73_gradient_partial : forall ndof sdim nq pw pW C pnu pdnu ns sx sw,
  (forall q, (q < nq)%nat -> 0 < pW q) -> (forall j, (j < ns)%nat -> 0 < sx j) ->
  (forall q b, (q < nq)%nat -> 0 < b -> is_derive (pnu q) b (pdnu q b)) ->
  forall u, (forall q, (q < nq)%nat -> field_magnitude ndof sdim (C q) (pW q) u <> 0) ->
  exists g, element_energy_vector ndof sdim nq pw pW C pnu pdnu ns sx sw u = Some g /\
    (forall v, is_derive (fun t => element_energy ndof sdim nq pw pW C pnu ns sx sw (along u v t)) 0 (dot ndof g v)) /\
    ((forall q b, (q < nq)%nat -> 0 < b -> calcMagneticEnergyDot ns sx sw (pnu q) (pdnu q) b = pnu q b * b) ->
       forall i, g i = elem_vector ndof sdim nq pw pW C pnu 1 u i).
Proof.
  intros ndof sdim nq pw pW C pnu pdnu ns sx sw HW Hsx Hnu u N.
  assert (N' : forall q, (q < nq)%nat -> norm sdim (flux ndof C q u) <> 0).
  { intros q Hq Z. apply (N q Hq). rewrite magnitude_fmag by auto. unfold fmag. rewrite Z. unfold Rdiv. ring. }
  exists (element_energy_grad ndof sdim nq pw pW C pnu pdnu ns sx sw u). split; [|split].
  - unfold element_energy_vector. destruct (all_nonzero ndof sdim C u nq) as [A _]. now rewrite (A N').
  - intros v. now apply energy_state_derive.
  - intros HE i. unfold element_energy_grad, elem_vector. apply rsum_ext. intros q Hq. apply rsum_ext. intros k _. unfold en_b_vec_bar.
    assert (P := HW q Hq). destruct (norm_nonzero _ _ (N' q Hq)) as [_ PN]. rewrite HE by (try exact Hq; unfold fmag; now apply Rdiv_lt_0_compat).
    f_equal. unfold wq. set (nv := pnu q _). unfold fmag. field. split; lra.
Qed.
Print Assumptions C73_gradient_partial.
Example C73_gradient_met : exists sx sw : nat -> R, exists pnu pdnu : nat -> R -> R, 0 < sx 0%nat /\
  (forall b, 0 < b -> is_derive (pnu 0%nat) b (pdnu 0%nat b)) /\ (forall b, calcMagneticEnergyDot 1 sx sw (pnu 0%nat) (pdnu 0%nat) b = pnu 0%nat b * b) /\
  field_magnitude 1 1 (one1 0%nat) 1 (fun _ => 3) <> 0.
Proof.
  exists (fun _ => 1 / 2), (fun _ => 1), (fun _ _ => 2), (fun _ _ => 0). split; [lra|]. split; [intros; apply (DV_const 2)|]. split.
  - intros b. unfold calcMagneticEnergyDot. cbn. field.
  - unfold field_magnitude, field, one1. cbn. match goal with |- sqrt ?s <> 0 => replace s with (3 * 3) by field end. rewrite sqrt_square; lra.
Qed.
(** At a point without field the code computes 0/0: the gradient vector is not a number, although the energy (here with
    constant reluctivity) has derivative 0. *)
Theorem C73_zero_field_refuted : forall ndof sdim nq pw pW C pnu pdnu ns sx sw u q, (q < nq)%nat -> 0 < pW q ->
  field_magnitude ndof sdim (C q) (pW q) u = 0 ->
  element_energy_vector ndof sdim nq pw pW C pnu pdnu ns sx sw u = None.
Proof.
  intros ndof sdim nq pw pW C pnu pdnu ns sx sw u q Hq P Z. unfold element_energy_vector.
  destruct (all_fluxes_nonzero ndof sdim C nq u) eqn:A; [|reflexivity]. exfalso. destruct (all_nonzero ndof sdim C u nq) as [_ B].
  apply (B A q Hq). rewrite magnitude_fmag in Z by exact P. unfold fmag in Z.
  assert (E : norm sdim (flux ndof C q u) = norm sdim (flux ndof C q u) / pW q * pW q) by (field; lra). rewrite E, Z. ring.
Qed.
Print Assumptions C73_zero_field_refuted.
Example C73_zero_field_met : field_magnitude 1 1 (one1 0%nat) 1 (fun _ => 0) = 0 /\
  is_derive (fun t => element_energy 1 1 1 (fun _ => 1) (fun _ => 1) one1 (fun _ _ => 2) 1 (fun _ => 1 / 2) (fun _ => 1) (along (fun _ => 0) (fun _ => 1) t)) 0 0.
Proof.
  split.
  - unfold field_magnitude, field, one1. cbn. match goal with |- sqrt ?s = 0 => replace s with 0 by field end. apply sqrt_0.
  - apply (DV_ext (fun t => t * t)).
    + intros t. unfold element_energy, calcMagneticEnergy, fmag, norm, dot, flux, along, one1. cbn.
      match goal with |- context [sqrt ?s] => replace s with (Rsqr t) by (unfold Rsqr; ring) end. rewrite sqrt_Rsqr_abs.
      assert (E : Rabs t * Rabs t = t * t) by (rewrite <- Rabs_mult; apply Rabs_pos_eq; apply Rle_0_sqr). rewrite <- E. field.
    + auto_derive; [exact Logic.I|ring].
Qed.

(** C74: moving the nodes of the element along V changes psi . residual at the rate given by the returned node vector
    (nonlinear diffusion), provided the RevDiff functions of the transformation are its transposed derivatives. *)
Theorem C74_diffusion_partial : forall ndof sdim nn nq pw pnu pdnu alpha shape Wt Adj WtRev AdjRev,
  (forall q, (q < nq)%nat -> rev_scalar sdim nn (Wt q) (WtRev q)) -> (forall q, (q < nq)%nat -> rev_matrix sdim nn (Adj q) (AdjRev q)) ->
  (forall q b, (q < nq)%nat -> 0 < b -> is_derive (pnu q) b (pdnu q b)) -> (forall q, (q < nq)%nat -> continuous (pnu q) 0) ->
  forall X V u psi, (forall q, (q < nq)%nat -> 0 < Wt q X) ->
  (forall q, (q < nq)%nat -> field_magnitude ndof sdim (dshapedxt sdim shape Adj X q) 1 u = 0 \/ / 10 ^ 14 < field_magnitude ndof sdim (dshapedxt sdim shape Adj X q) 1 u) ->
  is_derive (fun t => dot ndof psi (elem_vector ndof sdim nq pw (fun q => Wt q (moved X V t)) (dshapedxt sdim shape Adj (moved X V t)) pnu alpha u)) 0
    (pairing sdim nn (nld_mesh_bar ndof sdim nq pw pnu pdnu alpha shape Wt Adj WtRev AdjRev X u psi) V).
Proof.
  intros ndof sdim nn nq pw pnu pdnu alpha shape Wt Adj WtRev AdjRev H1 H2 Hnu Hnu0 X V u psi PW G.
  apply (nld_mesh_derive ndof sdim nn nq pw pnu pdnu alpha shape Wt Adj WtRev AdjRev H1 H2 Hnu Hnu0 X V u psi PW).
  intros q Hq. specialize (G q Hq). rewrite (magnitude_fmag ndof sdim (fun _ => 1) (dshapedxt sdim shape Adj X) q u) in G by lra.
  unfold fmag in G. unfold Rdiv in G. rewrite Rinv_1, Rmult_1_r in G. exact G.
Qed.
Print Assumptions C74_diffusion_partial.
(** every isoparametric element of the plane meets the assumptions on the transformation *)
Example C74_diffusion_met : forall nn dN, rev_scalar 2 nn (wt2 nn dN) (wt2_rev nn dN) /\ rev_matrix 2 nn (adjm2 nn dN) (adjm2_rev dN) /\
  exists X, 0 < wt2 3 (fun j l => match j, l with 1%nat, 0%nat => 1 | 2%nat, 1%nat => 1 | 0%nat, _ => -1 | _, _ => 0 end) X.
Proof.
  intros nn dN. split; [apply wt2_ok|]. split; [apply adjm2_ok|].
  exists (fun k j => match k, j with 0%nat, 1%nat => 2 | 1%nat, 2%nat => 3 | _, _ => 0 end). unfold wt2, det2, iso_jac. cbn. lra.
Qed.

(** C74: the same for the curl-curl integrator in three dimensions when alpha is 1 and the field vanishes at no point. *)
Theorem C74_curl_partial : forall ndof sdim nn nq pw pnu pdnu shape Wt Jac WtRev JacRev,
  (forall q, (q < nq)%nat -> rev_scalar sdim nn (Wt q) (WtRev q)) -> (forall q, (q < nq)%nat -> rev_matrix sdim nn (Jac q) (JacRev q)) ->
  (forall q b, (q < nq)%nat -> 0 < b -> is_derive (pnu q) b (pdnu q b)) -> (forall q, (q < nq)%nat -> continuous (pnu q) 0) ->
  forall X V u psi, (forall q, (q < nq)%nat -> 0 < Wt q X) ->
  (forall q, (q < nq)%nat -> field_magnitude ndof sdim (curlshape_dFt sdim shape Jac X q) 1 u <> 0) ->
  exists bar, cc_mesh_bar ndof sdim nq pw pnu pdnu shape Wt Jac WtRev JacRev X u psi = Some bar /\
  is_derive (fun t => dot ndof psi (elem_vector ndof sdim nq pw (fun q => Wt q (moved X V t)) (curlshape_dFt sdim shape Jac (moved X V t)) pnu 1 u)) 0
    (pairing sdim nn bar V).
Proof.
  intros ndof sdim nn nq pw pnu pdnu shape Wt Jac WtRev JacRev H1 H2 Hnu Hnu0 X V u psi PW G.
  assert (N : forall q, (q < nq)%nat -> norm sdim (flux ndof (curlshape_dFt sdim shape Jac X) q u) <> 0).
  { intros q Hq. specialize (G q Hq). rewrite (magnitude_fmag ndof sdim (fun _ => 1) (curlshape_dFt sdim shape Jac X) q u) in G by lra.
    unfold fmag in G. unfold Rdiv in G. rewrite Rinv_1, Rmult_1_r in G. exact G. }
  eexists. split.
  - unfold cc_mesh_bar. rewrite fluxes_all. destruct (all_nonzero ndof sdim (curlshape_dFt sdim shape Jac X) u nq) as [A _]. rewrite (A N). reflexivity.
  - now apply cc_mesh_derive.
Qed.
Print Assumptions C74_curl_partial.
Example C74_curl_met : forall nn dN, rev_scalar 3 nn (wt3 nn dN) (wt3_rev nn dN) /\ rev_matrix 3 nn (iso_jac nn dN) (jac_rev dN 3).
Proof. intros nn dN. split; [apply wt3_ok|apply jac_ok]. Qed.

(** The rest is false: the result does not depend on alpha, so for alpha <> 1 it is not the derivative (it is that of the
    residual with alpha 1); and it is not a number where the field vanishes. *)
Theorem C74_curl_refuted : forall ndof sdim nn nq pw pnu pdnu shape Wt Jac WtRev JacRev,
  (forall q, (q < nq)%nat -> rev_scalar sdim nn (Wt q) (WtRev q)) -> (forall q, (q < nq)%nat -> rev_matrix sdim nn (Jac q) (JacRev q)) ->
  (forall q b, (q < nq)%nat -> 0 < b -> is_derive (pnu q) b (pdnu q b)) -> (forall q, (q < nq)%nat -> continuous (pnu q) 0) ->
  forall X V u psi, (forall q, (q < nq)%nat -> 0 < Wt q X) ->
  (forall bar alpha d, cc_mesh_bar ndof sdim nq pw pnu pdnu shape Wt Jac WtRev JacRev X u psi = Some bar ->
     is_derive (fun t => dot ndof psi (elem_vector ndof sdim nq pw (fun q => Wt q (moved X V t)) (curlshape_dFt sdim shape Jac (moved X V t)) pnu alpha u)) 0 d ->
     d = alpha * pairing sdim nn bar V) /\
  (forall q, (q < nq)%nat -> field_magnitude ndof sdim (curlshape_dFt sdim shape Jac X q) 1 u = 0 ->
     cc_mesh_bar ndof sdim nq pw pnu pdnu shape Wt Jac WtRev JacRev X u psi = None).
Proof.
  intros ndof sdim nn nq pw pnu pdnu shape Wt Jac WtRev JacRev H1 H2 Hnu Hnu0 X V u psi PW. split.
  - intros bar alpha d E D. unfold cc_mesh_bar in E. rewrite fluxes_all in E.
    destruct (all_fluxes_nonzero ndof sdim (curlshape_dFt sdim shape Jac X) nq u) eqn:A; [|discriminate]. injection E as <-.
    destruct (all_nonzero ndof sdim (curlshape_dFt sdim shape Jac X) u nq) as [_ B].
    apply (DV_unique _ 0 _ _ D).
    apply (DV_ext (fun t => alpha * dot ndof psi (elem_vector ndof sdim nq pw (fun q => Wt q (moved X V t)) (curlshape_dFt sdim shape Jac (moved X V t)) pnu 1 u))).
    + intros t. unfold dot. rewrite <- rsum_scal. apply rsum_ext. intros i _. unfold elem_vector. rewrite <- !rsum_scal. apply rsum_ext. intros q _.
      rewrite <- !rsum_scal. apply rsum_ext. intros k _. unfold wq, Rdiv. ring.
    + apply DV_scal. apply cc_mesh_derive; auto.
  - intros q Hq Z. unfold cc_mesh_bar. rewrite fluxes_all. destruct (all_fluxes_nonzero ndof sdim (curlshape_dFt sdim shape Jac X) nq u) eqn:A; [|reflexivity]. exfalso.
    destruct (all_nonzero ndof sdim (curlshape_dFt sdim shape Jac X) u nq) as [_ B]. apply (B A q Hq).
    rewrite (magnitude_fmag ndof sdim (fun _ => 1) (curlshape_dFt sdim shape Jac X) q u) in Z by lra. unfold fmag, Rdiv in Z. rewrite Rinv_1, Rmult_1_r in Z. exact Z.
Qed.
Print Assumptions C74_curl_refuted.

(** C74: node sensitivity of the energy functional, in the plane and in space. *)
Theorem C74_energy_partial : forall ndof sdim nn nq pw pnu pdnu ns sx sw shape Wt Adj Jac WtRev AdjRev JacRev (three : bool),
  (forall j, (j < ns)%nat -> 0 < sx j) ->
  (forall q b, (q < nq)%nat -> 0 < b -> is_derive (pnu q) b (pdnu q b)) ->
  (forall q, (q < nq)%nat -> rev_scalar sdim nn (Wt q) (WtRev q)) ->
  (if three then forall q, (q < nq)%nat -> rev_matrix sdim nn (Jac q) (JacRev q) else forall q, (q < nq)%nat -> rev_matrix sdim nn (Adj q) (AdjRev q)) ->
  forall X V u, (forall q, (q < nq)%nat -> 0 < Wt q X) ->
  let S X := if three then curlshape_dFt sdim shape Jac X else dshapedxt sdim shape Adj X in
  (forall q, (q < nq)%nat -> field_magnitude ndof sdim (S X q) 1 u <> 0) ->
  exists bar, en_mesh_bar ndof sdim nq pw pnu pdnu shape Wt Adj Jac WtRev AdjRev JacRev ns sx sw X u three = Some bar /\
  is_derive (fun t => element_energy ndof sdim nq pw (fun q => Wt q (moved X V t)) (S (moved X V t)) pnu ns sx sw u) 0 (pairing sdim nn bar V).
Proof.
  intros ndof sdim nn nq pw pnu pdnu ns sx sw shape Wt Adj Jac WtRev AdjRev JacRev three Hsx Hnu H1 H2 X V u PW S G.
  assert (N : forall q, (q < nq)%nat -> norm sdim (flux ndof (S X) q u) <> 0).
  { intros q Hq. specialize (G q Hq). rewrite (magnitude_fmag ndof sdim (fun _ => 1) (S X) q u) in G by lra.
    unfold fmag in G. unfold Rdiv in G. rewrite Rinv_1, Rmult_1_r in G. exact G. }
  eexists. split.
  - unfold en_mesh_bar. rewrite fluxes_all. destruct (all_nonzero ndof sdim (S X) u nq) as [A _]. unfold S in A, N. rewrite (A N). reflexivity.
  - apply (energy_mesh_derive ndof sdim nq pw pnu pdnu ns sx sw Hnu Hsx nn shape Wt Adj Jac WtRev AdjRev JacRev H1 X V u PW three H2 N).
Qed.
Print Assumptions C74_energy_partial.
