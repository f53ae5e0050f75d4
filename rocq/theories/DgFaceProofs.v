From Coq Require Import Reals Lra Lia List Bool Arith.
From Coquelicot Require Import Coquelicot.
From Verif Require Import Vec Deriv EmIntegSpec EmInteg EmIntegProofs DgFace DgFaceSpec.
Local Open Scope R_scope.

(** * the model's quantities are those of the specification *)
Section Point.
Variables (F : face) (o q : nat).
Lemma vl_value S u : vl o q S u = value o q S u.
Proof. apply rsum_ext; intros; ring. Qed.
Lemma fl_gradient S X u k : fl F o q S X u k = gradient F o q S X u k.
Proof. unfold fl, gradient, gr. apply rsum_ext; intros; ring. Qed.
Lemma fn_steepness S X u : fn F o q S X u = steepness F o q S X u.
Proof. unfold fn, norm, dot, steepness. f_equal. apply rsum_ext; intros. now rewrite fl_gradient. Qed.
Lemma mv_material S X u : mv_ F o q S X u = material F o q S X u.
Proof. unfold mv_, material. now rewrite fn_steepness. Qed.
Lemma nn_area XF : nn_ F o q XF = area2 F o q XF. Proof. reflexivity. Qed.
Lemma dn_slope XF S X u : dn F o q XF S X u = slope F o q S X u XF.
Proof.
  unfold dn, slope, dot, sn. rewrite (rsum_ext (nd S) _ (fun i => rsum (dim F) (fun k => gr F o q S X i k * n_ F o q XF k * u i))) by (intros; now rewrite <- rsum_scal_r).
  rewrite rsum_swap. apply rsum_ext; intros k _. rewrite <- fl_gradient. unfold fl. rewrite <- rsum_scal_r. apply rsum_ext; intros. unfold n_. ring.
Qed.
Lemma test_shape S v c : rsum (nd S) (fun i => v i * (c * shp S o q i)) = c * value o q S v.
Proof. unfold value. rewrite <- rsum_scal. apply rsum_ext; intros; ring. Qed.
Lemma test_sn XF S X v c : rsum (nd S) (fun i => v i * (c * sn F o q XF S X i)) = c * slope F o q S X v XF.
Proof. rewrite <- dn_slope. unfold dn, dot. rewrite <- rsum_scal. apply rsum_ext; intros; ring. Qed.
Lemma value_along S u y t : value o q S (along u y t) = value o q S u + t * value o q S y.
Proof. unfold value, along. rewrite <- rsum_scal, <- rsum_plus. apply rsum_ext; intros; ring. Qed.
Lemma gradient_along S X u y t k : gradient F o q S X (along u y t) k = gradient F o q S X u k + t * gradient F o q S X y k.
Proof. unfold gradient, along. rewrite <- rsum_scal, <- rsum_plus. apply rsum_ext; intros; ring. Qed.
Lemma slope_along S X u y t XF : slope F o q S X (along u y t) XF = slope F o q S X u XF + t * slope F o q S X y XF.
Proof. unfold slope. rewrite <- rsum_scal, <- rsum_plus. apply rsum_ext; intros. rewrite gradient_along. ring. Qed.
Lemma lower_along S1 u y t i : lower S1 (along u y t) i = along (lower S1 u) (lower S1 y) t i.
Proof. reflexivity. Qed.
Lemma steep_norm S X u : steepness F o q S X u = norm (dim F) (gradient F o q S X u). Proof. reflexivity. Qed.
End Point.

(** * weak forms *)
Lemma bdr_weak F S g mu alpha XF X u v :
  dot (nd S) v (bdr_vector F S g mu alpha XF X u) =
  over_face F alpha (bdr_order F S) (fun q => weak_dirichlet F S g mu (bdr_order F S) q XF X u v).
Proof.
  unfold dot, bdr_vector, over_face. set (o := bdr_order F S). cbv zeta.
  rewrite (rsum_ext (nd S) _ (fun i => rsum (np F o) (fun q => v i * (
    (- dn F o q XF S X u * mv_ F o q S X u * (alpha * wt F o q) +
     (vl o q S u - g o q) * mv_ F o q S X u * (alpha * wt F o q * nn_ F o q XF * mu / We S o q X)) * shp S o q i) +
    v i * ((- (vl o q S u - g o q) * mv_ F o q S X u * (alpha * wt F o q)) * sn F o q XF S X i)))).
  2:{ intros i _. rewrite <- rsum_scal. apply rsum_ext; intros; ring. }
  rewrite rsum_swap, <- rsum_scal. apply rsum_ext; intros q _.
  rewrite rsum_plus, test_shape, test_sn. unfold weak_dirichlet. rewrite <- (mv_material F o q), vl_value, dn_slope, nn_area. unfold Rdiv. ring.
Qed.
Lemma int_weak F S1 S2 mu alpha XF X1 X2 u v :
  dot (nd S1 + nd S2) v (int_vector F S1 S2 mu alpha XF X1 X2 u) =
  over_face F alpha (int_order S1 S2) (fun q => interior_penalty F S1 S2 mu (int_order S1 S2) q XF X1 X2 u v).
Proof.
  unfold dot. rewrite rsum_app. unfold int_vector, over_face. set (o := int_order S1 S2). cbv zeta.
  rewrite (rsum_ext (nd S1) _ (fun i => rsum (np F o) (fun q =>
    v i * ((- (m1_ F S1 S2 X1 u q * d1_ F S1 S2 XF X1 u q + m2_ F S1 S2 X2 u q * d2_ F S1 S2 XF X2 u q) / 2 * (alpha * wt F o q) +
            (v1_ S1 S2 u q - v2_ S1 S2 u q) * iwq F S1 S2 mu alpha XF X1 X2 u q) * shp S1 o q i) +
    v i * (((- v1_ S1 S2 u q + v2_ S1 S2 u q) * m1_ F S1 S2 X1 u q / 2 * (alpha * wt F o q)) * sn F o q XF S1 X1 i)))).
  2:{ intros i Hi. apply Nat.ltb_lt in Hi. rewrite Hi, <- rsum_scal. apply rsum_ext; intros; ring. }
  rewrite (rsum_ext (nd S2) _ (fun i => rsum (np F o) (fun q =>
    lower S1 v i * (((m1_ F S1 S2 X1 u q * d1_ F S1 S2 XF X1 u q + m2_ F S1 S2 X2 u q * d2_ F S1 S2 XF X2 u q) / 2 * (alpha * wt F o q) +
            - (v1_ S1 S2 u q - v2_ S1 S2 u q) * iwq F S1 S2 mu alpha XF X1 X2 u q) * shp S2 o q i) +
    lower S1 v i * (((- v1_ S1 S2 u q + v2_ S1 S2 u q) * m2_ F S1 S2 X2 u q / 2 * (alpha * wt F o q)) * sn F o q XF S2 X2 i)))).
  2:{ intros i Hi. assert (E : (nd S1 + i <? nd S1)%nat = false) by (apply Nat.ltb_ge; lia). rewrite E, <- rsum_scal.
      replace (nd S1 + i - nd S1)%nat with i by lia. apply rsum_ext; intros. unfold lower. ring. }
  rewrite !(rsum_swap _ (np F o)), <- rsum_plus, <- rsum_scal. apply rsum_ext; intros q _.
  rewrite !rsum_plus, !test_shape, !test_sn. unfold iwq, m1_, m2_, d1_, d2_, v1_, v2_, interior_penalty. fold o. change (second S1 u) with (lower S1 u).
  rewrite !mv_material, !vl_value, !dn_slope, nn_area. unfold Rdiv. ring.
Qed.

(** picking an entry *)
Definition pick (i : nat) : vec := fun j => if Nat.eqb j i then 1 else 0.
Lemma dot_pick n i x : (i < n)%nat -> dot n (pick i) x = x i.
Proof.
  intros H. unfold dot, pick. rewrite (rsum_ext n _ (fun j => if Nat.eqb j i then x j else 0)) by (intros j _; destruct (Nat.eqb j i); ring).
  now apply rsum_delta.
Qed.

(** * derivatives at a point *)
Definition pb (mu vu g su m vv sv a W : R) : R := - (m * su) * vv - (vu - g) * (m * sv) + mu * (a / W) * m * (vu - g) * vv.
Definition pi (mu v1 v2 d1 d2 m1 m2 p1 p2 e1 e2 a W1 W2 : R) : R :=
  - ((m1 * d1 + m2 * d2) / 2) * (p1 - p2) - (v1 - v2) * ((m1 * e1 + m2 * e2) / 2) +
  mu * ((m1 * (a / W1) + m2 * (a / W2)) / 2) * (v1 - v2) * (p1 - p2).
Lemma weak_pb F S g mu o q XF X u v : weak_dirichlet F S g mu o q XF X u v =
  pb mu (value o q S u) (g o q) (slope F o q S X u XF) (material F o q S X u) (value o q S v) (slope F o q S X v XF) (area2 F o q XF) (We S o q X).
Proof. reflexivity. Qed.
Lemma interior_pi F S1 S2 mu o q XF X1 X2 u v : interior_penalty F S1 S2 mu o q XF X1 X2 u v =
  pi mu (value o q S1 u) (value o q S2 (lower S1 u)) (slope F o q S1 X1 u XF) (slope F o q S2 X2 (lower S1 u) XF)
     (material F o q S1 X1 u) (material F o q S2 X2 (lower S1 u)) (value o q S1 v) (value o q S2 (lower S1 v))
     (slope F o q S1 X1 v XF) (slope F o q S2 X2 (lower S1 v) XF) (area2 F o q XF) (We S1 o q X1) (We S2 o q X2).
Proof. reflexivity. Qed.
Definition dpb (mu vu g su m vv sv a W : R) (vu' su' m' sv' a' W' : R) : R :=
  - (m' * su + m * su') * vv - (vu' * (m * sv) + (vu - g) * (m' * sv + m * sv')) +
  mu * (((a' * W - a * W') / (W * W)) * m * (vu - g) * vv + (a / W) * (m' * (vu - g) * vv + m * vu' * vv)).
Lemma pb_derive mu g vv vu su m sv a W vu' su' m' sv' a' W' :
  is_derive vu 0 vu' -> is_derive su 0 su' -> is_derive m 0 m' -> is_derive sv 0 sv' -> is_derive a 0 a' -> is_derive W 0 W' -> W 0 <> 0 ->
  is_derive (fun t => pb mu (vu t) g (su t) (m t) vv (sv t) (a t) (W t)) 0 (dpb mu (vu 0) g (su 0) (m 0) vv (sv 0) (a 0) (W 0) vu' su' m' sv' a' W').
Proof.
  intros A B C D E G N. unfold pb. auto_derive.
  - repeat split; try (eexists; eassumption); exact N.
  - rewrite (is_derive_unique (fun x : R => vu x) _ _ A), (is_derive_unique (fun x : R => su x) _ _ B), (is_derive_unique (fun x : R => m x) _ _ C), (is_derive_unique (fun x : R => sv x) _ _ D), (is_derive_unique (fun x : R => a x) _ _ E), (is_derive_unique (fun x : R => W x) _ _ G).
    unfold dpb. field. exact N.
Qed.
Definition dpi (mu v1 v2 d1 d2 m1 m2 p1 p2 e1 e2 a W1 W2 : R) (v1' v2' d1' d2' m1' m2' e1' e2' a' W1' W2' : R) : R :=
  - ((m1' * d1 + m1 * d1' + m2' * d2 + m2 * d2') / 2) * (p1 - p2) -
  ((v1' - v2') * ((m1 * e1 + m2 * e2) / 2) + (v1 - v2) * ((m1' * e1 + m1 * e1' + m2' * e2 + m2 * e2') / 2)) +
  mu * (((m1' * (a / W1) + m1 * ((a' * W1 - a * W1') / (W1 * W1)) + m2' * (a / W2) + m2 * ((a' * W2 - a * W2') / (W2 * W2))) / 2) * (v1 - v2) +
        ((m1 * (a / W1) + m2 * (a / W2)) / 2) * (v1' - v2')) * (p1 - p2).
Lemma pi_derive mu p1 p2 v1 v2 d1 d2 m1 m2 e1 e2 a W1 W2 v1' v2' d1' d2' m1' m2' e1' e2' a' W1' W2' :
  is_derive v1 0 v1' -> is_derive v2 0 v2' -> is_derive d1 0 d1' -> is_derive d2 0 d2' -> is_derive m1 0 m1' -> is_derive m2 0 m2' ->
  is_derive e1 0 e1' -> is_derive e2 0 e2' -> is_derive a 0 a' -> is_derive W1 0 W1' -> is_derive W2 0 W2' -> W1 0 <> 0 -> W2 0 <> 0 ->
  is_derive (fun t => pi mu (v1 t) (v2 t) (d1 t) (d2 t) (m1 t) (m2 t) p1 p2 (e1 t) (e2 t) (a t) (W1 t) (W2 t)) 0
    (dpi mu (v1 0) (v2 0) (d1 0) (d2 0) (m1 0) (m2 0) p1 p2 (e1 0) (e2 0) (a 0) (W1 0) (W2 0) v1' v2' d1' d2' m1' m2' e1' e2' a' W1' W2').
Proof.
  intros A1 A2 B1 B2 C1 C2 D1 D2 E G1 G2 N1 N2. unfold pi. auto_derive.
  - repeat split; try (eexists; eassumption); assumption.
  - rewrite (is_derive_unique (fun x : R => v1 x) _ _ A1), (is_derive_unique (fun x : R => v2 x) _ _ A2), (is_derive_unique (fun x : R => d1 x) _ _ B1), (is_derive_unique (fun x : R => d2 x) _ _ B2), (is_derive_unique (fun x : R => m1 x) _ _ C1), (is_derive_unique (fun x : R => m2 x) _ _ C2),
      (is_derive_unique (fun x : R => e1 x) _ _ D1), (is_derive_unique (fun x : R => e2 x) _ _ D2), (is_derive_unique (fun x : R => a x) _ _ E), (is_derive_unique (fun x : R => W1 x) _ _ G1), (is_derive_unique (fun x : R => W2 x) _ _ G2).
    unfold dpi. field. split; assumption.
Qed.

(** * the material along a change of the state *)
Lemma steep_zero_line F o q S X u y t : steepness F o q S X u = 0 -> steepness F o q S X (along u y t) = Rabs t * steepness F o q S X y.
Proof.
  intros Z. rewrite !steep_norm. rewrite steep_norm in Z. unfold norm at 1.
  rewrite (dot_ext _ _ (vscal t (gradient F o q S X y)) _ (vscal t (gradient F o q S X y))).
  - rewrite dot_scal_l, dot_scal_r, <- Rmult_assoc, sqrt_mult_alt by nra. f_equal. change (t * t) with (Rsqr t). apply sqrt_Rsqr_abs.
  - intros k Hk. rewrite gradient_along, (norm_0 _ _ Z k Hk). unfold vscal. ring.
  - intros k Hk. rewrite gradient_along, (norm_0 _ _ Z k Hk). unfold vscal. ring.
Qed.
Definition dmat (F : face) (o q : nat) (S : side) (X : mat) (u y : vec) : R := rsum (nd S) (fun j => nd_ F o q S X u j * y j).
Lemma dmat_eq F o q S X u y : dmat F o q S X u y =
  (if Rlt_dec tiny (Rabs (steepness F o q S X u))
   then rsum (dim F) (fun k => gradient F o q S X u k * gradient F o q S X y k) / steepness F o q S X u else 0) * dnu S (fip F o q) (steepness F o q S X u).
Proof.
  unfold dmat, nd_. rewrite fn_steepness. destruct (Rlt_dec tiny (Rabs (steepness F o q S X u))) as [L|L].
  - rewrite (rsum_ext _ _ (fun j => (rsum (dim F) (fun k => gr F o q S X j k * (1 / steepness F o q S X u * fl F o q S X u k)) * y j) * dnu S (fip F o q) (steepness F o q S X u))) by (intros; ring).
    rewrite rsum_scal_r. f_equal.
    rewrite (rsum_ext _ _ (fun j => rsum (dim F) (fun k => gr F o q S X j k * (1 / steepness F o q S X u * fl F o q S X u k) * y j))) by (intros; now rewrite <- rsum_scal_r).
    rewrite rsum_swap. unfold Rdiv at 2. rewrite <- rsum_scal_r. apply rsum_ext; intros k _. rewrite <- !fl_gradient.
    unfold fl at 3. rewrite <- rsum_scal, <- rsum_scal_r. apply rsum_ext; intros; unfold Rdiv; ring.
  - rewrite (rsum_ext _ _ (fun _ => 0)) by (intros; ring). rewrite rsum_0. ring.
Qed.
Lemma tiny_is : tiny = / 10 ^ 14. Proof. reflexivity. Qed.
Lemma tiny_gt0 : 0 < tiny. Proof. unfold tiny. apply Rinv_0_lt_compat, pow_lt. lra. Qed.
Lemma steep_nonneg F o q S X u : 0 <= steepness F o q S X u. Proof. apply sqrt_pos. Qed.
Lemma material_derive F o q S X u y : uniform S -> differentiable S ->
  linear_material S \/ (steepness F o q S X u = 0 /\ is_derive (nu S (eip S o q)) 0 0 \/ tiny < steepness F o q S X u) ->
  is_derive (fun t => material F o q S X (along u y t)) 0 (dmat F o q S X u y).
Proof.
  intros U D [Lin|[[Z K]|L]]; rewrite dmat_eq.
  - apply (DV_ext (fun _ => nu S (eip S o q) 0)); [intros t; apply Lin|]. apply (DV_eq _ 0 0); [apply DV_const|].
    destruct (Rlt_dec tiny (Rabs (steepness F o q S X u))) as [L|_]; [|ring]. assert (P := tiny_gt0). rewrite Rabs_pos_eq in L by apply steep_nonneg.
    rewrite (DV_unique (nu S (fip F o q)) (steepness F o q S X u) (dnu S (fip F o q) (steepness F o q S X u)) 0); [ring|apply D; lra|].
    apply (DV_ext (fun _ => nu S (fip F o q) 0)); [intros t; apply Lin|apply DV_const].
  - rewrite Z, Rabs_R0. destruct (Rlt_dec tiny 0) as [A|_]; [exfalso; assert (P := tiny_gt0); lra|]. apply (DV_eq _ 0 0); [|ring].
    unfold material. apply (DV_ext (fun t => nu S (eip S o q) (Rabs t * steepness F o q S X y))).
    + intros t. now rewrite (steep_zero_line F o q S X u y t Z).
    + apply zero_kink. exact K.
  - assert (P := tiny_gt0). destruct (Rlt_dec tiny (Rabs (steepness F o q S X u))) as [_|N]; [|exfalso; apply N; rewrite Rabs_pos_eq; lra].
    rewrite (proj2 (U (fip F o q) (eip S o q) (steepness F o q S X u))). unfold material.
    apply (DV_eq _ 0 (dnu S (eip S o q) (steepness F o q S X (along u y 0)) * (dot (dim F) (gradient F o q S X (along u y 0)) (gradient F o q S X y) / steepness F o q S X (along u y 0)))).
    + assert (E0 : steepness F o q S X (along u y 0) = steepness F o q S X u).
      { rewrite !steep_norm. apply norm_ext. intros k _. rewrite gradient_along. ring. }
      apply (DV_comp (nu S (eip S o q)) (fun t => steepness F o q S X (along u y t))).
      * apply D. rewrite E0. lra.
      * apply (DV_norm (dim F) (fun t => gradient F o q S X (along u y t)) (gradient F o q S X y) 0).
        -- intros k _. apply (DV_ext (fun t => gradient F o q S X u k + t * gradient F o q S X y k)); [intros; now rewrite gradient_along|].
           apply (DV_eq _ 0 (0 + 1 * gradient F o q S X y k)); [apply DV_plus; [apply DV_const|apply DV_scal_r, DV_id]|ring].
        -- rewrite <- steep_norm, E0. lra.
    + assert (E0 : steepness F o q S X (along u y 0) = steepness F o q S X u).
      { rewrite !steep_norm. apply norm_ext. intros k _. rewrite gradient_along. ring. }
      rewrite E0, (dot_ext _ _ (gradient F o q S X u) _ (gradient F o q S X y)); [unfold dot; ring|intros k _; rewrite gradient_along; ring|intros k _; reflexivity].
Qed.
Lemma line_derive (a b : R) : is_derive (fun t => a + t * b) 0 b.
Proof. apply (DV_eq _ 0 (0 + 1 * b)); [apply DV_plus; [apply DV_const|apply DV_scal_r, DV_id]|ring]. Qed.
Lemma value_derive F o q S u y : is_derive (fun t => value o q S (along u y t)) 0 (value o q S y) /\
  forall X XF, is_derive (fun t => slope F o q S X (along u y t) XF) 0 (slope F o q S X y XF).
Proof.
  split; [|intros X XF].
  - apply (DV_ext (fun t => value o q S u + t * value o q S y)); [intros; now rewrite value_along|apply line_derive].
  - apply (DV_ext (fun t => slope F o q S X u XF + t * slope F o q S X y XF)); [intros; now rewrite slope_along|apply line_derive].
Qed.

(** * the matrices *)
Lemma test_nd F o q S X u y c : rsum (nd S) (fun j => c * nd_ F o q S X u j * y j) = c * dmat F o q S X u y.
Proof. unfold dmat. rewrite <- rsum_scal. apply rsum_ext; intros; ring. Qed.
Lemma test_shape2 o q S y c : rsum (nd S) (fun j => c * shp S o q j * y j) = c * value o q S y.
Proof. unfold value. rewrite <- rsum_scal. apply rsum_ext; intros; ring. Qed.
Lemma test_sn2 F o q XF S X y c : rsum (nd S) (fun j => c * sn F o q XF S X j * y j) = c * slope F o q S X y XF.
Proof. rewrite <- dn_slope. unfold dn, dot. rewrite <- rsum_scal. apply rsum_ext; intros; ring. Qed.
Lemma bdr_grad_form F S g mu alpha XF X u v y :
  dot (nd S) v (mv (nd S) (bdr_grad F S g mu alpha XF X u) y) =
  over_face F alpha (bdr_order F S) (fun q => let o := bdr_order F S in
    dpb mu (value o q S u) (g o q) (slope F o q S X u XF) (material F o q S X u) (value o q S v) (slope F o q S X v XF) (area2 F o q XF) (We S o q X)
      (value o q S y) (slope F o q S X y XF) (dmat F o q S X u y) 0 0 0).
Proof.
  unfold dot, mv, bdr_grad, over_face. set (o := bdr_order F S). cbv zeta.
  set (K := fun i q => let w := alpha * wt F o q in let wq := w * nn_ F o q XF * mu / We S o q X in
    (- mv_ F o q S X u * w * slope F o q S X y XF - dn F o q XF S X u * w * dmat F o q S X u y + mv_ F o q S X u * wq * value o q S y +
     (vl o q S u - g o q) * wq * dmat F o q S X u y) * shp S o q i +
    (- mv_ F o q S X u * w * value o q S y - (vl o q S u - g o q) * w * dmat F o q S X u y) * sn F o q XF S X i).
  rewrite (rsum_ext (nd S) _ (fun i => rsum (np F o) (fun q => v i * K i q))).
  2:{ intros i _. rewrite rsum_scal. f_equal.
      rewrite (rsum_ext (nd S) _ (fun j => rsum (np F o) (fun q => let w := alpha * wt F o q in let wq := w * nn_ F o q XF * mu / We S o q X in
        (- mv_ F o q S X u * w * shp S o q i) * sn F o q XF S X j * y j +
        ((- dn F o q XF S X u * w * shp S o q i - (vl o q S u - g o q) * w * sn F o q XF S X i + (vl o q S u - g o q) * wq * shp S o q i) * nd_ F o q S X u j * y j +
         (- mv_ F o q S X u * w * sn F o q XF S X i + mv_ F o q S X u * wq * shp S o q i) * shp S o q j * y j)))).
      2:{ intros j _. rewrite <- rsum_scal_r. apply rsum_ext; intros; cbv zeta; ring. }
      rewrite rsum_swap. apply rsum_ext; intros q _. cbv zeta. rewrite !rsum_plus, test_sn2, test_nd, test_shape2. unfold K. cbv zeta. ring. }
  rewrite rsum_swap, <- rsum_scal. apply rsum_ext; intros q _. unfold K. cbv zeta.
  rewrite (rsum_ext (nd S) _ (fun i => v i * ((- mv_ F o q S X u * (alpha * wt F o q) * slope F o q S X y XF - dn F o q XF S X u * (alpha * wt F o q) * dmat F o q S X u y + mv_ F o q S X u * (alpha * wt F o q * nn_ F o q XF * mu / We S o q X) * value o q S y +
     (vl o q S u - g o q) * (alpha * wt F o q * nn_ F o q XF * mu / We S o q X) * dmat F o q S X u y) * shp S o q i) +
    v i * ((- mv_ F o q S X u * (alpha * wt F o q) * value o q S y - (vl o q S u - g o q) * (alpha * wt F o q) * dmat F o q S X u y) * sn F o q XF S X i))) by (intros; ring).
  rewrite rsum_plus, test_shape, test_sn. rewrite mv_material, vl_value, dn_slope, nn_area. unfold dpb, Rdiv.
  replace ((0 * We S o q X - area2 F o q XF * 0) * / (We S o q X * We S o q X)) with 0 by ring. ring.
Qed.
Lemma bdr_jacobian F S g mu alpha XF X u y : uniform S -> differentiable S -> linear_material S \/ resolved F S (bdr_order F S) X u ->
  (forall q, (q < np F (bdr_order F S))%nat -> We S (bdr_order F S) q X <> 0) ->
  derivative_at (nd S) (bdr_vector F S g mu alpha XF X) u y (mv (nd S) (bdr_grad F S g mu alpha XF X u) y).
Proof.
  intros U D Rs Wn i Hi.
  apply (DV_ext (fun t => dot (nd S) (pick i) (bdr_vector F S g mu alpha XF X (along u y t)))); [intros; now apply dot_pick|].
  rewrite <- (dot_pick (nd S) i (mv (nd S) (bdr_grad F S g mu alpha XF X u) y) Hi). set (v := pick i). clearbody v. rewrite bdr_grad_form. set (o := bdr_order F S) in *.
  apply (DV_ext (fun t => over_face F alpha o (fun q => weak_dirichlet F S g mu o q XF X (along u y t) v))); [intros; now rewrite bdr_weak|].
  unfold over_face. apply DV_scal. apply (DV_sum (np F o) (fun q t => wt F o q * weak_dirichlet F S g mu o q XF X (along u y t) v)). intros q Hq. apply DV_scal.
  cbv zeta. eapply DV_eq.
  - apply (DV_ext (fun t => pb mu (value o q S (along u y t)) (g o q) (slope F o q S X (along u y t) XF) (material F o q S X (along u y t)) (value o q S v) (slope F o q S X v XF) (area2 F o q XF) (We S o q X))); [intros; now rewrite weak_pb|].
    apply (pb_derive mu (g o q) (value o q S v) (fun t => value o q S (along u y t)) (fun t => slope F o q S X (along u y t) XF) (fun t => material F o q S X (along u y t)) (fun _ => slope F o q S X v XF) (fun _ => area2 F o q XF) (fun _ => We S o q X)
      (value o q S y) (slope F o q S X y XF) (dmat F o q S X u y) 0 0 0); try apply DV_const.
    + apply (value_derive F).
    + apply value_derive.
    + apply material_derive; [exact U|exact D|]. destruct Rs as [Lin|Rs]; [now left|right; apply (Rs q Hq)].
    + now apply Wn.
  - cbv beta. assert (E : value o q S (along u y 0) = value o q S u) by (rewrite value_along; ring). rewrite E.
    assert (E2 : slope F o q S X (along u y 0) XF = slope F o q S X u XF) by (rewrite slope_along; ring). rewrite E2.
    assert (E3 : material F o q S X (along u y 0) = material F o q S X u).
    { unfold material. f_equal. rewrite !steep_norm. apply norm_ext. intros k _. rewrite gradient_along. ring. }
    rewrite E3. reflexivity.
Qed.

(** a block of a matrix: test with v, apply to y *)
Definition form (n m : nat) (A : mat) (v y : vec) : R := rsum n (fun i => v i * rsum m (fun j => A i j * y j)).
Lemma form_plus n m A B v y : form n m (fun i j => A i j + B i j) v y = form n m A v y + form n m B v y.
Proof. unfold form. rewrite <- rsum_plus. apply rsum_ext; intros i _. rewrite <- Rmult_plus_distr_l, <- rsum_plus. f_equal. apply rsum_ext; intros; ring. Qed.
Lemma form_outer n m c (a b : vec) v y : form n m (fun i j => c * (a i * b j)) v y = c * (rsum n (fun i => v i * a i) * rsum m (fun j => b j * y j)).
Proof.
  unfold form. rewrite (rsum_ext n _ (fun i => v i * a i * (c * rsum m (fun j => b j * y j)))).
  - rewrite rsum_scal_r. ring.
  - intros i _. rewrite (rsum_ext m _ (fun j => (c * a i) * (b j * y j))) by (intros; ring). rewrite rsum_scal. ring.
Qed.
Lemma v_shape o q S v : rsum (nd S) (fun i => v i * shp S o q i) = value o q S v. Proof. reflexivity. Qed.
Lemma y_shape o q S y : rsum (nd S) (fun i => shp S o q i * y i) = value o q S y. Proof. apply rsum_ext; intros; ring. Qed.
Lemma v_sn F o q XF S X v : rsum (nd S) (fun i => v i * sn F o q XF S X i) = slope F o q S X v XF.
Proof. rewrite <- dn_slope. apply rsum_ext; intros; ring. Qed.
Lemma y_sn F o q XF S X y : rsum (nd S) (fun i => sn F o q XF S X i * y i) = slope F o q S X y XF.
Proof. rewrite <- dn_slope. reflexivity. Qed.
Lemma y_nd F o q S X u y : rsum (nd S) (fun i => nd_ F o q S X u i * y i) = dmat F o q S X u y. Proof. reflexivity. Qed.
Lemma int_grad_form F S1 S2 mu alpha XF X1 X2 u v y : let o := int_order S1 S2 in
  dot (nd S1 + nd S2) v (mv (nd S1 + nd S2) (int_grad F S1 S2 mu alpha XF X1 X2 u) y) =
  over_face F alpha o (fun q =>
    dpi mu (value o q S1 u) (value o q S2 (lower S1 u)) (slope F o q S1 X1 u XF) (slope F o q S2 X2 (lower S1 u) XF)
     (material F o q S1 X1 u) (material F o q S2 X2 (lower S1 u)) (value o q S1 v) (value o q S2 (lower S1 v))
     (slope F o q S1 X1 v XF) (slope F o q S2 X2 (lower S1 v) XF) (area2 F o q XF) (We S1 o q X1) (We S2 o q X2)
     (value o q S1 y) (value o q S2 (lower S1 y)) (slope F o q S1 X1 y XF) (slope F o q S2 X2 (lower S1 y) XF)
     (dmat F o q S1 X1 u y) (dmat F o q S2 X2 (lower S1 u) (lower S1 y)) 0 0 0 0 0).
Proof.
  intros o. unfold over_face.
  assert (E : dot (nd S1 + nd S2) v (mv (nd S1 + nd S2) (int_grad F S1 S2 mu alpha XF X1 X2 u) y) =
    rsum (np F o) (fun q => form (nd S1) (nd S1) (b11 F S1 S2 mu alpha XF X1 X2 u q) v y + form (nd S1) (nd S2) (b12 F S1 S2 mu alpha XF X1 X2 u q) v (lower S1 y) +
                            form (nd S2) (nd S1) (b21 F S1 S2 mu alpha XF X1 X2 u q) (lower S1 v) y + form (nd S2) (nd S2) (b22 F S1 S2 mu alpha XF X1 X2 u q) (lower S1 v) (lower S1 y))).
  { unfold dot at 1. rewrite rsum_app. unfold mv, int_grad. fold o.
    rewrite (rsum_ext (nd S1) _ (fun i => rsum (np F o) (fun q => v i * rsum (nd S1) (fun j => b11 F S1 S2 mu alpha XF X1 X2 u q i j * y j) + v i * rsum (nd S2) (fun j => b12 F S1 S2 mu alpha XF X1 X2 u q i j * lower S1 y j)))).
    2:{ intros i Hi. apply Nat.ltb_lt in Hi. rewrite rsum_app.
        rewrite (rsum_ext (np F o) _ (fun q => v i * (rsum (nd S1) (fun j => b11 F S1 S2 mu alpha XF X1 X2 u q i j * y j) + rsum (nd S2) (fun j => b12 F S1 S2 mu alpha XF X1 X2 u q i j * lower S1 y j)))) by (intros; ring).
        rewrite rsum_scal, rsum_plus. f_equal. f_equal.
        - rewrite rsum_swap. apply rsum_ext; intros j Hj. rewrite <- rsum_scal_r. apply rsum_ext; intros q _. apply Nat.ltb_lt in Hj. now rewrite Hi, Hj.
        - rewrite rsum_swap. apply rsum_ext; intros j Hj. rewrite <- rsum_scal_r. apply rsum_ext; intros q _.
          assert (Ej : (nd S1 + j <? nd S1)%nat = false) by (apply Nat.ltb_ge; lia). rewrite Hi, Ej. replace (nd S1 + j - nd S1)%nat with j by lia. reflexivity. }
    rewrite (rsum_ext (nd S2) _ (fun i => rsum (np F o) (fun q => lower S1 v i * rsum (nd S1) (fun j => b21 F S1 S2 mu alpha XF X1 X2 u q i j * y j) + lower S1 v i * rsum (nd S2) (fun j => b22 F S1 S2 mu alpha XF X1 X2 u q i j * lower S1 y j)))).
    2:{ intros i Hi. assert (Ei : (nd S1 + i <? nd S1)%nat = false) by (apply Nat.ltb_ge; lia). rewrite rsum_app.
        rewrite (rsum_ext (np F o) _ (fun q => lower S1 v i * (rsum (nd S1) (fun j => b21 F S1 S2 mu alpha XF X1 X2 u q i j * y j) + rsum (nd S2) (fun j => b22 F S1 S2 mu alpha XF X1 X2 u q i j * lower S1 y j)))) by (intros; ring).
        rewrite rsum_scal, rsum_plus. unfold lower at 2. f_equal. f_equal.
        - rewrite rsum_swap. apply rsum_ext; intros j Hj. rewrite <- rsum_scal_r. apply rsum_ext; intros q _. apply Nat.ltb_lt in Hj. rewrite Ei, Hj. replace (nd S1 + i - nd S1)%nat with i by lia. reflexivity.
        - rewrite rsum_swap. apply rsum_ext; intros j Hj. rewrite <- rsum_scal_r. apply rsum_ext; intros q _.
          assert (Ej : (nd S1 + j <? nd S1)%nat = false) by (apply Nat.ltb_ge; lia). rewrite Ei, Ej. replace (nd S1 + i - nd S1)%nat with i by lia. replace (nd S1 + j - nd S1)%nat with j by lia. reflexivity. }
    rewrite !(rsum_swap _ (np F o)), <- rsum_plus. apply rsum_ext; intros q _. rewrite !rsum_plus. unfold form. ring. }
  rewrite E, <- rsum_scal. apply rsum_ext; intros q _. unfold b11, b12, b21, b22. rewrite !form_plus, !form_outer. fold o.
  rewrite !v_shape, !y_shape, !v_sn, !y_sn, !y_nd. change (second S1 u) with (lower S1 u).
  rewrite ?y_nd. unfold iwq, m1_, m2_, d1_, d2_, v1_, v2_. fold o. change (second S1 u) with (lower S1 u).
  rewrite !mv_material, !vl_value, !dn_slope, nn_area. unfold dpi, Rdiv.
  replace ((0 * We S1 o q X1 - area2 F o q XF * 0) * / (We S1 o q X1 * We S1 o q X1)) with 0 by ring.
  replace ((0 * We S2 o q X2 - area2 F o q XF * 0) * / (We S2 o q X2 * We S2 o q X2)) with 0 by ring. ring.
Qed.
Lemma at_zero F o q S X u y XF : value o q S (along u y 0) = value o q S u /\ slope F o q S X (along u y 0) XF = slope F o q S X u XF /\
  material F o q S X (along u y 0) = material F o q S X u.
Proof.
  split; [rewrite value_along; ring|]. split; [rewrite slope_along; ring|].
  unfold material. f_equal. rewrite !steep_norm. apply norm_ext. intros k _. rewrite gradient_along. ring.
Qed.
Lemma int_jacobian F S1 S2 mu alpha XF X1 X2 u y : uniform S1 -> differentiable S1 -> uniform S2 -> differentiable S2 ->
  linear_material S1 \/ resolved F S1 (int_order S1 S2) X1 u -> linear_material S2 \/ resolved F S2 (int_order S1 S2) X2 (lower S1 u) ->
  (forall q, (q < np F (int_order S1 S2))%nat -> We S1 (int_order S1 S2) q X1 <> 0 /\ We S2 (int_order S1 S2) q X2 <> 0) ->
  derivative_at (nd S1 + nd S2) (int_vector F S1 S2 mu alpha XF X1 X2) u y (mv (nd S1 + nd S2) (int_grad F S1 S2 mu alpha XF X1 X2 u) y).
Proof.
  intros U1 D1 U2 D2 R1 R2 Wn i Hi.
  apply (DV_ext (fun t => dot (nd S1 + nd S2) (pick i) (int_vector F S1 S2 mu alpha XF X1 X2 (along u y t)))); [intros; now apply dot_pick|].
  rewrite <- (dot_pick (nd S1 + nd S2) i (mv (nd S1 + nd S2) (int_grad F S1 S2 mu alpha XF X1 X2 u) y) Hi). set (v := pick i). clearbody v. rewrite int_grad_form. set (o := int_order S1 S2) in *.
  apply (DV_ext (fun t => over_face F alpha o (fun q => interior_penalty F S1 S2 mu o q XF X1 X2 (along u y t) v))); [intros; now rewrite int_weak|].
  unfold over_face. apply DV_scal. apply (DV_sum (np F o) (fun q t => wt F o q * interior_penalty F S1 S2 mu o q XF X1 X2 (along u y t) v)). intros q Hq. apply DV_scal.
  destruct (Wn q Hq) as [N1 N2]. set (u2 := lower S1 u). set (y2 := lower S1 y).
  eapply DV_eq.
  - apply (DV_ext (fun t => pi mu (value o q S1 (along u y t)) (value o q S2 (along u2 y2 t)) (slope F o q S1 X1 (along u y t) XF) (slope F o q S2 X2 (along u2 y2 t) XF)
      (material F o q S1 X1 (along u y t)) (material F o q S2 X2 (along u2 y2 t)) (value o q S1 v) (value o q S2 (lower S1 v)) (slope F o q S1 X1 v XF) (slope F o q S2 X2 (lower S1 v) XF) (area2 F o q XF) (We S1 o q X1) (We S2 o q X2))); [intros; now rewrite interior_pi|].
    apply (pi_derive mu (value o q S1 v) (value o q S2 (lower S1 v)) (fun t => value o q S1 (along u y t)) (fun t => value o q S2 (along u2 y2 t)) (fun t => slope F o q S1 X1 (along u y t) XF) (fun t => slope F o q S2 X2 (along u2 y2 t) XF)
      (fun t => material F o q S1 X1 (along u y t)) (fun t => material F o q S2 X2 (along u2 y2 t)) (fun _ => slope F o q S1 X1 v XF) (fun _ => slope F o q S2 X2 (lower S1 v) XF) (fun _ => area2 F o q XF) (fun _ => We S1 o q X1) (fun _ => We S2 o q X2)
      (value o q S1 y) (value o q S2 y2) (slope F o q S1 X1 y XF) (slope F o q S2 X2 y2 XF) (dmat F o q S1 X1 u y) (dmat F o q S2 X2 u2 y2) 0 0 0 0 0); try apply DV_const; try assumption.
    + apply (value_derive F).
    + apply (value_derive F).
    + apply value_derive.
    + apply value_derive.
    + apply material_derive; [exact U1|exact D1|]. destruct R1 as [Lin|R1]; [now left|right; apply (R1 q Hq)].
    + apply material_derive; [exact U2|exact D2|]. destruct R2 as [Lin|R2]; [now left|right; apply (R2 q Hq)].
  - cbv beta. destruct (at_zero F o q S1 X1 u y XF) as [-> [-> ->]]. destruct (at_zero F o q S2 X2 u2 y2 XF) as [-> [-> ->]]. reflexivity.
Qed.
