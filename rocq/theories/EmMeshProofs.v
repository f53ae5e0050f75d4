From Coq Require Import Reals Lra Lia.
From Coquelicot Require Import Coquelicot.
From Verif Require Import Vec Deriv EmIntegSpec EmInteg EmIntegProofs.
Local Open Scope R_scope.

Lemma tiny_pos : 0 < tiny. Proof. unfold tiny. apply Rinv_0_lt_compat, pow_lt. lra. Qed.

(** ** energy of the segment rule *)
Section Energy.
Variables (ns : nat) (sx sw : nat -> R) (nu dnu d2nu : R -> R).
Lemma energy_dot B : (forall j, (j < ns)%nat -> is_derive nu (sx j * B) (dnu (sx j * B))) ->
  is_derive (calcMagneticEnergy ns sx sw nu) B (calcMagneticEnergyDot ns sx sw nu dnu B).
Proof.
  intros H. unfold calcMagneticEnergy, calcMagneticEnergyDot.
  apply (DV_eq _ B (rsum ns (fun j => sw j * (nu (sx j * B) + sx j * B * dnu (sx j * B)) * sx j) * B + rsum ns (fun j => sw j * (sx j * B) * nu (sx j * B)) * 1)); [|ring].
  apply (DV_mult (fun B => rsum ns (fun j => sw j * (sx j * B) * nu (sx j * B))) (fun B => B)); [|apply DV_id].
  apply (DV_sum ns (fun j B => sw j * (sx j * B) * nu (sx j * B))). intros j Hj.
  apply (DV_ext (fun t => sw j * sx j * (t * nu (sx j * t)))); [intros; ring|].
  apply (DV_eq _ B (sw j * sx j * (1 * nu (sx j * B) + B * (dnu (sx j * B) * (sx j * 1))))); [|ring].
  apply DV_scal. apply (DV_mult (fun t => t) (fun t => nu (sx j * t))); [apply DV_id|].
  apply (DV_comp nu (fun t => sx j * t)); [now apply H|]. apply DV_scal, DV_id.
Qed.
Lemma energy_double_dot B : (forall j, (j < ns)%nat -> is_derive nu (sx j * B) (dnu (sx j * B))) ->
  (forall j, (j < ns)%nat -> is_derive dnu (sx j * B) (d2nu (sx j * B))) ->
  is_derive (calcMagneticEnergyDot ns sx sw nu dnu) B (calcMagneticEnergyDoubleDot ns sx sw nu dnu d2nu B).
Proof.
  intros H H2. unfold calcMagneticEnergyDot, calcMagneticEnergyDoubleDot.
  set (F := fun j B => sw j * (nu (sx j * B) + sx j * B * dnu (sx j * B)) * sx j).
  set (dF := fun j => sw j * (dnu (sx j * B) * (sx j * 1) + (sx j * 1 * dnu (sx j * B) + sx j * B * (d2nu (sx j * B) * (sx j * 1)))) * sx j).
  assert (Hl : forall j x, is_derive (fun t => sx j * t) x (sx j * 1)) by (intros; apply DV_scal, DV_id).
  assert (DF : forall j, (j < ns)%nat -> is_derive (F j) B (dF j)).
  { intros j Hj. unfold F, dF. apply DV_scal_r, DV_scal. apply DV_plus.
    - apply (DV_comp nu (fun t => sx j * t)); [now apply H|apply Hl].
    - apply (DV_mult (fun t => sx j * t) (fun t => dnu (sx j * t))); [apply Hl|]. apply (DV_comp dnu (fun t => sx j * t)); [now apply H2|apply Hl]. }
  assert (DG : forall j, (j < ns)%nat -> is_derive (fun t => sw j * (sx j * t) * nu (sx j * t)) B (F j B)).
  { intros j Hj. apply (DV_ext (fun t => sw j * sx j * (t * nu (sx j * t)))); [intros; ring|].
    apply (DV_eq _ B (sw j * sx j * (1 * nu (sx j * B) + B * (dnu (sx j * B) * (sx j * 1))))); [|unfold F; ring].
    apply DV_scal. apply (DV_mult (fun t => t) (fun t => nu (sx j * t))); [apply DV_id|]. apply (DV_comp nu (fun t => sx j * t)); [now apply H|apply Hl]. }
  apply (DV_eq _ B ((rsum ns dF * B + rsum ns (fun j => F j B) * 1) + rsum ns (fun j => F j B))).
  - apply (DV_plus (fun B => rsum ns (fun j => F j B) * B) (fun B => rsum ns (fun j => sw j * (sx j * B) * nu (sx j * B)))).
    + apply (DV_mult (fun B => rsum ns (fun j => F j B)) (fun B => B)); [now apply DV_sum|apply DV_id].
    + now apply (DV_sum ns (fun j t => sw j * (sx j * t) * nu (sx j * t))).
  - rewrite Rmult_1_r, <- rsum_scal_r, <- !rsum_plus. apply rsum_ext. intros j _. unfold F, dF. ring.
Qed.
End Energy.

(** ** paths of shapes and weights *)
Section Point.
Variables (ndof sdim : nat) (S : R -> mat) (dS : mat) (W : R -> R) (dW : R).
Hypothesis HS : forall i k, (i < ndof)%nat -> (k < sdim)%nat -> is_derive (fun t => S t i k) 0 (dS i k).
Hypothesis HW : is_derive W 0 dW.
Hypothesis PW : 0 < W 0.
Notation b u t := (flux ndof (fun _ => S t) 0%nat u).
Notation db u := (flux ndof (fun _ => dS) 0%nat u).
Lemma path_flux u k : (k < sdim)%nat -> is_derive (fun t => b u t k) 0 (db u k).
Proof. intros Hk. unfold flux. apply (DV_sum ndof (fun i t => S t i k * u i)). intros i Hi. apply DV_scal_r. now apply HS. Qed.
Lemma path_mag u : norm sdim (b u 0) <> 0 ->
  is_derive (fun t => norm sdim (b u t) / W t) 0
   ((dot sdim (b u 0) (db u) / norm sdim (b u 0) * W 0 - norm sdim (b u 0) * dW) / (W 0 * W 0)).
Proof.
  intros N. apply (DV_div (fun t => norm sdim (b u t)) W); [|exact HW|lra].
  apply (DV_norm sdim (fun t => b u t)); [|exact N]. intros k Hk. now apply path_flux.
Qed.
Variables (nu dnu : R -> R) (a : R) (u psi : vec).
Hypothesis Hnu : forall x, 0 < x -> is_derive nu x (dnu x).
Hypothesis Hnu0 : continuous nu 0.
Notation n0 := (norm sdim (b u 0)).
Notation m0 := (n0 / W 0).
Notation pb := (dot sdim (b psi 0) (b u 0)).
Notation dpb := (dot sdim (db psi) (b u 0) + dot sdim (b psi 0) (db u)).
Definition point_value (t : R) : R := nu (norm sdim (b u t) / W t) * dot sdim (b psi t) (b u t) * (a / W t).
Lemma path_pb : is_derive (fun t => dot sdim (b psi t) (b u t)) 0 dpb.
Proof. apply (DV_dot sdim (fun t => b psi t) (fun t => b u t)); intros k Hk; now apply path_flux. Qed.
Lemma path_w : is_derive (fun t => a / W t) 0 (- (a * dW) / (W 0 * W 0)).
Proof.
  apply (DV_eq _ 0 ((0 * W 0 - a * dW) / (W 0 * W 0))); [apply (DV_div (fun _ => a) W); [apply DV_const|exact HW|lra]|].
  unfold Rdiv. ring.
Qed.
Lemma point_derive_pos : n0 <> 0 ->
  is_derive point_value 0 (dnu m0 * ((dot sdim (b u 0) (db u) / n0 * W 0 - n0 * dW) / (W 0 * W 0)) * pb * (a / W 0) +
                           nu m0 * dpb * (a / W 0) + nu m0 * pb * (- (a * dW) / (W 0 * W 0))).
Proof.
  intros N. destruct (norm_nonzero _ _ N) as [_ P]. unfold point_value.
  apply (DV_eq _ 0 ((dnu m0 * ((dot sdim (b u 0) (db u) / n0 * W 0 - n0 * dW) / (W 0 * W 0)) * pb + nu m0 * dpb) * (a / W 0) + nu m0 * pb * (- (a * dW) / (W 0 * W 0)))); [|ring].
  apply (DV_mult (fun t => nu (norm sdim (b u t) / W t) * dot sdim (b psi t) (b u t)) (fun t => a / W t)); [|exact path_w].
  apply (DV_mult (fun t => nu (norm sdim (b u t) / W t)) (fun t => dot sdim (b psi t) (b u t))); [|exact path_pb].
  apply (DV_comp nu (fun t => norm sdim (b u t) / W t)); [apply Hnu; now apply Rdiv_lt_0_compat|now apply path_mag].
Qed.
Lemma point_derive_zero : n0 = 0 -> is_derive point_value 0 (nu 0 * (a / W 0) * dpb).
Proof.
  intros Z. unfold point_value.
  apply (DV_ext (fun t => (nu (norm sdim (b u t) / W t) * (a / W t)) * dot sdim (b psi t) (b u t))); [intros; ring|].
  assert (M0 : m0 = 0) by (rewrite Z; unfold Rdiv; ring).
  apply (DV_eq _ 0 (nu m0 * (a / W 0) * dpb)); [|now rewrite M0].
  apply (DV_zero_mult (fun t => nu (norm sdim (b u t) / W t) * (a / W t)) (fun t => dot sdim (b psi t) (b u t))); [|exact path_pb|].
  - apply (continuous_mult (fun t => nu (norm sdim (b u t) / W t)) (fun t => a / W t)).
    + apply (continuous_comp (fun t => norm sdim (b u t) / W t) nu); [|rewrite M0; exact Hnu0].
      apply (continuous_mult (fun t => norm sdim (b u t)) (fun t => / W t)).
      * apply (norm_continuous sdim (fun t => b u t)). intros k Hk. apply (DV_continuous _ 0 (db u k)). now apply path_flux.
      * apply (continuous_comp W Rinv); [now apply (DV_continuous _ 0 dW)|]. apply continuous_Rinv. lra.
    + apply (DV_continuous _ 0 (- (a * dW) / (W 0 * W 0))). exact path_w.
  - unfold dot. rewrite (rsum_ext sdim _ (fun _ => 0)); [apply rsum_0|]. intros k Hk. rewrite (norm_0 sdim _ Z k Hk). ring.
Qed.
End Point.

(** ** reverse functions and derivatives *)
Definition del (a b i j : nat) : R := if andb (Nat.eqb i a) (Nat.eqb j b) then 1 else 0.
Lemma pairing_del n m a b (P : mat) : (a < n)%nat -> (b < m)%nat -> pairing n m (del a b) P = P a b.
Proof.
  intros Ha Hb. unfold pairing, del. rewrite (rsum_ext n _ (fun i => if Nat.eqb i a then P i b else 0)).
  - apply (rsum_delta n (fun i => P i b)). exact Ha.
  - intros i _. destruct (Nat.eqb i a); cbn [andb].
    + rewrite (rsum_ext m _ (fun j => if Nat.eqb j b then P i j else 0)); [now apply rsum_delta|]. intros j _. destruct (Nat.eqb j b); ring.
    + rewrite (rsum_ext m _ (fun _ => 0)); [apply rsum_0|]. intros; ring.
Qed.
Lemma rev_matrix_entries sdim nn f rev X V : rev_matrix sdim nn f rev -> exists dA : mat,
  (forall a k, (a < sdim)%nat -> (k < sdim)%nat -> is_derive (fun t => f (moved X V t) a k) 0 (dA a k)) /\
  (forall B, pairing sdim nn (rev X B) V = pairing sdim sdim B dA).
Proof.
  intros H. exists (fun a k => pairing sdim nn (rev X (del a k)) V).
  assert (E : forall a k, (a < sdim)%nat -> (k < sdim)%nat -> is_derive (fun t => f (moved X V t) a k) 0 (pairing sdim nn (rev X (del a k)) V)).
  { intros a k Ha Hk. apply (DV_ext (fun t => pairing sdim sdim (del a k) (f (moved X V t)))); [intros t; now apply pairing_del|]. apply H. }
  split; [exact E|]. intros B. apply (DV_unique (fun t => pairing sdim sdim B (f (moved X V t))) 0); [apply H|].
  unfold pairing at 1 3. apply (DV_sum sdim (fun a t => rsum sdim (fun k => B a k * f (moved X V t) a k))). intros a Ha.
  apply (DV_sum sdim (fun k t => B a k * f (moved X V t) a k)). intros k Hk. apply DV_scal. now apply E.
Qed.
Lemma rev_scalar_entries sdim nn f rev X V : rev_scalar sdim nn f rev -> exists dW : R,
  is_derive (fun t => f (moved X V t)) 0 dW /\ (forall b, pairing sdim nn (rev X b) V = b * dW).
Proof.
  intros H. exists (pairing sdim nn (rev X 1) V).
  assert (E : is_derive (fun t => f (moved X V t)) 0 (pairing sdim nn (rev X 1) V)).
  { apply (DV_ext (fun t => 1 * f (moved X V t))); [intros; ring|]. apply H. }
  split; [exact E|]. intros b. apply (DV_unique (fun t => b * f (moved X V t)) 0); [apply H|now apply DV_scal].
Qed.
Lemma moved_0 X V k j : moved X V 0 k j = X k j. Proof. unfold moved. ring. Qed.
Lemma pairing_plus n m A B V : pairing n m (fun k j => A k j + B k j) V = pairing n m A V + pairing n m B V.
Proof. unfold pairing. rewrite <- rsum_plus. apply rsum_ext. intros i _. rewrite <- rsum_plus. apply rsum_ext; intros; ring. Qed.
Lemma pairing_scal_r n m A c V : pairing n m (fun k j => A k j * c) V = pairing n m A V * c.
Proof. unfold pairing. rewrite <- rsum_scal_r. apply rsum_ext. intros i _. rewrite <- rsum_scal_r. apply rsum_ext; intros; ring. Qed.
Lemma pairing_sum n m nq (A : nat -> mat) V : pairing n m (fun k j => rsum nq (fun q => A q k j)) V = rsum nq (fun q => pairing n m (A q) V).
Proof.
  unfold pairing. rewrite rsum_swap. rewrite (rsum_ext m _ (fun j => rsum nq (fun q => rsum n (fun i => A q i j * V i j)))).
  - rewrite rsum_swap. apply rsum_ext. intros q _. apply rsum_swap.
  - intros j _. rewrite rsum_swap. apply rsum_ext. intros i _. now rewrite rsum_scal_r.
Qed.
Lemma pairing_ext n m A B V : (forall i j, (i < n)%nat -> (j < m)%nat -> A i j = B i j) -> pairing n m A V = pairing n m B V.
Proof. intros H. unfold pairing. apply rsum_ext. intros i Hi. apply rsum_ext. intros j Hj. now rewrite H. Qed.

Lemma moved_0' X V : moved X V 0 = X.
Proof. apply FunctionalExtensionality.functional_extensionality; intros k. apply FunctionalExtensionality.functional_extensionality; intros j. apply moved_0. Qed.
Lemma sbar_pair ndof sdim (dS : mat) (psi u P Q : vec) :
  rsum sdim (fun k => rsum ndof (fun i => (psi i * P k + u i * Q k) * dS i k)) =
  dot sdim P (flux ndof (fun _ => dS) 0%nat psi) + dot sdim Q (flux ndof (fun _ => dS) 0%nat u).
Proof.
  unfold dot, flux. rewrite <- rsum_plus. apply rsum_ext. intros k _. rewrite <- !rsum_scal, <- rsum_plus. apply rsum_ext. intros; ring.
Qed.
Lemma dot_zero_vec n a b : norm n a = 0 -> dot n a b = 0.
Proof. intros Z. unfold dot. rewrite (rsum_ext n _ (fun _ => 0)); [apply rsum_0|]. intros k Hk. rewrite (norm_0 n _ Z k Hk). ring. Qed.

Section Mesh.
Variables (ndof sdim nn nq : nat) (pw : nat -> R) (pnu pdnu : nat -> R -> R) (alpha : R) (shape : nat -> mat).
Variables (Wt : nat -> mat -> R) (Adj Jac : nat -> mat -> mat) (WtRev : nat -> mat -> R -> mat) (AdjRev JacRev : nat -> mat -> mat -> mat).
Hypothesis HWt : forall q, (q < nq)%nat -> rev_scalar sdim nn (Wt q) (WtRev q).
Hypothesis HAdj : forall q, (q < nq)%nat -> rev_matrix sdim nn (Adj q) (AdjRev q).
Hypothesis HJac : forall q, (q < nq)%nat -> rev_matrix sdim nn (Jac q) (JacRev q).
Hypothesis Hnu : forall q b, (q < nq)%nat -> 0 < b -> is_derive (pnu q) b (pdnu q b).
Hypothesis Hnu0 : forall q, (q < nq)%nat -> continuous (pnu q) 0.
Variables (X V : mat) (u psi : vec).
Hypothesis PW : forall q, (q < nq)%nat -> 0 < Wt q X.

(** the weighted residual along a motion of the nodes is the sum of point values *)
Lemma residual_points (S : mat -> nat -> mat) al t :
  dot ndof psi (elem_vector ndof sdim nq pw (fun q => Wt q (moved X V t)) (S (moved X V t)) pnu al u) =
  rsum nq (fun q => point_value ndof sdim (fun t => S (moved X V t) q) (fun t => Wt q (moved X V t)) (pnu q) (al * pw q) u psi t).
Proof.
  rewrite dot_comm, vect_dot. apply rsum_ext. intros q _. unfold point_value, fmag, wq. rewrite dot_comm. unfold flux. ring.
Qed.

(** one point, both guards: the bars paired with the derivatives of shape and weight *)
Lemma point_adjoint (S : mat -> nat -> mat) al q (dS : mat) (dW : R) guard : (q < nq)%nat ->
  (forall i k, (i < ndof)%nat -> (k < sdim)%nat -> is_derive (fun t => S (moved X V t) q i k) 0 (dS i k)) ->
  is_derive (fun t => Wt q (moved X V t)) 0 dW ->
  (if guard : bool then norm sdim (flux ndof (S X) q u) = 0 \/ tiny < norm sdim (flux ndof (S X) q u) else norm sdim (flux ndof (S X) q u) <> 0) ->
  is_derive (point_value ndof sdim (fun t => S (moved X V t) q) (fun t => Wt q (moved X V t)) (pnu q) (al * pw q) u psi) 0
    (rsum sdim (fun k => rsum ndof (fun i => r_S_bar ndof sdim pw pnu pdnu Wt X u psi (S X) al q guard i k * dS i k)) +
     r_W_bar ndof sdim pw pnu pdnu Wt X u psi (S X) al q * dW).
Proof.
  intros Hq HS HdW HG. assert (P := PW q Hq). assert (T := tiny_pos).
  set (F := fun t => S (moved X V t) q). set (Wp := fun t => Wt q (moved X V t)).
  assert (P0 : 0 < Wp 0) by (unfold Wp; rewrite moved_0'; exact P).
  assert (E0 : F 0 = S X q) by (unfold F; now rewrite moved_0').
  assert (W0 : Wp 0 = Wt q X) by (unfold Wp; now rewrite moved_0').
  unfold r_S_bar. rewrite sbar_pair.
  assert (B0 : forall z, flux ndof (fun _ => F 0) 0%nat z = flux ndof (S X) q z) by (intros z; rewrite E0; reflexivity).
  assert (CASE : norm sdim (flux ndof (S X) q u) = 0 /\ guard = true \/ norm sdim (flux ndof (S X) q u) <> 0 /\ (guard = true -> tiny < norm sdim (flux ndof (S X) q u))).
  { destruct guard; [destruct HG as [Z|L]; [left; split; [exact Z|reflexivity]|right; split; [lra|intros _; exact L]]|right; split; [exact HG|discriminate]]. }
  destruct CASE as [[Z ->]|[N G]].
  - apply (DV_eq _ 0 _ _ (point_derive_zero ndof sdim F dS Wp dW HS HdW P0 (pnu q) (al * pw q) u psi (Hnu0 q Hq) ltac:(rewrite B0; exact Z))).
    rewrite !B0, W0.
    assert (ZB : forall z, dot sdim (flux ndof (S X) q u) z = 0) by (intros z; now apply dot_zero_vec).
    assert (PB : r_pb ndof sdim u psi (S X) q = 0) by (unfold r_pb, r_p, r_b; rewrite dot_comm; apply ZB).
    assert (MG : r_mag ndof sdim Wt X u (S X) q = 0) by (unfold r_mag, r_norm, r_b; rewrite Z; unfold Rdiv; ring).
    set (b := flux ndof (S X) q u) in *. set (p := flux ndof (S X) q psi) in *. set (dbu := flux ndof (fun _ => dS) 0%nat u). set (dbp := flux ndof (fun _ => dS) 0%nat psi).
    assert (E1 : dot sdim (r_p_bar ndof sdim pw pnu Wt X u (S X) al q) dbp = r_pb_bar ndof sdim pw pnu Wt X u (S X) al q * dot sdim b dbp).
    { unfold dot. rewrite <- rsum_scal. apply rsum_ext. intros k _. unfold r_p_bar, r_b. fold b. ring. }
    assert (E2 : dot sdim (r_b_bar ndof sdim pw pnu pdnu Wt X u psi (S X) al q true) dbu = r_pb_bar ndof sdim pw pnu Wt X u (S X) al q * dot sdim p dbu).
    { unfold dot. rewrite <- !rsum_scal. apply rsum_ext. intros k _. unfold r_b_bar, r_norm. change (r_b ndof u (S X) q) with b. rewrite Z, Rabs_R0.
      destruct (Rlt_dec tiny 0); [lra|]. change (r_p ndof psi (S X) q k) with (p k). ring. }
    rewrite E1, E2, ZB, (dot_comm sdim dbp), ZB. unfold r_W_bar, r_mag_bar, r_w_bar, r_pb_bar. rewrite PB, MG. unfold r_w, Rdiv. ring.
  - destruct (norm_nonzero _ _ N) as [_ PN].
    apply (DV_eq _ 0 _ _ (point_derive_pos ndof sdim F dS Wp dW HS HdW P0 (pnu q) (pdnu q) (al * pw q) u psi (fun b => Hnu q b Hq) ltac:(rewrite B0; exact N))).
    rewrite !B0, W0.
    assert (BB : forall k, r_b_bar ndof sdim pw pnu pdnu Wt X u psi (S X) al q guard k =
       r_norm_bar ndof sdim pw pdnu Wt X u psi (S X) al q / norm sdim (flux ndof (S X) q u) * flux ndof (S X) q u k + r_pb_bar ndof sdim pw pnu Wt X u (S X) al q * flux ndof (S X) q psi k).
    { intros k. unfold r_b_bar. change (r_norm ndof sdim u (S X) q) with (norm sdim (flux ndof (S X) q u)).
      destruct guard; [|reflexivity]. rewrite Rabs_pos_eq by lra. destruct (Rlt_dec tiny (norm sdim (flux ndof (S X) q u))); [reflexivity|]. specialize (G eq_refl). lra. }
    set (b := flux ndof (S X) q u) in *. set (p := flux ndof (S X) q psi) in *. set (dbu := flux ndof (fun _ => dS) 0%nat u). set (dbp := flux ndof (fun _ => dS) 0%nat psi).
    assert (E1 : dot sdim (r_p_bar ndof sdim pw pnu Wt X u (S X) al q) dbp = r_pb_bar ndof sdim pw pnu Wt X u (S X) al q * dot sdim dbp b).
    { unfold dot. rewrite <- rsum_scal. apply rsum_ext. intros k _. unfold r_p_bar, r_b. fold b. ring. }
    assert (E2 : dot sdim (r_b_bar ndof sdim pw pnu pdnu Wt X u psi (S X) al q guard) dbu =
       r_norm_bar ndof sdim pw pdnu Wt X u psi (S X) al q / norm sdim b * dot sdim b dbu + r_pb_bar ndof sdim pw pnu Wt X u (S X) al q * dot sdim p dbu).
    { unfold dot. rewrite <- !rsum_scal, <- rsum_plus. apply rsum_ext. intros k _. rewrite BB. ring. }
    rewrite E1, E2. unfold r_norm_bar, r_W_bar, r_mag_bar, r_w_bar, r_pb_bar, r_pb, r_w, r_mag, r_norm, r_p, r_b. fold b p.
    set (m := norm sdim b / Wt q X). set (nv := pnu q m). set (dn := pdnu q m). field. split; lra.
Qed.

Lemma dshape_derive q dA : (forall a k, (a < sdim)%nat -> (k < sdim)%nat -> is_derive (fun t => Adj q (moved X V t) a k) 0 (dA a k)) ->
  forall i k, (i < ndof)%nat -> (k < sdim)%nat ->
  is_derive (fun t => dshapedxt sdim shape Adj (moved X V t) q i k) 0 (rsum sdim (fun a => shape q i a * dA a k)).
Proof. intros H i k _ Hk. unfold dshapedxt. apply (DV_sum sdim (fun a t => shape q i a * Adj q (moved X V t) a k)). intros a Ha. apply DV_scal. now apply H. Qed.
Lemma cshape_derive q dA : (forall a k, (a < sdim)%nat -> (k < sdim)%nat -> is_derive (fun t => Jac q (moved X V t) a k) 0 (dA a k)) ->
  forall i k, (i < ndof)%nat -> (k < sdim)%nat ->
  is_derive (fun t => curlshape_dFt sdim shape Jac (moved X V t) q i k) 0 (rsum sdim (fun a => shape q i a * dA k a)).
Proof. intros H i k _ Hk. unfold curlshape_dFt. apply (DV_sum sdim (fun a t => shape q i a * Jac q (moved X V t) k a)). intros a Ha. apply DV_scal. now apply H. Qed.
(** the bar of the adjugate (Jacobian) paired with its derivative is the bar of the shapes paired with theirs *)
Lemma adj_bar_pair q (B dA : mat) : pairing sdim sdim (fun a k => rsum ndof (fun i => shape q i a * B i k)) dA =
  rsum sdim (fun k => rsum ndof (fun i => B i k * rsum sdim (fun a => shape q i a * dA a k))).
Proof.
  unfold pairing. rewrite rsum_swap. apply rsum_ext. intros k _.
  rewrite (rsum_ext sdim _ (fun a => rsum ndof (fun i => B i k * (shape q i a * dA a k)))) by (intros; rewrite <- rsum_scal_r; apply rsum_ext; intros; ring).
  rewrite rsum_swap. apply rsum_ext. intros i _. now rewrite rsum_scal.
Qed.
Lemma jac_bar_pair q (B dA : mat) : pairing sdim sdim (fun k a => rsum ndof (fun i => B i k * shape q i a)) dA =
  rsum sdim (fun k => rsum ndof (fun i => B i k * rsum sdim (fun a => shape q i a * dA k a))).
Proof.
  unfold pairing. apply rsum_ext. intros k _.
  rewrite (rsum_ext sdim _ (fun a => rsum ndof (fun i => B i k * (shape q i a * dA k a)))) by (intros; rewrite <- rsum_scal_r; apply rsum_ext; intros; ring).
  rewrite rsum_swap. apply rsum_ext. intros i _. now rewrite rsum_scal.
Qed.

Lemma nld_mesh_derive :
  (forall q, (q < nq)%nat -> norm sdim (flux ndof (dshapedxt sdim shape Adj X) q u) = 0 \/ tiny < norm sdim (flux ndof (dshapedxt sdim shape Adj X) q u)) ->
  is_derive (fun t => dot ndof psi (elem_vector ndof sdim nq pw (fun q => Wt q (moved X V t)) (dshapedxt sdim shape Adj (moved X V t)) pnu alpha u)) 0
    (pairing sdim nn (nld_mesh_bar ndof sdim nq pw pnu pdnu alpha shape Wt Adj WtRev AdjRev X u psi) V).
Proof.
  intros G. apply (DV_ext _ _ 0 _ (fun t => eq_sym (residual_points (dshapedxt sdim shape Adj) alpha t))).
  unfold nld_mesh_bar. rewrite pairing_sum. apply DV_sum. intros q Hq.
  destruct (rev_matrix_entries sdim nn (Adj q) (AdjRev q) X V (HAdj q Hq)) as [dA [D1 D2]].
  destruct (rev_scalar_entries sdim nn (Wt q) (WtRev q) X V (HWt q Hq)) as [dW [D3 D4]].
  rewrite pairing_plus, D2, D4. unfold nld_adj_bar. rewrite adj_bar_pair.
  exact (point_adjoint (dshapedxt sdim shape Adj) alpha q _ dW true Hq (dshape_derive q dA D1) D3 (G q Hq)).
Qed.
Lemma cc_mesh_derive :
  (forall q, (q < nq)%nat -> norm sdim (flux ndof (curlshape_dFt sdim shape Jac X) q u) <> 0) ->
  is_derive (fun t => dot ndof psi (elem_vector ndof sdim nq pw (fun q => Wt q (moved X V t)) (curlshape_dFt sdim shape Jac (moved X V t)) pnu 1 u)) 0
    (pairing sdim nn (cc_mesh_vector ndof sdim nq pw pnu pdnu shape Wt Jac WtRev JacRev X u psi) V).
Proof.
  intros G. apply (DV_ext _ _ 0 _ (fun t => eq_sym (residual_points (curlshape_dFt sdim shape Jac) 1 t))).
  unfold cc_mesh_vector. rewrite pairing_sum. apply DV_sum. intros q Hq.
  destruct (rev_matrix_entries sdim nn (Jac q) (JacRev q) X V (HJac q Hq)) as [dA [D1 D2]].
  destruct (rev_scalar_entries sdim nn (Wt q) (WtRev q) X V (HWt q Hq)) as [dW [D3 D4]].
  rewrite pairing_plus, D2, pairing_scal_r, D4. unfold cc_jac_bar. rewrite jac_bar_pair.
  apply (DV_eq _ 0 _ _ (point_adjoint (curlshape_dFt sdim shape Jac) 1 q _ dW false Hq (cshape_derive q dA D1) D3 (G q Hq))). ring.
Qed.
End Mesh.

(** ** the energy functional *)
Section EnergyElement.
Variables (ndof sdim nq : nat) (pw : nat -> R) (pnu pdnu : nat -> R -> R) (ns : nat) (sx sw : nat -> R).
Hypothesis Hnu : forall q b, (q < nq)%nat -> 0 < b -> is_derive (pnu q) b (pdnu q b).
Hypothesis Hsx : forall j, (j < ns)%nat -> 0 < sx j.
Lemma energy_point q B : (q < nq)%nat -> 0 < B -> is_derive (calcMagneticEnergy ns sx sw (pnu q)) B (calcMagneticEnergyDot ns sx sw (pnu q) (pdnu q) B).
Proof. intros Hq HB. apply energy_dot. intros j Hj. apply Hnu; [exact Hq|]. apply Rmult_lt_0_compat; auto. Qed.

Section State.
Variables (pW : nat -> R) (C : nat -> mat).
Hypothesis HW : forall q, (q < nq)%nat -> 0 < pW q.
Lemma energy_grad_dot u v : dot ndof (element_energy_grad ndof sdim nq pw pW C pnu pdnu ns sx sw u) v =
  rsum nq (fun q => pw q * pW q * calcMagneticEnergyDot ns sx sw (pnu q) (pdnu q) (fmag ndof sdim pW C q u) / pW q / norm sdim (flux ndof C q u) *
                    dot sdim (flux ndof C q u) (flux ndof C q v)).
Proof.
  unfold element_energy_grad. unfold dot at 1.
  rewrite (rsum_ext ndof _ (fun i => rsum nq (fun q => rsum sdim (fun k => C q i k * en_b_vec_bar ndof sdim pw pW C pnu pdnu ns sx sw q u k * v i)))).
  2:{ intros i _. rewrite <- rsum_scal_r. apply rsum_ext. intros q _. now rewrite <- rsum_scal_r. }
  rewrite rsum_swap. apply rsum_ext. intros q _. rewrite rsum_swap. unfold dot. rewrite <- rsum_scal. apply rsum_ext. intros k _.
  unfold en_b_vec_bar. set (K := _ / norm sdim _). unfold flux at 3. rewrite <- !rsum_scal. apply rsum_ext. intros i _. ring.
Qed.
Lemma energy_state_derive u v : (forall q, (q < nq)%nat -> norm sdim (flux ndof C q u) <> 0) ->
  is_derive (fun t => element_energy ndof sdim nq pw pW C pnu ns sx sw (along u v t)) 0
            (dot ndof (element_energy_grad ndof sdim nq pw pW C pnu pdnu ns sx sw u) v).
Proof.
  intros N. rewrite energy_grad_dot. unfold element_energy.
  apply (DV_sum nq (fun q t => calcMagneticEnergy ns sx sw (pnu q) (fmag ndof sdim pW C q (along u v t)) * (pw q * pW q))). intros q Hq.
  assert (P := HW q Hq). destruct (norm_nonzero _ _ (N q Hq)) as [_ PN].
  assert (M0 : fmag ndof sdim pW C q (along u v 0) = fmag ndof sdim pW C q u) by (unfold fmag; now rewrite nrm_along_0).
  apply (DV_eq _ 0 (calcMagneticEnergyDot ns sx sw (pnu q) (pdnu q) (fmag ndof sdim pW C q (along u v 0)) *
     (dot sdim (flux ndof C q u) (flux ndof C q v) / norm sdim (flux ndof C q u) / pW q) * (pw q * pW q))).
  - apply DV_scal_r. apply (DV_comp (calcMagneticEnergy ns sx sw (pnu q)) (fun t => fmag ndof sdim pW C q (along u v t))).
    + apply energy_point; [exact Hq|]. rewrite M0. unfold fmag. now apply Rdiv_lt_0_compat.
    + exact (mag_derive ndof sdim nq pW C q u v Hq (N q Hq)).
  - rewrite M0. field. split; lra.
Qed.
Lemma all_nonzero u n : (forall q, (q < n)%nat -> norm sdim (flux ndof C q u) <> 0) <-> all_fluxes_nonzero ndof sdim C n u = true.
Proof.
  induction n as [|n IH]; [split; [reflexivity|intros _ q Hq; lia]|]. cbn [all_fluxes_nonzero]. split.
  - intros H. destruct (Req_EM_T (norm sdim (flux ndof C n u)) 0) as [Z|_]; [now elim (H n ltac:(lia))|]. apply IH. intros q Hq. apply H. lia.
  - destruct (Req_EM_T (norm sdim (flux ndof C n u)) 0) as [Z|N]; [discriminate|]. intros H q Hq. destruct (Nat.eq_dec q n) as [->|]; [exact N|]. apply IH; [exact H|lia].
Qed.
End State.

Section MeshEnergy.
Variables (nn : nat) (shape : nat -> mat) (Wt : nat -> mat -> R) (Adj Jac : nat -> mat -> mat) (WtRev : nat -> mat -> R -> mat) (AdjRev JacRev : nat -> mat -> mat -> mat).
Hypothesis HWt : forall q, (q < nq)%nat -> rev_scalar sdim nn (Wt q) (WtRev q).
Variables (X V : mat) (u : vec).
Hypothesis PW : forall q, (q < nq)%nat -> 0 < Wt q X.
Lemma fluxes_all S n : fluxes_nonzero ndof sdim u S n = all_fluxes_nonzero ndof sdim S n u.
Proof. induction n as [|n IH]; [reflexivity|]. cbn. now rewrite IH. Qed.
Lemma energy_point_adjoint (S : mat -> nat -> mat) q (dS : mat) (dW : R) : (q < nq)%nat ->
  (forall i k, (i < ndof)%nat -> (k < sdim)%nat -> is_derive (fun t => S (moved X V t) q i k) 0 (dS i k)) ->
  is_derive (fun t => Wt q (moved X V t)) 0 dW -> norm sdim (flux ndof (S X) q u) <> 0 ->
  is_derive (fun t => calcMagneticEnergy ns sx sw (pnu q) (norm sdim (flux ndof (fun _ => S (moved X V t) q) 0%nat u) / Wt q (moved X V t)) * (pw q * Wt q (moved X V t))) 0
    (rsum sdim (fun k => rsum ndof (fun i => u i * e_b_bar ndof sdim pw pnu pdnu Wt ns sx sw X u (S X) q k * dS i k)) +
     e_W_bar ndof sdim pw pnu pdnu Wt ns sx sw X u (S X) q * dW).
Proof.
  intros Hq HS HdW N. assert (P := PW q Hq). destruct (norm_nonzero _ _ N) as [_ PN].
  set (F := fun t => S (moved X V t) q). set (Wp := fun t => Wt q (moved X V t)).
  assert (P0 : 0 < Wp 0) by (unfold Wp; rewrite moved_0'; exact P).
  assert (E0 : F 0 = S X q) by (unfold F; now rewrite moved_0').
  assert (W0 : Wp 0 = Wt q X) by (unfold Wp; now rewrite moved_0').
  assert (B0 : forall z, flux ndof (fun _ => F 0) 0%nat z = flux ndof (S X) q z) by (intros z; rewrite E0; reflexivity).
  assert (DM := path_mag ndof sdim F dS Wp dW HS HdW P0 u ltac:(rewrite B0; exact N)). 
  apply (DV_eq _ 0 (calcMagneticEnergyDot ns sx sw (pnu q) (pdnu q) (norm sdim (flux ndof (fun _ => F 0) 0%nat u) / Wp 0) *
     ((dot sdim (flux ndof (fun _ => F 0) 0%nat u) (flux ndof (fun _ => dS) 0%nat u) / norm sdim (flux ndof (fun _ => F 0) 0%nat u) * Wp 0 - norm sdim (flux ndof (fun _ => F 0) 0%nat u) * dW) / (Wp 0 * Wp 0))
     * (pw q * Wp 0) + calcMagneticEnergy ns sx sw (pnu q) (norm sdim (flux ndof (fun _ => F 0) 0%nat u) / Wp 0) * (pw q * dW))).
  - apply (DV_mult (fun t => calcMagneticEnergy ns sx sw (pnu q) (norm sdim (flux ndof (fun _ => F t) 0%nat u) / Wp t)) (fun t => pw q * Wp t)).
    + apply (DV_comp (calcMagneticEnergy ns sx sw (pnu q)) (fun t => norm sdim (flux ndof (fun _ => F t) 0%nat u) / Wp t)); [|exact DM].
      apply energy_point; [exact Hq|]. rewrite B0, W0. now apply Rdiv_lt_0_compat.
    + apply DV_scal. exact HdW.
  - rewrite !B0, W0.
    assert (E1 : rsum sdim (fun k => rsum ndof (fun i => u i * e_b_bar ndof sdim pw pnu pdnu Wt ns sx sw X u (S X) q k * dS i k)) =
      e_mag_bar ndof sdim pw pnu pdnu Wt ns sx sw X u (S X) q / Wt q X / norm sdim (flux ndof (S X) q u) * dot sdim (flux ndof (S X) q u) (flux ndof (fun _ => dS) 0%nat u)).
    { unfold dot. rewrite <- rsum_scal. apply rsum_ext. intros k _. unfold e_b_bar, e_norm. set (K := _ / norm sdim _). unfold flux at 3. rewrite <- !rsum_scal. apply rsum_ext. intros i _. ring. }
    rewrite E1. unfold e_W_bar, e_mag_bar, e_w_bar, e_mag, e_norm. set (n0 := norm sdim _). set (db := dot sdim _ _). set (Ed := calcMagneticEnergyDot _ _ _ _ _ _).
    set (E := calcMagneticEnergy _ _ _ _ _). assert (0 < n0) by exact PN. field. split; lra.
Qed.
Lemma energy_mesh_derive (three : bool) :
  (if three then forall q, (q < nq)%nat -> rev_matrix sdim nn (Jac q) (JacRev q) else forall q, (q < nq)%nat -> rev_matrix sdim nn (Adj q) (AdjRev q)) ->
  (forall q, (q < nq)%nat -> norm sdim (flux ndof (if three then curlshape_dFt sdim shape Jac X else dshapedxt sdim shape Adj X) q u) <> 0) ->
  is_derive (fun t => element_energy ndof sdim nq pw (fun q => Wt q (moved X V t))
        (if three then curlshape_dFt sdim shape Jac (moved X V t) else dshapedxt sdim shape Adj (moved X V t)) pnu ns sx sw u) 0
    (pairing sdim nn (en_mesh_vector ndof sdim nq pw pnu pdnu shape Wt Adj Jac WtRev AdjRev JacRev ns sx sw X u three) V).
Proof.
  intros HR G. unfold element_energy, en_mesh_vector. destruct three.
  - rewrite pairing_sum.
    apply (DV_sum nq (fun q t => calcMagneticEnergy ns sx sw (pnu q) (fmag ndof sdim (fun q0 => Wt q0 (moved X V t)) (curlshape_dFt sdim shape Jac (moved X V t)) q u) * (pw q * Wt q (moved X V t)))).
    intros q Hq.
    destruct (rev_matrix_entries sdim nn (Jac q) (JacRev q) X V (HR q Hq)) as [dA [D1 D2]].
    destruct (rev_scalar_entries sdim nn (Wt q) (WtRev q) X V (HWt q Hq)) as [dW [D3 D4]].
    rewrite pairing_plus, D2, D4.
    rewrite (pairing_ext sdim sdim _ (fun k a => rsum ndof (fun i => (fun i k => u i * e_b_bar ndof sdim pw pnu pdnu Wt ns sx sw X u (curlshape_dFt sdim shape Jac X) q k) i k * shape q i a)))
      by (intros k a _ _; apply rsum_ext; intros; ring).
    rewrite jac_bar_pair.
    exact (energy_point_adjoint (curlshape_dFt sdim shape Jac) q _ dW Hq (cshape_derive ndof sdim shape Jac X V q dA D1) D3 (G q Hq)).
  - rewrite pairing_sum.
    apply (DV_sum nq (fun q t => calcMagneticEnergy ns sx sw (pnu q) (fmag ndof sdim (fun q0 => Wt q0 (moved X V t)) (dshapedxt sdim shape Adj (moved X V t)) q u) * (pw q * Wt q (moved X V t)))).
    intros q Hq.
    destruct (rev_matrix_entries sdim nn (Adj q) (AdjRev q) X V (HR q Hq)) as [dA [D1 D2]].
    destruct (rev_scalar_entries sdim nn (Wt q) (WtRev q) X V (HWt q Hq)) as [dW [D3 D4]].
    rewrite pairing_plus, D2, D4.
    rewrite (adj_bar_pair ndof sdim shape q (fun i k => u i * e_b_bar ndof sdim pw pnu pdnu Wt ns sx sw X u (dshapedxt sdim shape Adj X) q k)).
    exact (energy_point_adjoint (dshapedxt sdim shape Adj) q _ dW Hq (dshape_derive ndof sdim shape Adj X V q dA D1) D3 (G q Hq)).
Qed.
End MeshEnergy.
End EnergyElement.
