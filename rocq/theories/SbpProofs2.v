(** Inviscid, LPS, mass, viscous, boundary and face integrators. *)
From Coq Require Import Reals Arith Lra Lia Psatz Bool List FunctionalExtensionality.
From Coquelicot Require Import Coquelicot.
From Verif Require Import Num Vec Sbp SbpSpec SbpProofs.
Import ListNotations.
Local Open Scope R_scope.

Ltac rring := intros; match goal with |- ?l = ?r => change (@eq R l r) end; ring.
Lemma curve_axpy ns u v : curve ns (fun s => axpy u s v) u v.
Proof.
  split; [apply functional_extensionality; intros k; unfold axpy; ring|].
  intros k Hk. unfold axpy. auto_derive; [trivial|ring].
Qed.
Lemma is_derive_0 x (f : R -> R) : (forall s, f s = 0) -> is_derive f x 0.
Proof. intros Hf. apply (is_derive_ext (fun _ => 0)); [intros; symmetry; apply Hf|apply (is_derive_const 0)]. Qed.

(** all the Jacobian theorems come through the tested form *)
Lemma jacobian_test n ns (r : (nat -> vec) -> mat) u A :
  (forall W v, is_derive (fun s => test n ns W (r (fun j => axpy (u j) s (v j)))) 0 (test4 n ns W A v)) -> is_jacobian n ns r u A.
Proof.
  intros HT v i m Hi Hm. rewrite <- (test4_point n ns A v i m Hi Hm).
  apply (is_derive_ext (fun s => test n ns (fun a b => delta a i * delta b m) (r (fun j => axpy (u j) s (v j))))).
  - intros s. apply test_point; assumption.
  - apply HT.
Qed.
Lemma dyadic_is_jacobian n d Q ns alpha adj f jacL jacR u :
  (forall di i j, (di < d)%nat -> (i < j)%nat -> (j < n)%nat -> has_jac2 ns (f di) (u i) (u j) (jacL di (u i) (u j)) (jacR di (u i) (u j))) ->
  is_jacobian n ns (dyadicVector n d Q ns alpha adj f) u (dyadicGrad n d Q ns alpha adj jacL jacR u).
Proof.
  intros HJ. apply jacobian_test. intros W v. apply dyadic_jac. intros di i j m Hdi Hij Hj Hm.
  apply (HJ di i j Hdi Hij Hj (fun s => axpy (u i) s (v i)) (v i) (fun s => axpy (u j) s (v j)) (v j)); try assumption; apply curve_axpy.
Qed.

Section Inviscid.
Variables (n d : nat) (Q : nat -> mat) (ns : nat) (alpha : R) (adj : nat -> mat).
Lemma inviscid_entry f u i m : inviscidVector n d Q alpha adj f u i m =
  - (alpha * rsum d (fun di => rsum n (fun j => getQ Q di j i * f (fun k => adj j di k) (u j) m))).
Proof.
  unfold inviscidVector.
  rewrite (loop_read (fun A : mat => A m i) d _ (fun di => - rsum n (fun j => getQ Q di j i * f (fun k => adj j di k) (u j) m))).
  - unfold zero2. rewrite rsum_opp. ring.
  - intros di t Hdi. unfold multWeakOperator, getQ. ring.
Qed.
Lemma inviscid_conservative f u m :
  (forall di j, (di < d)%nat -> (j < n)%nat -> rsum n (fun i => getQ Q di j i) = 0) ->
  rsum n (fun i => inviscidVector n d Q alpha adj f u i m) = 0.
Proof.
  intros HQ. rewrite (rsum_ext n _ (fun i => (-alpha) * rsum d (fun di => rsum n (fun j => getQ Q di j i * f (fun k => adj j di k) (u j) m)))).
  - rewrite rsum_scal, (rsum_swap n d). rewrite (rsum_ext d _ (fun _ => 0)); [rewrite rsum_0; ring|].
    intros di Hdi. rewrite rsum_swap. rewrite (rsum_ext n _ (fun _ => 0)); [apply rsum_0|]. intros j Hj.
    rewrite rsum_scal_r, HQ by assumption. ring.
  - intros i Hi. rewrite inviscid_entry. ring.
Qed.
Lemma inviscid_uniform f q i m : 
  (forall di j k, (di < d)%nat -> (j < n)%nat -> adj j di k = adj i di k) ->
  inviscidVector n d Q alpha adj f (fun _ => q) i m = - (alpha * rsum d (fun di => f (fun k => adj i di k) q m * rsum n (fun j => getQ Q di j i))).
Proof.
  intros HA. rewrite inviscid_entry. do 2 f_equal. apply rsum_ext. intros di Hdi. rewrite <- rsum_scal. apply rsum_ext. intros j Hj.
  replace (fun k => adj j di k) with (fun k => adj i di k) by (apply functional_extensionality; intros k; symmetry; apply HA; assumption). ring.
Qed.
Lemma inviscid_is_jacobian f fj u :
  (forall di i, (di < d)%nat -> (i < n)%nat -> has_jac ns (f (fun k => adj i di k)) (u i) (fj (fun k => adj i di k) (u i))) ->
  is_jacobian n ns (inviscidVector n d Q alpha adj f) u (inviscidGrad n d Q ns alpha adj fj u).
Proof.
  intros HJ. intros v i m Hi Hm.
  rewrite <- (test4_point n ns _ v i m Hi Hm). unfold inviscidGrad.
  rewrite (loop_read (fun A => test4 n ns (fun a b => delta a i * delta b m) A v) d _
    (fun di => rsum n (fun a => - (alpha * (getQ Q di a i * rsum ns (fun k => fj (fun k => adj a di k) (u a) m k * v a k)))))).
  - rewrite test4_zero, Rplus_0_l.
    apply (is_derive_ext (fun s => rsum d (fun di => rsum n (fun a => - (alpha * (getQ Q di a i * f (fun k => adj a di k) (axpy (u a) s (v a)) m)))))).
    + intros s. rewrite inviscid_entry. rewrite <- Ropp_mult_distr_l_reverse, <- rsum_scal. apply rsum_ext. intros di Hdi. rewrite <- rsum_scal. apply rsum_ext. intros; ring.
    + apply is_derive_rsum. intros di Hdi. apply is_derive_rsum. intros a Ha.
      apply (is_derive_ext (fun s => (- alpha * getQ Q di a i) * f (fun k => adj a di k) (axpy (u a) s (v a)) m)); [rring|].
      replace (- (alpha * (getQ Q di a i * rsum ns (fun k => fj (fun k0 => adj a di k0) (u a) m k * v a k))))
        with ((- alpha * getQ Q di a i) * rsum ns (fun k => fj (fun k0 => adj a di k0) (u a) m k * v a k)) by ring.
      apply is_derive_scal'. apply (HJ di a Hdi Ha (fun s => axpy (u a) s (v a)) (v a) (curve_axpy ns (u a) (v a)) m Hm).
  - intros di t Hdi. apply (loop_read (fun A => test4 n ns (fun a b => delta a i * delta b m) A v)). intros a t' Ha. cbv zeta.
    rewrite (loop_read (fun A => test4 n ns (fun a b => delta a i * delta b m) A v) n _
       (fun j => delta j i * (- (alpha * (getQ Q di a j * rsum ns (fun k => fj (fun k => adj a di k) (u a) m k * v a k)))))).
    + rewrite (rsum_delta_r n i (fun j => - (alpha * (getQ Q di a j * rsum ns (fun k => fj (fun k => adj a di k) (u a) m k * v a k)))) Hi). reflexivity.
    + intros j t'' Hj. rewrite test4_states' by assumption. f_equal.
      rewrite (rsum_ext ns _ (fun b => delta b m * (delta j i * (- (alpha * (getQ Q di a j * rsum ns (fun k => fj (fun k => adj a di k) (u a) b k * v a k))))))).
      * rewrite (rsum_delta_r ns m (fun b => delta j i * (- (alpha * (getQ Q di a j * rsum ns (fun k => fj (fun k => adj a di k) (u a) b k * v a k))))) Hm). reflexivity.
      * intros b Hb. rewrite (rsum_ext ns (fun k => - (alpha * getQ Q di a j * fj (fun k0 => adj a di k0) (u a) b k) * v a k)
           (fun k => - (alpha * getQ Q di a j) * (fj (fun k0 => adj a di k0) (u a) b k * v a k))) by (intros; ring). rewrite rsum_scal. ring.
Qed.
End Inviscid.

Section Lps.
Variables (n : nat) (H : vec) (nv : nat) (V : mat) (ns : nat) (alpha : R) (adj : nat -> mat).
Notation P := (getProjOperatorEntry H nv V).
Definition Pw (w : nat -> vec) (i : nat) : vec := fun m => rsum n (fun j => P i j * w j m).
Lemma lps_pw conv (u : nat -> vec) i : (i < n)%nat -> (fun k => multProjOperator n H nv V (fun m j => conv (u j) m) false k i) = Pw (fun j => conv (u j)) i.
Proof. intros Hi. apply functional_extensionality. intros k. rewrite proj_nt by exact Hi. reflexivity. Qed.
Lemma lps_entry c conv scale u i m : (i < n)%nat ->
  lpsVector n H nv V alpha adj c conv scale u i m =
  alpha * (c * rsum n (fun j => P j i * (H j * scale (adj j) (u j) (Pw (fun a => conv (u a)) j) m))).
Proof.
  intros Hi. unfold lpsVector. rewrite proj_t by exact Hi. rewrite <- rsum_scal, Rmult_comm. f_equal. apply rsum_ext. intros j Hj.
  unfold multNormMatrix. rewrite lps_pw by exact Hj. ring.
Qed.
Lemma lps_test W c conv scale u : test n ns W (lpsVector n H nv V alpha adj c conv scale u) =
  alpha * (c * rsum n (fun j => H j * dot ns (Pw W j) (scale (adj j) (u j) (Pw (fun a => conv (u a)) j)))).
Proof.
  unfold test. rewrite (rsum_ext n _ (fun i => alpha * (c * rsum n (fun j => H j * (P j i * dot ns (W i) (scale (adj j) (u j) (Pw (fun a => conv (u a)) j))))))).
  - rewrite !rsum_scal. do 2 f_equal. rewrite rsum_swap. apply rsum_ext. intros j Hj. rewrite rsum_scal. f_equal.
    unfold dot, Pw at 2. rewrite (rsum_ext ns _ (fun m => rsum n (fun i => P j i * (W i m * scale (adj j) (u j) (Pw (fun a => conv (u a)) j) m)))).
    + rewrite (rsum_swap ns n). apply rsum_ext. intros i Hi. rewrite rsum_scal. reflexivity.
    + intros m Hm. rewrite <- rsum_scal_r. apply rsum_ext. intros; ring.
  - intros i Hi. unfold dot at 1. rewrite (rsum_ext ns _ (fun m => alpha * (c * rsum n (fun j => H j * (P j i * (W i m * scale (adj j) (u j) (Pw (fun a => conv (u a)) j) m)))))).
    + rewrite !rsum_scal. do 2 f_equal. rewrite (rsum_swap ns n). apply rsum_ext. intros j Hj. rewrite !rsum_scal. reflexivity.
    + intros m Hm. rewrite lps_entry by exact Hi.
      replace (W i m * (alpha * (c * rsum n (fun j => P j i * (H j * scale (adj j) (u j) (Pw (fun a => conv (u a)) j) m)))))
        with (alpha * (c * (W i m * rsum n (fun j => P j i * (H j * scale (adj j) (u j) (Pw (fun a => conv (u a)) j) m))))) by ring.
      rewrite <- rsum_scal. do 2 f_equal. apply rsum_ext. intros; ring.
Qed.
Lemma lps_dissipative c conv scale u : 0 <= alpha -> 0 <= c -> (forall i, (i < n)%nat -> 0 <= H i) ->
  (forall i x, (i < n)%nat -> 0 <= dot ns x (scale (adj i) (u i) x)) ->
  0 <= test n ns (fun i => conv (u i)) (lpsVector n H nv V alpha adj c conv scale u).
Proof.
  intros Ha Hc HH HS. rewrite lps_test. apply Rmult_le_pos; [exact Ha|]. apply Rmult_le_pos; [exact Hc|]. apply rsum_nonneg. intros i Hi.
  apply Rmult_le_pos; [apply HH; exact Hi|]. apply HS. exact Hi.
Qed.
Lemma lps_const_zero W c conv scale u : (forall i, (i < n)%nat -> rsum n (fun j => P i j) = 0) -> (forall i j m, W i m = W j m) ->
  test n ns W (lpsVector n H nv V alpha adj c conv scale u) = 0.
Proof.
  intros HP HW. rewrite lps_test. rewrite (rsum_ext n _ (fun _ => 0)); [rewrite rsum_0; ring|]. intros j Hj.
  unfold dot. rewrite (rsum_ext ns _ (fun _ => 0)); [rewrite rsum_0; ring|]. intros m Hm. unfold Pw at 1.
  rewrite (rsum_ext n _ (fun i => P j i * W j m)) by (intros i Hi; rewrite (HW i j); reflexivity). rewrite rsum_scal_r, HP by exact Hj. ring.
Qed.
(** a state whose converted variables lie in the span of the basis is left alone *)
Lemma lps_polynomial c conv scale u (a : nat -> vec) i m :
  (forall x y, (x < nv)%nat -> (y < nv)%nat -> rsum n (fun i => V i x * H i * V i y) = delta x y) ->
  (forall j, (j < n)%nat -> forall k, conv (u j) k = rsum nv (fun b => V j b * a b k)) ->
  (forall j, scale (adj j) (u j) (fun _ => 0) m = 0) -> (i < n)%nat ->
  lpsVector n H nv V alpha adj c conv scale u i m = 0.
Proof.
  intros HV HC HS Hi. rewrite lps_entry by exact Hi. rewrite (rsum_ext n _ (fun _ => 0)); [rewrite rsum_0; ring|]. intros j Hj.
  replace (Pw (fun a0 => conv (u a0)) j) with (fun _ : nat => 0); [rewrite HS; ring|].
  apply functional_extensionality. intros k. unfold Pw. symmetry.
  rewrite (rsum_ext n _ (fun x => rsum nv (fun b => a b k * (P j x * V x b)))).
  - rewrite rsum_swap. rewrite (rsum_ext nv _ (fun _ => 0)); [apply rsum_0|]. intros b Hb. rewrite rsum_scal, (proj_annihilates n H nv V HV b j Hb Hj). ring.
  - intros x Hx. rewrite HC by exact Hx. rewrite <- rsum_scal. apply rsum_ext. intros; ring.
Qed.
(** Jacobian: what the code assembles *)
Lemma lps_grad_test W v conv cj sj sv u : test4 n ns W (lpsGrad n H nv V ns alpha adj conv cj sj sv u) v =
  alpha * rsum n (fun i => H i * rsum ns (fun m => Pw W i m * (rsum ns (fun k => sj (adj i) (u i) (Pw (fun a => conv (u a)) i) m k * v i k) +
      rsum ns (fun k => sv (adj i) (u i) m k * Pw (fun a b => rsum ns (fun e => cj (u a) b e * v a e)) i k)))).
Proof.
  unfold lpsGrad. rewrite test4_scal. f_equal.
  set (X := fun i j => rsum ns (fun m => W i m * rsum ns (fun k => rsum ns (fun c => rsum n (fun a => P a i * H a * P a j * sv (adj a) (u a) m c) * cj (u j) c k) * v j k))).
  set (Y := fun i => H i * rsum ns (fun m => Pw W i m * rsum ns (fun k => sj (adj i) (u i) (Pw (fun a => conv (u a)) i) m k * v i k))).
  rewrite (loop_read (fun A => test4 n ns W A v) n _ (fun i => Y i + rsum n (fun j => if Nat.leb i j then X i j + (if Nat.eqb i j then 0 else X j i) else 0))).
  - rewrite test4_zero, Rplus_0_l, rsum_plus.
    replace (rsum n (fun i => rsum n (fun j => if Nat.leb i j then X i j + (if Nat.eqb i j then 0 else X j i) else 0))) with (rsum n (fun i => rsum n (fun j => X i j))).
    + transitivity (rsum n Y + rsum n (fun a => H a * rsum ns (fun m => Pw W a m * rsum ns (fun k => sv (adj a) (u a) m k * Pw (fun a b => rsum ns (fun e => cj (u a) b e * v a e)) a k)))).
      * f_equal. unfold X.
        (* both sides as a sum over i, j, a, m, c *)
        transitivity (rsum n (fun i => rsum n (fun j => rsum n (fun a => H a * (rsum ns (fun m => rsum ns (fun c => P a i * W i m * (sv (adj a) (u a) m c * (P a j * rsum ns (fun k => cj (u j) c k * v j k)))))))))).
        -- apply rsum_ext. intros i Hi. apply rsum_ext. intros j Hj.
           transitivity (rsum ns (fun m => rsum n (fun a => rsum ns (fun c => H a * (P a i * W i m * (sv (adj a) (u a) m c * (P a j * rsum ns (fun k => cj (u j) c k * v j k)))))))).
           ++ apply rsum_ext. intros m Hm.
              rewrite (rsum_ext ns _ (fun k => rsum ns (fun c => rsum n (fun a => P a i * H a * P a j * sv (adj a) (u a) m c) * (cj (u j) c k * v j k)))).
              2:{ intros k Hk. rewrite <- rsum_scal_r. apply rsum_ext. intros; ring. }
              rewrite (rsum_swap ns ns). rewrite (rsum_swap n ns), <- rsum_scal. apply rsum_ext. intros c Hc. rewrite rsum_scal.
              rewrite (rsum_ext n (fun a => H a * (P a i * W i m * (sv (adj a) (u a) m c * (P a j * rsum ns (fun k => cj (u j) c k * v j k)))))
                 (fun a => (P a i * H a * P a j * sv (adj a) (u a) m c) * (W i m * rsum ns (fun k => cj (u j) c k * v j k)))) by (intros; ring).
              rewrite rsum_scal_r. ring.
           ++ rewrite (rsum_swap ns n). apply rsum_ext. intros a Ha. rewrite <- rsum_scal. apply rsum_ext. intros m Hm. rewrite <- rsum_scal. reflexivity.
        -- rewrite (rsum_ext n _ (fun i => rsum n (fun a => rsum n (fun j => H a * rsum ns (fun m => rsum ns (fun c => P a i * W i m * (sv (adj a) (u a) m c * (P a j * rsum ns (fun k => cj (u j) c k * v j k)))))))))
             by (intros; apply rsum_swap).
           rewrite rsum_swap. apply rsum_ext. intros a Ha.
           rewrite (rsum_ext n _ (fun i => H a * rsum n (fun j => rsum ns (fun m => rsum ns (fun c => P a i * W i m * (sv (adj a) (u a) m c * (P a j * rsum ns (fun k => cj (u j) c k * v j k))))))))
             by (intros; apply rsum_scal).
           rewrite rsum_scal. f_equal.
           rewrite (rsum_ext n _ (fun i => rsum ns (fun m => P a i * W i m * rsum ns (fun c => sv (adj a) (u a) m c * rsum n (fun j => P a j * rsum ns (fun k => cj (u j) c k * v j k)))))).
           ++ rewrite (rsum_swap n ns). apply rsum_ext. intros m Hm. rewrite rsum_scal_r. reflexivity.
           ++ intros i Hi. rewrite (rsum_swap n ns). apply rsum_ext. intros m Hm. rewrite (rsum_swap n ns), <- rsum_scal. apply rsum_ext. intros c Hc. rewrite <- !rsum_scal. reflexivity.
      * rewrite <- rsum_plus. apply rsum_ext. intros i Hi. unfold Y. rewrite <- Rmult_plus_distr_l, <- rsum_plus. f_equal. apply rsum_ext. intros; ring.
    + (* symmetric double sum *)
      transitivity (rsum n (fun i => rsum n (fun j => if Nat.leb i j then X i j else 0)) + rsum n (fun i => rsum n (fun j => if Nat.ltb j i then X i j else 0))).
      * rewrite <- rsum_plus. apply rsum_ext. intros i Hi. rewrite <- rsum_plus. apply rsum_ext. intros j Hj.
        destruct (Nat.leb_spec i j); destruct (Nat.ltb_spec j i); try lia; ring.
      * rewrite (rsum_swap n n (fun i j => if Nat.ltb j i then X i j else 0)), <- rsum_plus. apply rsum_ext. intros i Hi. rewrite <- rsum_plus. apply rsum_ext. intros j Hj.
        destruct (Nat.leb_spec i j); destruct (Nat.ltb_spec i j); destruct (Nat.eqb_spec i j); try lia; try ring. 
  - intros i t Hi. cbv zeta. rewrite lps_pw by exact Hi.
    rewrite (loop_read (fun A => test4 n ns W A v) n _ (fun j => if Nat.leb i j then X i j + (if Nat.eqb i j then 0 else X j i) else 0)).
    + rewrite (loop_read (fun A => test4 n ns W A v) n _ (fun j => H i * (P i j * rsum ns (fun m => W j m * rsum ns (fun k => sj (adj i) (u i) (Pw (fun a => conv (u a)) i) m k * v i k))))).
      * rewrite rsum_scal, Rplus_assoc. do 2 f_equal. unfold Y. f_equal. 
        rewrite (rsum_ext n _ (fun j => rsum ns (fun m => P i j * W j m * rsum ns (fun k => sj (adj i) (u i) (Pw (fun a => conv (u a)) i) m k * v i k)))).
        -- rewrite (rsum_swap n ns). apply rsum_ext. intros m Hm. rewrite rsum_scal_r. reflexivity.
        -- intros j Hj. rewrite <- rsum_scal. apply rsum_ext. intros; ring.
      * intros j t' Hj. rewrite test4_states by assumption. f_equal. rewrite <- !rsum_scal. apply rsum_ext. intros m Hm.
        rewrite (rsum_ext ns (fun k => H i * P i j * sj (adj i) (u i) (Pw (fun a => conv (u a)) i) m k * v i k)
          (fun k => H i * P i j * (sj (adj i) (u i) (Pw (fun a => conv (u a)) i) m k * v i k))) by (intros; ring). rewrite rsum_scal. ring.
    + intros j t' Hj. destruct (Nat.leb i j); [|ring]. destruct (Nat.eqb_spec i j) as [->|Hne].
      * rewrite test4_states by assumption. unfold X. ring.
      * rewrite test4_states by assumption. rewrite test4_states by assumption. rewrite Rplus_assoc. do 2 f_equal.
        unfold X. apply rsum_ext. intros m Hm. f_equal. apply rsum_ext. intros k Hk. f_equal. apply rsum_ext. intros c Hc. f_equal. apply rsum_ext. intros; ring.
Qed.
Lemma lps_is_jacobian conv cj scale sj sv u :
  (forall i, (i < n)%nat -> has_jac ns conv (u i) (cj (u i))) ->
  (forall i, (i < n)%nat -> has_jac2 ns (scale (adj i)) (u i) (Pw (fun a => conv (u a)) i) (sj (adj i) (u i) (Pw (fun a => conv (u a)) i)) (sv (adj i) (u i))) ->
  is_jacobian n ns (lpsVector n H nv V alpha adj 1 conv scale) u (lpsGrad n H nv V ns alpha adj conv cj sj sv u).
Proof.
  intros HC HS. apply jacobian_test. intros W v. rewrite lps_grad_test.
  apply (is_derive_ext (fun s => alpha * rsum n (fun j => H j * dot ns (Pw W j) (scale (adj j) (axpy (u j) s (v j)) (Pw (fun a => conv (axpy (u a) s (v a))) j))))).
  { intros s. rewrite lps_test. rring. }
  apply is_derive_scal'. apply is_derive_rsum. intros i Hi. apply is_derive_scal'. apply is_derive_rsum. intros m Hm. apply is_derive_scal'.
  apply (HS i Hi (fun s => axpy (u i) s (v i)) (v i) (fun s => Pw (fun a => conv (axpy (u a) s (v a))) i) _ (curve_axpy ns (u i) (v i))); [|exact Hm].
  split; [apply functional_extensionality; intros k; unfold Pw; apply rsum_ext; intros j Hj; f_equal; f_equal; apply functional_extensionality; intros x; unfold axpy; ring|].
  intros k Hk. unfold Pw. apply is_derive_rsum. intros j Hj. apply is_derive_scal'. apply (HC j Hj (fun s => axpy (u j) s (v j)) (v j) (curve_axpy ns (u j) (v j)) k Hk).
Qed.
(** the assembled matrix does not depend on the coefficient, the residual is proportional to it *)
Lemma lps_coeff_residual c conv scale u i m : (i < n)%nat -> lpsVector n H nv V alpha adj c conv scale u i m = c * lpsVector n H nv V alpha adj 1 conv scale u i m.
Proof. intros Hi. rewrite !lps_entry by exact Hi. ring. Qed.
End Lps.

Section Mass.
Variables (n ns : nat) (alpha : R) (weight : vec).
Lemma mass_is_jacobian conv cj u : (forall i, (i < n)%nat -> has_jac ns conv (u i) (cj (u i))) ->
  is_jacobian n ns (massVector alpha weight conv) u (massGrad n ns alpha weight cj u).
Proof.
  intros HC. apply jacobian_test. intros W v. unfold massGrad. rewrite test4_scal.
  rewrite (loop_read (fun A => test4 n ns W A v) n _ (fun i => rsum ns (fun m => W i m * (weight i * rsum ns (fun k => cj (u i) m k * v i k))))).
  - rewrite test4_zero, Rplus_0_l. unfold test, massVector, dot.
    apply (is_derive_ext (fun s => alpha * rsum n (fun i => rsum ns (fun m => W i m * (weight i * conv (axpy (u i) s (v i)) m))))).
    { intros s. rewrite <- rsum_scal. apply rsum_ext. intros i Hi. rewrite <- rsum_scal. apply rsum_ext. intros; ring. }
    apply is_derive_scal'. apply is_derive_rsum. intros i Hi. apply is_derive_rsum. intros m Hm. do 2 apply is_derive_scal'.
    apply (HC i Hi (fun s => axpy (u i) s (v i)) (v i) (curve_axpy ns (u i) (v i)) m Hm).
  - intros i t Hi. rewrite test4_states by assumption. f_equal. apply rsum_ext. intros m Hm. f_equal. rewrite <- rsum_scal. apply rsum_ext. intros; ring.
Qed.
End Mass.
