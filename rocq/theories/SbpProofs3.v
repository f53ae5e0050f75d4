(** Viscous volume terms, boundaries and faces. *)
From Coq Require Import Reals Arith Lra Lia Psatz Bool List FunctionalExtensionality.
From Coquelicot Require Import Coquelicot.
From Verif Require Import Num Vec Sbp SbpSpec SbpProofs SbpProofs2.
Import ListNotations.
Local Open Scope R_scope.

Section Viscous.
Variables (n d : nat) (H : vec) (Q : nat -> mat) (ns : nat) (alpha : R) (adj : nat -> mat) (detJ : vec).
Notation Qp di i j := (getQEntry d Q di i j (adj i) (adj j)).
(** the discrete derivative of W in direction di at node i *)
Definition grad (W : nat -> vec) (i : nat) : nat -> vec := fun di s => rsum n (fun j => Qp di i j * W j s) * (1 / (H i * detJ i)).
Lemma viscous_grad conv u i : viscousGrad n d H Q adj detJ conv u i = grad (fun j => conv (u j)) i.
Proof. reflexivity. Qed.
Lemma viscous_test W conv C u : (forall i, (i < n)%nat -> H i * detJ i <> 0) ->
  test n ns W (viscousVector n d H Q ns alpha adj detJ conv C u) =
  alpha * rsum n (fun i => H i * detJ i * rsum d (fun di => dot ns (grad W i di) (C di i (u i) (grad (fun j => conv (u j)) i)))).
Proof.
  intros HJ. unfold viscousVector.
  rewrite (loop_read (test n ns W) n _ (fun i => alpha * (H i * detJ i * rsum d (fun di => dot ns (grad W i di) (C di i (u i) (grad (fun j => conv (u j)) i)))))).
  - rewrite test_zero, rsum_scal. ring.
  - intros i t Hi. rewrite viscous_grad, <- !rsum_scal. apply (loop_read (test n ns W)). intros di t' Hdi. cbv zeta.
    set (c := C di i (u i) (grad (fun j => conv (u j)) i)).
    rewrite (loop_read (test n ns W) n _ (fun k => alpha * rsum ns (fun s => Qp di i k * W k s * c s))).
    + f_equal. rewrite rsum_scal. f_equal. rewrite (rsum_swap n ns). unfold dot. rewrite <- rsum_scal. apply rsum_ext. intros s Hs.
      rewrite rsum_scal_r. unfold grad. field. specialize (HJ i Hi). split; intros Z; apply HJ; rewrite Z; ring.
    + intros k t'' Hk. rewrite <- rsum_scal. apply (loop_read (test n ns W)). intros s t''' Hs. rewrite test_add2 by assumption. ring.
Qed.
Lemma viscous_dissipative conv C u : 0 <= alpha -> (forall i, (i < n)%nat -> 0 < H i * detJ i) ->
  (forall i D, (i < n)%nat -> 0 <= rsum d (fun di => dot ns (D di) (C di i (u i) D))) ->
  0 <= test n ns (fun i => conv (u i)) (viscousVector n d H Q ns alpha adj detJ conv C u).
Proof.
  intros Ha HJ HC. rewrite viscous_test by (intros i Hi; specialize (HJ i Hi); lra). apply Rmult_le_pos; [exact Ha|]. apply rsum_nonneg. intros i Hi.
  apply Rmult_le_pos; [left; apply HJ; exact Hi|]. apply (HC i (grad (fun j => conv (u j)) i) Hi).
Qed.
Lemma viscous_const_zero W conv C u : (forall i, (i < n)%nat -> H i * detJ i <> 0) ->
  (forall di i, (di < d)%nat -> (i < n)%nat -> rsum n (fun j => Qp di i j) = 0) -> (forall i j m, W i m = W j m) ->
  test n ns W (viscousVector n d H Q ns alpha adj detJ conv C u) = 0.
Proof.
  intros HJ HQ HW. rewrite viscous_test by exact HJ. rewrite (rsum_ext n _ (fun _ => 0)); [rewrite rsum_0; ring|]. intros i Hi.
  rewrite (rsum_ext d _ (fun _ => 0)); [rewrite rsum_0; ring|]. intros di Hdi. unfold dot.
  rewrite (rsum_ext ns _ (fun _ => 0)); [apply rsum_0|]. intros s Hs. unfold grad at 1.
  rewrite (rsum_ext n _ (fun j => Qp di i j * W i s)) by (intros j Hj; rewrite (HW j i); reflexivity). rewrite rsum_scal_r, HQ by assumption. ring.
Qed.
Lemma viscous_is_jacobian conv cj C Cj CD u : (forall i, (i < n)%nat -> H i * detJ i <> 0) ->
  (forall i, (i < n)%nat -> has_jac ns conv (u i) (cj (u i))) ->
  (forall di i, (di < d)%nat -> (i < n)%nat -> has_jac_cols ns d (C di i) (u i) (grad (fun j => conv (u j)) i)
       (Cj di i (u i) (grad (fun j => conv (u j)) i)) (CD di i (u i) (grad (fun j => conv (u j)) i))) ->
  is_jacobian n ns (viscousVector n d H Q ns alpha adj detJ conv C) u (viscousJac n d H Q ns alpha adj detJ conv cj Cj CD u).
Proof.
  intros HJ HC HS. apply jacobian_test. intros W v.
  apply (is_derive_ext (fun s => alpha * rsum n (fun i => H i * detJ i * rsum d (fun di => dot ns (grad W i di)
     (C di i (axpy (u i) s (v i)) (grad (fun j => conv (axpy (u j) s (v j))) i)))))).
  { intros s. rewrite viscous_test by exact HJ. reflexivity. }
  set (dw := fun j m => rsum ns (fun k => cj (u j) m k * v j k)).
  assert (E : test4 n ns W (viscousJac n d H Q ns alpha adj detJ conv cj Cj CD u) v =
    alpha * rsum n (fun i => H i * detJ i * rsum d (fun di => rsum ns (fun m => grad W i di m *
      (rsum ns (fun k => Cj di i (u i) (grad (fun j => conv (u j)) i) m k * v i k) + rsum d (fun e => rsum ns (fun k => CD di i (u i) (grad (fun j => conv (u j)) i) e m k * grad dw i e k))))))).
  { unfold viscousJac. rewrite test4_scal. f_equal.
    rewrite (loop_read (fun A => test4 n ns W A v) n _ (fun i => H i * detJ i * rsum d (fun di => rsum ns (fun m => grad W i di m *
      (rsum ns (fun k => Cj di i (u i) (grad (fun j => conv (u j)) i) m k * v i k) + rsum d (fun e => rsum ns (fun k => CD di i (u i) (grad (fun j => conv (u j)) i) e m k * grad dw i e k))))))).
    - rewrite test4_zero. ring.
    - intros i t Hi. rewrite viscous_grad, <- rsum_scal. apply (loop_read (fun A => test4 n ns W A v)). intros di t' Hdi. cbv zeta.
      set (D := grad (fun j => conv (u j)) i). set (a := fun m => rsum ns (fun k => Cj di i (u i) D m k * v i k)).
      set (b := fun m => rsum d (fun e => rsum ns (fun k => CD di i (u i) D e m k * grad dw i e k))).
      rewrite (loop_read (fun A => test4 n ns W A v) n _ (fun k => rsum ns (fun m => Qp di i k * W k m * (a m + b m)))).
      + f_equal. rewrite (rsum_swap n ns), <- rsum_scal. apply rsum_ext. intros m Hm. rewrite rsum_scal_r. fold (a m). fold (b m).
        change (grad W i di m) with (rsum n (fun j => Qp di i j * W j m) * (1 / (H i * detJ i))). field.
        specialize (HJ i Hi). split; intros Z; apply HJ; rewrite Z; ring.
      + intros k t'' Hk.
        rewrite (loop_read (fun A => test4 n ns W A v) n _ (fun j => rsum d (fun e => rsum ns (fun m => W k m * rsum ns (fun c => Qp di i k * (1 / (H i * detJ i)) * Qp e i j * (CD di i (u i) D e m c * dw j c)))))).
        * rewrite test4_states by assumption. rewrite Rplus_assoc. f_equal.
          transitivity (rsum ns (fun m => Qp di i k * W k m * a m) + rsum ns (fun m => Qp di i k * W k m * b m)).
          -- f_equal.
             ++ apply rsum_ext. intros m Hm. rewrite (rsum_ext ns (fun k0 => Qp di i k * Cj di i (u i) D m k0 * v i k0) (fun k0 => Qp di i k * (Cj di i (u i) D m k0 * v i k0))) by (intros; ring).
                rewrite rsum_scal. fold (a m). ring.
             ++ rewrite (rsum_ext n _ (fun j => rsum ns (fun m => Qp di i k * W k m * rsum d (fun e => rsum ns (fun c => CD di i (u i) D e m c * (Qp e i j * dw j c * (1 / (H i * detJ i)))))))).
                ** rewrite (rsum_swap n ns). apply rsum_ext. intros m Hm. rewrite rsum_scal. f_equal. unfold b. rewrite (rsum_swap n d). apply rsum_ext. intros e He.
                   rewrite (rsum_swap n ns). apply rsum_ext. intros c Hc. rewrite rsum_scal. f_equal. unfold grad. rewrite rsum_scal_r. reflexivity.
                ** intros j Hj. rewrite (rsum_swap d ns). apply rsum_ext. intros m Hm. rewrite <- rsum_scal. apply rsum_ext. intros e He. rewrite <- !rsum_scal. apply rsum_ext. intros; ring.
          -- rewrite <- rsum_plus. apply rsum_ext. intros; ring.
        * intros j s Hj. apply (loop_read (fun A => test4 n ns W A v)). intros e s' He. cbv zeta. rewrite test4_states by assumption. f_equal.
          apply rsum_ext. intros m Hm. f_equal.
          rewrite (rsum_ext ns _ (fun k0 => rsum ns (fun c => Qp di i k * (1 / (H i * detJ i)) * Qp e i j * (CD di i (u i) D e m c * (cj (u j) c k0 * v j k0))))).
          -- rewrite (rsum_swap ns ns). apply rsum_ext. intros c Hc. rewrite !rsum_scal. reflexivity.
          -- intros k0 Hk0. rewrite !rsum_scal. rewrite (rsum_ext ns (fun c => CD di i (u i) D e m c * (cj (u j) c k0 * v j k0)) (fun c => CD di i (u i) D e m c * cj (u j) c k0 * v j k0)) by (intros; ring).
             rewrite rsum_scal_r. ring. }
  rewrite E. apply is_derive_scal'. apply is_derive_rsum. intros i Hi. apply is_derive_scal'. apply is_derive_rsum. intros di Hdi. unfold dot.
  apply is_derive_rsum. intros m Hm. apply is_derive_scal'.
  apply (HS di i Hdi Hi (fun s => axpy (u i) s (v i)) (v i) (fun s => grad (fun j => conv (axpy (u j) s (v j))) i) (grad dw i) (curve_axpy ns (u i) (v i))); [| |exact Hm].
  - apply functional_extensionality; intros e; apply functional_extensionality; intros k. unfold grad. f_equal. apply rsum_ext. intros j Hj. f_equal. f_equal.
    apply functional_extensionality; intros x; unfold axpy; ring.
  - intros e He. split.
    + apply functional_extensionality; intros k. unfold grad. f_equal. apply rsum_ext. intros j Hj. f_equal. f_equal. apply functional_extensionality; intros x; unfold axpy; ring.
    + intros k Hk. unfold grad.
      apply (is_derive_ext (fun s => (1 / (H i * detJ i)) * rsum n (fun j => Qp e i j * conv (axpy (u j) s (v j)) k))); [rring|].
      replace (rsum n (fun j => Qp e i j * dw j k) * (1 / (H i * detJ i))) with ((1 / (H i * detJ i)) * rsum n (fun j => Qp e i j * dw j k)) by ring.
      apply is_derive_scal'. apply is_derive_rsum. intros j Hj. apply is_derive_scal'.
      apply (HC j Hj (fun s => axpy (u j) s (v j)) (v j) (curve_axpy ns (u j) (v j)) k Hk).
Qed.
End Viscous.

Section Boundary.
Variables (n nf ns : nat) (alpha : R) (idx : nat -> nat) (wt : vec) (nrm : nat -> vec).
Hypothesis Hidx : forall f, (f < nf)%nat -> (idx f < n)%nat.
Lemma boundary_test W g u : test n ns W (boundaryVector nf ns alpha idx wt nrm g u) =
  alpha * rsum nf (fun f => wt f * dot ns (W (idx f)) (g f (nrm f) (u (idx f)))).
Proof.
  unfold boundaryVector. rewrite (loop_read (test n ns W) nf _ (fun f => alpha * (wt f * dot ns (W (idx f)) (g f (nrm f) (u (idx f)))))).
  - rewrite test_zero, rsum_scal. ring.
  - intros f t Hf. unfold dot. rewrite <- !rsum_scal. apply (loop_read (test n ns W)). intros m t' Hm. rewrite test_add2 by (try apply Hidx; assumption). ring.
Qed.
Lemma boundary_is_jacobian g gj u :
  (forall f, (f < nf)%nat -> has_jac ns (g f (nrm f)) (u (idx f)) (gj f (nrm f) (u (idx f)))) ->
  is_jacobian n ns (boundaryVector nf ns alpha idx wt nrm g) u (boundaryGrad nf ns alpha idx wt nrm gj u).
Proof.
  intros HG. apply jacobian_test. intros W v. unfold boundaryGrad.
  rewrite (loop_read (fun A => test4 n ns W A v) nf _ (fun f => alpha * (wt f * rsum ns (fun m => W (idx f) m * rsum ns (fun k => gj f (nrm f) (u (idx f)) m k * v (idx f) k))))).
  - rewrite test4_zero, Rplus_0_l, rsum_scal.
    apply (is_derive_ext (fun s => alpha * rsum nf (fun f => wt f * dot ns (W (idx f)) (g f (nrm f) (axpy (u (idx f)) s (v (idx f))))))).
    { intros s. rewrite boundary_test. reflexivity. }
    apply is_derive_scal'. apply is_derive_rsum. intros f Hf. apply is_derive_scal'. apply is_derive_rsum. intros m Hm. apply is_derive_scal'.
    apply (HG f Hf (fun s => axpy (u (idx f)) s (v (idx f))) (v (idx f)) (curve_axpy ns _ _) m Hm).
  - intros f t Hf. cbv zeta. rewrite test4_states' by (apply Hidx; assumption). f_equal. rewrite <- !rsum_scal. apply rsum_ext. intros m Hm.
    rewrite (rsum_ext ns (fun k => alpha * (gj f (nrm f) (u (idx f)) m k * wt f) * v (idx f) k) (fun k => alpha * wt f * (gj f (nrm f) (u (idx f)) m k * v (idx f) k))) by (intros; ring).
    rewrite rsum_scal. ring.
Qed.
End Boundary.

Section Face.
Variables (nL nR nf ns : nat) (alpha : R) (idxL idxR : nat -> nat) (wt : vec) (nrm : nat -> vec).
Hypothesis HL : forall f, (f < nf)%nat -> (idxL f < nL)%nat.
Hypothesis HR : forall f, (f < nf)%nat -> (idxR f < nR)%nat.
Notation wn f := (* weighted normal *) (fun k : nat => nrm f k * wt f).
Lemma face_test WL WR g uL uR : test nL ns WL (fst (faceVector nf ns alpha idxL idxR wt nrm g uL uR)) + test nR ns WR (snd (faceVector nf ns alpha idxL idxR wt nrm g uL uR)) =
  alpha * rsum nf (fun f => dot ns (fun m => WL (idxL f) m - WR (idxR f) m) (g (wn f) (uL (idxL f)) (uR (idxR f)))).
Proof.
  set (r := fun r : mat * mat => test nL ns WL (fst r) + test nR ns WR (snd r)).
  change (r (faceVector nf ns alpha idxL idxR wt nrm g uL uR) = alpha * rsum nf (fun f => dot ns (fun m => WL (idxL f) m - WR (idxR f) m) (g (wn f) (uL (idxL f)) (uR (idxR f))))).
  unfold faceVector.
  rewrite (loop_read r nf _ (fun f => alpha * dot ns (fun m => WL (idxL f) m - WR (idxR f) m) (g (wn f) (uL (idxL f)) (uR (idxR f))))).
  - unfold r. simpl. rewrite !test_zero, rsum_scal. ring.
  - intros f t Hf. unfold dot. rewrite <- rsum_scal. apply (loop_read r). intros m t' Hm.
    unfold r. simpl. rewrite !test_add2 by (try apply HL; try apply HR; assumption). ring.
Qed.
(** the tested form of the four blocks *)
Definition test44 WL WR (A : blocks) vL vR : R :=
  rsum nL (fun i => rsum ns (fun m => WL i m * (rsum nL (fun j => rsum ns (fun k => bLL A m i k j * vL j k)) + rsum nR (fun j => rsum ns (fun k => bLR A m i k j * vR j k))))) +
  rsum nR (fun i => rsum ns (fun m => WR i m * (rsum nL (fun j => rsum ns (fun k => bRL A m i k j * vL j k)) + rsum nR (fun j => rsum ns (fun k => bRR A m i k j * vR j k))))).
(** rectangular versions of test4 *)
Definition test4r (a b : nat) (W : nat -> vec) (A : mat4) (v : nat -> vec) : R :=
  rsum a (fun i => rsum ns (fun m => W i m * rsum b (fun j => rsum ns (fun k => A m i k j * v j k)))).
Lemma test4r_add4 a b W A v m i k j x : (m < ns)%nat -> (i < a)%nat -> (k < ns)%nat -> (j < b)%nat ->
  test4r a b W (add4 A m i k j x) v = test4r a b W A v + W i m * (x * v j k).
Proof.
  intros Hm Hi Hk Hj. unfold test4r.
  assert (E1 : forall b' a', rsum b (fun e => rsum ns (fun c => add4 A m i k j x a' b' c e * v e c)) =
     rsum b (fun e => rsum ns (fun c => A a' b' c e * v e c)) + delta a' m * (delta b' i * (x * v j k))).
  { intros b' a'. rewrite (rsum_ext b _ (fun e => rsum ns (fun c => A a' b' c e * v e c) + delta e j * (delta a' m * (delta b' i * (x * v e k))))).
    - rewrite rsum_plus, rsum_delta_r by exact Hj. reflexivity.
    - intros e He. rewrite (rsum_ext ns _ (fun c => A a' b' c e * v e c + delta c k * (delta e j * (delta a' m * (delta b' i * (x * v e c)))))).
      + rewrite rsum_plus, rsum_delta_r by exact Hk. reflexivity.
      + intros c Hc. rewrite add4_eq. ring. }
  rewrite (rsum_ext a _ (fun b' => rsum ns (fun a' => W b' a' * rsum b (fun e => rsum ns (fun c => A a' b' c e * v e c))) + delta b' i * (W b' m * (x * v j k)))).
  - rewrite rsum_plus, rsum_delta_r by exact Hi. reflexivity.
  - intros b' Hb. rewrite (rsum_ext ns _ (fun a' => W b' a' * rsum b (fun e => rsum ns (fun c => A a' b' c e * v e c)) + delta a' m * (delta b' i * (W b' a' * (x * v j k))))).
    + rewrite rsum_plus, rsum_delta_r by exact Hm. reflexivity.
    + intros a' Ha. rewrite E1. ring.
Qed.
Lemma test4r_zero a b W v : test4r a b W zero4 v = 0.
Proof.
  unfold test4r, zero4. rewrite (rsum_ext a _ (fun _ => 0)); [apply rsum_0|]. intros i Hi.
  rewrite (rsum_ext ns _ (fun _ => 0)); [apply rsum_0|]. intros m Hm.
  rewrite (rsum_ext b _ (fun _ => 0)); [rewrite rsum_0; ring|]. intros j Hj.
  rewrite (rsum_ext ns _ (fun _ => 0)); [apply rsum_0|]. intros; ring.
Qed.
Lemma test44_r WL WR A vL vR : test44 WL WR A vL vR =
  test4r nL nL WL (bLL A) vL + test4r nL nR WL (bLR A) vR + (test4r nR nL WR (bRL A) vL + test4r nR nR WR (bRR A) vR).
Proof.
  unfold test44, test4r. rewrite <- !rsum_plus. f_equal; apply rsum_ext; intros i Hi; rewrite <- rsum_plus; apply rsum_ext; intros; ring.
Qed.
Lemma face_grad_test WL WR vL vR jL jR uL uR : test44 WL WR (faceGrad nf ns alpha idxL idxR wt nrm jL jR uL uR) vL vR =
  rsum nf (fun f => rsum ns (fun m => (WL (idxL f) m - WR (idxR f) m) *
     (rsum ns (fun k => jL (fun k => nrm f k * (alpha * wt f)) (uL (idxL f)) (uR (idxR f)) m k * vL (idxL f) k) +
      rsum ns (fun k => jR (fun k => nrm f k * (alpha * wt f)) (uL (idxL f)) (uR (idxR f)) m k * vR (idxR f) k)))).
Proof.
  unfold faceGrad. rewrite (loop_read (fun A => test44 WL WR A vL vR) nf _ (fun f => rsum ns (fun m => (WL (idxL f) m - WR (idxR f) m) *
     (rsum ns (fun k => jL (fun k => nrm f k * (alpha * wt f)) (uL (idxL f)) (uR (idxR f)) m k * vL (idxL f) k) +
      rsum ns (fun k => jR (fun k => nrm f k * (alpha * wt f)) (uL (idxL f)) (uR (idxR f)) m k * vR (idxR f) k))))).
  - rewrite test44_r. simpl. rewrite !test4r_zero. ring.
  - intros f t Hf. cbv zeta. apply (loop_read (fun A => test44 WL WR A vL vR)). intros m t' Hm.
    rewrite (loop_read (fun A => test44 WL WR A vL vR) ns _ (fun k => (WL (idxL f) m - WR (idxR f) m) *
      (jL (fun k => nrm f k * (alpha * wt f)) (uL (idxL f)) (uR (idxR f)) m k * vL (idxL f) k + jR (fun k => nrm f k * (alpha * wt f)) (uL (idxL f)) (uR (idxR f)) m k * vR (idxR f) k))).
    + rewrite rsum_scal, rsum_plus. reflexivity.
    + intros k t'' Hk. rewrite !test44_r. cbn [bLL bLR bRL bRR]. rewrite !test4r_add4 by (try apply HL; try apply HR; assumption). ring.
Qed.
(** the four blocks are the derivative of the face residual *)
Lemma face_is_jacobian g jL jR uL uR :
  (forall f, (f < nf)%nat -> has_jac2 ns (g (wn f)) (uL (idxL f)) (uR (idxR f)) (jL (wn f) (uL (idxL f)) (uR (idxR f))) (jR (wn f) (uL (idxL f)) (uR (idxR f)))) ->
  (forall f m k, (f < nf)%nat -> (m < ns)%nat -> (k < ns)%nat ->
     jL (fun k => nrm f k * (alpha * wt f)) (uL (idxL f)) (uR (idxR f)) m k = alpha * jL (wn f) (uL (idxL f)) (uR (idxR f)) m k /\
     jR (fun k => nrm f k * (alpha * wt f)) (uL (idxL f)) (uR (idxR f)) m k = alpha * jR (wn f) (uL (idxL f)) (uR (idxR f)) m k) ->
  forall vL vR i m, (m < ns)%nat ->
  let A := faceGrad nf ns alpha idxL idxR wt nrm jL jR uL uR in
  let r := fun s => faceVector nf ns alpha idxL idxR wt nrm g (fun j => axpy (uL j) s (vL j)) (fun j => axpy (uR j) s (vR j)) in
  ((i < nL)%nat -> is_derive (fun s => fst (r s) i m) 0 (rsum nL (fun j => rsum ns (fun k => bLL A m i k j * vL j k)) + rsum nR (fun j => rsum ns (fun k => bLR A m i k j * vR j k)))) /\
  ((i < nR)%nat -> is_derive (fun s => snd (r s) i m) 0 (rsum nL (fun j => rsum ns (fun k => bRL A m i k j * vL j k)) + rsum nR (fun j => rsum ns (fun k => bRR A m i k j * vR j k)))).
Proof.
  intros HG HH vL vR i m Hm A r.
  assert (T : forall WL WR, is_derive (fun s => test nL ns WL (fst (r s)) + test nR ns WR (snd (r s))) 0 (test44 WL WR A vL vR)).
  { intros WL WR. unfold A. rewrite face_grad_test.
    apply (is_derive_ext (fun s => rsum nf (fun f => rsum ns (fun m => (alpha * (WL (idxL f) m - WR (idxR f) m)) * g (wn f) (axpy (uL (idxL f)) s (vL (idxL f))) (axpy (uR (idxR f)) s (vR (idxR f))) m)))).
    { intros s. unfold r. rewrite face_test, <- rsum_scal. apply rsum_ext. intros f Hf. unfold dot. rewrite <- rsum_scal. apply rsum_ext. intros; ring. }
    apply is_derive_rsum. intros f Hf. apply is_derive_rsum. intros m' Hm'.
    match goal with |- is_derive _ _ (?c * (?x + ?y)) => replace (c * (x + y)) with ((alpha * c) * (rsum ns (fun k => jL (wn f) (uL (idxL f)) (uR (idxR f)) m' k * vL (idxL f) k) + rsum ns (fun k => jR (wn f) (uL (idxL f)) (uR (idxR f)) m' k * vR (idxR f) k))) end.
    - apply is_derive_scal'. apply (HG f Hf (fun s => axpy (uL (idxL f)) s (vL (idxL f))) (vL (idxL f)) (fun s => axpy (uR (idxR f)) s (vR (idxR f))) (vR (idxR f))); try assumption; apply curve_axpy.
    - rewrite (Rmult_comm alpha), Rmult_assoc, Rmult_plus_distr_l, <- !rsum_scal. do 2 f_equal; apply rsum_ext; intros k Hk; destruct (HH f m' k Hf Hm' Hk) as [E1 E2]; rewrite ?E1, ?E2; ring. }
  assert (Z : forall a A', test a ns (fun _ _ => 0) A' = 0).
  { intros a A'. unfold test, dot. rewrite (rsum_ext a _ (fun _ => 0)); [apply rsum_0|]. intros x Hx. rewrite (rsum_ext ns _ (fun _ => 0)); [apply rsum_0|]. intros; ring. }
  split; intros Hi.
  - specialize (T (fun a b => delta a i * delta b m) (fun _ _ => 0)).
    replace (test44 (fun a b => delta a i * delta b m) (fun _ _ => 0) A vL vR) with
      (rsum nL (fun j => rsum ns (fun k => bLL A m i k j * vL j k)) + rsum nR (fun j => rsum ns (fun k => bLR A m i k j * vR j k))) in T.
    + apply (is_derive_ext (fun s => test nL ns (fun a b => delta a i * delta b m) (fst (r s)) + test nR ns (fun _ _ => 0) (snd (r s)))); [|exact T].
      intros s. rewrite Z, test_point by assumption. rring.
    + unfold test44. pose proof (Z nR (fun i m => rsum nL (fun j => rsum ns (fun k => bRL A m i k j * vL j k)) + rsum nR (fun j => rsum ns (fun k => bRR A m i k j * vR j k)))) as ZZ.
      unfold test, dot in ZZ. rewrite ZZ. rewrite Rplus_0_r. symmetry.
      apply (test_point nL ns (fun i m => rsum nL (fun j => rsum ns (fun k => bLL A m i k j * vL j k)) + rsum nR (fun j => rsum ns (fun k => bLR A m i k j * vR j k))) i m Hi Hm).
  - specialize (T (fun _ _ => 0) (fun a b => delta a i * delta b m)).
    replace (test44 (fun _ _ => 0) (fun a b => delta a i * delta b m) A vL vR) with
      (rsum nL (fun j => rsum ns (fun k => bRL A m i k j * vL j k)) + rsum nR (fun j => rsum ns (fun k => bRR A m i k j * vR j k))) in T.
    + apply (is_derive_ext (fun s => test nL ns (fun _ _ => 0) (fst (r s)) + test nR ns (fun a b => delta a i * delta b m) (snd (r s)))); [|exact T].
      intros s. rewrite Z, test_point by assumption. rring.
    + unfold test44. pose proof (Z nL (fun i m => rsum nL (fun j => rsum ns (fun k => bLL A m i k j * vL j k)) + rsum nR (fun j => rsum ns (fun k => bLR A m i k j * vR j k)))) as ZZ.
      unfold test, dot in ZZ. rewrite ZZ. rewrite Rplus_0_l. symmetry.
      apply (test_point nR ns (fun i m => rsum nL (fun j => rsum ns (fun k => bRL A m i k j * vL j k)) + rsum nR (fun j => rsum ns (fun k => bRR A m i k j * vR j k))) i m Hi Hm).
Qed.
End Face.
