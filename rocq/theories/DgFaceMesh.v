From Coq Require Import Reals Lra Lia List Bool Arith.
From Coquelicot Require Import Coquelicot.
From Verif Require Import Vec Deriv EmIntegSpec EmInteg EmIntegProofs EmMeshProofs DgFace DgFaceSpec DgFaceProofs.
Local Open Scope R_scope.

(** * a law that is flat at 0 is differentiable along a path through 0 *)
Lemma lipschitz_at (f : R -> R) d : is_derive f 0 d -> f 0 = 0 -> exists r, 0 < r /\ forall t, Rabs t < r -> Rabs (f t) <= (Rabs d + 1) * Rabs t.
Proof.
  intros D Z. apply is_derive_Reals in D. destruct (D 1 Rlt_0_1) as [r Hr]. exists r. split; [apply cond_pos|]. intros t Ht.
  destruct (Req_EM_T t 0) as [->|N]; [rewrite Z, Rabs_R0; lra|]. specialize (Hr t N Ht). rewrite Rplus_0_l, Z, Rminus_0_r in Hr.
  assert (P : 0 < Rabs t) by now apply Rabs_pos_lt.
  replace (f t) with ((f t / t) * t) by (field; exact N). rewrite Rabs_mult. apply Rmult_le_compat_r; [lra|].
  replace (f t / t) with ((f t / t - d) + d) by ring. apply Rle_trans with (Rabs (f t / t - d) + Rabs d); [apply Rabs_triang|lra].
Qed.
Lemma norm_le_sum n (v : vec) : norm n v <= rsum n (fun k => Rabs (v k)).
Proof.
  assert (P : forall m, 0 <= rsum m (fun k => Rabs (v k))) by (intros m; apply rsum_nonneg; intros; apply Rabs_pos).
  apply Rsqr_incr_0_var; [|apply P]. unfold Rsqr. rewrite norm_sq. unfold dot. induction n as [|n IH]; [cbn; lra|]. cbn [rsum].
  assert (Q := P n). assert (Q2 := Rabs_pos (v n)). assert (E : v n * v n = Rabs (v n) * Rabs (v n)) by (rewrite <- Rabs_mult, Rabs_pos_eq; nra). rewrite E. nra.
Qed.
Lemma norm_lipschitz n (b : R -> vec) (db : vec) : (forall k, (k < n)%nat -> is_derive (fun t => b t k) 0 (db k)) -> (forall k, (k < n)%nat -> b 0 k = 0) ->
  exists C r, 0 < C /\ 0 < r /\ forall t, Rabs t < r -> norm n (b t) <= C * Rabs t.
Proof.
  intros D Z. assert (H : exists C r, 0 < C /\ 0 < r /\ forall t, Rabs t < r -> rsum n (fun k => Rabs (b t k)) <= C * Rabs t).
  { induction n as [|n IH]; [exists 1, 1; split; [lra|]; split; [lra|]; intros; cbn; assert (P := Rabs_pos t); lra|].
    destruct IH as (C & r & PC & Pr & H); [intros; apply D; lia|intros; apply Z; lia|].
    destruct (lipschitz_at (fun t => b t n) (db n)) as (s & Ps & Hs); [apply D; lia|apply Z; lia|].
    exists (C + (Rabs (db n) + 1)), (Rmin r s). assert (PD := Rabs_pos (db n)). split; [lra|]. split; [now apply Rmin_pos|]. intros t Ht. cbn [rsum].
    specialize (H t (Rlt_le_trans _ _ _ Ht (Rmin_l _ _))). specialize (Hs t (Rlt_le_trans _ _ _ Ht (Rmin_r _ _))). lra. }
  destruct H as (C & r & PC & Pr & H). exists C, r. split; [exact PC|]. split; [exact Pr|]. intros t Ht. eapply Rle_trans; [apply norm_le_sum|now apply H].
Qed.
Lemma flat_path (E f : R -> R) C r : is_derive E 0 0 -> 0 < C -> 0 < r -> (forall t, Rabs t < r -> Rabs (f t) <= C * Rabs t) -> is_derive (fun t => E (f t)) 0 0.
Proof.
  intros D PC Pr H. assert (F0 : f 0 = 0).
  { specialize (H 0). rewrite Rabs_R0, Rmult_0_r in H. specialize (H Pr). destruct (Req_EM_T (f 0) 0) as [e|e]; [exact e|]. assert (P := Rabs_pos_lt _ e). lra. }
  apply is_derive_Reals. apply is_derive_Reals in D. intros eps He. destruct (D (eps / (2 * C))) as [d Hd]; [apply Rdiv_lt_0_compat; lra|].
  assert (Pm : 0 < Rmin r (d / C)) by (apply Rmin_pos; [exact Pr|apply Rdiv_lt_0_compat; [apply cond_pos|exact PC]]).
  exists (mkposreal _ Pm). intros h Nh Hh. cbn [pos] in Hh. rewrite Rplus_0_l, Rminus_0_r, F0.
  assert (Hr : Rabs h < r) by (eapply Rlt_le_trans; [exact Hh|apply Rmin_l]). assert (Hdd : Rabs h < d / C) by (eapply Rlt_le_trans; [exact Hh|apply Rmin_r]).
  specialize (H h Hr). assert (Ph : 0 < Rabs h) by now apply Rabs_pos_lt.
  destruct (Req_EM_T (f h) 0) as [Z|Z].
  - rewrite Z. replace ((E 0 - E 0) / h) with 0 by (field; exact Nh). rewrite Rabs_R0. exact He.
  - assert (A : Rabs (f h) < d). { eapply Rle_lt_trans; [exact H|]. apply (Rmult_lt_compat_l C) in Hdd; [|exact PC]. replace (C * (d / C)) with (pos d) in Hdd by (field; lra). exact Hdd. }
    specialize (Hd (f h) Z A). rewrite Rplus_0_l, Rminus_0_r in Hd.
    replace ((E (f h) - E 0) / h) with ((E (f h) - E 0) / f h * (f h / h)) by (field; split; assumption). rewrite Rabs_mult.
    assert (B : Rabs (f h / h) <= C). { unfold Rdiv. rewrite Rabs_mult, Rabs_inv. apply Rmult_le_reg_r with (Rabs h); [exact Ph|]. rewrite Rmult_assoc, Rinv_l, Rmult_1_r by lra. exact H. }
    apply Rle_lt_trans with (eps / (2 * C) * C); [apply Rmult_le_compat; [apply Rabs_pos|apply Rabs_pos|lra|exact B]|].
    replace (eps / (2 * C) * C) with (eps / 2) by (field; lra). lra.
Qed.

(** * one side along a motion of its nodes *)
Lemma matrix_entries d nn f rev X V : matrix_rev_at d nn f rev X -> exists dA : mat,
  (forall a k, (a < d)%nat -> (k < d)%nat -> is_derive (fun t => f (moved X V t) a k) 0 (dA a k)) /\
  (forall B, pairing d nn (rev B) V = pairing d d B dA).
Proof.
  intros H. exists (fun a k => pairing d nn (rev (del a k)) V).
  assert (E : forall a k, (a < d)%nat -> (k < d)%nat -> is_derive (fun t => f (moved X V t) a k) 0 (pairing d nn (rev (del a k)) V)).
  { intros a k Ha Hk. apply (DV_ext (fun t => pairing d d (del a k) (f (moved X V t)))); [intros t; now apply pairing_del|]. apply H. }
  split; [exact E|]. intros B. apply (DV_unique (fun t => pairing d d B (f (moved X V t))) 0); [apply H|].
  unfold pairing at 1 3. apply (DV_sum d (fun a t => rsum d (fun k => B a k * f (moved X V t) a k))). intros a Ha.
  apply (DV_sum d (fun k t => B a k * f (moved X V t) a k)). intros k Hk. apply DV_scal. now apply E.
Qed.
Lemma vector_entries d nn f rev X V : vector_rev_at d nn f rev X -> exists db : vec,
  (forall k, (k < d)%nat -> is_derive (fun t => f (moved X V t) k) 0 (db k)) /\ (forall b, pairing d nn (rev b) V = rsum d (fun k => b k * db k)).
Proof.
  intros H. exists (fun k => pairing d nn (rev (pick k)) V).
  assert (E : forall k, (k < d)%nat -> is_derive (fun t => f (moved X V t) k) 0 (pairing d nn (rev (pick k)) V)).
  { intros k Hk. apply (DV_ext (fun t => rsum d (fun j => pick k j * f (moved X V t) j))); [intros t; now apply (dot_pick d k (f (moved X V t)))|]. apply H. }
  split; [exact E|]. intros b. apply (DV_unique (fun t => rsum d (fun k => b k * f (moved X V t) k)) 0); [apply H|].
  apply (DV_sum d (fun k t => b k * f (moved X V t) k)). intros k Hk. apply DV_scal. now apply E.
Qed.
Lemma scalar_entries nn d f rev X V : scalar_rev_at nn d f rev X -> exists dW : R,
  is_derive (fun t => f (moved X V t)) 0 dW /\ (forall b, pairing d nn (rev b) V = b * dW).
Proof.
  intros H. exists (pairing d nn (rev 1) V).
  assert (E : is_derive (fun t => f (moved X V t)) 0 (pairing d nn (rev 1) V)) by (apply (DV_ext (fun t => 1 * f (moved X V t))); [intros; ring|apply H]).
  split; [exact E|]. intros b. apply (DV_unique (fun t => b * f (moved X V t)) 0); [apply H|now apply DV_scal].
Qed.

Section Side.
Variables (F : face) (o q : nat) (S : side) (X V : mat) (dIJ : mat) (XF VF : mat) (dn : vec).
Hypothesis HIJ : forall a k, (a < dim F)%nat -> (k < dim F)%nat -> is_derive (fun t => IJ S o q (moved X V t) a k) 0 (dIJ a k).
Hypothesis Hn : forall k, (k < dim F)%nat -> is_derive (fun t => nor F o q (moved XF VF t) k) 0 (dn k).
Definition dgrad (u : vec) (k : nat) : R := rsum (nd S) (fun i => u i * rsum (dim F) (fun a => dsh S o q i a * dIJ a k)).
Definition dslope (u : vec) : R := rsum (dim F) (fun k => dgrad u k * nor F o q (moved XF VF 0) k + gradient F o q S (moved X V 0) u k * dn k).
Lemma gradient_path u k : (k < dim F)%nat -> is_derive (fun t => gradient F o q S (moved X V t) u k) 0 (dgrad u k).
Proof.
  intros Hk. unfold gradient, dgrad. apply (DV_sum (nd S) (fun i t => u i * rsum (dim F) (fun a => dsh S o q i a * IJ S o q (moved X V t) a k))). intros i _. apply DV_scal.
  apply (DV_sum (dim F) (fun a t => dsh S o q i a * IJ S o q (moved X V t) a k)). intros a Ha. apply DV_scal. now apply HIJ.
Qed.
Lemma slope_path u : is_derive (fun t => slope F o q S (moved X V t) u (moved XF VF t)) 0 (dslope u).
Proof.
  unfold slope, dslope. apply (DV_sum (dim F) (fun k t => gradient F o q S (moved X V t) u k * nor F o q (moved XF VF t) k)). intros k Hk.
  apply (DV_mult (fun t => gradient F o q S (moved X V t) u k) (fun t => nor F o q (moved XF VF t) k)); [now apply gradient_path|now apply Hn].
Qed.
Lemma area_path : is_derive (fun t => area2 F o q (moved XF VF t)) 0 (2 * rsum (dim F) (fun k => nor F o q (moved XF VF 0) k * dn k)).
Proof.
  unfold area2. rewrite <- rsum_scal. eapply DV_eq.
  - apply (DV_sum (dim F) (fun k t => nor F o q (moved XF VF t) k * nor F o q (moved XF VF t) k)). intros k Hk.
    apply (DV_mult (fun t => nor F o q (moved XF VF t) k) (fun t => nor F o q (moved XF VF t) k)); now apply Hn.
  - apply rsum_ext; intros; cbv beta; ring.
Qed.
(** derivative of the material value, with the guard of the code *)
Definition dmat_path (u : vec) : R := let s := steepness F o q S (moved X V 0) u in
  if Req_EM_T s 0 then 0 else dnu S (eip S o q) s * (rsum (dim F) (fun k => gradient F o q S (moved X V 0) u k * dgrad u k) / s).
Lemma material_path u : differentiable S ->
  (steepness F o q S (moved X V 0) u = 0 -> is_derive (nu S (eip S o q)) 0 0) ->
  is_derive (fun t => material F o q S (moved X V t) u) 0 (dmat_path u).
Proof.
  intros D Z. unfold dmat_path. cbv zeta. unfold material. destruct (Req_EM_T (steepness F o q S (moved X V 0) u) 0) as [e|e].
  - destruct (norm_lipschitz (dim F) (fun t => gradient F o q S (moved X V t) u) (dgrad u)) as (C & r & PC & Pr & H).
    + intros; now apply gradient_path.
    + intros k Hk. rewrite steep_norm in e. apply (norm_0 _ _ e k Hk).
    + apply (flat_path (nu S (eip S o q)) (fun t => steepness F o q S (moved X V t) u) C r); [now apply Z|exact PC|exact Pr|].
      intros t Ht. rewrite Rabs_pos_eq by apply steep_nonneg. rewrite steep_norm. now apply H.
  - apply (DV_comp (nu S (eip S o q)) (fun t => steepness F o q S (moved X V t) u)).
    + apply D. assert (P := steep_nonneg F o q S (moved X V 0) u). lra.
    + apply (DV_norm (dim F) (fun t => gradient F o q S (moved X V t) u) (dgrad u) 0); [intros; now apply gradient_path|]. rewrite <- steep_norm. exact e.
Qed.
(** the reverse pass of one side: gr_bar i k = (eb psi_i + db u_i) n_k + u_i c gradient_k *)
Lemma reverse_side u psi (n : vec) eb db (flb : vec) :
  pairing (dim F) (dim F) (fun a k => rsum (nd S) (fun i => dsh S o q i a * ((eb * psi i + db * u i) * n k + u i * flb k))) dIJ =
  eb * rsum (dim F) (fun k => dgrad psi k * n k) + db * rsum (dim F) (fun k => dgrad u k * n k) + rsum (dim F) (fun k => flb k * dgrad u k).
Proof.
  unfold pairing. rewrite rsum_swap.
  rewrite <- !rsum_scal, <- !rsum_plus. apply rsum_ext; intros k _. unfold dgrad.
  rewrite (rsum_ext (dim F) _ (fun a => rsum (nd S) (fun i => (dsh S o q i a * ((eb * psi i + db * u i) * n k + u i * flb k)) * dIJ a k))) by (intros; now rewrite <- rsum_scal_r).
  rewrite rsum_swap. rewrite <- !rsum_scal_r, <- !rsum_scal, <- !rsum_plus. apply rsum_ext; intros i _.
  rewrite (rsum_ext (dim F) _ (fun a => ((eb * psi i + db * u i) * n k + u i * flb k) * (dsh S o q i a * dIJ a k))) by (intros; ring). rewrite rsum_scal. ring.
Qed.
Lemma gr_sum (b : vec) k : rsum (nd S) (fun i => gr F o q S X i k * b i) = gradient F o q S X b k.
Proof. unfold gradient, gr. apply rsum_ext; intros; ring. Qed.
End Side.

(** * the mesh sensitivity of the interior term at a point *)
Section Interior.
Variables (F : face) (S1 S2 : side) (mu alpha : R) (XF X1 X2 VF V1 V2 : mat) (u psi : vec) (q : nat).
Notation o := (int_order S1 S2).
Notation u2 := (lower S1 u).
Notation psi2 := (lower S1 psi).
Hypothesis Hq : (q < np F o)%nat.
Hypothesis G1 : side_geometry F S1 o X1.
Hypothesis G2 : side_geometry F S2 o X2.
Hypothesis GF : face_geometry F o XF.
Hypothesis D1 : differentiable S1.
Hypothesis D2 : differentiable S2.
Hypothesis R1 : resolved F S1 o X1 u.
Hypothesis R2 : resolved F S2 o X2 u2.
Hypothesis Dim : dim F <> 1%nat.

Lemma flat_if S X y : resolved F S o X y -> steepness F o q S X y = 0 -> is_derive (nu S (eip S o q)) 0 0.
Proof. intros H Z. assert (T := tiny_gt0). destruct (H q Hq) as [[_ K]|L]; [exact K|]. change (tiny < steepness F o q S X y) in L. lra. Qed.
(** the guarded bar of the gradient, paired with its derivative *)
Lemma fl_bar_pair S X V dIJ y c : resolved F S o X y ->
  rsum (dim F) (fun k => i_fl_bar F S1 S2 q S X y c k * dgrad F o q S dIJ y k) = c * dmat_path F o q S X V dIJ y.
Proof.
  intros H. unfold i_fl_bar, dmat_path. cbv zeta. rewrite !moved_0', fn_steepness. assert (T := tiny_gt0). assert (P := steep_nonneg F o q S X y).
  destruct (Rlt_dec tiny (Rabs (steepness F o q S X y))) as [L|L]; destruct (Req_EM_T (steepness F o q S X y) 0) as [Z|Z].
  - exfalso. rewrite Z, Rabs_R0 in L. lra.
  - rewrite (rsum_ext _ _ (fun k => (c * dnu S (eip S o q) (steepness F o q S X y) / steepness F o q S X y) * (gradient F o q S X y k * dgrad F o q S dIJ y k))).
    + rewrite rsum_scal. field. exact Z.
    + intros k _. rewrite fl_gradient. ring.
  - rewrite (rsum_ext _ _ (fun _ => 0)) by (intros; ring). rewrite rsum_0. ring.
  - exfalso. destruct (H q Hq) as [[K _]|K]; [lra|]. change (tiny < steepness F o q S X y) in K. apply L. rewrite Rabs_pos_eq; lra.
Qed.
Lemma int_point_mesh :
  is_derive (fun t => alpha * (wt F o q * interior_penalty F S1 S2 mu o q (moved XF VF t) (moved X1 V1 t) (moved X2 V2 t) u psi)) 0
    (pairing (dim F) (snn S1) (i_node1_bar F S1 S2 mu alpha XF X1 u psi q) V1 + pairing (dim F) (snn S2) (i_node2_bar F S1 S2 mu alpha XF X2 u psi q) V2 +
     pairing (dim F) (fnn F) (i_face_bar F S1 S2 mu alpha XF X1 X2 u psi q) VF).
Proof.
  destruct (G1 q Hq) as (PW1 & M1 & W1). destruct (G2 q Hq) as (PW2 & M2 & W2). assert (NF := GF q Hq).
  destruct (matrix_entries _ _ _ _ _ V1 M1) as (dI1 & HI1 & PI1). destruct (matrix_entries _ _ _ _ _ V2 M2) as (dI2 & HI2 & PI2).
  destruct (scalar_entries _ _ _ _ _ V1 W1) as (dW1 & HW1 & PW1'). destruct (scalar_entries _ _ _ _ _ V2 W2) as (dW2 & HW2 & PW2').
  destruct (vector_entries _ _ _ _ _ VF NF) as (dnv & Hn & PN).
  eapply DV_eq.
  - apply (DV_ext (fun t => alpha * (wt F o q * pi mu (value o q S1 u) (value o q S2 u2) (slope F o q S1 (moved X1 V1 t) u (moved XF VF t)) (slope F o q S2 (moved X2 V2 t) u2 (moved XF VF t))
      (material F o q S1 (moved X1 V1 t) u) (material F o q S2 (moved X2 V2 t) u2) (value o q S1 psi) (value o q S2 psi2)
      (slope F o q S1 (moved X1 V1 t) psi (moved XF VF t)) (slope F o q S2 (moved X2 V2 t) psi2 (moved XF VF t)) (area2 F o q (moved XF VF t)) (We S1 o q (moved X1 V1 t)) (We S2 o q (moved X2 V2 t))))); [intros; now rewrite interior_pi|].
    apply DV_scal, DV_scal.
    apply (pi_derive mu (value o q S1 psi) (value o q S2 psi2) (fun _ => value o q S1 u) (fun _ => value o q S2 u2)
      (fun t => slope F o q S1 (moved X1 V1 t) u (moved XF VF t)) (fun t => slope F o q S2 (moved X2 V2 t) u2 (moved XF VF t))
      (fun t => material F o q S1 (moved X1 V1 t) u) (fun t => material F o q S2 (moved X2 V2 t) u2)
      (fun t => slope F o q S1 (moved X1 V1 t) psi (moved XF VF t)) (fun t => slope F o q S2 (moved X2 V2 t) psi2 (moved XF VF t)) (fun t => area2 F o q (moved XF VF t))
      (fun t => We S1 o q (moved X1 V1 t)) (fun t => We S2 o q (moved X2 V2 t))).
    + apply DV_const.
    + apply DV_const.
    + apply (slope_path F o q S1 X1 V1 dI1 XF VF dnv HI1 Hn).
    + apply (slope_path F o q S2 X2 V2 dI2 XF VF dnv HI2 Hn).
    + apply (material_path F o q S1 X1 V1 dI1 HI1 u D1). rewrite moved_0'. now apply flat_if.
    + apply (material_path F o q S2 X2 V2 dI2 HI2 u2 D2). rewrite moved_0'. now apply flat_if.
    + apply (slope_path F o q S1 X1 V1 dI1 XF VF dnv HI1 Hn).
    + apply (slope_path F o q S2 X2 V2 dI2 XF VF dnv HI2 Hn).
    + apply (area_path F o q XF VF dnv Hn).
    + exact HW1.
    + exact HW2.
    + rewrite moved_0'. lra.
    + rewrite moved_0'. lra.
  - cbv beta. rewrite !moved_0'.
    assert (E1 : pairing (dim F) (snn S1) (i_node1_bar F S1 S2 mu alpha XF X1 u psi q) V1 =
      pairing (dim F) (dim F) (i_ij_bar F S1 S2 XF q S1 X1 u (i_sn1_bar F S1 S2 alpha X1 u psi q) (i_m1_bar F S1 S2 mu alpha XF X1 u psi q)) dI1 + i_W1_bar F S1 S2 mu alpha XF X1 u psi q * dW1)
      by (unfold i_node1_bar; now rewrite pairing_plus, PI1, PW1').
    assert (E2 : pairing (dim F) (snn S2) (i_node2_bar F S1 S2 mu alpha XF X2 u psi q) V2 =
      pairing (dim F) (dim F) (i_ij_bar F S1 S2 XF q S2 X2 u2 (i_sn2_bar F S1 S2 alpha X2 u psi q) (i_m2_bar F S1 S2 mu alpha XF X2 u psi q)) dI2 + i_W2_bar F S1 S2 mu alpha XF X2 u psi q * dW2)
      by (unfold i_node2_bar; now rewrite pairing_plus, PI2, PW2').
    assert (E3 : pairing (dim F) (fnn F) (i_face_bar F S1 S2 mu alpha XF X1 X2 u psi q) VF = rsum (dim F) (fun k => i_nor_bar F S1 S2 mu alpha XF X1 X2 u psi q k * dnv k)).
    { rewrite <- PN. unfold pairing, i_face_bar. apply Nat.eqb_neq in Dim. rewrite Dim. reflexivity. }
    rewrite E1, E2, E3. unfold i_ij_bar, i_gr_bar, i_sn1_bar, i_sn2_bar. change (second S1 psi) with psi2. change (second S1 u) with u2.
    rewrite !reverse_side. rewrite (fl_bar_pair S1 X1 V1) by exact R1. rewrite (fl_bar_pair S2 X2 V2) by exact R2.
    assert (E4 : rsum (dim F) (fun k => i_nor_bar F S1 S2 mu alpha XF X1 X2 u psi q k * dnv k) =
      2 * i_nn_bar F S1 S2 mu alpha X1 X2 u psi q * rsum (dim F) (fun k => nor F o q XF k * dnv k) +
      (i_e2_bar F S1 S2 alpha X2 u q * rsum (dim F) (fun k => gradient F o q S2 X2 psi2 k * dnv k) + i_d2_bar F S1 S2 alpha X2 u psi q * rsum (dim F) (fun k => gradient F o q S2 X2 u2 k * dnv k)) +
      (i_e1_bar F S1 S2 alpha X1 u q * rsum (dim F) (fun k => gradient F o q S1 X1 psi k * dnv k) + i_d1_bar F S1 S2 alpha X1 u psi q * rsum (dim F) (fun k => gradient F o q S1 X1 u k * dnv k))).
    { rewrite <- !rsum_scal, <- !rsum_plus. apply rsum_ext; intros k _. unfold i_nor_bar. rewrite !gr_sum.
      assert (GL : forall S X a b y z, gradient F o q S X (fun i => a * y i + b * z i) k = a * gradient F o q S X y k + b * gradient F o q S X z k).
      { intros. unfold gradient. rewrite <- !rsum_scal, <- rsum_plus. apply rsum_ext; intros; ring. }
      unfold i_sn1_bar, i_sn2_bar. change (second S1 psi) with psi2. change (second S1 u) with u2. rewrite !GL. unfold n_. ring. }
    rewrite E4. unfold dslope. rewrite !moved_0', !rsum_plus. unfold dpi.
    set (mp1 := dmat_path F o q S1 X1 V1 dI1 u). set (mp2 := dmat_path F o q S2 X2 V2 dI2 u2).
    unfold i_m1_bar, i_m2_bar, i_W1_bar, i_W2_bar, i_nn_bar, i_e1_bar, i_e2_bar, i_d1_bar, i_d2_bar, i_wq_bar, m1_, m2_, d1_, d2_, v1_, v2_.
    change (second S1 psi) with psi2. change (second S1 u) with u2.
    rewrite !mv_material.
    rewrite !vl_value.
    rewrite !dn_slope.
    change (nn_ F o q XF) with (area2 F o q XF). unfold n_.
    repeat match goal with |- context [rsum ?n ?f] => let z := fresh "s" in set (z := rsum n f); clearbody z end. clearbody mp1 mp2.
    repeat match goal with |- context [value o q ?S ?x] => let z := fresh "z" in set (z := value o q S x); clearbody z end.
    repeat match goal with |- context [slope F o q ?S ?X ?x ?Y] => let z := fresh "z" in set (z := slope F o q S X x Y); clearbody z end.
    repeat match goal with |- context [material F o q ?S ?X ?x] => let z := fresh "z" in set (z := material F o q S X x); clearbody z end.
    set (a := area2 F o q XF). clearbody a. field. split; lra.
Qed.
End Interior.

(** * the boundary term *)
Section Boundary.
Variables (F : face) (S : side) (g : nat -> nat -> R) (mu alpha : R) (XF X VF V : mat) (u psi : vec) (q : nat).
Notation o := (bdr_mesh_order S).
Hypothesis Hq : (q < np F o)%nat.
Hypothesis G1 : side_geometry F S o X.
Hypothesis GF : face_geometry F o XF.
Hypothesis D1 : differentiable S.
Hypothesis U1 : uniform S.
Hypothesis N1 : steepness F o q S X u <> 0.
Lemma bdr_point_mesh :
  is_derive (fun t => alpha * (wt F o q * weak_dirichlet F S g mu o q (moved XF VF t) (moved X V t) u psi)) 0
    (pairing (dim F) (snn S) (b_node_bar F S g mu alpha XF X u psi q) V + pairing (dim F) (fnn F) (b_face_bar F S g mu alpha XF X u psi q) VF).
Proof.
  destruct (G1 q Hq) as (PW1 & M1 & W1). assert (NF := GF q Hq).
  destruct (matrix_entries _ _ _ _ _ V M1) as (dI1 & HI1 & PI1). destruct (scalar_entries _ _ _ _ _ V W1) as (dW1 & HW1 & PW1').
  destruct (vector_entries _ _ _ _ _ VF NF) as (dnv & Hn & PN).
  eapply DV_eq.
  - apply (DV_ext (fun t => alpha * (wt F o q * pb mu (value o q S u) (g o q) (slope F o q S (moved X V t) u (moved XF VF t)) (material F o q S (moved X V t) u) (value o q S psi)
      (slope F o q S (moved X V t) psi (moved XF VF t)) (area2 F o q (moved XF VF t)) (We S o q (moved X V t))))); [intros; now rewrite weak_pb|].
    apply DV_scal, DV_scal.
    apply (pb_derive mu (g o q) (value o q S psi) (fun _ => value o q S u) (fun t => slope F o q S (moved X V t) u (moved XF VF t)) (fun t => material F o q S (moved X V t) u)
      (fun t => slope F o q S (moved X V t) psi (moved XF VF t)) (fun t => area2 F o q (moved XF VF t)) (fun t => We S o q (moved X V t))).
    + apply DV_const.
    + apply (slope_path F o q S X V dI1 XF VF dnv HI1 Hn).
    + apply (material_path F o q S X V dI1 HI1 u D1). rewrite moved_0'. intros Z. now elim N1.
    + apply (slope_path F o q S X V dI1 XF VF dnv HI1 Hn).
    + apply (area_path F o q XF VF dnv Hn).
    + exact HW1.
    + rewrite moved_0'. lra.
  - cbv beta. rewrite !moved_0'.
    assert (E1 : pairing (dim F) (snn S) (b_node_bar F S g mu alpha XF X u psi q) V =
      pairing (dim F) (dim F) (b_ij_bar F S g mu alpha XF X u psi q) dI1 + b_W_bar F S g mu alpha XF X u psi q * dW1)
      by (unfold b_node_bar; now rewrite pairing_plus, PI1, PW1').
    assert (E3 : pairing (dim F) (fnn F) (b_face_bar F S g mu alpha XF X u psi q) VF = rsum (dim F) (fun k => b_nor_bar F S g mu alpha XF X u psi q k * dnv k))
      by (rewrite <- PN; reflexivity).
    rewrite E1, E3. unfold b_ij_bar, b_gr_bar, b_sn_bar. rewrite reverse_side.
    assert (FB : rsum (dim F) (fun k => b_fl_bar F S g mu alpha XF X u psi q k * dgrad F o q S dI1 u k) = b_m_bar F S g mu alpha XF X u psi q * dmat_path F o q S X V dI1 u).
    { unfold b_fl_bar, dmat_path. cbv zeta. rewrite moved_0', fn_steepness. destruct (Req_EM_T (steepness F o q S X u) 0) as [Z|Z]; [now elim N1|].
      rewrite (proj2 (U1 (fip F o q) (eip S o q) (steepness F o q S X u))).
      rewrite (rsum_ext _ _ (fun k => (b_m_bar F S g mu alpha XF X u psi q * dnu S (eip S o q) (steepness F o q S X u) / steepness F o q S X u) * (gradient F o q S X u k * dgrad F o q S dI1 u k))).
      - rewrite rsum_scal. field. exact Z.
      - intros k _. rewrite fl_gradient. ring. }
    rewrite FB.
    assert (E4 : rsum (dim F) (fun k => b_nor_bar F S g mu alpha XF X u psi q k * dnv k) =
      b_wq_bar F S g X u psi q * 2 * (alpha * wt F o q) * mu / We S o q X * rsum (dim F) (fun k => nor F o q XF k * dnv k) +
      (b_pd_bar F S g alpha X u q * rsum (dim F) (fun k => gradient F o q S X psi k * dnv k) + b_ud_bar F S alpha X u psi q * rsum (dim F) (fun k => gradient F o q S X u k * dnv k))).
    { rewrite <- !rsum_scal, <- !rsum_plus. apply rsum_ext; intros k _. unfold b_nor_bar. rewrite !gr_sum.
      assert (GL : forall a b y z, gradient F o q S X (fun i => a * y i + b * z i) k = a * gradient F o q S X y k + b * gradient F o q S X z k).
      { intros. unfold gradient. rewrite <- !rsum_scal, <- rsum_plus. apply rsum_ext; intros; ring. }
      unfold b_sn_bar. rewrite !GL. unfold n_. ring. }
    rewrite E4. unfold dslope. rewrite !moved_0', !rsum_plus. unfold dpb. set (mp1 := dmat_path F o q S X V dI1 u).
    unfold b_m_bar, b_W_bar, b_wq_bar, b_pd_bar, b_ud_bar.
    rewrite !mv_material, !vl_value, !dn_slope. change (nn_ F o q XF) with (area2 F o q XF). unfold n_.
    repeat match goal with |- context [rsum ?n ?f] => let z := fresh "s" in set (z := rsum n f); clearbody z end. clearbody mp1.
    repeat match goal with |- context [value o q ?S ?x] => let z := fresh "z" in set (z := value o q S x); clearbody z end.
    repeat match goal with |- context [slope F o q ?S ?X ?x ?Y] => let z := fresh "z" in set (z := slope F o q S X x Y); clearbody z end.
    repeat match goal with |- context [material F o q ?S ?X ?x] => let z := fresh "z" in set (z := material F o q S X x); clearbody z end.
    set (a := area2 F o q XF). clearbody a. field. lra.
Qed.
End Boundary.
