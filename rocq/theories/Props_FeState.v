(** C116-C120: finite-element fields: error norms, setState and calcStateError, true and local dofs, spaces. *)
From Coq Require Import Reals ZArith Lra Lia List Bool Arith String.
From Coquelicot Require Import Coquelicot.
From Verif Require Import Num Vec Deriv SbpSpec FeState FeStateSpec FeStateProofs.
Import ListNotations.
Local Open Scope R_scope.

(** ** C116: error norms *)
Lemma scalar_nonneg L gf ex q : 0 <= scalar_err L gf ex q. Proof. apply Rabs_pos. Qed.
Lemma vector_norm L vd gf ex q : vector_err L vd gf ex (-1) q = verr L vd gf ex q.
Proof. reflexivity. Qed.
Lemma is_lp_ext pts e e' p N : (forall q, In q pts -> apow (e q) p = apow (e' q) p) -> is_lp pts e p N -> is_lp pts e' p N.
Proof. intros H [A B]. split; [exact A|]. rewrite B. now apply quad_ext. Qed.
Lemma global_is pts procs err p : 0 < p -> (forall q, 0 <= err q) -> List.concat procs = pts -> nonneg_weights pts ->
  exists N, global_lp (PFin p) (map (lp_local (PFin p) err) procs) = Some N /\ is_lp pts err p N.
Proof.
  intros Hp He <- Hw. exists (lpn (List.concat procs) err p). split; [|now apply lpn_is]. rewrite global_value by assumption. f_equal.
  apply sp_nonneg. apply quad_nonneg; [exact Hw|]. intros; apply apow_nonneg.
Qed.
(** scalar fields: over all processes the result is the p-th root of the weighted sum of |error|^p *)
Theorem C116_scalar : forall L procs gf ex p, 0 < p -> nonneg_weights (List.concat procs) ->
  exists N, calcLpError_s L procs gf ex (PFin p) = Some N /\ is_lp (List.concat procs) (serr L gf ex) p N.
Proof.
  intros L procs gf ex p Hp Hw. destruct (global_is _ procs (scalar_err L gf ex) p Hp (scalar_nonneg L gf ex) eq_refl Hw) as [N [A B]].
  exists N. split; [exact A|]. revert B. apply is_lp_ext. intros q _. apply apow_abs.
Qed.
Print Assumptions C116_scalar.
(** vector fields: the pointwise error is the Euclidean length of the difference *)
Theorem C116_vector : forall L vd procs gf ex p, 0 < p -> nonneg_weights (List.concat procs) ->
  exists N, calcLpError_v L vd procs gf ex (PFin p) (-1) = Some N /\ is_lp (List.concat procs) (verr L vd gf ex) p N.
Proof. intros L vd procs gf ex p Hp Hw. apply global_is; [exact Hp|intros q; apply norm_pos|reflexivity|exact Hw]. Qed.
Print Assumptions C116_vector.
Lemma norm_one (u : vec) : norm 1 u = Rabs (u 0%nat).
Proof. unfold norm, dot. cbn. rewrite Rplus_0_l. apply sqrt_Rsqr_abs. Qed.
(** the norm of a field is its error against zero, for any number of components *)
Theorem C116_norm : forall L vd procs gf p, 0 < p -> nonneg_weights (List.concat procs) ->
  exists N, calcLpNorm L vd procs gf (PFin p) = Some N /\ is_lp (List.concat procs) (fun q => norm vd (value L gf q)) p N.
Proof.
  intros L vd procs gf p Hp Hw. unfold calcLpNorm. destruct (Nat.eqb_spec vd 1) as [->|_].
  - destruct (C116_scalar L procs gf (fun _ _ => 0) p Hp Hw) as [N [A B]]. exists N. split; [exact A|]. revert B. apply is_lp_ext. intros q _.
    rewrite norm_one, apow_abs. unfold serr. f_equal. ring.
  - destruct (C116_vector L vd procs gf (fun _ _ => 0) p Hp Hw) as [N [A B]]. exists N. split; [exact A|]. revert B. apply is_lp_ext. intros q _.
    unfold verr. f_equal. apply norm_ext. intros c _. ring.
Qed.
Print Assumptions C116_norm.
Lemma max_is pts err : (forall q, 0 <= err q) -> is_max pts err (fold_left (fun a q => Rmax a (err q)) pts 0).
Proof.
  intros He. destruct (fold_max err pts 0) as [A B]. split.
  - intros q Hq. rewrite Rabs_right by (apply Rle_ge, He). now apply A.
  - destruct B as [B|[q [Q1 Q2]]].
    + destruct pts as [|q l]; [left; split; reflexivity|]. right. exists q. split; [now left|]. rewrite Rabs_right by (apply Rle_ge, He). rewrite B.
      assert (K := A q (or_introl eq_refl)). rewrite B in K. assert (K2 := He q). lra.
    + right. exists q. split; [exact Q1|]. rewrite Rabs_right by (apply Rle_ge, He). exact Q2.
Qed.
(** p = infinity: the largest pointwise error, on any positive number of processes, some possibly without points *)
Theorem C116_max : forall L vd procs gf ex, procs <> [] ->
  (exists N, calcLpError_s L procs gf ex PInf = Some N /\ is_max (List.concat procs) (serr L gf ex) N) /\
  (exists N, calcLpError_v L vd procs gf ex PInf (-1) = Some N /\ is_max (List.concat procs) (verr L vd gf ex) N).
Proof.
  intros L vd procs gf ex Hp. split.
  - eexists. split; [now apply global_inf|]. assert (M := max_is (List.concat procs) (scalar_err L gf ex) (scalar_nonneg L gf ex)).
    destruct M as [A B]. split; [intros q Hq; specialize (A q Hq); unfold scalar_err in A at 1; rewrite Rabs_Rabsolu in A; exact A|].
    destruct B as [B|[q [B1 B2]]]; [now left|]. right. exists q. split; [exact B1|]. unfold scalar_err in B2 at 1. rewrite Rabs_Rabsolu in B2. exact B2.
  - eexists. split; [now apply global_inf|]. apply (max_is (List.concat procs) (verr L vd gf ex)). intros q. apply norm_pos.
Qed.
Print Assumptions C116_max.
Lemma half : 1 / 2 = / 2. Proof. field. Qed.
Lemma sp_sqrt s : sp s (1 / 2) = if Rlt_dec s 0 then - sqrt (- s) else sqrt s.
Proof.
  unfold sp. destruct (Rlt_dec s 0) as [H|H].
  - f_equal. rewrite <- (apow_opp s), apow_pos, half, Rpower_sqrt by lra. reflexivity.
  - destruct (Req_EM_T s 0) as [->|E]; [now rewrite apow_0, sqrt_0|]. rewrite apow_pos, half, Rpower_sqrt by lra. reflexivity.
Qed.
Lemma l2_local_lp err err' pts : (forall q, 0 <= err' q) -> (forall q, err' q * err' q = err q * err q) -> l2_local err pts = lp_local (PFin 2) err' pts.
Proof.
  intros H0 H. rewrite lp_local_value by (try exact H0; lra). unfold l2_local. f_equal. rewrite sp_sqrt.
  rewrite (fold_sum (fun q => q_w q * (err q * err q)) pts 0), Rplus_0_l.
  replace (quad pts (fun q => apow (err' q) 2)) with (lsum (fun q => q_w q * (err q * err q)) pts); [reflexivity|].
  symmetry. change (lsum (fun q => q_w q * (err q * err q)) pts) with (quad pts (fun q => err q * err q)). apply quad_ext. intros q _. now rewrite apow_2, H.
Qed.
(** calcL2Error is calcLpError with p = 2, for every mesh and even with negative quadrature weights *)
Theorem C116_l2 : forall L vd procs gf ex,
  calcL2Error_s L procs gf ex = calcLpError_s L procs gf ex (PFin 2) /\
  calcL2Error_v L vd procs gf ex (-1) = calcLpError_v L vd procs gf ex (PFin 2) (-1).
Proof.
  intros L vd procs gf ex. split.
  - unfold calcL2Error_s, calcLpError_s. f_equal. apply map_ext. intros l. apply l2_local_lp; [apply scalar_nonneg|]. intros q.
    unfold scalar_err. rewrite <- Rabs_mult. apply Rabs_right. apply Rle_ge. apply Rle_0_sqr.
  - unfold calcL2Error_v, calcLpError_v. f_equal. apply map_ext. intros l. apply l2_local_lp; [intros q; apply norm_pos|reflexivity].
Qed.
Print Assumptions C116_l2.
(** how the elements are spread over the processes does not matter *)
Theorem C116_partition : forall L vd procs procs' gf ex p, 0 < p -> List.concat procs = List.concat procs' ->
  calcLpError_s L procs gf ex (PFin p) = calcLpError_s L procs' gf ex (PFin p) /\
  calcLpError_v L vd procs gf ex (PFin p) (-1) = calcLpError_v L vd procs' gf ex (PFin p) (-1) /\
  (procs <> [] -> procs' <> [] -> calcLpError_s L procs gf ex PInf = calcLpError_s L procs' gf ex PInf).
Proof.
  intros L vd procs procs' gf ex p Hp E. unfold calcLpError_s, calcLpError_v. repeat split.
  - rewrite !global_value by (try apply scalar_nonneg; assumption). now rewrite E.
  - rewrite !(global_value p (vector_err L vd gf ex (-1))) by (try (intros q; apply norm_pos); assumption). now rewrite E.
  - intros A B. rewrite !global_inf by assumption. now rewrite E.
Qed.
Print Assumptions C116_partition.
(** the error vanishes exactly when the field agrees with the exact solution at every point of positive weight *)
Theorem C116_definite : forall L vd procs gf ex p, 0 < p -> nonneg_weights (List.concat procs) ->
  (calcLpError_v L vd procs gf ex (PFin p) (-1) = Some 0 <->
   forall q, In q (List.concat procs) -> 0 < q_w q -> forall c, (c < vd)%nat -> value L gf q c = ex (q_x q) c).
Proof.
  intros L vd procs gf ex p Hp Hw. destruct (C116_vector L vd procs gf ex p Hp Hw) as [N [A [B C]]]. rewrite A. split.
  - intros E q Hq Wq c Hc. injection E as ->. rewrite apow_0 in C. symmetry in C.
    assert (Z := quad_zero _ _ Hw ltac:(intros; apply apow_nonneg) C q Hq Wq). apply apow_zero in Z. unfold verr in Z. assert (K := norm_0 _ _ Z c Hc). cbn in K. lra.
  - intros H. f_equal. apply (apow_zero N p). rewrite C.
    unfold quad, lsum. clear - H Hw. induction (List.concat procs) as [|q l IH]; cbn; [reflexivity|]. rewrite IH; [|intros x Hx; apply Hw; now right|intros x Hx; apply H; now right].
    destruct (Req_EM_T (q_w q) 0) as [->|E]; [ring|]. assert (W := Hw q (or_introl eq_refl)). rewrite Rplus_0_r.
    assert (Z : verr L vd gf ex q = 0). { unfold verr, norm, dot. rewrite (rsum_ext vd _ (fun _ => 0)); [rewrite rsum_0; apply sqrt_0|]. intros c Hc. rewrite (H q (or_introl eq_refl) ltac:(lra) c Hc). ring. }
    rewrite Z, apow_0. ring.
Qed.
Print Assumptions C116_definite.
Lemma value_lin L a b gf hf q c : value L (fun l => a * gf l + b * hf l) q c = a * value L gf q c + b * value L hf q c.
Proof. unfold value. rewrite <- !rsum_scal, <- rsum_plus. apply rsum_ext. intros l _. ring. Qed.
Lemma norm_vscal n a u : norm n (fun c => a * u c) = Rabs a * norm n u.
Proof.
  unfold norm. replace (dot n (fun c => a * u c) (fun c => a * u c)) with (a * a * dot n u u).
  - rewrite sqrt_mult by (try apply dot_pos; nra). f_equal. apply sqrt_Rsqr_abs.
  - unfold dot. rewrite <- rsum_scal. apply rsum_ext. intros; ring.
Qed.
Lemma norm_triangle n u v : norm n (fun c => u c + v c) <= norm n u + norm n v.
Proof.
  assert (A := norm_sq n (fun c => u c + v c)). assert (B := norm_sq n u). assert (C := norm_sq n v). assert (D := cauchy n u v).
  assert (E : dot n (fun c => u c + v c) (fun c => u c + v c) = dot n u u + 2 * dot n u v + dot n v v).
  { unfold dot. rewrite <- rsum_scal, <- !rsum_plus. apply rsum_ext. intros; ring. }
  assert (P1 := norm_pos n u). assert (P2 := norm_pos n v). assert (P3 := norm_pos n (fun c => u c + v c)). nra.
Qed.
(** scaling the field scales its norm *)
Theorem C116_homogeneous : forall L vd procs gf a p N, 0 < p -> nonneg_weights (List.concat procs) ->
  calcLpNorm L vd procs gf (PFin p) = Some N -> calcLpNorm L vd procs (fun l => a * gf l) (PFin p) = Some (Rabs a * N).
Proof.
  intros L vd procs gf a p N Hp Hw E. destruct (C116_norm L vd procs gf p Hp Hw) as [N' [A [B C]]]. rewrite A in E. injection E as <-.
  destruct (C116_norm L vd procs (fun l => a * gf l) p Hp Hw) as [M [A' [B' C']]]. rewrite A'. f_equal. apply (apow_inj M (Rabs a * N') p Hp B').
  - apply Rmult_le_pos; [apply Rabs_pos|exact B].
  - rewrite C', apow_mul, apow_abs, C. rewrite <- (Rplus_0_r (apow a p * _)). rewrite <- (Rmult_0_l (quad (List.concat procs) (fun _ => 0))).
    rewrite <- (quad_lin _ (apow a p) 0 (fun q => apow (norm vd (value L gf q)) p) (fun _ => 0)). apply quad_ext. intros q _.
    rewrite (norm_ext vd _ (fun c => a * value L gf q c)) by (intros c _; rewrite <- (Rplus_0_r (a * _)), <- (Rmult_0_l (value L gf q c)), <- value_lin; unfold value; apply rsum_ext; intros; ring).
    rewrite norm_vscal, apow_mul, apow_abs. ring.
Qed.
Print Assumptions C116_homogeneous.
(** triangle inequality for every p >= 1: the error of a sum is at most the sum of the errors *)
Theorem C116_triangle : forall L vd procs gf hf ex fx p A B C, 1 <= p -> nonneg_weights (List.concat procs) ->
  calcLpError_v L vd procs gf ex (PFin p) (-1) = Some A ->
  calcLpError_v L vd procs hf fx (PFin p) (-1) = Some B ->
  calcLpError_v L vd procs (fun l => gf l + hf l) (fun x c => ex x c + fx x c) (PFin p) (-1) = Some C ->
  C <= A + B.
Proof.
  intros L vd procs gf hf ex fx p A B C Hp Hw EA EB EC. assert (Hp0 : 0 < p) by lra.
  destruct (C116_vector L vd procs gf ex p Hp0 Hw) as [A' [E1 I1]]. destruct (C116_vector L vd procs hf fx p Hp0 Hw) as [B' [E2 I2]].
  destruct (C116_vector L vd procs (fun l => gf l + hf l) (fun x c => ex x c + fx x c) p Hp0 Hw) as [C' [E3 I3]].
  rewrite EA in E1. rewrite EB in E2. rewrite EC in E3. injection E1 as <-. injection E2 as <-. injection E3 as <-.
  refine (minkowski _ p _ _ _ _ _ _ Hp Hw _ I1 I2 I3). intros q _. repeat split; try apply norm_pos.
  unfold verr. eapply Rle_trans; [|apply norm_triangle]. right. apply norm_ext. intros c _.
  replace (value L (fun l => gf l + hf l) q c) with (value L gf q c + value L hf q c); [ring|].
  unfold value. rewrite <- rsum_plus. apply rsum_ext. intros; ring.
Qed.
Print Assumptions C116_triangle.
(** a case: two processes, two points each of weight 1/2, a field with one dof of value 3 against the exact solution 1 *)
Definition demo_q : qpt := {| q_w := / 2; q_x := fun _ => 0; q_S := fun _ _ => 1 |}.
Example C116_demo : nonneg_weights (List.concat [[demo_q; demo_q]; [demo_q; demo_q]]) /\
  calcLpError_s 1 [[demo_q; demo_q]; [demo_q; demo_q]] (fun _ => 3) (fun _ _ => 1) PInf = Some 2.
Proof.
  split; [intros q Hq; cbn in Hq; repeat destruct Hq as [<-|Hq]; try contradiction; cbn; lra|].
  unfold calcLpError_s. rewrite global_inf by congruence. cbn. unfold scalar_err, value. cbn. f_equal.
  replace (0 + 1 * 3 - 1) with 2 by ring. rewrite Rabs_right by lra. unfold Rmax. repeat destruct Rle_dec; lra.
Qed.

(** ** C117: errors of one component *)
Lemma cpow_even x k : (0 < k)%nat -> cpow x (INR (2 * k)) = Some (apow x (INR (2 * k))).
Proof.
  intros Hk. assert (P : 0 < INR (2 * k)) by (apply lt_0_INR; lia). destruct (Rle_dec 0 x) as [H|H]; [now apply cpow_nonneg|].
  unfold cpow. destruct (Req_EM_T (INR (2 * k)) 0); [lra|]. destruct (Rlt_dec 0 x); [lra|]. destruct (Req_EM_T x 0); [lra|].
  assert (I : Int_part (INR (2 * k)) = Z.of_nat (2 * k)) by apply Int_part_INR.
  rewrite I. destruct (Req_EM_T (IZR (Z.of_nat (2 * k))) (INR (2 * k))) as [_|E]; [|rewrite <- INR_IZR_INZ in E; congruence].
  f_equal. rewrite <- pow_powerRZ. unfold apow. destruct (Req_EM_T x 0); [contradiction|]. rewrite Rpower_pow by (now apply Rabs_pos_lt).
  rewrite !pow_mult. f_equal. cbn. rewrite !Rmult_1_r, <- Rabs_mult. symmetry. apply Rabs_right, Rle_ge, Rle_0_sqr.
Qed.
Lemma local_even err pts k : (0 < k)%nat -> lp_local (PFin (INR (2 * k))) err pts = lp_local (PFin (INR (2 * k))) (fun q => Rabs (err q)) pts.
Proof.
  intros Hk. assert (P : 0 < INR (2 * k)) by (apply lt_0_INR; lia). cbn [lp_local].
  assert (E : forall q, cpow (err q) (INR (2 * k)) = cpow (Rabs (err q)) (INR (2 * k))).
  { intros q. rewrite cpow_even by exact Hk. rewrite cpow_nonneg by (try apply Rabs_pos; exact P). now rewrite apow_abs. }
  replace (fold_left (fun acc q => match acc, cpow (err q) (INR (2 * k)) with Some a, Some e => Some (a + q_w q * e) | _, _ => None end) pts (Some 0))
    with (fold_left (fun acc q => match acc, cpow (Rabs (err q)) (INR (2 * k)) with Some a, Some e => Some (a + q_w q * e) | _, _ => None end) pts (Some 0)); [reflexivity|].
  generalize (Some 0). induction pts as [|q l IH]; intros a; cbn [fold_left]; [reflexivity|]. now rewrite E, IH.
Qed.
(** even p: the error of component c is the discrete Lp norm of that component's error *)
Theorem C117_component_partial : forall L vd procs gf ex k c, (0 < k)%nat -> nonneg_weights (List.concat procs) ->
  exists N, calcLpError_v L vd procs gf ex (PFin (INR (2 * k))) (Z.of_nat c) = Some N /\ is_lp (List.concat procs) (cerr L c gf ex) (INR (2 * k)) N.
Proof.
  intros L vd procs gf ex k c Hk Hw. assert (P : 0 < INR (2 * k)) by (apply lt_0_INR; lia). unfold calcLpError_v.
  rewrite (map_ext _ _ (fun l => local_even (vector_err L vd gf ex (Z.of_nat c)) l k Hk)).
  destruct (global_is _ procs (fun q => Rabs (vector_err L vd gf ex (Z.of_nat c) q)) _ P ltac:(intros; apply Rabs_pos) eq_refl Hw) as [N [A B]].
  exists N. split; [exact A|]. revert B. apply is_lp_ext. intros q _. rewrite apow_abs. unfold vector_err, cerr.
  destruct (Z.ltb_spec (Z.of_nat c) 0); [lia|]. now rewrite Nat2Z.id.
Qed.
Print Assumptions C117_component_partial.
(** the squares of the component errors add up to the square of the full error *)
Theorem C117_pythagoras : forall L vd procs gf ex N (Ne : nat -> R), nonneg_weights (List.concat procs) ->
  calcLpError_v L vd procs gf ex (PFin 2) (-1) = Some N ->
  (forall c, (c < vd)%nat -> calcLpError_v L vd procs gf ex (PFin 2) (Z.of_nat c) = Some (Ne c)) ->
  N * N = rsum vd (fun c => Ne c * Ne c).
Proof.
  intros L vd procs gf ex N Ne Hw HN He. destruct (C116_vector L vd procs gf ex 2 ltac:(lra) Hw) as [N' [A [_ C]]]. rewrite A in HN. injection HN as ->.
  rewrite apow_2 in C. rewrite C.
  assert (K : forall c, (c < vd)%nat -> Ne c * Ne c = quad (List.concat procs) (fun q => cerr L c gf ex q * cerr L c gf ex q)).
  { intros c Hc. destruct (C117_component_partial L vd procs gf ex 1 c ltac:(lia) Hw) as [M [A1 [_ C1]]]. replace (INR (2 * 1)) with 2 in * by (cbn; ring).
    rewrite (He c Hc) in A1. injection A1 as ->. rewrite apow_2 in C1. rewrite C1. apply quad_ext. intros q _. apply apow_2. }
  rewrite (rsum_ext vd _ (fun c => quad (List.concat procs) (fun q => cerr L c gf ex q * cerr L c gf ex q))) by exact K.
  unfold quad, lsum. clear. induction (List.concat procs) as [|q l IH]; cbn [fold_right]; [now rewrite rsum_0|]. rewrite rsum_plus, IH, rsum_scal. f_equal. f_equal.
  rewrite apow_2. unfold verr. rewrite norm_sq. reflexivity.
Qed.
Print Assumptions C117_pythagoras.
(** calcL2Error of a component agrees with calcLpError with p = 2 *)
Theorem C117_l2 : forall L vd procs gf ex c, calcL2Error_v L vd procs gf ex (Z.of_nat c) = calcLpError_v L vd procs gf ex (PFin 2) (Z.of_nat c).
Proof.
  intros L vd procs gf ex c. unfold calcL2Error_v, calcLpError_v. f_equal. apply map_ext. intros l.
  assert (E := local_even (vector_err L vd gf ex (Z.of_nat c)) l 1 ltac:(lia)). replace (INR (2 * 1)) with 2 in E by (cbn; ring). rewrite E.
  apply l2_local_lp; [intros; apply Rabs_pos|]. intros q. rewrite <- Rabs_mult. apply Rabs_right. apply Rle_ge. apply Rle_0_sqr.
Qed.
Print Assumptions C117_l2.
(** odd p: the component error is not taken in absolute value, so errors of opposite sign cancel: with p = 1 the reported error is the
    signed integral, here 0 although the field is wrong by 1 everywhere *)
Definition pt (x : R) : qpt := {| q_w := 1; q_x := fun _ => x; q_S := fun _ _ => 1 |}.
Lemma cpow_1 x : cpow x 1 = Some x.
Proof.
  unfold cpow. destruct (Req_EM_T 1 0); [lra|]. destruct (Rlt_dec 0 x) as [H|H]; [now rewrite Rpower_1|]. destruct (Req_EM_T x 0) as [->|E]; [destruct (Rlt_dec 0 1); [reflexivity|lra]|].
  replace (Int_part 1) with 1%Z by (symmetry; apply (Int_part_INR 1)). destruct (Req_EM_T 1 1); [|congruence]. rewrite powerRZ_1. reflexivity.
Qed.
Theorem C117_cancel_refuted : ~ (forall L vd procs gf ex p c, 1 <= p -> nonneg_weights (List.concat procs) ->
  calcLpError_v L vd procs gf ex (PFin p) (Z.of_nat c) = Some 0 -> forall q, In q (List.concat procs) -> 0 < q_w q -> value L gf q c = ex (q_x q) c).
Proof.
  intros H. specialize (H 1%nat 2%nat [[pt 1; pt (-1)]] (fun _ => 0) (fun x _ => x 0%nat) 1 0%nat ltac:(lra)).
  assert (V : value 1 (fun _ => 0) (pt 1) 0%nat = q_x (pt 1) 0%nat -> False) by (unfold value; cbn; lra). apply V, H.
  - intros q Hq. cbn in Hq. repeat destruct Hq as [<-|Hq]; try contradiction; cbn; lra.
  - unfold calcLpError_v, global_lp, lp_local. cbn [map fold_left]. rewrite !cpow_1. replace (1 / 1) with 1 by field.
    assert (Z : 0 + q_w (pt 1) * vector_err 1 2 (fun _ => 0) (fun x _ => x 0%nat) (Z.of_nat 0) (pt 1) + q_w (pt (-1)) * vector_err 1 2 (fun _ => 0) (fun x _ => x 0%nat) (Z.of_nat 0) (pt (-1)) = 0).
    { unfold vector_err, value. cbn. ring. }
    rewrite Z. assert (S0 : spow 0 1 = Some 0) by (unfold spow; destruct (Rlt_dec 0 0); [lra|apply cpow_1]). rewrite !S0. rewrite Rplus_0_r. exact S0.
  - cbn. now left.
  - cbn. lra.
Qed.
Print Assumptions C117_cancel_refuted.
(** p = infinity: the largest component error ignores negative errors altogether: a field below the exact solution everywhere is
    reported as exact *)
Theorem C117_inf_refuted : forall L vd procs gf ex c, procs <> [] ->
  (forall q, In q (List.concat procs) -> value L gf q c <= ex (q_x q) c) ->
  calcLpError_v L vd procs gf ex PInf (Z.of_nat c) = Some 0.
Proof.
  intros L vd procs gf ex c Hp H. unfold calcLpError_v. rewrite global_inf by exact Hp. f_equal.
  assert (K : forall q, In q (List.concat procs) -> vector_err L vd gf ex (Z.of_nat c) q <= 0).
  { intros q Hq. unfold vector_err. destruct (Z.ltb_spec (Z.of_nat c) 0); [lia|]. rewrite Nat2Z.id. specialize (H q Hq). lra. }
  revert K. generalize (List.concat procs). intros l. induction l as [|q l IH]; intros K; cbn; [reflexivity|].
  rewrite Rmax_left by (apply K; now left). apply IH. intros; apply K; now right.
Qed.
Print Assumptions C117_inf_refuted.
(** p not an integer and a negative component error at some point: not a number *)
Theorem C117_nan_refuted : forall L vd procs gf ex p c q, IZR (Int_part p) <> p ->
  In q (List.concat procs) -> value L gf q c < ex (q_x q) c -> calcLpError_v L vd procs gf ex (PFin p) (Z.of_nat c) = None.
Proof.
  intros L vd procs gf ex p c q Hp Hq Hv. unfold calcLpError_v, global_lp.
  assert (P0 : p <> 0). { intros ->. apply Hp. replace (Int_part 0) with 0%Z by (symmetry; apply (Int_part_INR 0)). reflexivity. }
  assert (N : cpow (vector_err L vd gf ex (Z.of_nat c) q) p = None).
  { assert (V : vector_err L vd gf ex (Z.of_nat c) q < 0) by (unfold vector_err; destruct (Z.ltb_spec (Z.of_nat c) 0); [lia|]; rewrite Nat2Z.id; lra).
    unfold cpow. destruct (Req_EM_T p 0); [contradiction|]. destruct (Rlt_dec 0 _); [lra|]. destruct (Req_EM_T _ 0); [lra|]. destruct (Req_EM_T _ p); [contradiction|reflexivity]. }
  assert (SN : forall l, fold_left (fun acc q => match acc, cpow (vector_err L vd gf ex (Z.of_nat c) q) p with Some a, Some e => Some (a + q_w q * e) | _, _ => None end) l None = None).
  { induction l as [|x l IH]; cbn; [reflexivity|exact IH]. }
  assert (L0 : forall l a, In q l -> fold_left (fun acc q => match acc, cpow (vector_err L vd gf ex (Z.of_nat c) q) p with Some a, Some e => Some (a + q_w q * e) | _, _ => None end) l a = None).
  { induction l as [|x l IH]; intros a []; cbn [fold_left]; [subst x; rewrite N; destruct a; apply SN|now apply IH]. }
  assert (GN : forall ls, fold_left (fun acc l => match acc, l with Some a, Some x => match spow x p with Some y => Some (a + y) | None => None end | _, _ => None end) ls None = (None : option R)).
  { induction ls as [|x l IH]; cbn; [reflexivity|exact IH]. }
  enough (G : forall a, fold_left (fun acc l => match acc, l with Some a, Some x => match spow x p with Some y => Some (a + y) | None => None end | _, _ => None end)
    (map (lp_local (PFin p) (vector_err L vd gf ex (Z.of_nat c))) procs) a = None) by now rewrite G.
  revert Hq. induction procs as [|l ls IH]; intros Hq a; [destruct Hq|]. cbn [List.concat] in Hq. apply in_app_or in Hq. cbn [map fold_left]. destruct Hq as [Hq|Hq].
  - assert (E : lp_local (PFin p) (vector_err L vd gf ex (Z.of_nat c)) l = None) by (cbn [lp_local]; now rewrite L0). rewrite E. destruct a; apply GN.
  - now apply IH.
Qed.
Print Assumptions C117_nan_refuted.

(** ** C118: setting a state and its error *)
Section C118.
Variables (L T vd : nat) (P Rs : nat -> nat -> R) (dofs : nat -> (vec -> vec) -> R) (procs : list (list qpt)) (owner : nat -> nat).
Let set := pde_set_state L Rs dofs.
Let error := pde_state_error L T vd P procs owner.
(** the exact solution f is the finite-element function with true dofs t *)
Definition represents (f : vec -> vec) (t : vec) : Prop :=
  (forall l, (l < L)%nat -> dofs l f = rsum T (fun s => P l s * t s)) /\
  (forall q c, In q (List.concat procs) -> rsum L (fun l => q_S q c l * rsum T (fun s => P l s * t s)) = f (q_x q) c).
Lemma lookup_update_same n v l : lookup n l <> None -> lookup n (update n v l) = Some v.
Proof. induction l as [|[k w] l IH]; cbn; [congruence|]. destruct (String.eqb n k) eqn:E; cbn; rewrite E; [reflexivity|]. exact IH. Qed.
Lemma lookup_update_other n m v l : n <> m -> lookup n (update m v l) = lookup n l.
Proof.
  intros H. induction l as [|[k w] l IH]; cbn; [reflexivity|]. destruct (String.eqb_spec m k) as [->|E]; cbn.
  - destruct (String.eqb_spec n k); [contradiction|reflexivity].
  - destruct (String.eqb_spec n k); [reflexivity|exact IH].
Qed.
(** a function or coefficient: the state becomes the restriction of the interpolant, which both fields "state" and "dirichlet_bc" hold *)
Theorem C118_set : forall f s tv, lookup "state" (s_fields s) <> None -> lookup "dirichlet_bc" (s_fields s) <> None ->
  exists s' tv', set (AField f) "state" s tv = Ok (s', tv') /\
    lookup "state" (s_fields s') = Some (fun l => dofs l f) /\ lookup "dirichlet_bc" (s_fields s') = Some (fun l => dofs l f) /\
    (forall t, tv' t = rsum L (fun l => Rs t l * dofs l f)) /\
    (forall n, n <> "state"%string -> n <> "dirichlet_bc"%string -> lookup n (s_fields s') = lookup n (s_fields s)).
Proof.
  intros f s tv H1 H2. unfold set, pde_set_state, pde_set_one. destruct (lookup "state" (s_fields s)) eqn:E1; [|congruence]. cbn [String.eqb Ascii.eqb Bool.eqb s_fields].
  assert (E2 : forall v, lookup "dirichlet_bc" (update "state" v (s_fields s)) = lookup "dirichlet_bc" (s_fields s)) by (intros; apply lookup_update_other; congruence).
  rewrite E2. destruct (lookup "dirichlet_bc" (s_fields s)) eqn:E3; [|congruence]. eexists _, _. split; [reflexivity|]. cbn [s_fields].
  assert (N1 : lookup "state" (update "state" (fun l => dofs l f) (s_fields s)) = Some (fun l => dofs l f)) by (apply lookup_update_same; congruence).
  repeat split.
  - rewrite lookup_update_other by congruence. exact N1.
  - apply lookup_update_same. rewrite E2. congruence.
  - intros n A B. rewrite !lookup_update_other by assumption. reflexivity.
Qed.
(** setting a function of the space and then asking for the error against it gives exactly zero, for scalar and vector fields, and the
    true dofs are those of the function *)
Theorem C118_exact : forall f s tv t, lookup "state" (s_fields s) <> None -> lookup "dirichlet_bc" (s_fields s) <> None ->
  left_inverse L T P Rs -> nonneg_weights (List.concat procs) -> represents f t ->
  exists s' tv', set (AField f) "state" s tv = Ok (s', tv') /\ (forall k, (k < T)%nat -> tv' k = t k) /\
    forall vec_arg r, exists s'', error vec_arg (AField f) "state" s' tv' r = Ok (Some 0, s'').
Proof.
  intros f s tv t H1 H2 HI Hw [R1 R2]. destruct (C118_set f s tv H1 H2) as (s' & tv' & E & F1 & F2 & Ht & _). exists s', tv'. split; [exact E|].
  assert (Tt : forall k, (k < T)%nat -> tv' k = t k).
  { intros k Hk. rewrite Ht. rewrite (rsum_ext L _ (fun l => rsum T (fun s => Rs k l * P l s * t s))).
    - rewrite rsum_swap. rewrite (rsum_ext T _ (fun s => if Nat.eqb s k then t s else 0)); [now apply rsum_delta|].
      intros j Hj. rewrite rsum_scal_r, (HI k j Hk Hj). rewrite (Nat.eqb_sym k j). destruct (Nat.eqb j k); ring.
    - intros l Hl. rewrite (R1 l Hl), <- rsum_scal. apply rsum_ext. intros; ring. }
  split; [exact Tt|]. intros vec_arg r. unfold error, pde_state_error. cbn [base_state_error]. rewrite F1. eexists. f_equal. f_equal.
  assert (V : forall q c, In q (List.concat procs) -> value L (state_distribute T P tv') q c = f (q_x q) c).
  { intros q c Hq. rewrite <- (R2 q c Hq). unfold value. apply rsum_ext. intros l Hl. f_equal. unfold state_distribute. apply rsum_ext. intros k Hk. now rewrite (Tt k Hk). }
  assert (Z : forall e, (forall q, 0 <= e q) -> (forall q, In q (List.concat procs) -> e q = 0) -> global_lp (PFin 2) (map (lp_local (PFin 2) e) procs) = Some 0).
  { intros e P0 Hz. rewrite global_value by (try exact P0; lra). f_equal. rewrite (quad_ext _ _ (fun _ => 0)) by (intros q Hq; rewrite (Hz q Hq); apply apow_0).
    replace (quad (List.concat procs) (fun _ => 0)) with 0; [rewrite sp_nonneg by lra; apply apow_0|]. unfold quad, lsum. clear. induction (List.concat procs); cbn; [reflexivity|]. rewrite <- IHl. ring. }
  destruct vec_arg.
  - apply Z; [intros q; apply norm_pos|]. intros q Hq. rewrite vector_norm. unfold verr, norm, dot. rewrite (rsum_ext vd _ (fun _ => 0)); [rewrite rsum_0; apply sqrt_0|]. intros c _. rewrite V by exact Hq. ring.
  - apply Z; [apply scalar_nonneg|]. intros q Hq. unfold scalar_err. rewrite V by exact Hq. rewrite Rminus_eq_0. apply Rabs_R0.
Qed.
(** an unknown field name is refused, before anything changes *)
Theorem C118_unknown : forall f s tv name, lookup name (s_fields s) = None -> set (AField f) name s tv = Throw /\
  forall v r, error v (AField f) name s tv r = Throw.
Proof.
  intros f s tv name H. split; [unfold set, pde_set_state, pde_set_one; now rewrite H|]. intros v r. unfold error, pde_state_error. cbn [base_state_error]. now rewrite H.
Qed.
(** a vector of the wrong size is refused by calcStateError *)
Theorem C118_wrong_size : forall v n x name s tv r, n <> T -> error v (AVector n x) name s tv r = Throw.
Proof. intros v n x name s tv r H. unfold error, pde_state_error. cbn [base_state_error]. destruct (Nat.eqb_spec n T); [contradiction|reflexivity]. Qed.
(** a function that edits the state in place runs once for other names but twice for "state" *)
Theorem C118_twice_refuted : forall f s tv name,
  set (AFun f) name s tv = Ok (s, if String.eqb name "state" then f (f tv) else f tv).
Proof. intros f s tv name. unfold set, pde_set_state, pde_set_one. cbn [base_set_state]. destruct (String.eqb name "state"); reflexivity. Qed.
(** an mfem::Vector, or any other type, is accepted by setState and ignored *)
Theorem C118_ignored_refuted : forall a s tv name, (exists n v, a = AVector n v) \/ a = AOther -> set a name s tv = Ok (s, tv).
Proof. intros a s tv name [[n [v ->]]| ->]; unfold set, pde_set_state, pde_set_one; cbn [base_set_state]; destruct (String.eqb name "state"); reflexivity. Qed.
(** the error against a vector is the norm of the difference of this process's part; summed over the processes the squares give the
    global norm *)
Theorem C118_vector_error : forall v x name s tv r, exists s',
  error v (AVector T x) name s tv r = Ok (Some (sqrt (rsum T (fun t => if Nat.eqb (owner t) r then (x t - tv t) * (x t - tv t) else 0))), s').
Proof. intros v x name s tv r. unfold error, pde_state_error. cbn [base_state_error]. rewrite Nat.eqb_refl. eexists. reflexivity. Qed.
(** a type it does not know gives NaN instead of an exception *)
Theorem C118_nan_refuted : forall v name s tv r, error v AOther name s tv r = Ok (None, s).
Proof. reflexivity. Qed.
(** calcStateError overwrites the field with the state it was asked about *)
Theorem C118_overwrites : forall v f name s tv r e s', error v (AField f) name s tv r = Ok (e, s') ->
  lookup name (s_fields s') = Some (fun l => rsum T (fun t => P l t * tv t)).
Proof.
  intros v f name s tv r e s' H. unfold error, pde_state_error in H. cbn [base_state_error] in H. destruct (lookup name (s_fields s)) eqn:E; [|congruence].
  injection H as _ <-. cbn [s_fields]. apply lookup_update_same. congruence.
Qed.
End C118.
Print Assumptions C118_set.
Print Assumptions C118_exact.
Print Assumptions C118_unknown.
Print Assumptions C118_wrong_size.
Print Assumptions C118_twice_refuted.
Print Assumptions C118_ignored_refuted.
Print Assumptions C118_vector_error.
Print Assumptions C118_nan_refuted.
Print Assumptions C118_overwrites.
(** so the state a user asked for is not the one he gets *)
Theorem C118_set_function_refuted : exists L Rs dofs f s (tv : vec), match pde_set_state L Rs dofs (AFun f) "state" s tv with Ok (_, tv') => tv' 0%nat <> f tv 0%nat | Throw => False end.
Proof.
  exists 1%nat, (fun _ _ => 1), (fun _ _ => 0), (fun v i => v i + 1), {| s_fields := []; s_work := fun _ => 0 |}, (fun _ => 0).
  rewrite C118_twice_refuted. cbn. lra.
Qed.
Print Assumptions C118_set_function_refuted.
(** and two processes may disagree on the error of the same state *)
Theorem C118_local_norm_refuted : exists T owner x tv s, forall L vd P procs v name,
  match pde_state_error L T vd P procs owner v (AVector T x) name s tv 0, pde_state_error L T vd P procs owner v (AVector T x) name s tv 1 with
  | Ok (Some a, _), Ok (Some b, _) => a <> b | _, _ => False end.
Proof.
  exists 2%nat, (fun t => t), (fun t => INR t), (fun _ => 0), {| s_fields := []; s_work := fun _ => 0 |}. intros L vd P procs v name.
  unfold pde_state_error. cbn [base_state_error Nat.eqb]. unfold local_norm. cbn [rsum Nat.eqb].
  replace (0 + (INR 0 - 0) * (INR 0 - 0) + 0) with 0 by (cbn; ring). replace (0 + 0 + (INR 1 - 0) * (INR 1 - 0)) with 1 by (cbn; ring). rewrite sqrt_0, sqrt_1. lra.
Qed.
Print Assumptions C118_local_norm_refuted.
Example C118_demo : left_inverse 1 1 (fun _ _ => 1) (fun _ _ => 1) /\ represents 1 1 (fun _ _ => 1) (fun _ f => f (fun _ => 0) 0%nat) [[demo_q]] (fun _ _ => 5) (fun _ => 5).
Proof. split; [intros [|s] [|t] A B; try lia; cbn; ring|]. split; [intros l _; cbn; ring|]. intros q c [<-|[]]. cbn. ring. Qed.

(** ** C119: true and local dofs *)
(** states: true dofs survive the trip to the local dofs and back *)
Theorem C119_state : forall L T P Rs tv t, left_inverse L T P Rs -> (t < T)%nat -> state_true L Rs (state_distribute T P tv) t = tv t.
Proof.
  intros L T P Rs tv t H Ht. unfold state_true, state_distribute. rewrite (rsum_ext L _ (fun l => rsum T (fun s => Rs t l * P l s * tv s))) by (intros l _; rewrite <- rsum_scal; apply rsum_ext; intros; ring).
  rewrite rsum_swap, (rsum_ext T _ (fun s => if Nat.eqb s t then tv s else 0)); [now apply rsum_delta|].
  intros s Hs. rewrite rsum_scal_r, (H t s Ht Hs), (Nat.eqb_sym t s). destruct (Nat.eqb s t); ring.
Qed.
Print Assumptions C119_state.
(** duals likewise *)
Theorem C119_dual : forall L T P Rs tv t, left_inverse L T P Rs -> (t < T)%nat -> dual_true L P (dual_distribute T Rs tv) t = tv t.
Proof.
  intros L T P Rs tv t H Ht. unfold dual_true, dual_distribute. rewrite (rsum_ext L _ (fun l => rsum T (fun s => Rs s l * P l t * tv s))) by (intros l _; rewrite <- rsum_scal; apply rsum_ext; intros; ring).
  rewrite rsum_swap, (rsum_ext T _ (fun s => if Nat.eqb s t then tv s else 0)); [now apply rsum_delta|].
  intros s Hs. rewrite rsum_scal_r, (H s t Hs Ht). destruct (Nat.eqb s t); ring.
Qed.
Print Assumptions C119_dual.
(** assembling a dual is the transpose of distributing a state: their pairing does not depend on the side *)
Theorem C119_pairing : forall L T P g x, dot T (dual_true L P g) x = dot L g (state_distribute T P x).
Proof.
  intros L T P g x. unfold dot, dual_true, state_distribute. rewrite (rsum_ext T _ (fun t => rsum L (fun l => g l * (P l t * x t)))) by (intros t _; rewrite <- rsum_scal_r; apply rsum_ext; intros; ring).
  rewrite rsum_swap. apply rsum_ext. intros l _. rewrite rsum_scal. reflexivity.
Qed.
Print Assumptions C119_pairing.
(** a state's local values survive the trip only if they come from true dofs (shared dofs agree) *)
Theorem C119_local : forall L T P Rs gf, left_inverse L T P Rs ->
  ((forall l, (l < L)%nat -> state_distribute T P (state_true L Rs gf) l = gf l) <->
   exists tv, forall l, (l < L)%nat -> gf l = rsum T (fun t => P l t * tv t)).
Proof.
  intros L T P Rs gf H. split.
  - intros E. exists (state_true L Rs gf). intros l Hl. symmetry. now apply E.
  - intros [tv Htv] l Hl. rewrite (Htv l Hl). unfold state_distribute. apply rsum_ext. intros t Ht. f_equal. rewrite <- (C119_state L T P Rs tv t H Ht).
    unfold state_true, state_distribute. apply rsum_ext. intros k Hk. now rewrite (Htv k Hk).
Qed.
Print Assumptions C119_local.
(** two processes sharing one dof: three local dofs, two true dofs *)
Example C119_demo : left_inverse 3 2 (fun l t => if Nat.eqb (l / 2) t then 1 else 0) (fun t l => if Nat.eqb l (2 * t) then 1 else 0).
Proof. intros [|[|s]] [|[|t]] A B; try lia; cbn; ring. Qed.

(** ** C120: spaces *)
(** the documented names select the space of the given degree in the dimension of the mesh *)
Theorem C120_names : forall p dim, (0 <= p <= 4)%Z ->
  let opt b := {| o_degree := Some p; o_basis := Some b; o_gd := false |} in
  (forall b, In b ["H1"; "h1"; "CG"; "cg"]%string -> choose_coll (opt b) dim = SOk (H1 p dim)) /\
  (forall b, In b ["L2"; "l2"; "DG"; "dg"]%string -> choose_coll (opt b) dim = SOk (L2 p dim)) /\
  (forall b, In b ["ND"; "nd"; "nedelec"]%string -> choose_coll (opt b) dim = SOk (ND p dim)) /\
  (forall b, In b ["RT"; "rt"]%string -> choose_coll (opt b) dim = SOk (RT p dim)) /\
  (forall b, In b ["CSBP"; "csbp"]%string -> (0 <= dim <= 3)%Z -> choose_coll (opt b) dim = SOk (CSBP p dim)) /\
  (forall b, In b ["DSBP"; "dsbp"]%string -> dim = 2%Z -> choose_coll (opt b) dim = SOk (DSBP p dim)).
Proof.
  intros p dim Hp opt. repeat split; intros b Hb; cbn in Hb.
  1-4: repeat destruct Hb as [<-|Hb]; try contradiction; reflexivity.
  - intros Hd. assert (M : make_coll (CSBP p dim) = SOk (CSBP p dim)). { unfold make_coll. destruct (Z.leb_spec 0 p), (Z.leb_spec p 4), (Z.leb_spec 0 dim), (Z.leb_spec dim 3); try lia. reflexivity. }
    repeat destruct Hb as [<-|Hb]; try contradiction; exact M.
  - intros ->. assert (M : make_coll (DSBP p 2) = SOk (DSBP p 2)). { unfold make_coll. destruct (Z.leb_spec 0 p), (Z.leb_spec p 4); try lia. reflexivity. }
    repeat destruct Hb as [<-|Hb]; try contradiction; exact M.
Qed.
Print Assumptions C120_names.
(** Galerkin difference forces the discontinuous SBP space, whatever the basis, except for continuous SBP *)
Theorem C120_gd : forall p dim b, (0 <= p <= 4)%Z -> b <> "CSBP"%string -> b <> "csbp"%string ->
  choose_coll {| o_degree := Some p; o_basis := Some b; o_gd := true |} dim = if (dim =? 2)%Z then SOk (DSBP p dim) else SAbort.
Proof.
  intros p dim b Hp H1 H2. unfold choose_coll. cbn [o_degree o_basis o_gd one_of existsb].
  destruct (String.eqb_spec b "CSBP"); [contradiction|]. destruct (String.eqb_spec b "csbp"); [contradiction|]. cbn [orb]. rewrite !orb_true_r.
  unfold make_coll. destruct (Z.leb_spec 0 p), (Z.leb_spec p 4); try lia. reflexivity.
Qed.
Print Assumptions C120_gd.
(** SBP spaces outside their range stop the program *)
Theorem C120_range : forall p dim gd, (p < 0 \/ 4 < p)%Z ->
  choose_coll {| o_degree := Some p; o_basis := Some "csbp"%string; o_gd := gd |} dim = SAbort /\
  choose_coll {| o_degree := Some p; o_basis := Some "dsbp"%string; o_gd := gd |} dim = SAbort.
Proof. intros p dim gd H. cbn. destruct (Z.leb_spec 0 p), (Z.leb_spec p 4); try lia; split; reflexivity. Qed.
Print Assumptions C120_range.
(** a misspelt basis is not refused: the field silently becomes a continuous H1 field *)
Theorem C120_misspelt_refuted : forall p dim b,
  ~ In b ["CSBP"; "csbp"; "DSBP"; "dsbp"; "ND"; "nd"; "nedelec"; "RT"; "rt"; "H1"; "h1"; "CG"; "cg"; "L2"; "l2"; "DG"; "dg"]%string ->
  choose_coll {| o_degree := Some p; o_basis := Some b; o_gd := false |} dim = SOk (H1 p dim).
Proof.
  intros p dim b H. unfold choose_coll. cbn [o_degree o_basis o_gd one_of existsb].
  repeat match goal with |- context [String.eqb b ?s] => destruct (String.eqb_spec b s) as [E|_]; [exfalso; apply H; rewrite E; cbn; tauto|] end. reflexivity.
Qed.
Print Assumptions C120_misspelt_refuted.
Theorem C120_missing_refuted : forall o dim, o_degree o = None \/ o_basis o = None -> choose_coll o dim = SUndefined.
Proof. intros [d b g] dim [H|H]; cbn in H; subst; unfold choose_coll; cbn; [reflexivity|destruct d; reflexivity]. Qed.
Print Assumptions C120_missing_refuted.
(** copying a field's space gives a space of the same kind, degree and dimension, for every space that can exist *)
Theorem C120_copy : forall c, make_coll c = SOk c -> copy_coll c = SOk c.
Proof.
  assert (R4 : forall p, (0 <= p <= 4)%Z -> p = 0%Z \/ p = 1%Z \/ p = 2%Z \/ p = 3%Z \/ p = 4%Z) by (intros; lia).
  assert (R3 : forall p, (0 <= p <= 3)%Z -> p = 0%Z \/ p = 1%Z \/ p = 2%Z \/ p = 3%Z) by (intros; lia).
  intros [p d|p d|p d|p d|p d|p d] H; try reflexivity; cbn [make_coll] in H.
  - destruct (Z.leb_spec 0 p), (Z.leb_spec p 4), (Z.leb_spec 0 d), (Z.leb_spec d 3); try discriminate H.
    destruct (R4 p ltac:(lia)) as [->|[->|[->|[->| ->]]]]; destruct (R3 d ltac:(lia)) as [->|[->|[->| ->]]]; reflexivity.
  - destruct (Z.leb_spec 0 p), (Z.leb_spec p 4), (Z.eqb_spec d 2); try discriminate H. subst d.
    destruct (R4 p ltac:(lia)) as [->|[->|[->|[->| ->]]]]; reflexivity.
Qed.
Print Assumptions C120_copy.
(** and every space a field is made with is one of those *)
Theorem C120_made : forall o dim c, choose_coll o dim = SOk c -> copy_coll c = SOk c.
Proof.
  intros o dim c H. apply C120_copy. unfold choose_coll in H. destruct (o_degree o) as [d|]; [|discriminate H]. destruct (o_basis o) as [b|]; [|discriminate H].
  repeat match type of H with (if ?x then _ else _) = _ => destruct x end; try (injection H as <-; reflexivity); cbn [make_coll] in H |- *;
  match type of H with (if ?x then _ else _) = _ => destruct x eqn:E; [|discriminate H] end; injection H as <-; cbn [make_coll]; now rewrite E.
Qed.
Print Assumptions C120_made.
