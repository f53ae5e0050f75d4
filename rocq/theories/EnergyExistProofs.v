(** Proof support: the equations of a plain problem are strongly monotone and Lipschitz in the norm of its linear part. *)
From Coq Require Import Reals Lra Lia List Bool Arith ZArith String FunctionalExtensionality.
From Coquelicot Require Import Coquelicot.
From Verif Require Import Vec Deriv Inputs Options EmInteg EmIntegSpec EmIntegProofs Thermal ThermalSpec ThermalProofs FlowOptions.
From Verif Require Import ThermalOptions ThermalOptionsSpec ThermalOptionsProofs JacOptions JacOptionsSpec JacOptionsProofs EnergyOptionsSpec EnergyOptionsProofs MonotoneSolve.
From Verif Require Props_EmInteg Props_ThermalOptions Props_JacOptions.
Import ListNotations.
Local Open Scope R_scope.
Local Open Scope string_scope.

(** ** vectors of a law *)
Lemma dot_cs n x y : cs 1 (rsum n (fun k => x k * y k)) (rsum n (fun k => x k * x k)) (rsum n (fun k => y k * y k)).
Proof. apply cs_rsum; [lra|]. intros. apply cs_prod. Qed.
Lemma law_cs n (k : R -> R) L (p q y : vec) : 0 <= L -> (forall a, 0 <= a -> 0 <= k a <= L) -> (forall a b, 0 <= a <= b -> 0 <= k b * b - k a * a <= L * (b - a)) ->
  cs (10 * (L * L)) (k (sqrt (rsum n (fun i => p i * p i))) * rsum n (fun i => p i * y i) - k (sqrt (rsum n (fun i => q i * q i))) * rsum n (fun i => q i * y i))
    (rsum n (fun i => (p i - q i) * (p i - q i))) (rsum n (fun i => y i * y i)).
Proof.
  intros HL Hk Hl. set (pp := rsum n (fun i => p i * p i)). set (qq := rsum n (fun i => q i * q i)). set (dd := rsum n (fun i => (p i - q i) * (p i - q i))). set (yy := rsum n (fun i => y i * y i)).
  set (a := sqrt pp). set (b := sqrt qq).
  assert (Pp : 0 <= pp) by (apply rsum_nonneg; intros; apply Rle_0_sqr). assert (Pq : 0 <= qq) by (apply rsum_nonneg; intros; apply Rle_0_sqr).
  assert (Pd : 0 <= dd) by (apply rsum_nonneg; intros; apply Rle_0_sqr). assert (Py : 0 <= yy) by (apply rsum_nonneg; intros; apply Rle_0_sqr).
  assert (Ea : a * a = pp) by (apply sqrt_sqrt; exact Pp). assert (Eb : b * b = qq) by (apply sqrt_sqrt; exact Pq). assert (A0 : 0 <= a) by apply sqrt_pos. assert (B0 : 0 <= b) by apply sqrt_pos.
  split; [exact Pd|]. split; [exact Py|].
  set (s := fun i => k a * p i - k b * q i).
  assert (E : k a * rsum n (fun i => p i * y i) - k b * rsum n (fun i => q i * y i) = rsum n (fun i => s i * y i)).
  { rewrite <- !rsum_scal, <- rsum_minus. apply rsum_ext. intros; unfold s; ring. }
  rewrite E. destruct (dot_cs n s y) as (S1 & _ & S2). rewrite Rmult_1_l in S2. eapply Rle_trans; [exact S2|].
  assert (T : rsum n (fun i => s i * s i) <= 10 * (L * L) * dd).
  2:{ fold yy. replace (10 * (L * L) * (dd * yy)) with (10 * (L * L) * dd * yy) by ring. apply Rmult_le_compat_r; assumption. }
  set (c := k a - k b).
  assert (T1 : rsum n (fun i => s i * s i) <= 2 * (k a * k a * dd) + 2 * (c * c * qq)).
  { unfold dd, qq. rewrite <- !rsum_scal, <- rsum_plus. apply rsum_le. intros i _. unfold s, c.
    assert (Z : 0 <= (k a * (p i - q i) - (k a - k b) * q i) * (k a * (p i - q i) - (k a - k b) * q i)) by apply Rle_0_sqr. nra. }
  assert (pq : a * a + b * b - 2 * (a * b) <= dd).
  { assert (Ed : dd = pp + qq - 2 * rsum n (fun i => p i * q i)) by (unfold dd, pp, qq; rewrite <- rsum_scal, <- rsum_plus, <- rsum_minus; apply rsum_ext; intros; ring).
    destruct (dot_cs n p q) as (_ & _ & C). fold pp qq in C. assert (C2 : rsum n (fun i => p i * q i) <= a * b).
    { apply sqr_le; [now apply Rmult_le_pos|]. replace (a * b * (a * b)) with ((a * a) * (b * b)) by ring. rewrite Ea, Eb. lra. }
    rewrite Ed, Ea, Eb. lra. }
  assert (Cb : (c * b) * (c * b) <= 4 * (L * L) * ((a - b) * (a - b))).
  { assert (J : forall x z, 0 <= x <= L * z -> 0 <= z -> x * x <= L * L * (z * z)).
    { intros x z [X1 X2] Hz. replace (L * L * (z * z)) with ((L * z) * (L * z)) by ring. apply Rmult_le_compat; lra. }
    assert (Ka := Hk a A0). assert (Kb := Hk b B0).
    assert (W : exists g h, c * b = g - h /\ 0 <= g * g <= L * L * ((a - b) * (a - b)) /\ 0 <= h * h <= L * L * ((a - b) * (a - b))).
    { exists (k a * a - k b * b), (k a * (a - b)). split; [unfold c; ring|]. split.
      - split; [apply Rle_0_sqr|]. destruct (Rle_dec b a) as [D|D].
        + apply J; [exact (Hl b a (conj B0 D))|lra].
        + assert (X := J _ _ (Hl a b (conj A0 (Rlt_le _ _ (Rnot_le_lt _ _ D)))) ltac:(lra)). lra.
      - split; [apply Rle_0_sqr|]. replace (k a * (a - b) * (k a * (a - b))) with (k a * k a * ((a - b) * (a - b))) by ring. apply Rmult_le_compat_r; [apply Rle_0_sqr|]. apply Rmult_le_compat; lra. }
    destruct W as (g & h & -> & G & H). assert (Z : 0 <= (g + h) * (g + h)) by apply Rle_0_sqr. nra. }
  assert (Cq : c * c * qq <= 4 * (L * L) * dd).
  { rewrite <- Eb. replace (c * c * (b * b)) with ((c * b) * (c * b)) by ring. eapply Rle_trans; [exact Cb|]. apply Rmult_le_compat_l; [assert (0 <= L * L) by apply Rle_0_sqr; lra|]. lra. }
  assert (Kq : k a * k a * dd <= L * L * dd) by (assert (Ka := Hk a A0); apply Rmult_le_compat_r; [exact Pd|]; apply Rmult_le_compat; lra).
  lra.
Qed.

(** ** the bilinear form of the linear part *)
Definition bil (p : physics) (o : opts) (M : tmesh) (x y : vec) : R :=
  total (fun e => rsum (el_nq e) (fun q => el_pw e q * el_W e q * rsum (el_dim e) (fun k => egrad e q x k * egrad e q y k))) (elems M) +
  match p with
  | Heat => total (fun f => let c := get (get o "bcs") "convection" in when (lists (attributes c) f)
      (integral (tf_th f) (tf_XT f) (rule f) (fun q => num c "h" 1 * (temp f x q * temp f y q)))) (outer M)
  | Magnetism => 0
  end.
Lemma egrad_add e q x y k : egrad e q (fun i => x i + y i) k = egrad e q x k + egrad e q y k.
Proof. unfold egrad, Rdiv. rewrite <- Rmult_plus_distr_r, <- rsum_plus. f_equal. apply rsum_ext. intros; ring. Qed.
Lemma egrad_scal e q t x k : egrad e q (fun i => t * x i) k = t * egrad e q x k.
Proof. unfold egrad, Rdiv. rewrite <- Rmult_assoc, <- rsum_scal. f_equal. apply rsum_ext. intros; ring. Qed.
Lemma egrad_vsub e q x y k : egrad e q (vsub x y) k = egrad e q x k - egrad e q y k.
Proof. unfold egrad, Rdiv. rewrite <- Rmult_minus_distr_r, <- rsum_minus. f_equal. apply rsum_ext. intros; unfold vsub; ring. Qed.
Lemma temp_add f x y q : temp f (fun i => x i + y i) q = temp f x q + temp f y q.
Proof. unfold temp, T1. rewrite <- rsum_plus. apply rsum_ext. intros; unfold local; ring. Qed.
Lemma temp_scal f t x q : temp f (fun i => t * x i) q = t * temp f x q.
Proof. unfold temp, T1. rewrite <- rsum_scal. apply rsum_ext. intros; unfold local; ring. Qed.
Lemma integral_ext F X o a b : (forall q, a q = b q) -> integral F X o a = integral F X o b.
Proof. intros H. unfold integral. apply rsum_ext. intros; now rewrite H. Qed.
Lemma integral_plus F X o a b : integral F X o (fun q => a q + b q) = integral F X o a + integral F X o b.
Proof. unfold integral. rewrite <- rsum_plus. apply rsum_ext. intros; ring. Qed.
Lemma integral_scal F X o t a : integral F X o (fun q => t * a q) = t * integral F X o a.
Proof. unfold integral. rewrite <- rsum_scal. apply rsum_ext. intros; ring. Qed.
Lemma when_plus b x y : when b (x + y) = when b x + when b y. Proof. destruct b; cbn; ring. Qed.
Lemma when_scal b t x : when b (t * x) = t * when b x. Proof. destruct b; cbn; ring. Qed.
Lemma bil_sym p o M x y : bil p o M x y = bil p o M y x.
Proof.
  unfold bil. f_equal.
  - apply sums_ext. intros e _. apply rsum_ext. intros q _. f_equal. apply rsum_ext. intros; ring.
  - destruct p; [|reflexivity]. apply sums_ext. intros f _. cbv zeta. f_equal. apply integral_ext. intros; ring.
Qed.
Lemma bil_add p o M x y z : bil p o M (fun i => x i + y i) z = bil p o M x z + bil p o M y z.
Proof.
  unfold bil. rewrite (sums_ext _ (fun e => rsum (el_nq e) (fun q => el_pw e q * el_W e q * rsum (el_dim e) (fun k => egrad e q x k * egrad e q z k)) +
     rsum (el_nq e) (fun q => el_pw e q * el_W e q * rsum (el_dim e) (fun k => egrad e q y k * egrad e q z k))) (elems M)).
  2:{ intros e _. rewrite <- rsum_plus. apply rsum_ext. intros q _. rewrite <- Rmult_plus_distr_l, <- rsum_plus. f_equal. apply rsum_ext. intros k _. rewrite egrad_add. ring. }
  rewrite sums_plus. destruct p; [|ring].
  set (A := fun w f => let c := get (get o "bcs") "convection" in when (lists (attributes c) f) (integral (tf_th f) (tf_XT f) (rule f) (fun q => num c "h" 1 * (temp f w q * temp f z q)))).
  rewrite (sums_ext _ (fun f => A x f + A y f) (outer M)); [rewrite sums_plus; unfold A; ring|].
  intros f _. unfold A. cbv zeta. rewrite <- when_plus, <- integral_plus. f_equal. apply integral_ext. intros q. rewrite temp_add. ring.
Qed.
Lemma bil_scal p o M t x z : bil p o M (fun i => t * x i) z = t * bil p o M x z.
Proof.
  unfold bil. rewrite (sums_ext _ (fun e => t * rsum (el_nq e) (fun q => el_pw e q * el_W e q * rsum (el_dim e) (fun k => egrad e q x k * egrad e q z k))) (elems M)).
  2:{ intros e _. rewrite <- rsum_scal. apply rsum_ext. intros q _. rewrite (rsum_ext _ _ (fun k => t * (egrad e q x k * egrad e q z k))) by (intros; rewrite egrad_scal; ring). rewrite rsum_scal. ring. }
  rewrite sums_scal. destruct p; [|ring].
  set (A := fun w f => let c := get (get o "bcs") "convection" in when (lists (attributes c) f) (integral (tf_th f) (tf_XT f) (rule f) (fun q => num c "h" 1 * (temp f w q * temp f z q)))).
  rewrite (sums_ext _ (fun f => t * A x f) (outer M)); [rewrite sums_scal; unfold A; ring|].
  intros f _. unfold A. cbv zeta. rewrite <- when_scal, <- integral_scal. f_equal. apply integral_ext. intros q. rewrite temp_scal. ring.
Qed.
Lemma egrad_loc N nattr M e q x y k : fits N nattr M -> In e (elems M) -> veq N x y -> egrad e q x k = egrad e q y k.
Proof. intros (H & _) He V. unfold egrad. f_equal. apply rsum_ext. intros i Hi. now rewrite (V _ (H e i He Hi)). Qed.
Lemma temp_loc N nattr M f x y q : fits N nattr M -> In f (outer M) -> veq N x y -> temp f x q = temp f y q.
Proof.
  intros (_ & _ & H & H4 & _) Hf V. unfold temp, T1. apply rsum_ext. intros i Hi. unfold local. assert (Fi : In f (inner M ++ outer M)) by (apply in_or_app; now right).
  destruct (H4 f Fi) as [E _]. now rewrite (V _ (H f i Fi ltac:(lia))).
Qed.
Lemma bil_loc p N nattr o M x y z : fits N nattr M -> veq N x y -> bil p o M x z = bil p o M y z.
Proof.
  intros F V. unfold bil. f_equal.
  - apply sums_ext. intros e He. apply rsum_ext. intros q _. f_equal. apply rsum_ext. intros k _. now rewrite (egrad_loc N nattr M e q x y k F He V).
  - destruct p; [|reflexivity]. apply sums_ext. intros f Hf. cbv zeta. f_equal. apply integral_ext. intros q. now rewrite (temp_loc N nattr M f x y q F Hf V).
Qed.
Lemma cs_when K b a X Y : cs K a X Y -> cs K (when b a) (when b X) (when b Y).
Proof. intros H. destruct b; [exact H|apply cs_0]. Qed.
(** the hypotheses on weights *)
Definition weights_ok (o : opts) (M : tmesh) : Prop := (forall e q, In e (elems M) -> (q < el_nq e)%nat -> 0 <= el_pw e q * el_W e q) /\
  (forall f p q, In f (outer M) -> (q < npts (tf_th f) p)%nat -> 0 <= wts (tf_th f) p q * Wf (tf_th f) p q (tf_XT f)) /\
  (forall f, In f (outer M) -> let w := get (get o "bcs") "convection" in lists (attributes w) f = true -> 0 <= num w "h" 1).
Lemma face_cs K o M f a X Y : 0 <= K -> weights_ok o M -> In f (outer M) -> (forall q, cs K (a q) (X q) (Y q)) ->
  let c := get (get o "bcs") "convection" in
  cs K (when (lists (attributes c) f) (integral (tf_th f) (tf_XT f) (rule f) (fun q => num c "h" 1 * a q)))
       (when (lists (attributes c) f) (integral (tf_th f) (tf_XT f) (rule f) (fun q => num c "h" 1 * X q)))
       (when (lists (attributes c) f) (integral (tf_th f) (tf_XT f) (rule f) (fun q => num c "h" 1 * Y q))).
Proof.
  intros HK (_ & W2 & W3) Hf H c. specialize (W3 f Hf). cbv zeta in W3. fold c in W3. destruct (lists (attributes c) f); cbn [when]; [|apply cs_0].
  specialize (W3 eq_refl). unfold integral. apply cs_rsum; [exact HK|]. intros q Hq. apply cs_scal; [now apply W2|]. now apply cs_scal.
Qed.
Lemma bil_cs p o M x y : weights_ok o M -> cs 1 (bil p o M x y) (bil p o M x x) (bil p o M y y).
Proof.
  intros W. unfold bil. apply cs_add; [lra| |].
  - apply cs_total; [lra|]. intros e He. apply cs_rsum; [lra|]. intros q Hq. apply cs_scal; [now apply (proj1 W)|]. apply dot_cs.
  - destruct p; [|apply cs_0]. apply cs_total; [lra|]. intros f Hf. apply (face_cs 1 o M f (fun q => temp f x q * temp f y q) (fun q => temp f x q * temp f x q) (fun q => temp f y q * temp f y q)); [lra|exact W|exact Hf|]. intros; apply cs_prod.
Qed.
Lemma bil_grad p o M x : weights_ok o M -> 0 <= gradient_energy M x <= bil p o M x x.
Proof.
  intros W. unfold bil, gradient_energy, field_gradient. split.
  - apply Props_JacOptions.total_nonneg. intros e He. apply rsum_nonneg. intros q Hq. apply Rmult_le_pos; [now apply (proj1 W)|]. apply rsum_nonneg. intros; apply Rle_0_sqr.
  - assert (0 <= match p with Heat => total (fun f => let c := get (get o "bcs") "convection" in when (lists (attributes c) f)
      (integral (tf_th f) (tf_XT f) (rule f) (fun q => num c "h" 1 * (temp f x q * temp f x q)))) (outer M) | Magnetism => 0 end); [|lra].
    destruct p; [|lra]. apply Props_JacOptions.total_nonneg. intros f Hf.
    destruct (face_cs 1 o M f (fun q => temp f x q * temp f x q) (fun q => temp f x q * temp f x q) (fun q => temp f x q * temp f x q) Rle_0_1 W Hf ltac:(intros; apply cs_prod)) as [H _]. exact H.
Qed.
(** difference of the equations at two states *)
Lemma boundary_diff p o f u w v : boundary_form p o f u v - boundary_form p o f w v =
  match p with Heat => let c := get (get o "bcs") "convection" in when (lists (attributes c) f) (integral (tf_th f) (tf_XT f) (rule f) (fun q => num c "h" 1 * (temp f (vsub u w) q * temp f v q))) | Magnetism => 0 end.
Proof.
  unfold boundary_form. destruct p; [|ring]. cbv zeta. rewrite !exchange_conv, !exchange_out.
  set (c := get (get o "bcs") "convection"). set (h := num c "h" 1). set (t := num c "fluid_temp" 1). set (b := lists (attributes c) f).
  assert (E : integral (tf_th f) (tf_XT f) (rule f) (fun q => h * (temp f (vsub u w) q * temp f v q)) =
    integral (tf_th f) (tf_XT f) (rule f) (fun q => h * (temp f u q - t) * temp f v q) - integral (tf_th f) (tf_XT f) (rule f) (fun q => h * (temp f w q - t) * temp f v q)).
  { rewrite integral_minus. apply integral_ext. intros q. rewrite temp_sub. ring. }
  rewrite E. destruct b; cbn [when]; ring.
Qed.
Section Problem.
Variables (p : physics) (N nattr : nat) (M : tmesh) (o : opts) (c : config) (k0 L : R).
Hypotheses (F : fits N nattr M) (B : built p nattr o c) (P : plain_problem o M) (Mo : monotone_laws k0 o M) (K0 : 0 < k0) (HL : bounded_laws L M).
Lemma w_ok : weights_ok o M.
Proof. destruct Mo as (M1 & M2 & M3), F as (_ & HW & _). split; [|split; [exact M2|exact M3]]. intros e q He Hq. apply Rmult_le_pos; [now apply M1|left; now apply HW]. Qed.
Lemma form_diff u w v : dot N v (formVector M c u) - dot N v (formVector M c w) =
  total (fun e => conduction e u v + (-1) * conduction e w v) (elems M) +
  total (fun f => match p with Heat => let c := get (get o "bcs") "convection" in when (lists (attributes c) f) (integral (tf_th f) (tf_XT f) (rule f) (fun q => num c "h" 1 * (temp f (vsub u w) q * temp f v q))) | Magnetism => 0 end) (outer M).
Proof.
  rewrite !(plain_pair p N nattr M o c _ _ F B P). rewrite sums_plus, sums_scal.
  match goal with |- _ = _ + total ?g (outer M) => rewrite (sums_ext g (fun f => boundary_form p o f u v + (-1) * boundary_form p o f w v) (outer M)) end; [rewrite sums_plus, sums_scal; ring|].
  intros f _. rewrite <- boundary_diff. ring.
Qed.
Lemma form_mono u w : Rmin k0 1 * bil p o M (vsub u w) (vsub u w) <= dot N (vsub u w) (formVector M c u) - dot N (vsub u w) (formVector M c w).
Proof.
  rewrite form_diff. unfold bil. rewrite Rmult_plus_distr_l. assert (W := w_ok). apply Rplus_le_compat.
  - rewrite <- sums_scal. apply Props_ThermalOptions.sums_le. intros e He. destruct Mo as (M1 & _). assert (X := conduction_monotone k0 e u w (fun q Hq => proj1 (proj2 F) e q He Hq) (fun q Hq => M1 e q He Hq)).
    unfold field_gradient in X. eapply Rle_trans; [|replace (conduction e u (vsub u w) + -1 * conduction e w (vsub u w)) with (conduction e u (vsub u w) - conduction e w (vsub u w)) by ring; exact X].
    apply Rmult_le_compat_r; [|apply Rmin_l]. apply rsum_nonneg. intros q Hq. apply Rmult_le_pos; [now apply (proj1 W)|]. apply rsum_nonneg; intros; apply Rle_0_sqr.
  - destruct p; [|rewrite (sums_0 (outer M)); lra].
    set (T := total _ (outer M)). assert (T0 : 0 <= T); [|assert (Q := Rmin_r k0 1); nra].
    apply Props_JacOptions.total_nonneg. intros f Hf.
    destruct (face_cs 1 o M f (fun q => temp f (vsub u w) q * temp f (vsub u w) q) (fun q => temp f (vsub u w) q * temp f (vsub u w) q) (fun q => temp f (vsub u w) q * temp f (vsub u w) q) Rle_0_1 W Hf ltac:(intros; apply cs_prod)) as [H _]. exact H.
Qed.
Definition lip : R := Rmax (10 * (Rabs L * Rabs L)) 1.
Lemma form_lip u w v : cs lip (dot N v (formVector M c u) - dot N v (formVector M c w)) (bil p o M (vsub u w) (vsub u w)) (bil p o M v v).
Proof.
  assert (L1 : 1 <= lip) by apply Rmax_r. assert (W := w_ok). rewrite form_diff. unfold bil. apply cs_add; [lra| |].
  - apply cs_total; [lra|]. intros e He. unfold conduction.
    replace (rsum (el_nq e) (fun q => el_pw e q * el_W e q * (el_nu e q (sqrt (rsum (el_dim e) (fun k => egrad e q u k * egrad e q u k))) * rsum (el_dim e) (fun k => egrad e q u k * egrad e q v k))) +
      -1 * rsum (el_nq e) (fun q => el_pw e q * el_W e q * (el_nu e q (sqrt (rsum (el_dim e) (fun k => egrad e q w k * egrad e q w k))) * rsum (el_dim e) (fun k => egrad e q w k * egrad e q v k))))
      with (rsum (el_nq e) (fun q => el_pw e q * el_W e q * (el_nu e q (sqrt (rsum (el_dim e) (fun k => egrad e q u k * egrad e q u k))) * rsum (el_dim e) (fun k => egrad e q u k * egrad e q v k) -
        el_nu e q (sqrt (rsum (el_dim e) (fun k => egrad e q w k * egrad e q w k))) * rsum (el_dim e) (fun k => egrad e q w k * egrad e q v k)))) by (rewrite <- rsum_scal, <- rsum_plus; apply rsum_ext; intros; ring).
    apply cs_rsum; [lra|]. intros q Hq. apply cs_scal; [now apply (proj1 W)|].
    rewrite (rsum_ext (el_dim e) (fun k => egrad e q (vsub u w) k * egrad e q (vsub u w) k) (fun k => (egrad e q u k - egrad e q w k) * (egrad e q u k - egrad e q w k))) by (intros; now rewrite !egrad_vsub).
    destruct Mo as (M1 & _). destruct (M1 e q He Hq) as (_ & M2 & M3). assert (H := HL e q He Hq).
    apply (cs_le (10 * (Rabs L * Rabs L))); [apply Rmax_l|]. assert (LL := Rle_abs L). apply (law_cs (el_dim e) (el_nu e q) (Rabs L)); [apply Rabs_pos| |].
    + intros a Ha. assert (X := M2 a Ha). destruct (H a a (conj Ha (Rle_refl a))) as [Y _]. lra.
    + intros a b Hab. assert (X := M3 a b Hab). destruct (H a b Hab) as [_ Y]. split; [nra|]. assert (L * (b - a) <= Rabs L * (b - a)) by (apply Rmult_le_compat_r; lra). lra.
  - destruct p.
    + apply cs_total; [lra|]. intros f Hf. apply (face_cs lip o M f (fun q => temp f (vsub u w) q * temp f v q) (fun q => temp f (vsub u w) q * temp f (vsub u w) q) (fun q => temp f v q * temp f v q)); [lra|exact W|exact Hf|].
      intros q. apply (cs_le 1); [exact L1|apply cs_prod].
    + rewrite (sums_0 (outer M)). apply cs_0.
Qed.
Lemma plain_solvable ess load held : anchored N ess M -> exists u, same_held N ess u held /\ forall i, (i < N)%nat -> residualVector M c ess load u i = 0.
Proof.
  intros An. assert (W := w_ok).
  destruct (solvable N ess (bil p o M) (formVector M c) load (Rmin k0 1) lip) with (held := held) as (u & U1 & U2).
  - intros; apply bil_sym.
  - intros; apply bil_add.
  - intros; apply bil_scal.
  - intros x y z V. exact (bil_loc p N nattr o M x y z F V).
  - intros; now apply bil_cs.
  - intros x Fx E. apply An; [exact Fx|]. assert (X := bil_grad p o M x W). lra.
  - apply Rmin_glb_lt; lra.
  - exact form_mono.
  - exact form_lip.
  - exists u. split; [exact U1|]. intros i Hi. unfold residualVector, Form.zero_at. destruct (Form.memb i ess) eqn:E; [ring|]. rewrite (U2 i Hi E). ring.
Qed.
End Problem.
