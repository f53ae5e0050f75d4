(** Proof support for the energy of a set of options, and for square linear systems. *)
From Coq Require Import Reals Lra Lia List Bool Arith ZArith String FunctionalExtensionality.
From Coquelicot Require Import Coquelicot.
From Verif Require Import Vec Deriv Inputs Options EmInteg EmIntegSpec EmIntegProofs Thermal ThermalSpec ThermalProofs FlowOptions.
From Verif Require Import ThermalOptions ThermalOptionsSpec ThermalOptionsProofs JacOptions JacOptionsSpec JacOptionsProofs EnergyOptionsSpec.
From Verif Require Props_EmInteg Props_ThermalOptions.
Import ListNotations.
Local Open Scope R_scope.
Local Open Scope string_scope.
Notation total := ThermalOptions.lsum.

(** ** the equations of a plain problem *)
Definition boundary_form (p : physics) (o : opts) (f : tface) (u v : vec) : R :=
  let c := get (get o "bcs") "convection" in let q := get (get o "bcs") "outflux" in
  match p with
  | Heat => when (lists (attributes c) f) (exchange (ConvectionBC (num c "h" 1) (num c "fluid_temp" 1) 1) f u v) +
            when (lists (attributes q) f) (exchange (OutfluxBC (num q "flux" 1) 1) f u v)
  | Magnetism => 0
  end.
Lemma unheld p o f u v : held 2 o f = O -> strong_or_weak p o f u v = 0.
Proof. unfold held, strong_or_weak. cbv zeta. destruct (discontinuous o && _); destruct (lists (ints (get (get o "bcs") "weak-essential")) f); cbn; intros H; try discriminate. ring. Qed.
Lemma plain_pair p N nattr M o c u v : fits N nattr M -> built p nattr o c -> plain_problem o M ->
  dot N v (formVector M c u) = total (fun e => conduction e u v) (elems M) + total (fun f => boundary_form p o f u v) (outer M).
Proof.
  intros F B (P0 & P1 & P2). rewrite (form_pair N nattr M c u v F).
  destruct p; cbn [built] in B.
  - destruct B as [O E]. rewrite (thermal_means N nattr M o u v F c O E), P0.
    rewrite (sums_ext (fun f => on_boundary o f u v) (fun f => boundary_form Heat o f u v)).
    2:{ intros f Hf. unfold on_boundary, boundary_form. cbv beta iota zeta. rewrite (unheld 2 o f u v (P1 f Hf)). apply Rplus_0_r. }
    rewrite (sums_ext _ (fun _ => 0) (inner M)); [rewrite (sums_0 (inner M)); ring|]. intros f Hf. specialize (P2 f Hf). cbn [when]. rewrite P2. cbn [INR]. unfold across, separations in *.
    destruct (contacts o f), (channels o f); cbn in P2; try lia. cbn. ring.
  - rewrite (magnet_means N nattr M o u v F c B), P0.
    rewrite (sums_ext _ (fun f => boundary_form Magnetism o f u v)) by (intros f Hf; cbn; now apply unheld, P1).
    rewrite (sums_ext _ (fun _ => 0) (inner M)) by (intros; reflexivity). rewrite (sums_0 (inner M)). ring.
Qed.
Definition rule (f : tface) : nat := (ord1 (tf_th f) + ord1 (tf_th f) + ordW (tf_th f))%nat.
Definition temp (f : tface) (u : vec) (q : nat) : R := T1 (tf_th f) (rule f) (local f u) q.
Lemma exchange_conv h t f u v : exchange (ConvectionBC h t 1) f u v = integral (tf_th f) (tf_XT f) (rule f) (fun q => h * (temp f u q - t) * temp f v q).
Proof. unfold exchange, integral. cbv zeta. apply rsum_ext. intros q _. cbn [law1 law2 vec_order]. unfold temp, rule. ring. Qed.
Lemma exchange_out k f u v : exchange (OutfluxBC k 1) f u v = integral (tf_th f) (tf_XT f) (rule f) (fun q => k * temp f v q).
Proof. unfold exchange, integral. cbv zeta. apply rsum_ext. intros q _. cbn [law1 law2 vec_order]. unfold temp, rule. ring. Qed.
Lemma temp_along f u v t q : temp f (along u v t) q = temp f u q + t * temp f v q.
Proof. unfold temp, T1. rewrite <- rsum_scal, <- rsum_plus. apply rsum_ext. intros i _. unfold local, along. ring. Qed.
Lemma temp_sub f u w q : temp f (vsub u w) q = temp f u q - temp f w q.
Proof. unfold temp, T1. rewrite <- rsum_minus. apply rsum_ext. intros i _. unfold local, vsub. ring. Qed.
Lemma integral_minus F X o a b : integral F X o a - integral F X o b = integral F X o (fun q => a q - b q).
Proof. unfold integral. rewrite <- rsum_minus. apply rsum_ext. intros; ring. Qed.

(** ** the energy's derivative *)
Lemma DV_when b (g : R -> R) d x : is_derive g x d -> is_derive (fun t => when b (g t)) x (when b d).
Proof. destruct b; cbn [when]; [auto|intros _; apply DV_const]. Qed.
Lemma DV_integral F X o (g : nat -> R -> R) d x : (forall q, is_derive (g q) x (d q)) -> is_derive (fun t => integral F X o (fun q => g q t)) x (integral F X o d).
Proof. intros H. unfold integral. apply (DV_sum (npts F o) (fun q t => wts F o q * Wf F o q X * g q t)). intros q _. apply DV_scal, H. Qed.
Lemma face_gradient o f u v : is_derive (fun t => face_energy o f (along u v t)) 0 (boundary_form Heat o f u v).
Proof.
  unfold face_energy, boundary_form. cbv beta iota zeta. set (h := num _ "h" 1). set (tt := num _ "fluid_temp" 1). set (k := num _ "flux" 1).
  apply (DV_plus (fun t => when _ _) (fun t => when _ _)); apply DV_when.
  - rewrite exchange_conv. apply (DV_integral (tf_th f) (tf_XT f) (rule f) (fun q t => h / 2 * ((temp f (along u v t) q - tt) * (temp f (along u v t) q - tt)))). intros q.
    apply (DV_ext (fun t => h / 2 * ((temp f u q + t * temp f v q - tt) * (temp f u q + t * temp f v q - tt)))); [intros; now rewrite temp_along|]. auto_derive; [exact I|field].
  - rewrite exchange_out. apply (DV_integral (tf_th f) (tf_XT f) (rule f) (fun q t => k * temp f (along u v t) q)). intros q.
    apply (DV_ext (fun t => k * (temp f u q + t * temp f v q))); [intros; now rewrite temp_along|]. auto_derive; [exact I|ring].
Qed.
Lemma size_fmag e q u : 0 < el_W e q -> fmag (el_n e) (el_dim e) (el_W e) (el_C e) q (gather (el_glob e) u) = gradient_size e q u.
Proof. intros P. unfold fmag. rewrite (egrad_norm e q u P). unfold gradient_size, field_gradient. field. lra. Qed.
Lemma elem_gradient e (E : nat -> R -> R) u v : (forall q, (q < el_nq e)%nat -> 0 < el_W e q) ->
  (forall q b, (q < el_nq e)%nat -> 0 <= b -> is_derive (E q) b (el_nu e q b * b)) ->
  is_derive (fun t => rsum (el_nq e) (fun q => el_pw e q * el_W e q * E q (gradient_size e q (along u v t)))) 0 (conduction e u v).
Proof.
  intros HW HE. rewrite <- (elem_pair e u v HW). cbn [elemVector].
  set (x := gather (el_glob e) u). set (y := gather (el_glob e) v).
  apply (DV_ext (fun t => rsum (el_nq e) (fun q => 1 * el_pw e q * el_W e q * E q (fmag (el_n e) (el_dim e) (el_W e) (el_C e) q (along x y t))))).
  { intros t. apply rsum_ext. intros q Hq. change (along x y t) with (gather (el_glob e) (along u v t)). rewrite size_fmag by auto. ring. }
  eapply DV_eq; [apply (energy_gradient (el_n e) (el_dim e) (el_nq e) (el_pw e) (el_W e) (el_C e) (el_nu e) 1 HW E x y HE)|].
  unfold dot. apply rsum_ext. intros i _. unfold y, gather. ring.
Qed.
Lemma energy_derive p N nattr M o c E u v : fits N nattr M -> built p nattr o c -> plain_problem o M -> integrates_laws M E ->
  is_derive (fun t => energy p o M E (along u v t)) 0 (dot N v (formVector M c u)).
Proof.
  intros F B P HE. rewrite (plain_pair p N nattr M o c u v F B P). destruct F as (_ & HW & _). unfold energy.
  apply (DV_plus (fun t => total _ _) (fun t => match p with Heat => _ | Magnetism => _ end)).
  - apply (DV_sums (fun e t => rsum (el_nq e) (fun q => el_pw e q * el_W e q * E e q (gradient_size e q (along u v t))))). intros e He.
    apply elem_gradient; [intros; now apply HW|intros; now apply HE].
  - destruct p.
    + apply (DV_sums (fun f t => face_energy o f (along u v t))). intros f _. apply face_gradient.
    + rewrite (sums_ext _ (fun _ => 0)) by reflexivity. rewrite sums_0. apply DV_const.
Qed.

(** ** monotonicity *)
Lemma conduction_monotone k0 e u w : (forall q, (q < el_nq e)%nat -> 0 < el_W e q) ->
  (forall q, (q < el_nq e)%nat -> 0 <= el_pw e q /\ (forall b, 0 <= b -> k0 <= el_nu e q b) /\ forall a b, 0 <= a <= b -> k0 * (b - a) <= el_nu e q b * b - el_nu e q a * a) ->
  k0 * rsum (el_nq e) (fun q => el_pw e q * el_W e q * rsum (el_dim e) (fun k => field_gradient e q (vsub u w) k * field_gradient e q (vsub u w) k)) <=
  conduction e u (vsub u w) - conduction e w (vsub u w).
Proof.
  intros HW H. rewrite <- !(elem_pair e _ _ HW). cbn [elemVector]. set (x := gather (el_glob e) u). set (y := gather (el_glob e) w).
  set (n := el_n e). set (d := el_dim e). set (nq := el_nq e). set (pw := el_pw e). set (W := el_W e). set (C := el_C e).
  assert (Mo := Props_EmInteg.C72_monotone n d nq pw W C (fun q b => el_nu e q b - k0) 1 Rle_0_1). specialize (Mo (fun q Hq => conj (HW q Hq) (proj1 (H q Hq)))).
  specialize (Mo ltac:(intros q b Hq Hb; destruct (H q Hq) as (_ & K & _); specialize (K b Hb); lra)).
  specialize (Mo ltac:(intros q a b Hq Hb; destruct (H q Hq) as (_ & _ & K); specialize (K a b Hb); lra) x y).
  assert (Sp : forall z i, elem_vector n d nq pw W C (el_nu e) 1 z i = elem_vector n d nq pw W C (fun q b => el_nu e q b - k0) 1 z i +
     k0 * rsum nq (fun q => rsum d (fun k => C q i k * (wq pw W 1 q * flux n C q z k)))).
  { intros z i. unfold elem_vector. rewrite <- rsum_scal, <- rsum_plus. apply rsum_ext. intros q _. rewrite <- rsum_scal, <- rsum_plus. apply rsum_ext. intros k _. ring. }
  set (Lz := fun z i => rsum nq (fun q => rsum d (fun k => C q i k * (wq pw W 1 q * flux n C q z k)))).
  assert (Q : rsum n (fun i => vsub u w (el_glob e i) * (Lz x i - Lz y i)) =
    rsum nq (fun q => pw q * W q * rsum d (fun k => field_gradient e q (vsub u w) k * field_gradient e q (vsub u w) k))).
  { set (z := gather (el_glob e) (vsub u w)). assert (Zk : forall q k, flux n C q x k - flux n C q y k = flux n C q z k).
    { intros q k. unfold flux. rewrite <- rsum_minus. apply rsum_ext. intros i _. unfold x, y, z, gather, vsub. ring. }
    rewrite (rsum_ext n _ (fun i => rsum nq (fun q => rsum d (fun k => C q i k * (wq pw W 1 q * flux n C q z k) * z i)))).
    2:{ intros i _. unfold Lz. rewrite <- rsum_minus, <- rsum_scal. apply rsum_ext. intros q _. rewrite <- rsum_minus, <- rsum_scal. apply rsum_ext. intros k _. rewrite <- Zk. change (vsub u w (el_glob e i)) with (z i). ring. }
    rewrite rsum_swap. apply rsum_ext. intros q Hq. rewrite rsum_swap, <- rsum_scal. apply rsum_ext. intros k _.
    rewrite (rsum_ext n _ (fun i => wq pw W 1 q * flux n C q z k * (C q i k * z i))) by (intros; ring). rewrite rsum_scal.
    change (rsum n (fun i => C q i k * z i)) with (flux n C q z k). assert (Ef := egrad_flux e q (vsub u w) k (HW q Hq)). fold z n C W in Ef. rewrite Ef.
    unfold field_gradient, wq. field. assert (P0 := HW q Hq). unfold W. lra. }
  rewrite <- Q. rewrite <- rsum_minus.
  rewrite (rsum_ext n (fun i => _ - _) (fun i => (elem_vector n d nq pw W C (fun q b => el_nu e q b - k0) 1 x i - elem_vector n d nq pw W C (fun q b => el_nu e q b - k0) 1 y i) * (x i - y i) +
     k0 * (vsub u w (el_glob e i) * (Lz x i - Lz y i)))).
  2:{ intros i _. rewrite !Sp. unfold Lz, x, y, gather, vsub. ring. }
  rewrite rsum_plus, rsum_scal. unfold dot, vsub in Mo. lra.
Qed.
Lemma boundary_monotone p o f u w : (forall q r, (r < npts (tf_th f) q)%nat -> 0 <= wts (tf_th f) q r * Wf (tf_th f) q r (tf_XT f)) ->
  (let w := get (get o "bcs") "convection" in lists (attributes w) f = true -> 0 <= num w "h" 1) ->
  0 <= boundary_form p o f u (vsub u w) - boundary_form p o f w (vsub u w).
Proof.
  intros Wt H. cbv zeta in H. unfold boundary_form. cbv zeta. destruct p; [|lra]. rewrite !exchange_conv, !exchange_out.
  assert (A : 0 <= when (lists (attributes (get (get o "bcs") "convection")) f) (integral (tf_th f) (tf_XT f) (rule f) (fun q => num (get (get o "bcs") "convection") "h" 1 * (temp f u q - num (get (get o "bcs") "convection") "fluid_temp" 1) * temp f (vsub u w) q)) -
    when (lists (attributes (get (get o "bcs") "convection")) f) (integral (tf_th f) (tf_XT f) (rule f) (fun q => num (get (get o "bcs") "convection") "h" 1 * (temp f w q - num (get (get o "bcs") "convection") "fluid_temp" 1) * temp f (vsub u w) q))).
  { destruct (lists _ f); cbn [when]; [|lra]. rewrite integral_minus. apply integral_nonneg; [apply Wt|]. intros q. rewrite temp_sub. specialize (H eq_refl).
    match goal with |- 0 <= ?e => replace e with (num (get (get o "bcs") "convection") "h" 1 * ((temp f u q - temp f w q) * (temp f u q - temp f w q))) by ring end. apply Rmult_le_pos; [exact H|apply Rle_0_sqr]. }
  lra.
Qed.
Lemma plain_monotone p N nattr M o c k0 u w : fits N nattr M -> built p nattr o c -> plain_problem o M -> monotone_laws k0 o M ->
  k0 * gradient_energy M (vsub u w) <= dot N (vsub u w) (formVector M c u) - dot N (vsub u w) (formVector M c w).
Proof.
  intros F B P (M1 & M2 & M3). rewrite !(plain_pair p N nattr M o c _ _ F B P). destruct F as (_ & HW & _).
  assert (A : k0 * gradient_energy M (vsub u w) <= total (fun e => conduction e u (vsub u w)) (elems M) - total (fun e => conduction e w (vsub u w)) (elems M)).
  { unfold gradient_energy. rewrite <- sums_scal. replace (total (fun e => conduction e u (vsub u w)) (elems M) - total (fun e => conduction e w (vsub u w)) (elems M))
      with (total (fun e => conduction e u (vsub u w) + (-1) * conduction e w (vsub u w)) (elems M)) by (rewrite sums_plus, sums_scal; ring).
    apply Props_ThermalOptions.sums_le. intros e He. assert (X := conduction_monotone k0 e u w (fun q Hq => HW e q He Hq) (fun q Hq => M1 e q He Hq)). lra. }
  assert (A2 : total (fun _ => 0) (outer M) <= total (fun f => boundary_form p o f u (vsub u w) + (-1) * boundary_form p o f w (vsub u w)) (outer M)).
  { apply Props_ThermalOptions.sums_le. intros f Hf. assert (X := boundary_monotone p o f u w (fun q r => M2 f q r Hf) (M3 f Hf)). lra. }
  rewrite sums_0, sums_plus, sums_scal in A2. lra.
Qed.

(** ** square systems: an injective matrix is onto *)
Definition skip (p j : nat) : nat := if (j <? p)%nat then j else S j.
Lemma rsum_skip n p f : (p <= n)%nat -> rsum (S n) f = f p + rsum n (fun j => f (skip p j)).
Proof.
  induction n as [|n IH]; intros H.
  - replace p with O by lia. cbn. ring.
  - destruct (Nat.eq_dec p (S n)) as [->|N].
    + cbn [rsum]. rewrite (rsum_ext n (fun j => f (skip (S n) j)) f).
      2:{ intros j Hj. unfold skip. destruct (Nat.ltb_spec j (S n)); [reflexivity|lia]. }
      unfold skip. destruct (Nat.ltb_spec n (S n)); [|lia]. ring.
    + change (rsum (S (S n)) f) with (rsum (S n) f + f (S n)). rewrite IH by lia. cbn [rsum]. unfold skip at 3. destruct (Nat.ltb_spec n p); [lia|]. ring.
Qed.
Lemma underdetermined m : forall A : nat -> nat -> R, exists x : vec, (exists j, (j <= m)%nat /\ x j <> 0) /\ forall i, (i < m)%nat -> rsum (S m) (fun j => A i j * x j) = 0.
Proof.
  induction m as [|m IH]; intros A.
  - exists (fun _ => 1). split; [exists O; split; [lia|lra]|intros i Hi; lia].
  - assert (Dec : (exists p, (p <= S m)%nat /\ A m p <> 0) \/ forall p, (p <= S m)%nat -> A m p = 0).
    { clear IH. induction (S m) as [|k [(p & Hp & E)|Z]].
      - destruct (Req_EM_T (A m O) 0) as [E|E]; [right; intros p Hp; now replace p with O by lia|left; exists O; split; [lia|exact E]].
      - left. exists p. split; [lia|exact E].
      - destruct (Req_EM_T (A m (S k)) 0) as [E|E]; [|left; exists (S k); split; [lia|exact E]].
        right. intros p Hp. destruct (Nat.eq_dec p (S k)) as [->|N]; [exact E|apply Z; lia]. }
    destruct Dec as [(p & Hp & E)|Z].
    + destruct (IH (fun i j => A i (skip p j) - A i p * A m (skip p j) / A m p)) as (y & (j0 & Hj0 & Ny) & Hy).
      set (s := rsum (S m) (fun j => A m (skip p j) * y j)).
      set (x := fun k => if Nat.eqb k p then - s / A m p else y (if (k <? p)%nat then k else pred k)).
      assert (Xs : forall j, x (skip p j) = y j).
      { intros j. unfold x, skip. destruct (Nat.ltb_spec j p) as [L|L].
        - destruct (Nat.eqb_spec j p); [lia|]. destruct (Nat.ltb_spec j p); [reflexivity|lia].
        - destruct (Nat.eqb_spec (S j) p); [lia|]. destruct (Nat.ltb_spec (S j) p); [lia|reflexivity]. }
      assert (Xp : x p = - s / A m p) by (unfold x; now rewrite Nat.eqb_refl).
      exists x. split.
      * exists (skip p j0). split; [unfold skip; destruct (Nat.ltb_spec j0 p); lia|]. rewrite Xs. exact Ny.
      * intros i Hi. rewrite (rsum_skip (S m) p) by exact Hp. rewrite Xp. rewrite (rsum_ext (S m) _ (fun j => A i (skip p j) * y j)) by (intros; now rewrite Xs).
        destruct (Nat.eq_dec i m) as [->|N].
        -- fold s. field. exact E.
        -- specialize (Hy i ltac:(lia)).
           rewrite (rsum_ext (S m) _ (fun j => A i (skip p j) * y j + (- A i p / A m p) * (A m (skip p j) * y j))) in Hy by (intros; field; exact E).
           rewrite rsum_plus, rsum_scal in Hy. fold s in Hy. rewrite <- Hy. field. exact E.
    + destruct (IH A) as (y & (j0 & Hj0 & Ny) & Hy).
      exists (fun k => if Nat.eqb k (S m) then 0 else y k). split.
      * exists j0. split; [lia|]. destruct (Nat.eqb_spec j0 (S m)); [lia|exact Ny].
      * intros i Hi. destruct (Nat.eq_dec i m) as [->|N].
        -- rewrite (rsum_ext _ _ (fun _ => 0)); [apply rsum_0|]. intros j Hj. rewrite Z by lia. ring.
        -- change (rsum (S (S m)) ?f) with (rsum (S m) f + f (S m)). cbv beta. rewrite Nat.eqb_refl, Rmult_0_r, Rplus_0_r.
           rewrite <- (Hy i ltac:(lia)). apply rsum_ext. intros j Hj. destruct (Nat.eqb_spec j (S m)); [lia|reflexivity].
Qed.
Lemma injective_onto n (A : nat -> nat -> R) : (forall x, veq n (mv n A x) (fun _ => 0) -> veq n x (fun _ => 0)) -> forall b, exists x, veq n (mv n A x) b.
Proof.
  intros Inj b. destruct (underdetermined n (fun i j => if Nat.eqb j n then - b i else A i j)) as (y & (j0 & Hj0 & Ny) & Hy).
  assert (Hy2 : forall i, (i < n)%nat -> mv n A y i = b i * y n).
  { intros i Hi. specialize (Hy i Hi). cbn [rsum] in Hy. rewrite Nat.eqb_refl in Hy. rewrite (rsum_ext n _ (fun j => A i j * y j)) in Hy.
    - unfold mv. lra.
    - intros j Hj. destruct (Nat.eqb_spec j n); [lia|reflexivity]. }
  destruct (Req_EM_T (y n) 0) as [Z|Z].
  - exfalso. apply Ny. destruct (Nat.eq_dec j0 n) as [->|N]; [exact Z|]. apply (Inj y); [|lia]. intros i Hi. rewrite Hy2, Z by exact Hi. ring.
  - exists (fun j => y j / y n). intros i Hi. unfold mv. rewrite (rsum_ext n _ (fun j => A i j * y j * / y n)) by (intros; unfold Rdiv; ring).
    rewrite rsum_scal_r. change (rsum n (fun j => A i j * y j)) with (mv n A y i). rewrite Hy2 by exact Hi. field. exact Z.
Qed.
