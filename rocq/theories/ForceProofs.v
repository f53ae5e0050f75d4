From Coq Require Import Reals List Bool Arith Lra Lia.
From Coquelicot Require Import Coquelicot.
From Verif Require Import Num Vec Deriv EmIntegSpec EmInteg EmIntegProofs EmMeshProofs IsoGeom Force ForceSpec.
Import ListNotations.
Local Open Scope R_scope.

Lemma Rdiv_1 x : x / 1 = x. Proof. field. Qed.
(** ** determinants *)
Definition lin (J E : mat) (t : R) : mat := fun k l => J k l + t * E k l.
Definition ddet (three : bool) (J E : mat) : R := rsum (gdim three) (fun k => rsum (gdim three) (fun l => gadj three J l k * E k l)).
Lemma gdet_path three J E : is_derive (fun t : R => gdet three (lin J E t)) 0 (ddet three J E).
Proof.
  unfold gdet, ddet, gadj, lin. destruct three; cbn [gdim rsum].
  - unfold det3, cof3.
    generalize (J 0%nat 0%nat) (J 0%nat 1%nat) (J 0%nat 2%nat) (J 1%nat 0%nat) (J 1%nat 1%nat) (J 1%nat 2%nat) (J 2%nat 0%nat) (J 2%nat 1%nat) (J 2%nat 2%nat).
    generalize (E 0%nat 0%nat) (E 0%nat 1%nat) (E 0%nat 2%nat) (E 1%nat 0%nat) (E 1%nat 1%nat) (E 1%nat 2%nat) (E 2%nat 0%nat) (E 2%nat 1%nat) (E 2%nat 2%nat).
    intros. auto_derive; [exact Logic.I|]. ring.
  - unfold det2, adj2. auto_derive; [exact Logic.I|]. ring.
Qed.
Lemma gadj_path three J E a b : is_derive (fun t : R => gadj three (lin J E t) a b) 0 (gdadj three J E a b).
Proof.
  unfold gadj, gdadj, lin. destruct three.
  - destruct b as [|[|b]], a as [|[|a]]; unfold cof3;
    generalize (J 0%nat 0%nat) (J 0%nat 1%nat) (J 0%nat 2%nat) (J 1%nat 0%nat) (J 1%nat 1%nat) (J 1%nat 2%nat) (J 2%nat 0%nat) (J 2%nat 1%nat) (J 2%nat 2%nat);
    generalize (E 0%nat 0%nat) (E 0%nat 1%nat) (E 0%nat 2%nat) (E 1%nat 0%nat) (E 1%nat 1%nat) (E 1%nat 2%nat) (E 2%nat 0%nat) (E 2%nat 1%nat) (E 2%nat 2%nat);
    intros; (auto_derive; [exact Logic.I|]); ring.
  - destruct a, b; unfold adj2; (auto_derive; [exact Logic.I|]); ring.
Qed.
Ltac lt_cases H := cbn [gdim] in H; repeat (match type of H with (?a < S _)%nat => is_var a; destruct a; [clear H|apply PeanoNat.Nat.succ_lt_mono in H] end); try (exfalso; lia).
Lemma inv_path three J E a b : (a < gdim three)%nat -> (b < gdim three)%nat ->
  gdadj three J E a b * gdet three J - gadj three J a b * ddet three J E =
  - rsum (gdim three) (fun c => rsum (gdim three) (fun e => gadj three J a c * E c e * gadj three J e b)).
Proof.
  intros Ha Hb. unfold ddet, gdadj, gadj, gdet. destruct three.
  - destruct a as [|[|[|a]]]; [| | |cbn in Ha; lia]; (destruct b as [|[|[|b]]]; [| | |cbn in Hb; lia]); cbn [gdim rsum]; unfold det3, cof3; ring.
  - destruct a as [|[|a]]; [| |cbn in Ha; lia]; (destruct b as [|[|b]]; [| |cbn in Hb; lia]); cbn [gdim rsum]; unfold det2, adj2; ring.
Qed.
(** the derivative of the adjugate is linear in the direction *)
Lemma dadj_sum three J E a b : gdadj three J E a b =
  rsum (gdim three) (fun k => rsum (gdim three) (fun l => gdadj three J (unit_mat k l) a b * E k l)).
Proof.
  unfold gdadj, unit_mat. destruct three.
  - destruct a as [|[|a]], b as [|[|b]]; cbn [gdim rsum]; unfold cof3; cbn [Nat.eqb andb]; ring.
  - destruct a, b; cbn [gdim rsum]; unfold adj2; cbn [Nat.eqb andb]; ring.
Qed.

(** ** one quadrature point: everything is a function of the Jacobian J, the reference field h and the direction G *)
Definition bb (three : bool) (J : mat) (h : vec) : vec := fun k =>
  rsum (gdim three) (fun a => (if three then J k a else gadj three J a k) * h a).
Definition bdot (three : bool) (J G : mat) (h : vec) : vec := fun k =>
  rsum (gdim three) (fun a => (if three then G k a else gdadj three J G a k) * h a).
Definition pB (three : bool) (J G : mat) (h : vec) : R :=
  rsum (gdim three) (fun k => bb three J h k * rsum (gdim three) (fun l => G k l * (if three then h l else mv 2 (gadj three J) (bb three J h) l))).
Lemma bb_path three J G h k : is_derive (fun t : R => bb three (lin J G t) h k) 0 (bdot three J G h k).
Proof.
  unfold bb, bdot. apply (DV_sum (gdim three) (fun a (t : R) => (if three then lin J G t k a else gadj three (lin J G t) a k) * h a)). intros a _. apply DV_scal_r.
  destruct three; [|apply gadj_path]. unfold lin.
  apply (DV_eq _ 0 (0 + 1 * G k a)); [apply DV_plus; [apply DV_const|apply DV_scal_r, DV_id]|ring].
Qed.
Lemma lin_0 (J G : mat) : forall k l, lin J G 0 k l = J k l. Proof. intros. unfold lin. ring. Qed.
Lemma gdet_lin0 three J G : gdet three (lin J G 0) = gdet three J.
Proof. unfold gdet, det2, det3. destruct three; now rewrite !lin_0. Qed.
Lemma gadj_lin0 three J G a b : gadj three (lin J G 0) a b = gadj three J a b.
Proof. unfold gadj, adj2, cof3. destruct three; [destruct b as [|[|b]], a as [|[|a]]|destruct a, b]; now rewrite ?lin_0. Qed.
Lemma bb_lin0 three J G h k : bb three (lin J G 0) h k = bb three J h k.
Proof. unfold bb. apply rsum_ext. intros a _. destruct three; [now rewrite lin_0|now rewrite gadj_lin0]. Qed.
Lemma norm_ext n (a b : vec) : (forall i, (i < n)%nat -> a i = b i) -> norm n a = norm n b.
Proof. intros H. unfold norm, dot. f_equal. apply rsum_ext. intros i Hi. now rewrite (H i Hi). Qed.
Lemma dot_ext' n (a b c e : vec) : (forall i, (i < n)%nat -> a i = b i) -> (forall i, (i < n)%nat -> c i = e i) -> dot n a c = dot n b e.
Proof. intros H K. unfold dot. apply rsum_ext. intros i Hi. now rewrite (H i Hi), (K i Hi). Qed.
(** W b.b' = |b|^2 W' - B in the plane, b.b' = B in space *)
Lemma bdot_B (three : bool) J G h : if three then dot (gdim three) (bb three J h) (bdot three J G h) = pB three J G h
  else gdet three J * dot (gdim three) (bb three J h) (bdot three J G h) = dot (gdim three) (bb three J h) (bb three J h) * ddet three J G - pB three J G h.
Proof.
  destruct three; [reflexivity|]. unfold pB, bb, bdot, ddet, dot, mv, gadj, gdadj, gdet. cbn [gdim rsum]. unfold det2, adj2. ring.
Qed.
Section PointFun.
Variables (three : bool) (Ef E1f : R -> R) (w : R).
Notation d := (gdim three).
Definition pmag (J : mat) (h : vec) : R := norm d (bb three J h) / gdet three J.
Definition Eng (J : mat) (h : vec) : R := Ef (pmag J h) * (w * gdet three J).
Definition pdB (J G : mat) (h : vec) : R :=
  if three then - norm d (bb three J h) / gdet three J ^ 2 * ddet three J G + pB three J G h / (gdet three J * norm d (bb three J h))
  else - pB three J G h / (norm d (bb three J h) * gdet three J ^ 2).
Definition Fp (J G : mat) (h : vec) : R := (pdB J G h * E1f (pmag J h) + Ef (pmag J h) * (ddet three J G / gdet three J)) * (w * gdet three J).
Hypothesis HE : forall b, 0 < b -> is_derive Ef b (E1f b).
Lemma pmag_path J G h : 0 < gdet three J -> norm d (bb three J h) <> 0 -> is_derive (fun t : R => pmag (lin J G t) h) 0 (pdB J G h).
Proof.
  intros P N. destruct (norm_nonzero _ _ N) as [PD PN]. unfold pmag.
  assert (N0 : norm d (bb three (lin J G 0) h) = norm d (bb three J h)) by (apply norm_ext; intros; apply bb_lin0).
  eapply DV_eq; [apply (DV_div (fun t => norm d (bb three (lin J G t) h)) (fun t => gdet three (lin J G t)) 0);
    [apply (DV_norm d (fun t => bb three (lin J G t) h) (bdot three J G h)); [intros k _; apply bb_path|now rewrite N0]|apply gdet_path|rewrite gdet_lin0; lra]|].
  rewrite N0, gdet_lin0.
  rewrite (dot_ext' d _ (bb three J h) _ (bdot three J G h)) by (intros; (apply bb_lin0 || reflexivity)).
  assert (K := bdot_B three J G h). assert (S := norm_sq d (bb three J h)). unfold pdB.
  set (n := norm d (bb three J h)) in *. set (W := gdet three J) in *. set (q := dot d (bb three J h) (bdot three J G h)) in *.
  destruct three.
  - rewrite K. field. split; lra.
  - replace (pB false J G h) with (n * n * ddet false J G - W * q) by (rewrite S; lra). field. split; lra.
Qed.
Lemma Eng_path J G h : 0 < gdet three J -> norm d (bb three J h) <> 0 -> is_derive (fun t : R => Eng (lin J G t) h) 0 (Fp J G h).
Proof.
  intros P N. destruct (norm_nonzero _ _ N) as [PD PN]. unfold Eng, Fp.
  assert (M0 : pmag (lin J G 0) h = pmag J h).
  { unfold pmag. rewrite gdet_lin0. f_equal. apply norm_ext; intros; apply bb_lin0. }
  apply (DV_eq _ 0 (E1f (pmag (lin J G 0) h) * pdB J G h * (w * gdet three (lin J G 0)) + Ef (pmag (lin J G 0) h) * (w * ddet three J G))).
  - apply (DV_mult (fun t => Ef (pmag (lin J G t) h)) (fun t => w * gdet three (lin J G t))).
    + apply (DV_comp Ef (fun t => pmag (lin J G t) h)); [|now apply pmag_path]. apply HE. rewrite M0. unfold pmag. now apply Rdiv_lt_0_compat.
    + apply DV_scal, gdet_path.
  - rewrite M0, gdet_lin0. field. lra.
Qed.
End PointFun.

(** ** the model at a point *)
Section Link.
Variables (three : bool) (ndof nn nq : nat) (pw : nat -> R) (dN shape : nat -> mat).
Variables (pnu pdnu pd2nu : nat -> R -> R) (ns : nat) (sx sw : nat -> R).
Notation d := (gdim three).
Notation Jq q X := (f_jac nn dN q X).
Notation hq q u := (f_bhat ndof shape u q).
Notation Ef q := (calcMagneticEnergy ns sx sw (pnu q)).
Notation E1f q := (calcMagneticEnergyDot ns sx sw (pnu q) (pdnu q)).
Lemma b_link X u q k : f_b three ndof nn dN shape X u q k = bb three (Jq q X) (hq q u) k.
Proof.
  unfold f_b, flux, f_S, bb, f_bhat, curlshape_dFt, dshapedxt, f_adj.
  transitivity (rsum ndof (fun i => rsum d (fun a => (if three then f_jac nn dN q X k a else gadj three (f_jac nn dN q X) a k) * (shape q i a * u i)))).
  - apply rsum_ext. intros i _. destruct three; rewrite <- rsum_scal_r; apply rsum_ext; intros; ring.
  - rewrite rsum_swap. apply rsum_ext. intros a _. now rewrite rsum_scal.
Qed.
Lemma n_link X u q : f_n three ndof nn dN shape X u q = norm d (bb three (Jq q X) (hq q u)).
Proof. apply norm_ext. intros; apply b_link. Qed.
Lemma mag_link X u q : f_mag three ndof nn dN shape X u q = pmag three (Jq q X) (hq q u).
Proof. unfold f_mag, pmag. now rewrite n_link. Qed.
Lemma G_link V q k l : f_dJds nn dN V q k l = iso_jac nn (dN q) V k l. Proof. reflexivity. Qed.
Lemma badj_link X u q l : f_badj three ndof nn dN shape X u q l = mv d (gadj three (Jq q X)) (bb three (Jq q X) (hq q u)) l.
Proof. unfold f_badj, mv. apply rsum_ext. intros; now rewrite b_link. Qed.
Lemma dBds_link X V u q : 0 < gdet three (Jq q X) -> norm d (bb three (Jq q X) (hq q u)) <> 0 ->
  f_dBds three ndof nn dN shape X V u q = pdB three (Jq q X) (iso_jac nn (dN q) V) (hq q u).
Proof.
  intros P N. unfold f_dBds, f_dBdX, f_jac_rev. rewrite rsum_swap.
  change (pairing d nn (to_nodes (dN q) d (f_dbdJ three ndof nn dN shape X u q)) V = pdB three (Jq q X) (iso_jac nn (dN q) V) (hq q u)).
  rewrite to_nodes_pair. unfold pairing, f_dbdJ, pdB, pB, ddet, f_a. set (n := f_n three ndof nn dN shape X u q).
  assert (En : n = norm d (bb three (Jq q X) (hq q u))) by apply n_link. rewrite <- En in *. change (f_wt three nn dN q X) with (gdet three (Jq q X)). set (W := gdet three (Jq q X)) in *.
  assert (BL := b_link X u q). assert (BA := badj_link X u q). clearbody n W. revert BL BA. unfold f_adj. set (J := f_jac nn dN q X). destruct three; intros BL BA.
  - unfold Rdiv. rewrite <- rsum_scal, <- rsum_scal_r, <- rsum_plus. apply rsum_ext. intros k _.
    rewrite <- rsum_scal, <- rsum_scal, <- rsum_scal_r, <- rsum_plus. apply rsum_ext. intros l _. rewrite BL. field. split; lra.
  - unfold Rdiv. rewrite <- rsum_opp, <- rsum_scal_r. apply rsum_ext. intros k _.
    rewrite <- rsum_scal, <- rsum_opp, <- rsum_scal_r. apply rsum_ext. intros l _. rewrite BL, BA. cbn [gdim]. field. split; lra.
Qed.
Lemma tr_link X V q : f_tr three nn dN X V q = ddet three (Jq q X) (iso_jac nn (dN q) V) / gdet three (Jq q X).
Proof.
  unfold f_tr, ddet, f_inv. rewrite rsum_swap. unfold Rdiv at 2. rewrite <- rsum_scal_r. apply rsum_ext. intros k _. rewrite <- rsum_scal_r. apply rsum_ext. intros l _.
  unfold f_adj. change (f_wt three nn dN q X) with (gdet three (Jq q X)). rewrite G_link. unfold Rdiv. ring.
Qed.
Lemma point_link X V u q : 0 < gdet three (Jq q X) -> norm d (bb three (Jq q X) (hq q u)) <> 0 ->
  f_point three ndof nn pw dN shape pnu pdnu ns sx sw X V u q = Fp three (Ef q) (E1f q) (pw q) (Jq q X) (iso_jac nn (dN q) V) (hq q u).
Proof.
  intros P N. unfold f_point, Fp, f_E, f_E1, f_w. rewrite dBds_link, tr_link, mag_link by assumption. reflexivity.
Qed.
Lemma energy_link X u : f_energy three ndof nn nq pw dN shape pnu ns sx sw X u =
  rsum nq (fun q => Eng three (Ef q) (pw q) (Jq q X) (hq q u)).
Proof.
  unfold f_energy, element_energy. apply rsum_ext. intros q _. unfold Eng, fmag, pmag. change (f_wt three nn dN q X) with (gdet three (Jq q X)).
  f_equal. f_equal. f_equal. apply norm_ext. intros. apply b_link.
Qed.
Lemma gdet_ext J K : (forall k l, (k < d)%nat -> (l < d)%nat -> J k l = K k l) -> gdet three J = gdet three K.
Proof. intros H. unfold gdet, det2, det3. destruct three; rewrite !H by (cbn; lia); reflexivity. Qed.
Lemma gadj_ext J K a b : (forall k l, (k < d)%nat -> (l < d)%nat -> J k l = K k l) -> gadj three J a b = gadj three K a b.
Proof. intros H. unfold gadj, adj2, cof3. destruct three; [destruct b as [|[|b]], a as [|[|a]]|destruct a, b]; rewrite !H by (cbn; lia); reflexivity. Qed.
Lemma bb_ext J K h k : (k < d)%nat -> (forall k l, (k < d)%nat -> (l < d)%nat -> J k l = K k l) -> bb three J h k = bb three K h k.
Proof. intros Hk H. unfold bb. apply rsum_ext. intros a Ha. f_equal. generalize (gadj_ext J K a k H). generalize (H k a Hk Ha). destruct three; congruence. Qed.
Lemma Eng_ext E w J K h : (forall k l, (k < d)%nat -> (l < d)%nat -> J k l = K k l) -> Eng three E w J h = Eng three E w K h.
Proof. intros H. unfold Eng, pmag. rewrite (gdet_ext J K H), (norm_ext d _ (bb three K h)); [reflexivity|]. intros k Hk. now apply bb_ext. Qed.
Lemma jac_lin X V q t k l : f_jac nn dN q (moved X V t) k l = lin (Jq q X) (iso_jac nn (dN q) V) t k l.
Proof. apply jac_moved. Qed.
Lemma energy_moved X V u t : f_energy three ndof nn nq pw dN shape pnu ns sx sw (moved X V t) u =
  rsum nq (fun q => Eng three (Ef q) (pw q) (lin (Jq q X) (iso_jac nn (dN q) V) t) (hq q u)).
Proof. rewrite energy_link. apply rsum_ext. intros q _. apply Eng_ext. intros; apply jac_lin. Qed.
Hypothesis Hnu : forall q b, (q < nq)%nat -> 0 < b -> is_derive (pnu q) b (pdnu q b).
Hypothesis Hsx : forall j, (j < ns)%nat -> 0 < sx j.
Variables (X V : mat) (u : vec).
Hypothesis PW : forall q, (q < nq)%nat -> 0 < f_wt three nn dN q X.
Lemma E_path q b : (q < nq)%nat -> 0 < b -> is_derive (Ef q) b (E1f q b).
Proof. intros Hq Hb. exact (energy_point nq pnu pdnu ns sx sw Hnu Hsx q b Hq Hb). Qed.
Lemma ok_link : f_ok three ndof nn nq dN shape X u = true <-> forall q, (q < nq)%nat -> norm d (bb three (Jq q X) (hq q u)) <> 0.
Proof.
  unfold f_ok. rewrite <- all_nonzero. split; intros H q Hq; generalize (H q Hq); change (norm d (flux ndof (f_S three nn dN shape X) q u)) with (f_n three ndof nn dN shape X u q); now rewrite n_link.
Qed.
Lemma work_element : f_ok three ndof nn nq dN shape X u = true ->
  is_derive (fun t : R => f_energy three ndof nn nq pw dN shape pnu ns sx sw (moved X V t) u) 0
    (rsum nq (f_point three ndof nn pw dN shape pnu pdnu ns sx sw X V u)).
Proof.
  intros OK. assert (N := proj1 ok_link OK).
  apply (DV_ext (fun t => rsum nq (fun q => Eng three (Ef q) (pw q) (lin (Jq q X) (iso_jac nn (dN q) V) t) (hq q u)))); [intros; symmetry; apply energy_moved|].
  apply (DV_sum nq (fun q t => Eng three (Ef q) (pw q) (lin (Jq q X) (iso_jac nn (dN q) V) t) (hq q u))). intros q Hq.
  rewrite point_link by (try apply PW; auto). apply Eng_path; auto. intros; now apply E_path. now apply PW.
Qed.
(** a rigid motion: G = Omega J *)
Lemma rigid_G q : (forall l, (l < d)%nat -> rsum nn (fun j => dN q j l) = 0) -> rigid_nodes d nn X V ->
  exists Om : mat, (forall k c, Om k c = - Om c k) /\ forall k l, (k < d)%nat -> (l < d)%nat -> iso_jac nn (dN q) V k l = rsum d (fun c => Om k c * Jq q X c l).
Proof.
  intros HN (Om & tau & AS & HV). exists Om. split; [exact AS|]. intros k l Hk Hl. unfold f_jac, iso_jac.
  rewrite (rsum_ext nn _ (fun j => rsum d (fun c => Om k c * (X c j * dN q j l)) + tau k * dN q j l)).
  2:{ intros j Hj. rewrite (HV k j Hk Hj), Rmult_plus_distr_r, <- rsum_scal_r. f_equal. apply rsum_ext. intros; ring. }
  rewrite rsum_plus, rsum_scal, (HN l Hl), Rmult_0_r, Rplus_0_r, rsum_swap. apply rsum_ext. intros c _. now rewrite rsum_scal.
Qed.
End Link.
Lemma rigid_det (three : bool) J Om : (forall k c, Om k c = - Om c k) -> ddet three J (fun k l => rsum (gdim three) (fun c => Om k c * J c l)) = 0.
Proof.
  intros A. assert (Z : forall k, Om k k = 0) by (intros k; specialize (A k k); lra).
  unfold ddet, gadj. destruct three; cbn [gdim rsum].
  - rewrite !Z, (A 1%nat 0%nat), (A 2%nat 0%nat), (A 2%nat 1%nat). unfold cof3. ring.
  - rewrite !Z, (A 1%nat 0%nat). unfold adj2. ring.
Qed.
(** the field turns with the body *)
Lemma rigid_b (three : bool) J Om h t k : (k < gdim three)%nat -> (forall k c, Om k c = - Om c k) ->
  bb three (lin J (fun k l => rsum (gdim three) (fun c => Om k c * J c l)) t) h k =
  bb three J h k + t * rsum (gdim three) (fun c => Om k c * bb three J h c).
Proof.
  intros Hk A. assert (Z : forall k, Om k k = 0) by (intros c; specialize (A c c); lra).
  unfold bb, lin, gadj. destruct three.
  - destruct k as [|[|[|k]]]; [| | |cbn in Hk; lia]; cbn [gdim rsum]; rewrite !Z; ring.
  - destruct k as [|[|k]]; [| |cbn in Hk; lia]; cbn [gdim rsum]; unfold adj2; rewrite !Z, ?(A 1%nat 0%nat); ring.
Qed.
Lemma rigid_dot n (Om : mat) (b : vec) : (forall k c, Om k c = - Om c k) -> dot n b (fun k => rsum n (fun c => Om k c * b c)) = 0.
Proof.
  intros A. unfold dot.
  assert (H : rsum n (fun k => b k * rsum n (fun c => Om k c * b c)) = - rsum n (fun k => b k * rsum n (fun c => Om k c * b c))).
  { rewrite (rsum_ext n _ (fun k => rsum n (fun c => Om k c * (b k * b c)))) at 1 by (intros; rewrite <- rsum_scal; apply rsum_ext; intros; ring).
    rewrite rsum_swap, <- rsum_opp. apply rsum_ext. intros k _. rewrite <- rsum_scal, <- rsum_opp. apply rsum_ext. intros c _. rewrite (A c k). ring. }
  lra.
Qed.
Lemma rigid_pB (three : bool) J Om h : (forall k c, Om k c = - Om c k) -> pB three J (fun k l => rsum (gdim three) (fun c => Om k c * J c l)) h = 0.
Proof.
  intros A. assert (Z : forall k, Om k k = 0) by (intros c; specialize (A c c); lra).
  unfold pB, bb, gadj, mv. destruct three; cbn [gdim rsum].
  - rewrite !Z, (A 1%nat 0%nat), (A 2%nat 0%nat), (A 2%nat 1%nat). ring.
  - unfold adj2. rewrite !Z, (A 1%nat 0%nat). ring.
Qed.
Lemma rigid_element (three : bool) (ndof nn nq : nat) (pw : nat -> R) (dN shape : nat -> mat) (pnu pdnu : nat -> R -> R) (ns : nat) (sx sw : nat -> R) X V u :
  (forall q b, (q < nq)%nat -> 0 < b -> is_derive (pnu q) b (pdnu q b)) -> (forall j, (j < ns)%nat -> 0 < sx j) ->
  (forall q, (q < nq)%nat -> 0 < f_wt three nn dN q X) ->
  (forall q l, (q < nq)%nat -> (l < gdim three)%nat -> rsum nn (fun j => dN q j l) = 0) -> rigid_nodes (gdim three) nn X V ->
  is_derive (fun t : R => f_energy three ndof nn nq pw dN shape pnu ns sx sw (moved X V t) u) 0 0.
Proof.
  intros Hnu Hsx PW HN HR.
  apply (DV_ext (fun t => rsum nq (fun q => Eng three (calcMagneticEnergy ns sx sw (pnu q)) (pw q) (lin (f_jac nn dN q X) (iso_jac nn (dN q) V) t) (f_bhat ndof shape u q)))); [intros; symmetry; apply energy_moved|].
  apply (DV_eq _ 0 (rsum nq (fun _ => 0))); [|apply rsum_0].
  apply (DV_sum nq (fun q t => Eng three (calcMagneticEnergy ns sx sw (pnu q)) (pw q) (lin (f_jac nn dN q X) (iso_jac nn (dN q) V) t) (f_bhat ndof shape u q))). intros q Hq.
  destruct (rigid_G three nn dN X V q (fun l Hl => HN q l Hq Hl) HR) as (Om & A & HG).
  set (J := f_jac nn dN q X) in *. set (h := f_bhat ndof shape u q). set (G := fun k l => rsum (gdim three) (fun c => Om k c * J c l)).
  apply (DV_ext (fun t => Eng three (calcMagneticEnergy ns sx sw (pnu q)) (pw q) (lin J G t) h)).
  { intros t. apply Eng_ext. intros k l Hk Hl. unfold lin. now rewrite (HG k l Hk Hl). }
  destruct (Req_EM_T (norm (gdim three) (bb three J h)) 0) as [Z|N].
  - apply (DV_ext (fun _ => 0)); [|apply DV_const]. intros t. unfold Eng, pmag.
    assert (N0 : norm (gdim three) (bb three (lin J G t) h) = 0).
    { rewrite <- Z. apply norm_ext. intros k Hk. unfold G. rewrite rigid_b by assumption.
      rewrite (rsum_ext (gdim three) _ (fun _ => 0)); [rewrite rsum_0; ring|]. intros c Hc. rewrite (norm_0 _ _ Z c Hc). ring. }
    rewrite N0. unfold calcMagneticEnergy. unfold Rdiv. ring.
  - apply (DV_eq _ 0 (Fp three (calcMagneticEnergy ns sx sw (pnu q)) (calcMagneticEnergyDot ns sx sw (pnu q) (pdnu q)) (pw q) J G h)).
    + apply Eng_path; [intros b Hb; now apply (E_path nq pnu pdnu ns sx sw Hnu Hsx)|now apply PW|exact N].
    + unfold Fp, pdB, G. rewrite rigid_det, rigid_pB by assumption. destruct three; unfold Rdiv; ring.
Qed.

(** ** the mesh *)
Lemma rmaxn_le n f : forall i, (i < n)%nat -> f i <= rmaxn n f.
Proof.
  induction n as [|n IH]; intros i Hi; [lia|]. cbn [rmaxn]. destruct (Nat.eq_dec i n) as [->|]; [apply Rmax_r|].
  apply Rle_trans with (rmaxn n f); [apply IH; lia|apply Rmax_l].
Qed.
Definition el_rigid (three : bool) (X V : mat) (e : felem) : Prop := rigid_nodes (gdim three) (fe_nn e) (el_mat e X) (el_mat e V).
Record el_good (three : bool) (ns : nat) (sx : nat -> R) (X : mat) (e : felem) : Prop := {
  eg_nu : forall q b, (q < fe_nq e)%nat -> 0 < b -> is_derive (fe_nu e q) b (fe_dnu e q b);
  eg_w : forall q, (q < fe_nq e)%nat -> 0 < f_wt three (fe_nn e) (fe_dN e) q (el_mat e X);
  eg_pu : forall q l, (q < fe_nq e)%nat -> (l < gdim three)%nat -> rsum (fe_nn e) (fun j => fe_dN e q j l) = 0 }.
Lemma fold_energy_derive three ns sx sw es X V u (D : felem -> R) :
  (forall e, In e es -> is_derive (fun t : R => el_energy three ns sx sw (moved X V t) u e) 0 (D e)) ->
  is_derive (fun t : R => total_energy three ns sx sw es (moved X V t) u) 0 (fold_right (fun e s => D e + s) 0 es).
Proof.
  intros H. unfold total_energy. induction es as [|e es IH]; cbn [fold_right]; [apply DV_const|].
  apply (DV_plus (fun t => el_energy three ns sx sw (moved X V t) u e) (fun t => fold_right (fun e s => el_energy three ns sx sw (moved X V t) u e + s) 0 es)).
  - apply H. now left.
  - apply IH. intros; apply H. now right.
Qed.
Lemma rigid_zero d n X V : (forall k j, (k < d)%nat -> (j < n)%nat -> V k j = 0) -> rigid_nodes d n X V.
Proof.
  intros H. exists (fun _ _ => 0), (fun _ => 0). split; [intros; ring|]. intros k j Hk Hj. rewrite (H k j Hk Hj), (rsum_ext d _ (fun _ => 0)) by (intros; ring). rewrite rsum_0. ring.
Qed.
Section MeshForce.
Variables (three : bool) (ns : nat) (sx sw : nat -> R).
Hypothesis Hsx : forall j, (j < ns)%nat -> 0 < sx j.
Lemma el_force_work marked attrs X V u e F : el_good three ns sx X e ->
  (marked (fe_attr e) = false \/ memn (fe_attr e) attrs = true \/ norm_inf (gdim three) (fe_nn e) (el_mat e V) < / 10 ^ 14 -> el_rigid three X V e) ->
  (if marked (fe_attr e) then el_force three ns sx sw attrs X V u e = Some F else F = 0) ->
  is_derive (fun t : R => el_energy three ns sx sw (moved X V t) u e) 0 (- F).
Proof.
  intros [Hnu PW PU] HR. unfold el_force, element_force, f_skip, el_energy.
  change (fun t : R => f_energy three (fe_ndof e) (fe_nn e) (fe_nq e) (fe_pw e) (fe_dN e) (fe_shape e) (fe_nu e) ns sx sw (el_mat e (moved X V t)) (el_vec e u))
    with (fun t : R => f_energy three (fe_ndof e) (fe_nn e) (fe_nq e) (fe_pw e) (fe_dN e) (fe_shape e) (fe_nu e) ns sx sw (moved (el_mat e X) (el_mat e V) t) (el_vec e u)).
  assert (RG : el_rigid three X V e -> F = 0 -> is_derive (fun t : R => f_energy three (fe_ndof e) (fe_nn e) (fe_nq e) (fe_pw e) (fe_dN e) (fe_shape e) (fe_nu e) ns sx sw (moved (el_mat e X) (el_mat e V) t) (el_vec e u)) 0 (- F)).
  { intros R ->. apply (DV_eq _ 0 0); [|ring]. now apply (rigid_element three _ _ _ _ _ _ _ (fe_dnu e)). }
  destruct (marked (fe_attr e)); [|intros F0; apply RG; auto].
  destruct (memn (fe_attr e) attrs); cbn [orb]; [intros [= <-]; apply RG; auto|].
  unfold Rltb. destruct (Rlt_dec (norm_inf (gdim three) (fe_nn e) (el_mat e V)) (/ 10 ^ 14)) as [S|S]; [intros [= <-]; apply RG; auto|].
  destruct (f_ok three (fe_ndof e) (fe_nn e) (fe_nq e) (fe_dN e) (fe_shape e) (el_mat e X) (el_vec e u)) eqn:OK; [|discriminate].
  intros [= <-]. eapply DV_eq; [|symmetry; apply Ropp_involutive]. now apply work_element.
Qed.
Lemma total_force_work es marked attrs X V u F : (forall e, In e es -> el_good three ns sx X e) ->
  (forall e, In e es -> marked (fe_attr e) = false \/ memn (fe_attr e) attrs = true \/ norm_inf (gdim three) (fe_nn e) (el_mat e V) < / 10 ^ 14 -> el_rigid three X V e) ->
  total_force three ns sx sw es marked attrs X V u = Some F -> virtual_force (fun X => total_energy three ns sx sw es X u) X V F.
Proof.
  unfold virtual_force. revert F. induction es as [|e es IH]; cbn [total_force fold_right]; intros F Hg HR H.
  - injection H as <-. apply (DV_eq _ 0 0); [|ring]. change (is_derive (fun _ : R => 0) 0 0). apply DV_const.
  - fold (total_force three ns sx sw es marked attrs X V u) in H.
    assert (K : exists f r, F = f + r /\ (if marked (fe_attr e) then el_force three ns sx sw attrs X V u e = Some f else f = 0) /\ total_force three ns sx sw es marked attrs X V u = Some r).
    { destruct (marked (fe_attr e)).
      - destruct (el_force three ns sx sw attrs X V u e) as [f|]; [|discriminate]. destruct (total_force three ns sx sw es marked attrs X V u) as [r|]; [|discriminate].
        cbn in H. injection H as <-. now exists f, r.
      - exists 0, F. split; [ring|]. auto. }
    destruct K as (f & r & -> & Hf & Hr). apply (DV_eq _ 0 (- f + - r)); [|ring].
    apply (DV_plus (fun t : R => el_energy three ns sx sw (moved X V t) u e) (fun t => total_energy three ns sx sw es (moved X V t) u)).
    + apply (el_force_work marked attrs X V u e f); auto; [apply Hg|apply HR]; now left.
    + apply IH; auto; intros; [apply Hg|apply HR]; auto; now right.
Qed.
End MeshForce.

(** ** derivative with respect to the state *)
Section StatePoint.
Variables (three : bool) (J G : mat) (h k : vec).
Notation d := (gdim three).
Definition gv (x : vec) : vec := fun l => if three then x l else mv 2 (gadj three J) (bb three J x) l.
Definition pB2 (x y : vec) : R := rsum d (fun i => bb three J x i * rsum d (fun l => G i l * gv y l)).
Lemma pB_B2 x : pB three J G x = pB2 x x. Proof. reflexivity. Qed.
Lemma bb_along t i : bb three J (along h k t) i = bb three J h i + t * bb three J k i.
Proof. unfold bb, along. rewrite <- rsum_scal, <- rsum_plus. apply rsum_ext. intros; ring. Qed.
Lemma gv_along t l : gv (along h k t) l = gv h l + t * gv k l.
Proof.
  unfold gv. destruct three; [reflexivity|]. unfold mv. rewrite <- rsum_scal, <- rsum_plus. apply rsum_ext. intros a _.
  change (bb false J (along h k t) a) with (bb false J (fun a => h a + t * k a) a).
  replace (bb false J (fun a => h a + t * k a) a) with (bb false J h a + t * bb false J k a); [ring|].
  unfold bb. rewrite <- rsum_scal, <- rsum_plus. apply rsum_ext. intros; ring.
Qed.
Lemma pB_along t : pB three J G (along h k t) = pB2 h h + t * (pB2 k h + pB2 h k) + t * t * pB2 k k.
Proof.
  rewrite pB_B2. unfold pB2. rewrite <- rsum_plus, <- !rsum_scal, <- !rsum_plus. apply rsum_ext. intros i _. rewrite bb_along.
  rewrite (rsum_ext d (fun l => G i l * gv (along h k t) l) (fun l => G i l * gv h l + t * (G i l * gv k l))) by (intros; rewrite gv_along; ring).
  rewrite rsum_plus, rsum_scal. ring.
Qed.
Lemma pB_state : is_derive (fun t : R => pB three J G (along h k t)) 0 (pB2 k h + pB2 h k).
Proof.
  apply (DV_ext (fun t => pB2 h h + t * (pB2 k h + pB2 h k) + t * t * pB2 k k)); [intros; symmetry; apply pB_along|].
  generalize (pB2 h h) (pB2 k h + pB2 h k) (pB2 k k). intros. auto_derive; [exact Logic.I|]. ring.
Qed.
Lemma along_0' : forall i, along h k 0 i = h i. Proof. intros. unfold along. ring. Qed.
Lemma bb_along0 i : bb three J (along h k 0) i = bb three J h i. Proof. rewrite bb_along. ring. Qed.
Notation n := (norm d (bb three J h)).
Notation W := (gdet three J).
Notation q1 := (dot d (bb three J h) (bb three J k)).
Hypothesis PW : 0 < W.
Hypothesis PN : n <> 0.
Lemma n_state : is_derive (fun t : R => norm d (bb three J (along h k t))) 0 (q1 / n).
Proof.
  assert (N0 : norm d (bb three J (along h k 0)) = n) by (apply norm_ext; intros; apply bb_along0).
  eapply DV_eq; [apply (DV_norm d (fun t => bb three J (along h k t)) (bb three J k))|].
  - intros i _. apply (DV_ext (fun t => bb three J h i + t * bb three J k i)); [intros; symmetry; apply bb_along|].
    apply (DV_eq _ 0 (0 + 1 * bb three J k i)); [apply DV_plus; [apply DV_const|apply DV_scal_r, DV_id]|ring].
  - now rewrite N0.
  - rewrite N0. f_equal. apply dot_ext'; intros; [apply bb_along0|reflexivity].
Qed.
Lemma mag_state : is_derive (fun t : R => pmag three J (along h k t)) 0 (q1 / n / W).
Proof. unfold pmag, Rdiv at 1. unfold Rdiv at 2. apply DV_scal_r, n_state. Qed.
Definition dpdB : R :=
  if three then - (q1 / n) / W ^ 2 * ddet three J G + (pB2 k h + pB2 h k) / (W * n) - pB three J G h * (q1 / n) / (W * n ^ 2)
  else - (pB2 k h + pB2 h k) / (n * W ^ 2) + pB three J G h * (q1 / n) / (n ^ 2 * W ^ 2).
Lemma pdB_state : is_derive (fun t : R => pdB three J G (along h k t)) 0 dpdB.
Proof.
  destruct (norm_nonzero _ _ PN) as [_ P]. unfold pdB, dpdB.
  assert (N0 : norm d (bb three J (along h k 0)) = n) by (apply norm_ext; intros; apply bb_along0).
  assert (B0 : pB three J G (along h k 0) = pB three J G h) by (rewrite pB_along, pB_B2; ring).
  assert (DN := n_state). assert (DB := pB_state).
  set (A := ddet three J G). set (w := W) in *. clearbody A w. set (q2 := pB2 k h + pB2 h k) in *. clearbody q2.
  destruct three.
  - set (nf := fun t : R => norm (gdim true) (bb true J (along h k t))) in *. set (Bf := fun t : R => pB true J G (along h k t)) in *.
    change (norm (gdim true) (bb true J (along h k 0))) with (nf 0) in N0. change (pB true J G (along h k 0)) with (Bf 0) in B0.
    apply (DV_ext (fun t => (- / w ^ 2 * A) * nf t + Bf t / (w * nf t))).
    { intros t. unfold nf, Bf, Rdiv. ring. }
    eapply DV_eq; [apply DV_plus; [apply DV_scal, DN|apply (DV_div Bf (fun t => w * nf t)); [exact DB|apply DV_scal, DN|]]|].
    + rewrite N0. apply Rmult_integral_contrapositive. split; lra.
    + cbv beta. rewrite N0, B0. field. split; lra.
  - set (nf := fun t : R => norm (gdim false) (bb false J (along h k t))) in *. set (Bf := fun t : R => pB false J G (along h k t)) in *.
    change (norm (gdim false) (bb false J (along h k 0))) with (nf 0) in N0. change (pB false J G (along h k 0)) with (Bf 0) in B0.
    apply (DV_ext (fun t => (-1) * (Bf t / (w ^ 2 * nf t)))).
    { intros t. unfold nf, Bf, Rdiv. rewrite !(Rmult_comm (w ^ 2)). ring. }
    eapply DV_eq; [apply DV_scal; apply (DV_div Bf (fun t => w ^ 2 * nf t)); [exact DB|apply DV_scal, DN|]|].
    + rewrite N0. apply Rmult_integral_contrapositive. split; [apply pow_nonzero; lra|lra].
    + cbv beta. rewrite N0, B0. field. split; lra.
Qed.
Variables (Ef E1f E2f : R -> R) (w : R).
Hypothesis HE : forall b, 0 < b -> is_derive Ef b (E1f b).
Hypothesis HE2 : forall b, 0 < b -> is_derive E1f b (E2f b).
Notation m := (pmag three J h).
Lemma Fp_state : is_derive (fun t : R => Fp three Ef E1f w J G (along h k t)) 0
  ((dpdB * E1f m + pdB three J G h * E2f m * (q1 / n / W) + E1f m * (q1 / n / W) * (ddet three J G / W)) * (w * W)).
Proof.
  destruct (norm_nonzero _ _ PN) as [_ P]. unfold Fp.
  assert (M0 : pmag three J (along h k 0) = m) by (unfold pmag; f_equal; apply norm_ext; intros; apply bb_along0).
  assert (PM : 0 < m) by (unfold pmag; now apply Rdiv_lt_0_compat).
  assert (D0 : pdB three J G (along h k 0) = pdB three J G h).
  { unfold pdB. assert (N0 : norm d (bb three J (along h k 0)) = n) by (apply norm_ext; intros; apply bb_along0). rewrite N0, pB_along, pB_B2. rewrite !Rmult_0_l, !Rplus_0_r. reflexivity. }
  apply DV_scal_r.
  apply (DV_eq _ 0 ((dpdB * E1f (pmag three J (along h k 0)) + pdB three J G (along h k 0) * (E2f (pmag three J (along h k 0)) * (q1 / n / W))) + E1f (pmag three J (along h k 0)) * (q1 / n / W) * (ddet three J G / W))).
  - apply (DV_plus (fun t => pdB three J G (along h k t) * E1f (pmag three J (along h k t))) (fun t => Ef (pmag three J (along h k t)) * (ddet three J G / W))).
    + apply (DV_mult (fun t => pdB three J G (along h k t)) (fun t => E1f (pmag three J (along h k t)))); [apply pdB_state|].
      apply (DV_comp E1f (fun t => pmag three J (along h k t))); [apply HE2; now rewrite M0|apply mag_state].
    + apply DV_scal_r. apply (DV_comp Ef (fun t => pmag three J (along h k t))); [apply HE; now rewrite M0|apply mag_state].
  - rewrite M0, D0. ring.
Qed.
End StatePoint.

Section StateLink.
Variables (three : bool) (ndof nn nq : nat) (pw : nat -> R) (dN shape : nat -> mat).
Variables (pnu pdnu pd2nu : nat -> R -> R) (ns : nat) (sx sw : nat -> R).
Variables (X V : mat) (u : vec) (q : nat).
Notation d := (gdim three).
Notation J := (f_jac nn dN q X).
Notation G := (iso_jac nn (dN q) V).
Notation h := (f_bhat ndof shape u q).
Notation W := (gdet three J).
Notation n := (norm d (bb three J h)).
Notation fb := (v_force_bar three nn pw dN X q).
Notation E1 := (f_E1 three ndof nn dN shape pnu pdnu ns sx sw X u q).
Notation db := (v_dBds_bar three ndof nn pw dN shape pnu pdnu ns sx sw X u q).
Notation dJ := (v_dbdJ_bar three ndof nn pw dN shape pnu pdnu ns sx sw X V u q).
Notation nb := (v_n_bar three ndof nn pw dN shape pnu pdnu pd2nu ns sx sw X V u q).
Notation mb := (v_mag_bar three ndof nn pw dN shape pnu pdnu pd2nu ns sx sw X V u q).
Hypothesis PW : 0 < W.
Hypothesis PN : n <> 0.
Lemma dJ_link k l : dJ k l = db * G k l.
Proof. unfold v_dbdJ_bar, v_dBdX_bar, iso_jac. rewrite <- rsum_scal. apply rsum_ext. intros; ring. Qed.
Lemma mb_link : mb = fb * (ddet three J G / W) * E1 + fb * pdB three J G h * f_E2 three ndof nn dN shape pnu pdnu pd2nu ns sx sw X u q.
Proof. unfold v_mag_bar, v_energy_bar. rewrite tr_link, dBds_link by assumption. reflexivity. Qed.
Lemma pair_adj : rsum d (fun j => rsum d (fun k => dJ k j * f_adj three nn dN q X j k)) = db * ddet three J G.
Proof.
  rewrite rsum_swap. unfold ddet. rewrite <- rsum_scal. apply rsum_ext. intros k _. rewrite <- rsum_scal. apply rsum_ext. intros l _. rewrite dJ_link. unfold f_adj. ring.
Qed.
Lemma pair_B (x y : vec) (c : R) : rsum d (fun i => rsum d (fun l => dJ i l * (bb three J x i * gv three J y l) / c)) = db * pB2 three J G x y / c.
Proof.
  unfold pB2, Rdiv. rewrite <- rsum_scal, <- rsum_scal_r. apply rsum_ext. intros i _. rewrite <- !rsum_scal, <- rsum_scal_r. apply rsum_ext. intros l _. rewrite dJ_link. ring.
Qed.
Lemma a_bar_link : three = false -> v_a_bar three ndof nn pw dN shape pnu pdnu ns sx sw X V u q = db * pB three J G h.
Proof.
  intros T. destruct (norm_nonzero _ _ PN) as [_ P]. unfold v_a_bar.
  assert (A0 : f_a three ndof nn dN shape X u q = -1 / (n * W ^ 2)) by (unfold f_a; rewrite n_link; reflexivity).
  rewrite (rsum_ext d _ (fun i => f_a three ndof nn dN shape X u q * rsum d (fun l => dJ i l * (bb three J h i * gv three J h l) / 1))).
  2:{ intros i _. rewrite <- rsum_scal. apply rsum_ext. intros l _. unfold f_dbdJ, gv. rewrite badj_link, b_link. rewrite T. cbn [gdim]. field. }
  rewrite rsum_scal, pair_B, A0, pB_B2. field. split; lra.
Qed.
Lemma bB_link c : three = true ->
  rsum d (fun j => rsum d (fun k => dJ j k * (f_b three ndof nn dN shape X u q j * h k) / c)) = db * pB three J G h / c.
Proof.
  intros T. rewrite pB_B2, <- pair_B. apply rsum_ext. intros i _. apply rsum_ext. intros l _. rewrite b_link. unfold gv. now rewrite T.
Qed.
Lemma adj_link c : rsum d (fun j => rsum d (fun k => dJ k j * f_adj three nn dN q X j k / c)) = db * ddet three J G / c.
Proof. rewrite <- pair_adj, <- rsum_div. apply rsum_ext. intros j _. now rewrite rsum_div. Qed.
Lemma n_bar_link : nb = (if three then - (db * pB three J G h / (n ^ 2 * W)) - db * ddet three J G / W ^ 2 else db * pB three J G h / (n * W) ^ 2) + mb / W.
Proof.
  unfold v_n_bar. change (f_wt three nn dN q X) with W. rewrite n_link. f_equal. rewrite adj_link.
  assert (L1 := bB_link (n ^ 2 * W)). assert (L2 := a_bar_link).
  set (z1 := rsum d _) in *. set (z2 := v_a_bar _ _ _ _ _ _ _ _ _ _ _ _ _ _ _) in *. clearbody z1 z2.
  destruct three; [rewrite L1 by reflexivity|rewrite L2 by reflexivity]; reflexivity.
Qed.
Notation bbar := (v_b_bar three ndof nn pw dN shape pnu pdnu pd2nu ns sx sw X V u q).
Lemma b_bar_dot (z : vec) : dot d bbar (bb three J (f_bhat ndof shape z q)) + (if three then dot d (v_bhat_bar three ndof nn pw dN shape pnu pdnu ns sx sw X V u q) (f_bhat ndof shape z q) else 0) =
  db * (pB2 three J G (f_bhat ndof shape z q) h + pB2 three J G h (f_bhat ndof shape z q)) * (if three then 1 / (n * W) else -1 / (n * W ^ 2)) +
  nb / n * dot d (bb three J h) (bb three J (f_bhat ndof shape z q)).
Proof.
  set (k := f_bhat ndof shape z q). unfold v_b_bar. rewrite n_link. unfold dot at 1.
  rewrite (rsum_ext d _ (fun i => (if three then rsum d (fun l => 1 / (n * W) * dJ i l * h l)
     else f_a three ndof nn dN shape X u q * rsum d (fun l => dJ i l * f_badj three ndof nn dN shape X u q l) + rsum d (fun l => f_adj three nn dN q X l i * v_badj_bar three ndof nn pw dN shape pnu pdnu ns sx sw X V u q l)) * bb three J k i
     + nb / n * (bb three J h i * bb three J k i))) by (intros i _; rewrite b_link; change (f_wt three nn dN q X) with W; ring).
  rewrite rsum_plus, rsum_scal. fold (dot d (bb three J h) (bb three J k)).
  match goal with |- ?a + ?b + ?c = ?e + ?f => enough (K : a + c = e) by lra end.
  assert (A0 : f_a three ndof nn dN shape X u q = -1 / (n * W ^ 2)) by (unfold f_a; rewrite n_link; reflexivity).
  assert (P1 := pair_B k h 1). assert (P2 := pair_B h k 1). rewrite Rdiv_1 in P1, P2.
  destruct (Bool.bool_dec three true) as [T|T].
  - assert (Q1 : forall a b : R, (if three then a else b) = a) by (intros; now rewrite T). rewrite !Q1.
    rewrite Rmult_plus_distr_l, <- P1, <- P2, Rmult_plus_distr_r. f_equal.
    + rewrite <- rsum_scal_r. apply rsum_ext. intros i _. rewrite Q1, <- !rsum_scal_r. apply rsum_ext. intros l _. unfold gv. rewrite T. unfold Rdiv. rewrite Rinv_1. ring.
    + unfold dot, v_bhat_bar. rewrite <- rsum_scal_r. rewrite (rsum_ext d _ (fun l => rsum d (fun i => 1 / (n * W) * dJ i l * bb three J h i * k l))).
      2:{ intros l _. rewrite <- rsum_scal_r. apply rsum_ext. intros i _. rewrite n_link, b_link. reflexivity. }
      rewrite rsum_swap. apply rsum_ext. intros i _. rewrite <- !rsum_scal_r. apply rsum_ext. intros l _. unfold gv. rewrite T. unfold Rdiv. rewrite Rinv_1. ring.
  - apply Bool.not_true_is_false in T. assert (Q1 : forall a b : R, (if three then a else b) = b) by (intros; now rewrite T). rewrite !Q1, Rplus_0_r.
    rewrite (rsum_ext d _ (fun i => f_a three ndof nn dN shape X u q * rsum d (fun l => dJ i l * (bb three J k i * gv three J h l) / 1) +
       rsum d (fun l => f_a three ndof nn dN shape X u q * (f_adj three nn dN q X l i * bb three J k i * rsum d (fun m => dJ m l * bb three J h m))))).
    2:{ intros i _. rewrite Q1, Rmult_plus_distr_r. f_equal.
        - rewrite Rmult_assoc. f_equal. rewrite <- rsum_scal_r. apply rsum_ext. intros l _. unfold gv. rewrite badj_link, T. cbn [gdim]. field.
        - rewrite <- rsum_scal_r. apply rsum_ext. intros l _. unfold v_badj_bar.
          rewrite (rsum_ext d (fun m => dJ m l * f_b three ndof nn dN shape X u q m) (fun m => dJ m l * bb three J h m)) by (intros; now rewrite b_link). ring. }
    rewrite rsum_plus, rsum_scal, P1, A0.
    assert (P3 : rsum d (fun i => rsum d (fun l => -1 / (n * W ^ 2) * (f_adj three nn dN q X l i * bb three J k i * rsum d (fun m => dJ m l * bb three J h m)))) = -1 / (n * W ^ 2) * (db * pB2 three J G h k)).
    { rewrite <- P2. rewrite (rsum_swap d d). rewrite (rsum_ext d _ (fun l => -1 / (n * W ^ 2) * rsum d (fun m => dJ m l * bb three J h m * gv three J k l))).
      - rewrite rsum_scal. f_equal. rewrite rsum_swap. apply rsum_ext. intros i _. apply rsum_ext. intros l _. field.
      - intros l _. rewrite rsum_scal. f_equal.
        rewrite !rsum_scal_r. unfold gv at 1. rewrite T. unfold mv, f_adj. cbn [gdim]. ring. }
    rewrite P3. ring.
Qed.
Lemma elfun_dot (z : vec) : dot ndof (v_elfun_bar three ndof nn pw dN shape pnu pdnu pd2nu ns sx sw X V u q) z =
  dot d bbar (bb three J (f_bhat ndof shape z q)) + (if three then dot d (v_bhat_bar three ndof nn pw dN shape pnu pdnu ns sx sw X V u q) (f_bhat ndof shape z q) else 0).
Proof.
  unfold v_elfun_bar. unfold dot at 1.
  rewrite (rsum_ext ndof _ (fun i => (if three then rsum d (fun a => shape q i a * v_bhat_bar three ndof nn pw dN shape pnu pdnu ns sx sw X V u q a * z i) else 0) +
      rsum d (fun k => bbar k * (f_S three nn dN shape X q i k * z i)))).
  2:{ intros i _. rewrite Rmult_plus_distr_r, <- rsum_scal_r. f_equal; [|apply rsum_ext; intros; ring].
      destruct (Bool.bool_dec three true) as [T|T]; [rewrite !T, <- rsum_scal_r; reflexivity|apply Bool.not_true_is_false in T; rewrite !T; ring]. }
  rewrite rsum_plus, Rplus_comm. f_equal.
  - rewrite rsum_swap. unfold dot. apply rsum_ext. intros k _. rewrite rsum_scal. f_equal. rewrite <- b_link. reflexivity.
  - destruct (Bool.bool_dec three true) as [T|T]; [|apply Bool.not_true_is_false in T; rewrite T; apply rsum_0].
    assert (Q1 : forall a b : R, (if three then a else b) = a) by (intros; now rewrite T). rewrite Q1.
    rewrite (rsum_ext ndof _ (fun i => rsum d (fun a => v_bhat_bar three ndof nn pw dN shape pnu pdnu ns sx sw X V u q a * (shape q i a * z i)))) by (intros i _; rewrite Q1; apply rsum_ext; intros; ring).
    rewrite rsum_swap. unfold dot. apply rsum_ext. intros a _. now rewrite rsum_scal.
Qed.
Hypothesis HE : forall b, 0 < b -> is_derive (calcMagneticEnergy ns sx sw (pnu q)) b (calcMagneticEnergyDot ns sx sw (pnu q) (pdnu q) b).
Hypothesis HE2 : forall b, 0 < b -> is_derive (calcMagneticEnergyDot ns sx sw (pnu q) (pdnu q)) b (calcMagneticEnergyDoubleDot ns sx sw (pnu q) (pdnu q) (pd2nu q) b).
Lemma state_point (z : vec) : is_derive (fun t : R => - Fp three (calcMagneticEnergy ns sx sw (pnu q)) (calcMagneticEnergyDot ns sx sw (pnu q) (pdnu q)) (pw q) J G (along h (f_bhat ndof shape z q) t)) 0
  (dot ndof (v_elfun_bar three ndof nn pw dN shape pnu pdnu pd2nu ns sx sw X V u q) z).
Proof.
  destruct (norm_nonzero _ _ PN) as [_ P].
  apply (DV_ext (fun t : R => (-1) * Fp three (calcMagneticEnergy ns sx sw (pnu q)) (calcMagneticEnergyDot ns sx sw (pnu q) (pdnu q)) (pw q) J G (along h (f_bhat ndof shape z q) t))); [intros; ring|].
  eapply DV_eq; [apply DV_scal; apply (Fp_state three J G h (f_bhat ndof shape z q) PW PN _ _ (calcMagneticEnergyDoubleDot ns sx sw (pnu q) (pdnu q) (pd2nu q)) (pw q) HE HE2)|].
  rewrite elfun_dot, b_bar_dot, n_bar_link, mb_link. unfold v_dBds_bar, f_E1, f_E2, v_force_bar, f_w, dpdB. rewrite !mag_link. change (f_wt three nn dN q X) with W.
  set (q1 := dot d _ _). set (q2 := pB2 three J G _ _ + _). set (E1v := calcMagneticEnergyDot _ _ _ _ _ _). set (E2v := calcMagneticEnergyDoubleDot _ _ _ _ _ _ _).
  set (D := pdB three J G h). clearbody D. set (A := ddet three J G). set (B := pB three J G h). set (n0 := n) in *. set (W0 := W) in *. clearbody q1 q2 E1v E2v A B n0 W0.
  destruct three; field; split; lra.
Qed.
End StateLink.

(** ** derivative with respect to the mesh, the displacement being frozen *)
Section MeshPoint.
Variables (three : bool) (J G H : mat) (h : vec).
Notation d := (gdim three).
Notation b := (bb three J h).
Notation bd := (bdot three J H h).
Notation n := (norm d b).
Notation W := (gdet three J).
Definition pC (c : vec) : R := rsum d (fun i => c i * rsum d (fun l => G i l * gv three J h l)).
Definition pD (c : vec) : R := rsum d (fun i => b i * rsum d (fun l => G i l * c l)).
Definition dadjG : R := rsum d (fun k => rsum d (fun l => gdadj three J H l k * G k l)).
Definition dpB : R := pC bd + (if three then 0 else pD (fun l => mv d (gdadj three J H) b l + mv d (gadj three J) bd l)).
Lemma ddet_path : is_derive (fun t : R => ddet three (lin J H t) G) 0 dadjG.
Proof.
  unfold ddet, dadjG. apply (DV_sum d (fun k (t : R) => rsum d (fun l => gadj three (lin J H t) l k * G k l))). intros k _.
  apply (DV_sum d (fun l (t : R) => gadj three (lin J H t) l k * G k l)). intros l _. apply DV_scal_r, gadj_path.
Qed.
Definition dgv : vec := fun l => if three then 0 else mv d (gdadj three J H) b l + mv d (gadj three J) bd l.
Lemma gv_path l : is_derive (fun t : R => gv three (lin J H t) h l) 0 (dgv l).
Proof.
  unfold gv, dgv. destruct (Bool.bool_dec three true) as [T|T].
  - rewrite T. apply DV_const.
  - apply Bool.not_true_is_false in T. assert (Q1 : forall a b : R, (if three then a else b) = b) by (intros; now rewrite T). rewrite Q1.
    apply (DV_ext (fun t : R => mv 2 (gadj three (lin J H t)) (bb three (lin J H t) h) l)); [intros; now rewrite Q1|].
    unfold mv. replace d with 2%nat by (now rewrite T). rewrite <- rsum_plus.
    apply (DV_sum 2 (fun a (t : R) => gadj three (lin J H t) l a * bb three (lin J H t) h a)). intros a _.
    eapply DV_eq; [apply (DV_mult (fun t => gadj three (lin J H t) l a) (fun t => bb three (lin J H t) h a)); [apply gadj_path|apply bb_path]|].
    cbv beta. now rewrite bb_lin0, gadj_lin0.
Qed.
Lemma gv_lin0 l : gv three (lin J H 0) h l = gv three J h l.
Proof. unfold gv. destruct three; [reflexivity|]. unfold mv. apply rsum_ext. intros. now rewrite gadj_lin0, bb_lin0. Qed.
Lemma pB_lin0 : pB three (lin J H 0) G h = pB three J G h.
Proof. rewrite !pB_B2. unfold pB2. apply rsum_ext. intros i _. rewrite bb_lin0. f_equal. apply rsum_ext. intros l _. now rewrite gv_lin0. Qed.
Lemma pB_mesh : is_derive (fun t : R => pB three (lin J H t) G h) 0 dpB.
Proof.
  apply (DV_eq _ 0 (pC bd + pD dgv)).
  - unfold pC, pD. rewrite <- rsum_plus.
    apply (DV_sum d (fun i (t : R) => bb three (lin J H t) h i * rsum d (fun l => G i l * gv three (lin J H t) h l))). intros i _.
    eapply DV_eq; [apply (DV_mult (fun t => bb three (lin J H t) h i) (fun t => rsum d (fun l => G i l * gv three (lin J H t) h l))); [apply bb_path|]|].
    + apply (DV_sum d (fun l (t : R) => G i l * gv three (lin J H t) h l) (fun l => G i l * dgv l)). intros l _. apply DV_scal, gv_path.
    + cbv beta. rewrite bb_lin0. f_equal. f_equal. apply rsum_ext. intros l _. now rewrite gv_lin0.
  - unfold dpB, pD, dgv. f_equal. destruct three; [|reflexivity].
    rewrite (rsum_ext _ _ (fun _ => 0)); [apply rsum_0|]. intros i _. rewrite (rsum_ext _ _ (fun _ => 0)); [rewrite rsum_0; ring|]. intros; ring.
Qed.
Hypothesis PW : 0 < W.
Hypothesis PN : n <> 0.
Notation n' := (dot d b bd / n).
Notation AH := (ddet three J H).
Notation A := (ddet three J G).
Notation B := (pB three J G h).
Lemma n_mesh : is_derive (fun t : R => norm d (bb three (lin J H t) h)) 0 n'.
Proof.
  assert (N0 : norm d (bb three (lin J H 0) h) = n) by (apply norm_ext; intros; apply bb_lin0).
  eapply DV_eq; [apply (DV_norm d (fun t => bb three (lin J H t) h) bd); [intros k _; apply bb_path|now rewrite N0]|].
  rewrite N0. f_equal. apply dot_ext'; intros; [apply bb_lin0|reflexivity].
Qed.
Lemma pdB_alt : pdB three J H h = (n' * W - n * AH) / (W * W).
Proof.
  destruct (norm_nonzero _ _ PN) as [_ P].
  assert (K := bdot_B three J H h). assert (S := norm_sq d b). unfold pdB.
  set (n0 := n) in *. set (W0 := W) in *. set (q := dot d b bd) in *. destruct three.
  - rewrite K. field. split; lra.
  - replace (pB false J H h) with (n0 * n0 * ddet false J H - W0 * q) by (rewrite S; lra). field. split; lra.
Qed.
Definition dmpdB : R :=
  if three then - n' / W ^ 2 * A + 2 * n * AH / W ^ 3 * A - n / W ^ 2 * dadjG + dpB / (W * n) - B * (AH * n + W * n') / (W * n) ^ 2
  else - dpB / (n * W ^ 2) + B * (n' * W + 2 * n * AH) / (n ^ 2 * W ^ 3).
Lemma pdB_mesh : is_derive (fun t : R => pdB three (lin J H t) G h) 0 dmpdB.
Proof.
  destruct (norm_nonzero _ _ PN) as [_ P]. unfold pdB, dmpdB.
  assert (N0 : norm d (bb three (lin J H 0) h) = n) by (apply norm_ext; intros; apply bb_lin0).
  assert (B0 := pB_lin0). assert (W0 := gdet_lin0 three J H). assert (A0 : ddet three (lin J H 0) G = A).
  { unfold ddet. apply rsum_ext. intros k _. apply rsum_ext. intros l _. now rewrite gadj_lin0. }
  assert (DN := n_mesh). assert (DB := pB_mesh). assert (DA := ddet_path). assert (DW := gdet_path three J H).
  set (nf := fun t : R => norm d (bb three (lin J H t) h)) in *. set (Bf := fun t : R => pB three (lin J H t) G h) in *.
  set (Af := fun t : R => ddet three (lin J H t) G) in *. set (Wf := fun t : R => gdet three (lin J H t)) in *.
  change (norm d (bb three (lin J H 0) h)) with (nf 0) in N0. change (pB three (lin J H 0) G h) with (Bf 0) in B0.
  change (gdet three (lin J H 0)) with (Wf 0) in W0. change (ddet three (lin J H 0) G) with (Af 0) in A0.
  apply (DV_ext (fun t => if three then - nf t / Wf t ^ 2 * Af t + Bf t / (Wf t * nf t) else - Bf t / (nf t * Wf t ^ 2))); [intros; reflexivity|].
  set (n0 := n) in *. set (WW := W) in *. set (vB := dpB) in *. set (vA := dadjG) in *. set (np := dot d b bd) in *. set (vAH := AH) in *. set (vA0 := A) in *. set (vB0 := B) in *.
  clearbody nf Bf Af Wf n0 WW vB vA np vAH vA0 vB0. clear PN.
  assert (DW2 : is_derive (fun t => Wf t * Wf t) 0 (vAH * Wf 0 + Wf 0 * vAH)) by (now apply DV_mult).
  destruct three.
  - apply (DV_ext (fun t => (-1) * (nf t / (Wf t * Wf t)) * Af t + Bf t / (Wf t * nf t))).
    { intros t. unfold Rdiv. rewrite <- (Rmult_1_r (Wf t)) at 5. cbn [pow]. rewrite !Rmult_1_r. ring. }
    eapply DV_eq; [apply DV_plus; [apply (DV_mult (fun t => -1 * (nf t / (Wf t * Wf t))) Af); [apply DV_scal; apply (DV_div nf (fun t => Wf t * Wf t)); [exact DN|exact DW2|]|exact DA]
      |apply (DV_div Bf (fun t => Wf t * nf t)); [exact DB|apply (DV_mult Wf nf); [exact DW|exact DN]|]]|].
    + rewrite W0. apply Rmult_integral_contrapositive. split; lra.
    + rewrite W0, N0. apply Rmult_integral_contrapositive. split; lra.
    + cbv beta. rewrite W0, N0, A0, B0. field. split; lra.
  - apply (DV_ext (fun t => (-1) * (Bf t / (nf t * (Wf t * Wf t))))).
    { intros t. unfold Rdiv. cbn [pow]. rewrite !Rmult_1_r. ring. }
    eapply DV_eq; [apply DV_scal; apply (DV_div Bf (fun t => nf t * (Wf t * Wf t))); [exact DB|apply (DV_mult nf (fun t => Wf t * Wf t)); [exact DN|exact DW2]|]|].
    + rewrite W0, N0. apply Rmult_integral_contrapositive. split; [lra|]. apply Rmult_integral_contrapositive. split; lra.
    + cbv beta. rewrite W0, N0, B0. field. split; lra.
Qed.
Variables (Ef E1f E2f : R -> R) (w : R).
Hypothesis HE : forall b, 0 < b -> is_derive Ef b (E1f b).
Hypothesis HE2 : forall b, 0 < b -> is_derive E1f b (E2f b).
Notation m := (pmag three J h).
Lemma Fp_mesh : is_derive (fun t : R => Fp three Ef E1f w (lin J H t) G h) 0
  ((dmpdB * E1f m + pdB three J G h * E2f m * pdB three J H h + E1f m * pdB three J H h * (A / W) + Ef m * ((dadjG * W - A * AH) / (W * W))) * (w * W) +
   (pdB three J G h * E1f m + Ef m * (A / W)) * (w * AH)).
Proof.
  destruct (norm_nonzero _ _ PN) as [_ P]. unfold Fp.
  assert (N0 : norm d (bb three (lin J H 0) h) = n) by (apply norm_ext; intros; apply bb_lin0).
  assert (M0 : pmag three (lin J H 0) h = m) by (unfold pmag; now rewrite gdet_lin0, N0).
  assert (PM : 0 < m) by (unfold pmag; now apply Rdiv_lt_0_compat).
  assert (A0 : ddet three (lin J H 0) G = A).
  { unfold ddet. apply rsum_ext. intros k _. apply rsum_ext. intros l _. now rewrite gadj_lin0. }
  assert (D0 : pdB three (lin J H 0) G h = pdB three J G h).
  { unfold pdB. now rewrite N0, gdet_lin0, pB_lin0, A0. }
  eapply DV_eq.
  - apply (DV_mult (fun t => pdB three (lin J H t) G h * E1f (pmag three (lin J H t) h) + Ef (pmag three (lin J H t) h) * (ddet three (lin J H t) G / gdet three (lin J H t))) (fun t => w * gdet three (lin J H t))).
    + apply (DV_plus (fun t => pdB three (lin J H t) G h * E1f (pmag three (lin J H t) h)) (fun t => Ef (pmag three (lin J H t) h) * (ddet three (lin J H t) G / gdet three (lin J H t)))).
      * apply (DV_mult (fun t => pdB three (lin J H t) G h) (fun t => E1f (pmag three (lin J H t) h))); [apply pdB_mesh|].
        apply (DV_comp E1f (fun t => pmag three (lin J H t) h)); [apply HE2; now rewrite M0|now apply pmag_path].
      * apply (DV_mult (fun t => Ef (pmag three (lin J H t) h)) (fun t => ddet three (lin J H t) G / gdet three (lin J H t))).
        -- apply (DV_comp Ef (fun t => pmag three (lin J H t) h)); [apply HE; now rewrite M0|now apply pmag_path].
        -- apply (DV_div (fun t => ddet three (lin J H t) G) (fun t => gdet three (lin J H t))); [apply ddet_path|apply gdet_path|rewrite gdet_lin0; lra].
    + apply DV_scal, gdet_path.
  - cbv beta. rewrite M0, D0, A0, gdet_lin0. ring.
Qed.
End MeshPoint.

Section MeshLink.
Variables (three : bool) (ndof nn nq : nat) (pw : nat -> R) (dN shape : nat -> mat).
Variables (pnu pdnu pd2nu : nat -> R -> R) (ns : nat) (sx sw : nat -> R).
Variables (X V Y : mat) (u : vec) (q : nat).
Notation d := (gdim three).
Notation J := (f_jac nn dN q X).
Notation G := (iso_jac nn (dN q) V).
Notation H := (iso_jac nn (dN q) Y).
Notation h := (f_bhat ndof shape u q).
Notation b := (bb three J h).
Notation bd := (bdot three J H h).
Notation W := (gdet three J).
Notation n := (norm d b).
Notation fb := (v_force_bar three nn pw dN X q).
Notation db := (v_dBds_bar three ndof nn pw dN shape pnu pdnu ns sx sw X u q).
Notation dJ := (v_dbdJ_bar three ndof nn pw dN shape pnu pdnu ns sx sw X V u q).
Notation nb := (v_n_bar three ndof nn pw dN shape pnu pdnu pd2nu ns sx sw X V u q).
Notation mb := (v_mag_bar three ndof nn pw dN shape pnu pdnu pd2nu ns sx sw X V u q).
Notation bbar := (v_b_bar three ndof nn pw dN shape pnu pdnu pd2nu ns sx sw X V u q).
Notation adjbar := (m_adj_bar three ndof nn pw dN shape pnu pdnu pd2nu ns sx sw X V u q).
Notation badjbar := (v_badj_bar three ndof nn pw dN shape pnu pdnu ns sx sw X V u q).
Notation jac0 := (m_jac_bar0 three ndof nn pw dN shape pnu ns sx sw X V u q).
Hypothesis PW : 0 < W.
Hypothesis PN : n <> 0.
Lemma adj_rev_pair (B : mat) : pairing d nn (f_adj_rev three nn dN q X B) Y = pairing d d B (gdadj three J H).
Proof.
  unfold f_adj_rev. rewrite to_nodes_pair. unfold pairing at 1.
  rewrite (rsum_ext d _ (fun k => rsum d (fun l => rsum d (fun i => rsum d (fun j => B i j * (gdadj three J (unit_mat k l) i j * H k l)))))).
  2:{ intros k _. apply rsum_ext. intros l _. unfold pairing. rewrite <- rsum_scal_r. apply rsum_ext. intros i _. rewrite <- rsum_scal_r. apply rsum_ext. intros j _. ring. }
  unfold pairing.
  rewrite (rsum_ext d _ (fun k => rsum d (fun i => rsum d (fun l => rsum d (fun j => B i j * (gdadj three J (unit_mat k l) i j * H k l)))))) by (intros; apply rsum_swap).
  rewrite rsum_swap. apply rsum_ext. intros i _.
  rewrite (rsum_ext d _ (fun k => rsum d (fun j => rsum d (fun l => B i j * (gdadj three J (unit_mat k l) i j * H k l))))) by (intros; apply rsum_swap).
  rewrite rsum_swap. apply rsum_ext. intros j _.
  rewrite (dadj_sum three J H i j), <- rsum_scal. apply rsum_ext. intros k _. now rewrite rsum_scal.
Qed.
Lemma wt_rev_pair (c : R) : pairing d nn (f_wt_rev three nn dN q X c) Y = c * ddet three J H.
Proof.
  unfold f_wt_rev. rewrite to_nodes_pair. unfold pairing, ddet. rewrite <- rsum_scal. apply rsum_ext. intros k _. rewrite <- rsum_scal. apply rsum_ext. intros l _. unfold f_adj. ring.
Qed.
Lemma jac0_pair : pairing d d jac0 H = fb * f_E three ndof nn dN shape pnu ns sx sw X u q * ((dadjG three J G H * W - ddet three J G * ddet three J H) / (W * W)).
Proof.
  set (c := fb * f_E three ndof nn dN shape pnu ns sx sw X u q).
  assert (K : (dadjG three J G H * W - ddet three J G * ddet three J H) =
     - rsum d (fun k => rsum d (fun l => G k l * rsum d (fun i => rsum d (fun e => gadj three J l i * H i e * gadj three J e k))))).
  { unfold dadjG. rewrite <- rsum_scal_r. unfold ddet at 1. rewrite <- rsum_scal_r, <- rsum_minus, <- rsum_opp. apply rsum_ext. intros k Hk.
    rewrite <- !rsum_scal_r, <- rsum_minus, <- rsum_opp. apply rsum_ext. intros l Hl.
    assert (I := inv_path three J H l k Hl Hk). rewrite <- Ropp_mult_distr_r_reverse, <- I. ring. }
  rewrite K. unfold pairing, m_jac_bar0, m_inv_bar, m_tr_bar. fold c.
  rewrite (rsum_ext d _ (fun k => rsum d (fun l => rsum d (fun e => rsum d (fun a => - (c / (W * W)) * (G e a * (gadj three J a k * H k l * gadj three J l e))))))).
  2:{ intros k _. apply rsum_ext. intros l _. rewrite Ropp_mult_distr_l_reverse, <- rsum_scal_r, <- rsum_opp. apply rsum_ext. intros e _.
      rewrite <- !rsum_scal_r, <- rsum_opp. apply rsum_ext. intros a _. unfold f_inv, f_adj. change (f_wt three nn dN q X) with W. change (f_dJds nn dN V q e a) with (G e a). field. lra. }
  transitivity (- (c / (W * W)) * rsum d (fun k => rsum d (fun l => G k l * rsum d (fun i => rsum d (fun e => gadj three J l i * H i e * gadj three J e k))))); [|unfold Rdiv; ring].
  rewrite <- rsum_scal.
  rewrite (rsum_ext d _ (fun k => rsum d (fun e => rsum d (fun l => rsum d (fun a => - (c / (W * W)) * (G e a * (gadj three J a k * H k l * gadj three J l e))))))) by (intros; apply rsum_swap).
  rewrite rsum_swap. apply rsum_ext. intros e _. rewrite <- rsum_scal.
  rewrite (rsum_ext d _ (fun k => rsum d (fun a => rsum d (fun l => - (c / (W * W)) * (G e a * (gadj three J a k * H k l * gadj three J l e)))))) by (intros; apply rsum_swap).
  rewrite rsum_swap. apply rsum_ext. intros a _. rewrite <- !rsum_scal. apply rsum_ext. intros i _. rewrite <- !rsum_scal. apply rsum_ext. intros l _. reflexivity.
Qed.
(** b_vec_bar against any direction *)
Lemma b_bar_gen (c : vec) : dot d bbar c =
  db * (if three then 1 / (n * W) * pC three J G h c else -1 / (n * W ^ 2) * (pC three J G h c + pD three J G h (mv d (gadj three J) c))) + nb / n * dot d b c.
Proof.
  unfold v_b_bar. rewrite n_link. unfold dot at 1.
  rewrite (rsum_ext d _ (fun i => (if three then rsum d (fun l => 1 / (n * W) * dJ i l * h l)
     else f_a three ndof nn dN shape X u q * rsum d (fun l => dJ i l * f_badj three ndof nn dN shape X u q l) + rsum d (fun l => f_adj three nn dN q X l i * badjbar l)) * c i
     + nb / n * (b i * c i))) by (intros i _; rewrite b_link; change (f_wt three nn dN q X) with W; ring).
  rewrite rsum_plus, rsum_scal. fold (dot d b c). f_equal.
  assert (A0 : f_a three ndof nn dN shape X u q = -1 / (n * W ^ 2)) by (unfold f_a; rewrite n_link; reflexivity).
  destruct (Bool.bool_dec three true) as [T|T].
  - assert (Q1 : forall a b : R, (if three then a else b) = a) by (intros; now rewrite T). rewrite Q1. unfold pC. rewrite <- !rsum_scal. apply rsum_ext. intros i _.
    rewrite Q1, <- rsum_scal_r, <- !rsum_scal. apply rsum_ext. intros l _. rewrite dJ_link. unfold gv. rewrite Q1. ring.
  - apply Bool.not_true_is_false in T. assert (Q1 : forall a b : R, (if three then a else b) = b) by (intros; now rewrite T). rewrite Q1, Rmult_plus_distr_l, Rmult_plus_distr_l.
    rewrite (rsum_ext d _ (fun i => f_a three ndof nn dN shape X u q * rsum d (fun l => dJ i l * f_badj three ndof nn dN shape X u q l) * c i + rsum d (fun l => f_adj three nn dN q X l i * badjbar l * c i))).
    2:{ intros i _. rewrite Q1, Rmult_plus_distr_r. f_equal. now rewrite rsum_scal_r. }
    rewrite rsum_plus. f_equal.
    + unfold pC. rewrite <- !rsum_scal. apply rsum_ext. intros i _. rewrite A0, (rsum_ext d (fun l => dJ i l * f_badj three ndof nn dN shape X u q l) (fun l => db * (G i l * gv three J h l))).
      * rewrite rsum_scal. ring.
      * intros l _. rewrite dJ_link, badj_link. unfold gv. rewrite Q1. replace d with 2%nat by (now rewrite T). ring.
    + rewrite rsum_swap. unfold pD. rewrite <- !rsum_scal.
      rewrite (rsum_ext d _ (fun l => rsum d (fun m => db * (-1 / (n * W ^ 2)) * (b m * (G m l * mv d (gadj three J) c l))))).
      * rewrite rsum_swap. apply rsum_ext. intros m _. rewrite <- !rsum_scal. apply rsum_ext. intros l _. ring.
      * intros l _. rewrite (rsum_ext d _ (fun i => badjbar l * (gadj three J l i * c i))) by (intros; unfold f_adj; ring). rewrite rsum_scal. fold (mv d (gadj three J) c l).
        unfold v_badj_bar. rewrite A0, (rsum_ext d (fun k => dJ k l * f_b three ndof nn dN shape X u q k) (fun m => db * (G m l * b m))) by (intros; rewrite dJ_link, b_link; ring).
        rewrite <- !rsum_scal, <- rsum_scal_r. apply rsum_ext. intros m _. ring.
Qed.
Lemma shape_pair (c : vec) (B : mat) : rsum d (fun k => rsum d (fun a => rsum ndof (fun i => c k * u i * shape q i a) * B k a)) = rsum d (fun k => c k * rsum d (fun a => B k a * h a)).
Proof.
  apply rsum_ext. intros k _. rewrite <- rsum_scal. apply rsum_ext. intros a _. unfold f_bhat. rewrite (rsum_ext ndof _ (fun i => c k * (shape q i a * u i))) by (intros; ring). rewrite rsum_scal. ring.
Qed.
Lemma adjbar_pair : pairing d d adjbar (gdadj three J H) =
  if three then - n / W ^ 2 * db * dadjG three J G H else db * (-1 / (n * W ^ 2)) * pD three J G h (mv d (gdadj three J H) b) + dot d bbar bd.
Proof.
  assert (A0 : f_a three ndof nn dN shape X u q = -1 / (n * W ^ 2)) by (unfold f_a; rewrite n_link; reflexivity).
  unfold pairing, m_adj_bar. rewrite n_link. change (f_wt three nn dN q X) with W.
  destruct (Bool.bool_dec three true) as [T|T].
  - assert (Q1 : forall a b : R, (if three then a else b) = a) by (intros; now rewrite T). rewrite Q1. rewrite rsum_swap. unfold dadjG. rewrite <- rsum_scal. apply rsum_ext. intros k _.
    rewrite <- rsum_scal. apply rsum_ext. intros l _. rewrite Q1, dJ_link. ring.
  - apply Bool.not_true_is_false in T. assert (Q1 : forall a b : R, (if three then a else b) = b) by (intros; now rewrite T). rewrite Q1.
    rewrite (rsum_ext d _ (fun a => badjbar a * mv d (gdadj three J H) b a + rsum d (fun k => rsum ndof (fun i => bbar k * u i * shape q i a) * gdadj three J H a k))).
    2:{ intros a _. unfold mv. rewrite <- rsum_scal, <- rsum_plus. apply rsum_ext. intros k _. rewrite Q1, b_link.
        rewrite (rsum_ext ndof (fun i => shape q i a * (u i * bbar k)) (fun i => bbar k * u i * shape q i a)) by (intros; ring). ring. }
    rewrite rsum_plus. f_equal.
    + unfold pD. rewrite <- rsum_scal.
      rewrite (rsum_ext d _ (fun l => rsum d (fun m => db * (-1 / (n * W ^ 2)) * (b m * (G m l * mv d (gdadj three J H) b l))))).
      * rewrite rsum_swap. apply rsum_ext. intros m _. rewrite <- !rsum_scal. apply rsum_ext. intros l _. ring.
      * intros l _. unfold v_badj_bar. rewrite A0, (rsum_ext d (fun k => dJ k l * f_b three ndof nn dN shape X u q k) (fun m => db * (G m l * b m))) by (intros; rewrite dJ_link, b_link; ring).
        rewrite <- !rsum_scal, <- rsum_scal_r. apply rsum_ext. intros m _. ring.
    + rewrite rsum_swap. rewrite (shape_pair bbar (fun k a => gdadj three J H a k)). unfold dot, bdot. apply rsum_ext. intros k _. f_equal. apply rsum_ext. intros a _. now rewrite Q1.
Qed.
Lemma jac_pair : pairing d d (m_jac_bar three ndof nn pw dN shape pnu pdnu pd2nu ns sx sw X V u q) H = pairing d d jac0 H + (if three then dot d bbar bd else 0).
Proof.
  unfold m_jac_bar. rewrite (pairing_plus d d jac0 (fun k l => if three then rsum ndof (fun i => bbar k * u i * shape q i l) else 0)). f_equal.
  unfold pairing. destruct (Bool.bool_dec three true) as [T|T].
  - assert (Q1 : forall a b : R, (if three then a else b) = a) by (intros; now rewrite T). rewrite Q1. transitivity (rsum d (fun k => rsum d (fun a => rsum ndof (fun i => bbar k * u i * shape q i a) * H k a))).
    + apply rsum_ext. intros k _. apply rsum_ext. intros a _. now rewrite Q1.
    + rewrite shape_pair. unfold dot, bdot. apply rsum_ext. intros k _. f_equal. apply rsum_ext. intros a _. now rewrite Q1.
  - apply Bool.not_true_is_false in T. assert (Q1 : forall a b : R, (if three then a else b) = b) by (intros; now rewrite T). rewrite Q1.
    rewrite (rsum_ext d _ (fun _ => 0)); [apply rsum_0|]. intros k _. rewrite (rsum_ext d _ (fun _ => 0)); [apply rsum_0|]. intros l _. rewrite Q1. ring.
Qed.
Lemma W_bar_link : m_W_bar three ndof nn pw dN shape pnu pdnu pd2nu ns sx sw X V u q =
  (if three then - (db * pB three J G h / (n * W ^ 2)) + 2 * db * n * ddet three J G / W ^ 3 else 2 * (db * pB three J G h) / (n * W ^ 3)) - mb * n / W ^ 2
  + - (pdB three J G h * f_E1 three ndof nn dN shape pnu pdnu ns sx sw X u q + f_E three ndof nn dN shape pnu ns sx sw X u q * (ddet three J G / W)) * pw q.
Proof.
  unfold m_W_bar. rewrite dBds_link, tr_link, n_link by assumption. change (f_wt three nn dN q X) with W. rewrite Rmult_1_l. f_equal. f_equal.
  assert (L1 := bB_link three ndof nn pw dN shape pnu pdnu ns sx sw X V u q (n * W ^ 2)).
  assert (L2 := a_bar_link three ndof nn pw dN shape pnu pdnu ns sx sw X V u q PW PN).
  assert (L3 : rsum d (fun j => rsum d (fun k => 2 * dJ k j * n * f_adj three nn dN q X j k / W ^ 3)) = 2 * db * n * ddet three J G / W ^ 3).
  { transitivity (2 * n * (db * ddet three J G) / W ^ 3); [|unfold Rdiv; ring]. rewrite <- (pair_adj three ndof nn pw dN shape pnu pdnu ns sx sw X V u q). rewrite <- rsum_scal, <- rsum_div. apply rsum_ext. intros j _.
    rewrite <- rsum_scal, <- rsum_div. apply rsum_ext. intros k _. unfold Rdiv. ring. }
  rewrite L3. set (z1 := rsum d _) in *. set (z2 := v_a_bar _ _ _ _ _ _ _ _ _ _ _ _ _ _ _) in *. clearbody z1 z2.
  destruct three; [rewrite L1 by reflexivity|rewrite L2 by reflexivity]; reflexivity.
Qed.
Lemma pD_plus (x y : vec) : pD three J G h (fun l => x l + y l) = pD three J G h x + pD three J G h y.
Proof.
  unfold pD. rewrite <- rsum_plus. apply rsum_ext. intros i _. rewrite <- Rmult_plus_distr_l, <- rsum_plus. f_equal. apply rsum_ext. intros; ring.
Qed.
Hypothesis HE : forall b, 0 < b -> is_derive (calcMagneticEnergy ns sx sw (pnu q)) b (calcMagneticEnergyDot ns sx sw (pnu q) (pdnu q) b).
Hypothesis HE2 : forall b, 0 < b -> is_derive (calcMagneticEnergyDot ns sx sw (pnu q) (pdnu q)) b (calcMagneticEnergyDoubleDot ns sx sw (pnu q) (pdnu q) (pd2nu q) b).
Lemma mesh_point : is_derive (fun t : R => - Fp three (calcMagneticEnergy ns sx sw (pnu q)) (calcMagneticEnergyDot ns sx sw (pnu q) (pdnu q)) (pw q) (lin J H t) G h) 0
  (pairing d nn (m_point three ndof nn pw dN shape pnu pdnu pd2nu ns sx sw X V u q) Y).
Proof.
  destruct (norm_nonzero _ _ PN) as [_ P].
  apply (DV_ext (fun t : R => (-1) * Fp three (calcMagneticEnergy ns sx sw (pnu q)) (calcMagneticEnergyDot ns sx sw (pnu q) (pdnu q)) (pw q) (lin J H t) G h)); [intros; ring|].
  eapply DV_eq; [apply DV_scal; apply (Fp_mesh three J G H h PW PN _ _ (calcMagneticEnergyDoubleDot ns sx sw (pnu q) (pdnu q) (pd2nu q)) (pw q) HE HE2)|].
  unfold m_point. rewrite (pairing_plus d nn (fun k j => f_adj_rev three nn dN q X adjbar k j + f_wt_rev three nn dN q X (m_W_bar three ndof nn pw dN shape pnu pdnu pd2nu ns sx sw X V u q) k j)).
  rewrite (pairing_plus d nn (f_adj_rev three nn dN q X adjbar)). rewrite adj_rev_pair, wt_rev_pair, adjbar_pair, W_bar_link.
  unfold f_jac_rev. rewrite to_nodes_pair, jac_pair, jac0_pair, !b_bar_gen, n_bar_link, mb_link by assumption.
  unfold dmpdB, dpB. rewrite (pD_plus (mv d (gdadj three J H) b) (mv d (gadj three J) bd)). rewrite !(pdB_alt three J H h PW PN).
  unfold v_dBds_bar, f_E, f_E1, f_E2, v_force_bar, f_w. rewrite !mag_link. change (f_wt three nn dN q X) with W.
  set (q1 := dot d _ _). set (c1 := pC three J G h bd). set (d1 := pD three J G h (mv d (gdadj three J H) b)). set (d2 := pD three J G h (mv d (gadj three J) bd)).
  set (E0v := calcMagneticEnergy _ _ _ _ _). set (E1v := calcMagneticEnergyDot _ _ _ _ _ _). set (E2v := calcMagneticEnergyDoubleDot _ _ _ _ _ _ _).
  set (D := pdB three J G h). clearbody D. set (A := ddet three J G). set (AH := ddet three J H). set (dA := dadjG three J G H). set (B := pB three J G h). set (n0 := n) in *. set (W0 := W) in *.
  clearbody q1 c1 d1 d2 E0v E1v E2v A AH dA B n0 W0.
  destruct three; field; split; lra.
Qed.
End MeshLink.

(** ** derivatives of the whole sum *)
Lemma loc_all (n : nat) (P : nat -> R -> Prop) : (forall q, (q < n)%nat -> locally (0 : R) (P q)) -> locally (0 : R) (fun t => forall q, (q < n)%nat -> P q t).
Proof.
  intros H. induction n as [|n IH]; [exists (mkposreal 1 Rlt_0_1); intros; lia|].
  assert (A := IH (fun q Hq => H q (Nat.lt_lt_succ_r _ _ Hq))). assert (B := H n (Nat.lt_succ_diag_r n)).
  generalize (filter_and _ _ A B). apply filter_imp. intros t [Ht1 Ht2] q Hq. destruct (Nat.eq_dec q n) as [->|]; [exact Ht2|]. apply Ht1. lia.
Qed.
Lemma loc_neq (f : R -> R) D : is_derive f 0 D -> f 0 <> 0 -> locally (0 : R) (fun t => f t <> 0).
Proof. intros H N. exact (DV_continuous _ _ _ H (fun y => y <> 0) (open_neq 0 (f 0) N)). Qed.
Lemma loc_pos (f : R -> R) D : is_derive f 0 D -> 0 < f 0 -> locally (0 : R) (fun t => 0 < f t).
Proof. intros H N. exact (DV_continuous _ _ _ H (fun y => 0 < y) (open_gt 0 (f 0) N)). Qed.
Lemma fb_along ndof shape e u z t q : f_bhat ndof shape (el_vec e (along u z t)) q = along (f_bhat ndof shape (el_vec e u) q) (f_bhat ndof shape (el_vec e z) q) t.
Proof.
  apply FunctionalExtensionality.functional_extensionality. intros a. unfold f_bhat, along, el_vec. rewrite <- rsum_scal, <- rsum_plus. apply rsum_ext. intros; ring.
Qed.
Lemma jac_moved_fun nn dN q X Y t : f_jac nn dN q (moved X Y t) = lin (f_jac nn dN q X) (iso_jac nn (dN q) Y) t.
Proof. apply FunctionalExtensionality.functional_extensionality. intros k. apply FunctionalExtensionality.functional_extensionality. intros l. apply jac_moved. Qed.
Record el_smooth (three : bool) (X : mat) (e : felem) : Prop := {
  es_nu : forall q b, (q < fe_nq e)%nat -> 0 < b -> is_derive (fe_nu e q) b (fe_dnu e q b);
  es_dnu : forall q b, (q < fe_nq e)%nat -> 0 < b -> is_derive (fe_dnu e q) b (fe_d2nu e q b);
  es_w : forall q, (q < fe_nq e)%nat -> 0 < f_wt three (fe_nn e) (fe_dN e) q (el_mat e X) }.
Section Sens.
Variables (three : bool) (ns : nat) (sx sw : nat -> R).
Hypothesis Hsx : forall j, (j < ns)%nat -> 0 < sx j.
Notation d := (gdim three).
Section El.
Variables (attrs : list nat) (X V : mat) (u : vec) (e : felem).
Hypothesis GOOD : el_smooth three X e.
Notation Jq q := (f_jac (fe_nn e) (fe_dN e) q (el_mat e X)).
Notation Gq q := (iso_jac (fe_nn e) (fe_dN e q) (el_mat e V)).
Notation hq q := (f_bhat (fe_ndof e) (fe_shape e) (el_vec e u) q).
Lemma E1_ok q b : (q < fe_nq e)%nat -> 0 < b -> is_derive (calcMagneticEnergy ns sx sw (fe_nu e q)) b (calcMagneticEnergyDot ns sx sw (fe_nu e q) (fe_dnu e q) b).
Proof. intros Hq Hb. apply energy_dot. intros j Hj. apply (es_nu _ _ _ GOOD); auto. apply Rmult_lt_0_compat; auto. Qed.
Lemma E2_ok q b : (q < fe_nq e)%nat -> 0 < b ->
  is_derive (calcMagneticEnergyDot ns sx sw (fe_nu e q) (fe_dnu e q)) b (calcMagneticEnergyDoubleDot ns sx sw (fe_nu e q) (fe_dnu e q) (fe_d2nu e q) b).
Proof. intros Hq Hb. apply energy_double_dot; intros j Hj; [apply (es_nu _ _ _ GOOD)|apply (es_dnu _ _ _ GOOD)]; auto; apply Rmult_lt_0_compat; auto. Qed.
Lemma elem_state g z : el_grad three ns sx sw attrs X V u e = Some g ->
  derivative_of (fun t => el_force three ns sx sw attrs X V (along u z t) e) (dot (fe_ndof e) g (el_vec e z)).
Proof.
  unfold el_grad, element_force_grad, el_force, element_force, derivative_of.
  destruct (f_skip three (fe_nn e) (el_mat e V) (memn (fe_attr e) attrs)).
  - intros [= <-]. exists (fun _ => 0). split; [now apply filter_forall|]. apply (DV_eq _ 0 0); [apply DV_const|]. unfold dot. rewrite (rsum_ext _ _ (fun _ => 0)) by (intros; ring). now rewrite rsum_0.
  - destruct (f_ok three (fe_ndof e) (fe_nn e) (fe_nq e) (fe_dN e) (fe_shape e) (el_mat e X) (el_vec e u)) eqn:OK; [|discriminate]. intros [= <-].
    assert (N := proj1 (ok_link _ _ _ _ _ _ _ _) OK).
    exists (fun t => rsum (fe_nq e) (fun q => - Fp three (calcMagneticEnergy ns sx sw (fe_nu e q)) (calcMagneticEnergyDot ns sx sw (fe_nu e q) (fe_dnu e q)) (fe_pw e q) (Jq q) (Gq q)
       (along (hq q) (f_bhat (fe_ndof e) (fe_shape e) (el_vec e z) q) t))). split.
    + assert (L : locally (0 : R) (fun t => forall q, (q < fe_nq e)%nat -> norm d (bb three (Jq q) (along (hq q) (f_bhat (fe_ndof e) (fe_shape e) (el_vec e z) q) t)) <> 0)).
      { apply loc_all. intros q Hq. eapply loc_neq; [apply n_state; now apply N|].
        rewrite (norm_ext d _ (bb three (Jq q) (hq q))) by (intros; apply bb_along0). now apply N. }
      revert L. apply filter_imp. intros t Ht.
      assert (OK' : f_ok three (fe_ndof e) (fe_nn e) (fe_nq e) (fe_dN e) (fe_shape e) (el_mat e X) (el_vec e (along u z t)) = true).
      { apply ok_link. intros q Hq. rewrite fb_along. now apply Ht. }
      rewrite OK'. f_equal. rewrite <- rsum_opp. apply rsum_ext. intros q Hq. rewrite point_link by (rewrite ?fb_along; try apply (es_w _ _ _ GOOD); auto). now rewrite fb_along.
    + unfold dot. rewrite (rsum_ext (fe_ndof e) _ (fun i => rsum (fe_nq e) (fun q => v_elfun_bar three (fe_ndof e) (fe_nn e) (fe_pw e) (fe_dN e) (fe_shape e) (fe_nu e) (fe_dnu e) (fe_d2nu e) ns sx sw (el_mat e X) (el_mat e V) (el_vec e u) q i * el_vec e z i))) by (intros; now rewrite rsum_scal_r).
      rewrite rsum_swap.
      apply (DV_sum (fe_nq e) (fun q t => - Fp three (calcMagneticEnergy ns sx sw (fe_nu e q)) (calcMagneticEnergyDot ns sx sw (fe_nu e q) (fe_dnu e q)) (fe_pw e q) (Jq q) (Gq q) (along (hq q) (f_bhat (fe_ndof e) (fe_shape e) (el_vec e z) q) t))).
      intros q Hq. apply state_point; auto; [now apply (es_w _ _ _ GOOD)|intros; now apply E1_ok|intros; now apply E2_ok].
Qed.
Lemma elem_mesh g Y : el_mesh three ns sx sw attrs X V u e = Some g ->
  derivative_of (fun t => el_force three ns sx sw attrs (moved X Y t) V u e) (pairing d (fe_nn e) g (el_mat e Y)).
Proof.
  unfold el_mesh, element_force_mesh, el_force, element_force, derivative_of.
  destruct (f_skip three (fe_nn e) (el_mat e V) (memn (fe_attr e) attrs)).
  - intros [= <-]. exists (fun _ => 0). split; [now apply filter_forall|]. apply (DV_eq _ 0 0); [apply DV_const|]. unfold pairing.
    rewrite (rsum_ext _ _ (fun _ => 0)); [now rewrite rsum_0|]. intros i _. rewrite (rsum_ext _ _ (fun _ => 0)) by (intros; ring). apply rsum_0.
  - destruct (f_ok three (fe_ndof e) (fe_nn e) (fe_nq e) (fe_dN e) (fe_shape e) (el_mat e X) (el_vec e u)) eqn:OK; [|discriminate]. intros [= <-].
    assert (N := proj1 (ok_link _ _ _ _ _ _ _ _) OK).
    set (Hq := fun q => iso_jac (fe_nn e) (fe_dN e q) (el_mat e Y)).
    exists (fun t => rsum (fe_nq e) (fun q => - Fp three (calcMagneticEnergy ns sx sw (fe_nu e q)) (calcMagneticEnergyDot ns sx sw (fe_nu e q) (fe_dnu e q)) (fe_pw e q) (lin (Jq q) (Hq q) t) (Gq q) (hq q))). split.
    + assert (L : locally (0 : R) (fun t => forall q, (q < fe_nq e)%nat -> norm d (bb three (lin (Jq q) (Hq q) t) (hq q)) <> 0)).
      { apply loc_all. intros q HQ. eapply loc_neq; [apply (n_mesh three (Jq q) (Hq q) (hq q)); now apply N|].
        rewrite (norm_ext d _ (bb three (Jq q) (hq q))) by (intros; apply bb_lin0). now apply N. }
      assert (L2 : locally (0 : R) (fun t => forall q, (q < fe_nq e)%nat -> 0 < gdet three (lin (Jq q) (Hq q) t))).
      { apply loc_all. intros q HQ. eapply loc_pos; [apply gdet_path|]. rewrite gdet_lin0. now apply (es_w _ _ _ GOOD). }
      generalize (filter_and _ _ L L2). apply filter_imp. intros t [Ht Ht2].
      change (el_mat e (moved X Y t)) with (moved (el_mat e X) (el_mat e Y) t).
      assert (OK' : f_ok three (fe_ndof e) (fe_nn e) (fe_nq e) (fe_dN e) (fe_shape e) (moved (el_mat e X) (el_mat e Y) t) (el_vec e u) = true).
      { apply ok_link. intros q HQ. rewrite jac_moved_fun. now apply Ht. }
      rewrite OK'. f_equal. rewrite <- rsum_opp. apply rsum_ext. intros q HQ. rewrite point_link; [now rewrite jac_moved_fun|rewrite jac_moved_fun; now apply Ht2|rewrite jac_moved_fun; now apply Ht].
    + rewrite pairing_sum.
      apply (DV_sum (fe_nq e) (fun q t => - Fp three (calcMagneticEnergy ns sx sw (fe_nu e q)) (calcMagneticEnergyDot ns sx sw (fe_nu e q) (fe_dnu e q)) (fe_pw e q) (lin (Jq q) (Hq q) t) (Gq q) (hq q))).
      intros q HQ. apply mesh_point; auto; [now apply (es_w _ _ _ GOOD)|intros; now apply E1_ok|intros; now apply E2_ok].
Qed.
End El.
Lemma derivative_of_plus F F' D D' : derivative_of F D -> derivative_of F' D' -> derivative_of (fun t => oplus (F t) (F' t)) (D + D').
Proof.
  intros (f & Lf & Hf) (g & Lg & Hg). exists (fun t => f t + g t). split; [|now apply DV_plus].
  generalize (filter_and _ _ Lf Lg). apply filter_imp. intros t [-> ->]. reflexivity.
Qed.
Lemma scatter_dot N e g z : (forall i, (i < fe_ndof e)%nat -> (fe_dof e i < N)%nat) -> rsum N (fun m => scatter e g m * z m) = dot (fe_ndof e) g (el_vec e z).
Proof.
  intros H. unfold scatter, dot, el_vec.
  rewrite (rsum_ext N _ (fun m => rsum (fe_ndof e) (fun i => if Nat.eqb m (fe_dof e i) then fe_sg e i * g i * z m else 0))).
  2:{ intros m _. rewrite <- rsum_scal_r. apply rsum_ext. intros i _. rewrite (Nat.eqb_sym m). destruct (Nat.eqb (fe_dof e i) m); ring. }
  rewrite rsum_swap. apply rsum_ext. intros i Hi. rewrite (rsum_delta N (fun m => fe_sg e i * g i * z m)) by auto. ring.
Qed.
Lemma scatter_mesh_pair N e g Y : (forall j, (j < fe_nn e)%nat -> (fe_node e j < N)%nat) -> pairing d N (scatter_mesh e g) Y = pairing d (fe_nn e) g (el_mat e Y).
Proof.
  intros H. unfold scatter_mesh, pairing, el_mat. apply rsum_ext. intros k _.
  rewrite (rsum_ext N _ (fun m => rsum (fe_nn e) (fun i => if Nat.eqb m (fe_node e i) then g k i * Y k m else 0))).
  2:{ intros m _. rewrite <- rsum_scal_r. apply rsum_ext. intros i _. rewrite (Nat.eqb_sym m). destruct (Nat.eqb (fe_node e i) m); ring. }
  rewrite rsum_swap. apply rsum_ext. intros i Hi. now rewrite (rsum_delta N (fun m => g k i * Y k m)) by auto.
Qed.
Lemma total_state es marked attrs X V u g z N : (forall e, In e es -> el_smooth three X e) -> (forall e i, In e es -> (i < fe_ndof e)%nat -> (fe_dof e i < N)%nat) ->
  total_grad three ns sx sw es marked attrs X V u = Some g ->
  derivative_of (fun t => total_force three ns sx sw es marked attrs X V (along u z t)) (dot N g z).
Proof.
  unfold total_grad, total_force. revert g. induction es as [|e es IH]; cbn [fold_right]; intros g Hg Hd.
  - intros [= <-]. exists (fun _ => 0). split; [now apply filter_forall|]. apply (DV_eq _ 0 0); [apply DV_const|]. unfold dot. rewrite (rsum_ext _ _ (fun _ => 0)) by (intros; ring). now rewrite rsum_0.
  - assert (IH' := fun g' => IH g' (fun e' H' => Hg e' (or_intror H')) (fun e' i H' => Hd e' i (or_intror H'))). clear IH.
    destruct (marked (fe_attr e)); [|apply IH'].
    destruct (el_grad three ns sx sw attrs X V u e) as [ge|] eqn:GE; [|discriminate].
    set (rest := fold_right _ _ es) in *. destruct rest as [r|]; [|discriminate]. intros [= <-].
    replace (dot N (fun m => scatter e ge m + r m) z) with (dot (fe_ndof e) ge (el_vec e z) + dot N r z).
    + apply derivative_of_plus; [|now apply IH']. apply elem_state; auto. apply Hg. now left.
    + rewrite <- (scatter_dot N) by (intros; apply Hd; auto; now left). unfold dot. rewrite <- rsum_plus. apply rsum_ext. intros; ring.
Qed.
Lemma total_mesh_derive es marked attrs X V u g Y N : (forall e, In e es -> el_smooth three X e) -> (forall e j, In e es -> (j < fe_nn e)%nat -> (fe_node e j < N)%nat) ->
  total_mesh three ns sx sw es marked attrs X V u = Some g ->
  derivative_of (fun t => total_force three ns sx sw es marked attrs (moved X Y t) V u) (pairing d N g Y).
Proof.
  unfold total_mesh, total_force. revert g. induction es as [|e es IH]; cbn [fold_right]; intros g Hg Hd.
  - intros [= <-]. exists (fun _ => 0). split; [now apply filter_forall|]. apply (DV_eq _ 0 0); [apply DV_const|]. unfold pairing.
    rewrite (rsum_ext _ _ (fun _ => 0)); [now rewrite rsum_0|]. intros i _. rewrite (rsum_ext _ _ (fun _ => 0)) by (intros; ring). apply rsum_0.
  - assert (IH' := fun g' => IH g' (fun e' H' => Hg e' (or_intror H')) (fun e' i H' => Hd e' i (or_intror H'))). clear IH.
    destruct (marked (fe_attr e)); [|apply IH'].
    destruct (el_mesh three ns sx sw attrs X V u e) as [ge|] eqn:GE; [|discriminate].
    set (rest := fold_right _ _ es) in *. destruct rest as [r|]; [|discriminate]. intros [= <-].
    replace (pairing d N (fun k m => scatter_mesh e ge k m + r k m) Y) with (pairing d (fe_nn e) ge (el_mat e Y) + pairing d N r Y).
    + apply derivative_of_plus; [|now apply IH']. apply elem_mesh; auto. apply Hg. now left.
    + rewrite <- (scatter_mesh_pair N) by (intros; apply Hd; auto; now left). symmetry. apply (pairing_plus d N (scatter_mesh e ge) r).
Qed.
End Sens.

(** ** displacement fields *)
Lemma memn_In a l : memn a l = true <-> In a l.
Proof. unfold memn. rewrite existsb_exists. split; [intros (x & H & E); apply Nat.eqb_eq in E; now subst|intros H; exists a; split; [exact H|apply Nat.eqb_refl]]. Qed.
Definition body_node (es : list felem) (attrs : list nat) (n : nat) : Prop := exists e j, In e es /\ In (fe_attr e) attrs /\ (j < fe_nn e)%nat /\ fe_node e j = n.
Lemma node_in_iff es attrs n : node_in es attrs n = true <-> body_node es attrs n.
Proof.
  unfold node_in, body_node. rewrite existsb_exists. split.
  - intros (e & He & H). apply andb_true_iff in H. destruct H as [H1 H2]. apply existsb_exists in H2. destruct H2 as (j & Hj & E). exists e, j. apply in_seq in Hj. apply Nat.eqb_eq in E. apply memn_In in H1. repeat split; auto; lia.
  - intros (e & j & He & Ha & Hj & E). exists e. split; [exact He|]. apply andb_true_iff. split; [now apply memn_In|]. apply existsb_exists. exists j. split; [apply in_seq; lia|]. now apply Nat.eqb_eq.
Qed.
Lemma project_moves d es attrs coef X : moves_body d (body_node es attrs) coef X (project es attrs coef X).
Proof.
  intros k n _. unfold project. destruct (node_in es attrs n) eqn:B; split; intros H; [reflexivity| |exfalso|reflexivity].
  - exfalso. apply H. now apply node_in_iff.
  - apply node_in_iff in H. congruence.
Qed.
Definition velocity (three torque : bool) (o : fopts) (x : vec) : vec :=
  if torque then rotation three (unit_axis (o_na o) (o_axis o)) (o_about o) x else o_axis o.
Lemma moves_ext d body v v' X V : (forall x k, v x k = v' x k) -> moves_body d body v X V -> moves_body d body v' X V.
Proof. intros E H k n Hk. destruct (H k n Hk) as [A B]. split; [intros K; rewrite <- E; auto|exact B]. Qed.
Lemma new_field_moves three es torque o X V : new_field three es torque o X = Some V -> moves_body (gdim three) (body_node es (o_attrs o)) (velocity three torque o) X V.
Proof.
  unfold new_field, velocity. destruct torque; unfold torque_field, force_field.
  - destruct (Nat.ltb (o_na o) 3); [discriminate|]. intros [= <-]. eapply moves_ext; [|apply project_moves].
    intros x k. unfold torque_coef, rotation, unit_axis, norm, dot. destruct three; [reflexivity|]. destruct k; ring.
  - destruct (Nat.ltb (o_na o) (gdim three)); [discriminate|]. intros [= <-]. apply project_moves.
Qed.
Lemma rotation_rigid (three : bool) w c d : d = gdim three -> exists (Om : mat) (tau : vec), (forall i j, Om i j = - Om j i) /\
  forall k x, (k < d)%nat -> rotation three w c x k = rsum d (fun i => Om k i * x i) + tau k.
Proof.
  intros ->.
  exists (fun i j => match i, j with
     | O, S O => - w 2%nat | S O, O => w 2%nat
     | O, S (S O) => if three then w 1%nat else 0 | S (S O), O => if three then - w 1%nat else 0
     | S O, S (S O) => if three then - w 0%nat else 0 | S (S O), S O => if three then w 0%nat else 0
     | _, _ => 0 end), (fun k => rotation three w c (fun _ => 0) k). split.
  - intros i j. destruct i as [|[|[|i]]], j as [|[|[|j]]]; destruct three; ring.
  - intros k x Hk. unfold rotation. destruct three.
    + destruct k as [|[|[|k]]]; [| | |cbn in Hk; lia]; cbn [gdim rsum]; ring.
    + destruct k as [|[|k]]; [| |cbn in Hk; lia]; cbn [gdim rsum]; ring.
Qed.
Lemma body_rigid three torque o es X V e : moves_body (gdim three) (body_node es (o_attrs o)) (velocity three torque o) X V ->
  In e es -> memn (fe_attr e) (o_attrs o) = true -> el_rigid three X V e.
Proof.
  intros M He Ha. apply memn_In in Ha.
  assert (K : forall k j, (k < gdim three)%nat -> (j < fe_nn e)%nat -> el_mat e V k j = velocity three torque o (fun c => el_mat e X c j) k).
  { intros k j Hk Hj. apply (M k (fe_node e j) Hk). now exists e, j. }
  unfold el_rigid, rigid_nodes, velocity in *. destruct torque.
  - destruct (rotation_rigid three (unit_axis (o_na o) (o_axis o)) (o_about o) _ eq_refl) as (Om & tau & A & E). exists Om, tau. split; [exact A|].
    intros k j Hk Hj. rewrite (K k j Hk Hj). now apply E.
  - exists (fun _ _ => 0), (o_axis o). split; [intros; ring|]. intros k j Hk Hj. rewrite (K k j Hk Hj), (rsum_ext _ _ (fun _ => 0)) by (intros; ring). rewrite rsum_0. ring.
Qed.
Lemma tiny_zero three es attrs vel X V e : moves_body (gdim three) (body_node es attrs) vel X V -> In e es ->
  (forall n, body_node es attrs n -> (forall k, (k < gdim three)%nat -> vel (fun c => X c n) k = 0) \/ exists k, (k < gdim three)%nat /\ / 10 ^ 14 <= Rabs (vel (fun c => X c n) k)) ->
  norm_inf (gdim three) (fe_nn e) (el_mat e V) < / 10 ^ 14 -> el_rigid three X V e.
Proof.
  intros M He HN S. apply rigid_zero. intros k j Hk Hj. unfold el_mat. set (n := fe_node e j).
  destruct (M k n Hk) as [A B]. destruct (node_in es attrs n) eqn:I.
  - apply node_in_iff in I. destruct (HN n I) as [Z|(k' & Hk' & L)]; [rewrite (A I); now apply Z|]. exfalso.
    destruct (M k' n Hk') as [A' _]. rewrite <- (A' I) in L.
    assert (T : Rabs (V k' n) <= norm_inf (gdim three) (fe_nn e) (el_mat e V)); [|lra].
    eapply Rle_trans; [|apply (rmaxn_le (gdim three) (fun k => rmaxn (fe_nn e) (fun j => Rabs (el_mat e V k j))) k' Hk')].
    apply (rmaxn_le (fe_nn e) (fun j => Rabs (el_mat e V k' j)) j Hj).
  - apply B. intros C. apply node_in_iff in C. congruence.
Qed.
Lemma unmarked_zero three es attrs vel X V e : moves_body (gdim three) (body_node es attrs) vel X V ->
  (forall j, (j < fe_nn e)%nat -> ~ body_node es attrs (fe_node e j)) -> el_rigid three X V e.
Proof. intros M H. apply rigid_zero. intros k j Hk Hj. apply (M k (fe_node e j) Hk). now apply H. Qed.
(** ** sessions *)
From Coq Require Import String.
Lemma set_field_inv three es torque o s s' : set_field three es torque o s = FOk s' ->
  exists V, new_field three es torque o (s_X s) = Some V /\ has (key torque) (s_fields s) = true /\ s_fields s' = s_fields s /\
    s_v s' (key torque) = V /\ (forall k, k <> key torque -> s_v s' k = s_v s k) /\ s_outs s' = s_outs s /\ s_X s' = s_X s.
Proof.
  unfold set_field. destruct (has (key torque) (s_fields s)) eqn:HK; [|discriminate]. destruct (new_field three es torque o (s_X s)) as [V|]; [|discriminate].
  intros [= <-]. exists V. repeat split; cbn; auto; [now rewrite String.eqb_refl|]. intros k N. apply String.eqb_neq in N. now rewrite N.
Qed.
Lemma create_inv three es name o s s' : create_output three es name o s = FOk s' ->
  exists torque V, torque = negb (prefix "force"%string name) /\ new_field three es torque o (s_X s) = Some V /\ s_v s' (key torque) = V /\ s_X s' = s_X s /\
    lookup name (s_outs s) = None /\
    s_outs s' = (name, {| out_torque := torque; out_attrs := o_attrs o; out_air := if torque then o_air o else None |}) :: s_outs s.
Proof.
  unfold create_output. destruct (lookup name (s_outs s)) eqn:L; [discriminate|]. destruct (prefix "force"%string name || prefix "torque"%string name); [|discriminate].
  set (torque := negb (prefix "force"%string name)). set (s1 := if has _ _ then s else _).
  destruct (set_field three es torque o s1) as [s2| | |] eqn:SF; try discriminate. intros [= <-].
  destruct (set_field_inv _ _ _ _ _ _ SF) as (V & HV & _ & _ & Hv & _ & Ho & HX).
  assert (X1 : s_X s1 = s_X s) by (unfold s1; destruct (has _ _); reflexivity). assert (O1 : s_outs s1 = s_outs s) by (unfold s1; destruct (has _ _); reflexivity).
  exists torque, V. cbn. rewrite <- X1, <- O1, Ho. repeat split; auto.
Qed.

Lemma point_scal three ndof nn pw dN shape pnu pdnu ns sx sw X V u q c :
  f_point three ndof nn pw dN shape pnu pdnu ns sx sw X (fun k j => c * V k j) u q = c * f_point three ndof nn pw dN shape pnu pdnu ns sx sw X V u q.
Proof.
  assert (A : f_dBds three ndof nn dN shape X (fun k j => c * V k j) u q = c * f_dBds three ndof nn dN shape X V u q).
  { unfold f_dBds. rewrite <- rsum_scal. apply rsum_ext. intros j _. rewrite <- rsum_scal. apply rsum_ext. intros; ring. }
  assert (B : f_tr three nn dN X (fun k j => c * V k j) q = c * f_tr three nn dN X V q).
  { unfold f_tr. rewrite <- rsum_scal. apply rsum_ext. intros a _. rewrite <- rsum_scal. apply rsum_ext. intros k _. unfold f_dJds.
    rewrite (rsum_ext nn (fun j => c * V k j * dN q j a) (fun j => c * (V k j * dN q j a))) by (intros; ring). rewrite rsum_scal. ring. }
  unfold f_point. rewrite A, B. ring.
Qed.
Lemma rmaxn_ext n f g : (forall i, (i < n)%nat -> f i = g i) -> rmaxn n f = rmaxn n g.
Proof. induction n as [|n IH]; intros H; [reflexivity|]. cbn [rmaxn]. rewrite IH, H by (intros; try apply H; lia). reflexivity. Qed.
Definition omap (f : R -> R) (o : option R) : option R := match o with Some x => Some (f x) | None => None end.
Lemma total_neg three ns sx sw es marked attrs X V u :
  total_force three ns sx sw es marked attrs X (fun k n => -1 * V k n) u = omap Ropp (total_force three ns sx sw es marked attrs X V u).
Proof.
  unfold total_force. induction es as [|e es IH]; cbn [fold_right]; [cbn; f_equal; ring|]. destruct (marked (fe_attr e)); [|exact IH]. rewrite IH.
  assert (E : el_force three ns sx sw attrs X (fun k n => -1 * V k n) u e = omap Ropp (el_force three ns sx sw attrs X V u e)).
  { unfold el_force, element_force, f_skip. replace (norm_inf (gdim three) (fe_nn e) (el_mat e (fun k n => -1 * V k n))) with (norm_inf (gdim three) (fe_nn e) (el_mat e V)).
    - destruct (memn (fe_attr e) attrs || Rltb (norm_inf (gdim three) (fe_nn e) (el_mat e V)) (/ 10 ^ 14)); [cbn; f_equal; ring|].
      destruct (f_ok three (fe_ndof e) (fe_nn e) (fe_nq e) (fe_dN e) (fe_shape e) (el_mat e X) (el_vec e u)); [|reflexivity]. cbn. f_equal. f_equal.
      rewrite <- rsum_opp. apply rsum_ext. intros q _. change (el_mat e (fun k n => -1 * V k n)) with (fun k j => -1 * el_mat e V k j). rewrite point_scal. ring.
    - unfold norm_inf. apply rmaxn_ext. intros k _. apply rmaxn_ext. intros j _. unfold el_mat. replace (-1 * V k (fe_node e j)) with (- V k (fe_node e j)) by ring. now rewrite Rabs_Ropp. }
  rewrite E. set (a := el_force _ _ _ _ _ _ _ _ _). set (b := fold_right _ _ es). destruct a as [x|], b as [y|]; cbn; try reflexivity. f_equal. ring.
Qed.
Lemma total_none three ns sx sw es marked attrs X V u : total_force three ns sx sw es marked attrs X V u = None <->
  exists e, In e es /\ marked (fe_attr e) = true /\ el_force three ns sx sw attrs X V u e = None.
Proof.
  unfold total_force. induction es as [|e es IH]; cbn [fold_right].
  - split; [discriminate|intros (e & [] & _)].
  - split.
    + destruct (marked (fe_attr e)) eqn:M.
      * destruct (el_force three ns sx sw attrs X V u e) as [f|] eqn:E; [|intros _; exists e; split; [now left|auto]].
        intros H. assert (K : fold_right (fun e s => if marked (fe_attr e) then oplus (el_force three ns sx sw attrs X V u e) s else s) (Some 0) es = None).
        { destruct (fold_right _ _ es); [discriminate|reflexivity]. }
        apply IH in K. destruct K as (e' & H1 & H2). exists e'. split; [now right|exact H2].
      * intros K. apply IH in K. destruct K as (e' & H1 & H2). exists e'. split; [now right|exact H2].
    + intros (e' & [<-|H1] & H2 & H3).
      * rewrite H2, H3. reflexivity.
      * assert (K : fold_right (fun e s => if marked (fe_attr e) then oplus (el_force three ns sx sw attrs X V u e) s else s) (Some 0) es = None) by (apply IH; eauto).
        rewrite K. destruct (marked (fe_attr e)); [|reflexivity]. now destruct (el_force three ns sx sw attrs X V u e).
Qed.
Lemma zero_energy three ns sx sw es X : total_energy three ns sx sw es X (fun _ => 0) = 0.
Proof.
  unfold total_energy. induction es as [|e es IH]; cbn [fold_right]; [reflexivity|]. rewrite IH. unfold el_energy. rewrite energy_link.
  rewrite (rsum_ext _ _ (fun _ => 0)); [rewrite rsum_0; ring|]. intros q _. unfold Eng, pmag.
  rewrite (norm_ext _ _ (fun _ => 0)).
  - unfold calcMagneticEnergy. replace (norm (gdim three) (fun _ => 0)) with 0; [unfold Rdiv; ring|].
    unfold norm, dot. rewrite (rsum_ext _ _ (fun _ => 0)) by (intros; ring). rewrite rsum_0, sqrt_0. reflexivity.
  - intros k _. unfold bb. rewrite (rsum_ext _ _ (fun _ => 0)); [apply rsum_0|]. intros a _. unfold f_bhat, el_vec. rewrite (rsum_ext _ _ (fun _ => 0)) by (intros; ring). rewrite rsum_0. ring.
Qed.
