From Coq Require Import Reals List Bool Arith Lra Lia.
From Coquelicot Require Import Coquelicot.
From Verif Require Import Num Vec Deriv EmIntegSpec IsoGeom Force ForceProofs Euler Sbp SbpSpec SbpProofs SbpMesh SbpMeshProofs FlowSens FlowSensSpec.
Import ListNotations.
Local Open Scope R_scope.

Lemma pairing_madd a b A B V : pairing a b (madd A B) V = pairing a b A V + pairing a b B V.
Proof. unfold pairing, madd. rewrite <- rsum_plus. apply rsum_ext. intros i _. rewrite <- rsum_plus. apply rsum_ext. intros; ring. Qed.
Lemma pairing_zero2 a b V : pairing a b zero2 V = 0.
Proof. unfold pairing, zero2. rewrite (rsum_ext a _ (fun _ => 0)); [apply rsum_0|]. intros i _. rewrite (rsum_ext b _ (fun _ => 0)) by (intros; ring). apply rsum_0. Qed.
Lemma pairing_add2 a b A i j x V : (i < a)%nat -> (j < b)%nat -> pairing a b (add2 A i j x) V = pairing a b A V + x * V i j.
Proof.
  intros Hi Hj. assert (T := test_add2 a b V A i j x Hi Hj). unfold test, dot in T. unfold pairing.
  rewrite (rsum_ext a (fun i0 => rsum b (fun j0 => add2 A i j x i0 j0 * V i0 j0)) (fun i0 => rsum b (fun j0 => V i0 j0 * add2 A i j x i0 j0))) by (intros; apply rsum_ext; intros; ring).
  rewrite T. rewrite (rsum_ext a (fun i0 => rsum b (fun j0 => V i0 j0 * A i0 j0)) (fun i0 => rsum b (fun j0 => A i0 j0 * V i0 j0))) by (intros; apply rsum_ext; intros; ring). ring.
Qed.
Lemma jac_lin nn dN X V t : iso_jac nn dN (moved X V t) = fun k l => iso_jac nn dN X k l + t * iso_jac nn dN V k l.
Proof. apply FunctionalExtensionality.functional_extensionality; intros k. apply FunctionalExtensionality.functional_extensionality; intros l. apply jac_moved. Qed.

Section Sens.
Variables (three : bool) (ns : nat) (alpha : R).
Notation d := (gdim three).
Notation df := (if three then 2%nat else 1%nat).

Lemma adj_rev_pair nn dN J B V : pairing d nn (adj_rev three dN J B) V = pairing d d B (gdadj three J (iso_jac nn dN V)).
Proof.
  unfold adj_rev. rewrite to_nodes_pair. unfold pairing at 1 2.
  rewrite (rsum_ext d _ (fun k => rsum d (fun l => rsum d (fun a => rsum d (fun b => B a b * (gdadj three J (unit_mat k l) a b * iso_jac nn dN V k l)))))).
  2:{ intros k _. apply rsum_ext. intros l _. rewrite <- rsum_scal_r. apply rsum_ext. intros a _. rewrite <- rsum_scal_r. apply rsum_ext. intros b _. ring. }
  unfold pairing.
  rewrite (rsum_ext d (fun i => rsum d (fun j => B i j * gdadj three J (iso_jac nn dN V) i j)) (fun a => rsum d (fun b => rsum d (fun k => rsum d (fun l => B a b * (gdadj three J (unit_mat k l) a b * iso_jac nn dN V k l)))))).
  2:{ intros a _. apply rsum_ext. intros b _. rewrite (dadj_sum three J (iso_jac nn dN V) a b), <- rsum_scal. apply rsum_ext. intros k _. now rewrite <- rsum_scal. }
  rewrite (rsum_ext d _ (fun k => rsum d (fun a => rsum d (fun l => rsum d (fun b => B a b * (gdadj three J (unit_mat k l) a b * iso_jac nn dN V k l)))))) by (intros; apply rsum_swap).
  rewrite rsum_swap. apply rsum_ext. intros a _.
  rewrite (rsum_ext d _ (fun k => rsum d (fun b => rsum d (fun l => B a b * (gdadj three J (unit_mat k l) a b * iso_jac nn dN V k l))))) by (intros; apply rsum_swap).
  apply rsum_swap.
Qed.

(** ** volume *)
Section Vol.
Variables (flux : nat -> vec -> vec -> vec) (e : selem) (P V : mat) (u psi : nat -> vec).
Notation n := (se_n e).
Notation Jn i := (iso_jac (se_nn e) (se_dN e i) P).
Notation dA i := (gdadj three (Jn i) (iso_jac (se_nn e) (se_dN e i) V)).
Definition s_bar (i j di : nat) : R := alpha * dot ns (fun m => psi i m - psi j m) (flux di (u i) (u j)).
Definition dS (i j di : nat) : R := rsum d (fun k => dA i k di * se_Q e k j i - dA j k di * se_Q e k i j).
Lemma bar_loop i j di : loop ns (fun m s => s + flux di (u i) (u j) m * psi i m - flux di (u i) (u j) m * psi j m) 0 * alpha = s_bar i j di.
Proof.
  rewrite (loop_read (fun s => s) ns _ (fun m => (psi i m - psi j m) * flux di (u i) (u j) m)) by (intros; ring). unfold s_bar, dot. rewrite Rplus_0_l. ring.
Qed.
Lemma col_loop A di (x : vec) W : (di < d)%nat -> pairing d d (loop d (fun k A => add2 A k di (x k)) A) W = pairing d d A W + rsum d (fun k => x k * W k di).
Proof. intros Hd. apply (loop_read (fun A => pairing d d A W) d (fun k A => add2 A k di (x k))). intros k t Hk. now apply pairing_add2. Qed.
Lemma vol_sens_pair : pairing d (se_nn e) (vol_sens three ns alpha flux e P u psi) V =
  rsum n (fun i => rsum n (fun j => if Nat.ltb i j then rsum d (fun di => s_bar i j di * dS i j di) else 0)).
Proof.
  unfold vol_sens. cbv zeta.
  rewrite (loop_read (fun M => pairing d (se_nn e) M V) n _ (fun i => rsum n (fun j => if Nat.ltb i j then rsum d (fun di => s_bar i j di * dS i j di) else 0))).
  - rewrite pairing_zero2. ring.
  - intros i PM Hi. rewrite pairing_madd, adj_rev_pair.
    match goal with |- context [loop (se_n e) ?bd (PM, zero2)] => set (body := bd) end.
    assert (K := loop_read (fun s : mat * mat => pairing d (se_nn e) (fst s) V + pairing d d (snd s) (dA i)) n body (fun j => if Nat.ltb i j then rsum d (fun di => s_bar i j di * dS i j di) else 0) (PM, zero2)).
    cbv beta in K. etransitivity; [apply K|].
    + intros j [PM' Ai] Hj. unfold body. cbn [fst snd]. destruct (Nat.ltb i j) eqn:L; [|cbn [fst snd]; ring].
      match goal with |- context [loop (gdim three) ?bd (Ai, zero2)] => set (body2 := bd) end.
      cbn [fst snd].
      rewrite pairing_madd, adj_rev_pair.
      assert (K2 := loop_read (fun b : mat * mat => pairing d d (snd b) (dA j) + pairing d d (fst b) (dA i)) d body2 (fun di => s_bar i j di * dS i j di) (Ai, zero2)).
      cbv beta in K2.
      rewrite Rplus_assoc. etransitivity; [apply (f_equal (fun z => pairing d (se_nn e) PM' V + z)); apply K2|].
      * intros di [Bi Bj] Hd. unfold body2. cbn [fst snd]. rewrite bar_loop. rewrite !col_loop by exact Hd. unfold getSkewEntryRevDiff. cbn [fst snd].
        unfold dS. rewrite <- rsum_scal.
        rewrite (rsum_ext d (fun k => s_bar i j di * (dA i k di * se_Q e k j i - dA j k di * se_Q e k i j)) (fun k => s_bar i j di * se_Q e k j i * dA i k di + - (s_bar i j di * se_Q e k i j) * dA j k di)) by (intros; ring).
        rewrite rsum_plus. ring.
      * cbn [fst snd]. rewrite pairing_zero2. ring.
    + cbn [fst snd]. rewrite pairing_zero2. ring.
Qed.
Lemma vol_derive : is_derive (fun t => test n ns psi (vol_vector three ns alpha flux e (moved P V t) u)) 0
   (pairing d (se_nn e) (vol_sens three ns alpha flux e P u psi) V).
Proof.
  rewrite vol_sens_pair. unfold vol_vector.
  eapply DV_ext; [intros t; symmetry; apply dyadic_test|].
  apply (DV_sum n (fun i t => rsum n (fun j => if Nat.ltb i j then rsum d (fun di => getSkewEntry d (se_Q e) di i j (el_adj three e (moved P V t) i) (el_adj three e (moved P V t) j) * alpha * dot ns (fun m => psi i m - psi j m) (flux di (u i) (u j))) else 0))).
  intros i Hi.
  apply (DV_sum n (fun j t => if Nat.ltb i j then rsum d (fun di => getSkewEntry d (se_Q e) di i j (el_adj three e (moved P V t) i) (el_adj three e (moved P V t) j) * alpha * dot ns (fun m => psi i m - psi j m) (flux di (u i) (u j))) else 0)).
  intros j Hj. destruct (Nat.ltb i j); [|apply DV_const].
  apply (DV_sum d (fun di t => getSkewEntry d (se_Q e) di i j (el_adj three e (moved P V t) i) (el_adj three e (moved P V t) j) * alpha * dot ns (fun m => psi i m - psi j m) (flux di (u i) (u j)))).
  intros di Hd. unfold s_bar. eapply DV_eq; [apply DV_scal_r, DV_scal_r|].
  - unfold getSkewEntry.
    apply (DV_sum d (fun k t => el_adj three e (moved P V t) i k di * se_Q e k j i - el_adj three e (moved P V t) j k di * se_Q e k i j)).
    intros k Hk. unfold el_adj. apply DV_minus; apply DV_scal_r.
    + eapply DV_ext; [|apply (gadj_path three (Jn i) (iso_jac (se_nn e) (se_dN e i) V) k di)]. intros t. cbv beta. now rewrite jac_lin.
    + eapply DV_ext; [|apply (gadj_path three (Jn j) (iso_jac (se_nn e) (se_dN e j) V) k di)]. intros t. cbv beta. now rewrite jac_lin.
  - cbv beta. unfold dS. ring.
Qed.
End Vol.

(** ** boundary *)
Lemma adj_mul J a b : (a < d)%nat -> (b < d)%nat -> rsum d (fun c => gadj three J a c * J c b) = if Nat.eqb a b then gdet three J else 0.
Proof.
  intros Ha Hb. unfold gadj, gdet. destruct three.
  - destruct a as [|[|[|a]]]; [| | |cbn in Ha; lia]; (destruct b as [|[|[|b]]]; [| | |cbn in Hb; lia]); cbn [gdim rsum Nat.eqb]; unfold det3, cof3; ring.
  - destruct a as [|[|a]]; [| |cbn in Ha; lia]; (destruct b as [|[|b]]; [| |cbn in Hb; lia]); cbn [gdim rsum Nat.eqb]; unfold det2, adj2; ring.
Qed.
Lemma ortho_derive (F : R -> mat) (dF : mat) : (forall a l, (a < d)%nat -> (l < df)%nat -> is_derive (fun t => F t a l) 0 (dF a l)) ->
  exists v : vec, (forall k, (k < d)%nat -> is_derive (fun t => calc_ortho three (F t) k) 0 (v k)) /\
    forall b, rsum d (fun k => b k * v k) = pairing d df (calc_ortho_rev three (F 0) b) dF.
Proof.
  intros H. destruct three; cbn [gdim] in *.
  - assert (H00 := H 0%nat 0%nat ltac:(lia) ltac:(lia)). assert (H01 := H 0%nat 1%nat ltac:(lia) ltac:(lia)).
    assert (H10 := H 1%nat 0%nat ltac:(lia) ltac:(lia)). assert (H11 := H 1%nat 1%nat ltac:(lia) ltac:(lia)).
    assert (H20 := H 2%nat 0%nat ltac:(lia) ltac:(lia)). assert (H21 := H 2%nat 1%nat ltac:(lia) ltac:(lia)).
    exists (fun k => match k with
      | O => (dF 1%nat 0%nat * F 0 2%nat 1%nat + F 0 1%nat 0%nat * dF 2%nat 1%nat) - (dF 2%nat 0%nat * F 0 1%nat 1%nat + F 0 2%nat 0%nat * dF 1%nat 1%nat)
      | S O => (dF 2%nat 0%nat * F 0 0%nat 1%nat + F 0 2%nat 0%nat * dF 0%nat 1%nat) - (dF 0%nat 0%nat * F 0 2%nat 1%nat + F 0 0%nat 0%nat * dF 2%nat 1%nat)
      | _ => (dF 0%nat 0%nat * F 0 1%nat 1%nat + F 0 0%nat 0%nat * dF 1%nat 1%nat) - (dF 1%nat 0%nat * F 0 0%nat 1%nat + F 0 1%nat 0%nat * dF 0%nat 1%nat) end).
    split.
    + intros k' Hk. unfold calc_ortho. destruct k' as [|[|k']]; apply DV_minus; now apply DV_mult.
    + intros b. unfold pairing, calc_ortho_rev. cbn [rsum]. ring.
  - assert (H00 := H 0%nat 0%nat ltac:(lia) ltac:(lia)). assert (H10 := H 1%nat 0%nat ltac:(lia) ltac:(lia)).
    exists (fun k => match k with O => dF 1%nat 0%nat | _ => - dF 0%nat 0%nat end). split.
    + intros k' Hk. unfold calc_ortho. destruct k' as [|k']; [exact H10|].
      apply (DV_eq _ 0 (-1 * dF 0%nat 0%nat)); [|ring]. eapply DV_ext; [|apply (DV_scal (-1) (fun t => F t 0%nat 0%nat)); exact H00]. intros t. cbv beta. ring.
    + intros b. unfold pairing, calc_ortho_rev. cbn [rsum]. ring.
Qed.
Section Bnd.
Variables (flux : vec -> vec -> vec -> vec) (fluxBar : vec -> vec -> vec -> vec -> vec) (b : sface) (P V : mat) (u psi : nat -> vec).
Notation el := (sf_el b).
Notation nn := (se_nn (sf_el b)).
Hypothesis HF : is_flux_bar d ns flux fluxBar.
Hypothesis HI : forall f, (f < sf_nf b)%nat -> (sf_idx b f < se_n el)%nat.
Hypothesis HJ : forall f, (f < sf_nf b)%nat -> gdet three (el_jac b P f) <> 0.
Lemma jac_map f a l : (f < sf_nf b)%nat -> (a < d)%nat ->
  rsum d (fun c => gadj three (el_jac b P f) a c / gdet three (el_jac b P f) * face_jac three b P f c l) = sf_loc b f a l.
Proof.
  intros Hf Ha. assert (D := HJ f Hf). set (J := el_jac b P f) in *. unfold face_jac. fold J.
  rewrite (rsum_ext d _ (fun c => rsum d (fun c' => / gdet three J * (gadj three J a c * J c c' * sf_loc b f c' l)))).
  2:{ intros c _. rewrite <- rsum_scal. apply rsum_ext. intros c' _. field. exact D. }
  rewrite rsum_swap.
  rewrite (rsum_ext d _ (fun c' => if Nat.eqb c' a then sf_loc b f c' l else 0)).
  - rewrite (rsum_delta d (fun c' => sf_loc b f c' l) a Ha). reflexivity.
  - intros c' Hc. rewrite (rsum_ext d _ (fun c => gadj three J a c * J c c' * (/ gdet three J * sf_loc b f c' l))) by (intros; ring).
    rewrite rsum_scal_r, adj_mul by assumption. rewrite (Nat.eqb_sym a c'). destruct (Nat.eqb c' a); [field; exact D|ring].
Qed.
Lemma face_moved t f k l : face_jac three b (moved P V t) f k l = face_jac three b P f k l + t * face_jac three b V f k l.
Proof. unfold face_jac, el_jac. rewrite <- rsum_scal, <- rsum_plus. apply rsum_ext. intros c _. rewrite jac_moved. ring. Qed.
Definition bterm (f : nat) (t : R) : R :=
  sf_wt b f * alpha * rsum ns (fun m => psi (sf_idx b f) m * flux (face_pos b P f) (calc_ortho three (face_jac three b (moved P V t) f)) (u (sf_idx b f)) m).
Lemma bnd_test t : test (se_n el) ns psi (bnd_vector three ns alpha flux b (moved P V t) u) = rsum (sf_nf b) (fun f => bterm f t).
Proof.
  unfold bnd_vector, boundaryVector.
  rewrite (loop_read (test (se_n el) ns psi) (sf_nf b) _ (fun f => bterm f t)); [rewrite test_zero; ring|].
  intros f r Hf. cbv zeta. unfold bterm. rewrite <- rsum_scal.
  apply (loop_read (test (se_n el) ns psi)). intros m s Hm. rewrite test_add2; [|now apply HI|exact Hm]. f_equal.
  rewrite (proj1 HF (face_pos b (moved P V t) f) (face_pos b P f) _ _ m Hm). ring.
Qed.
Lemma bnd_pair : pairing d nn (bnd_sens three alpha fluxBar b P u psi) V =
  rsum (sf_nf b) (fun f => pairing d df (calc_ortho_rev three (face_jac three b P f) (fun k => fluxBar (face_pos b P f) (calc_ortho three (face_jac three b P f)) (u (sf_idx b f)) (psi (sf_idx b f)) k * (sf_wt b f * alpha))) (face_jac three b V f)).
Proof.
  unfold bnd_sens. cbv zeta.
  rewrite (loop_read (fun M => pairing d nn M V) (sf_nf b) _ (fun f => pairing d df (calc_ortho_rev three (face_jac three b P f) (fun k => fluxBar (face_pos b P f) (calc_ortho three (face_jac three b P f)) (u (sf_idx b f)) (psi (sf_idx b f)) k * (sf_wt b f * alpha))) (face_jac three b V f))); [rewrite pairing_zero2; ring|].
  intros f M Hf. rewrite pairing_madd, to_nodes_pair. f_equal.
  set (B := calc_ortho_rev three _ _). unfold pairing.
  apply rsum_ext. intros k _.
  rewrite (rsum_ext d _ (fun c => rsum df (fun l => B k l * (iso_jac nn (sf_dN b f) V k c * sf_loc b f c l)))).
  2:{ intros c Hc. rewrite <- rsum_scal_r. apply rsum_ext. intros l _. rewrite (jac_map f c l Hf Hc). ring. }
  rewrite rsum_swap. apply rsum_ext. intros l _. rewrite rsum_scal. unfold face_jac, el_jac. reflexivity.
Qed.
Lemma bnd_derive : is_derive (fun t => test (se_n el) ns psi (bnd_vector three ns alpha flux b (moved P V t) u)) 0
   (pairing d nn (bnd_sens three alpha fluxBar b P u psi) V).
Proof.
  rewrite bnd_pair. eapply DV_ext; [intros t; symmetry; apply bnd_test|].
  apply (DV_sum (sf_nf b) bterm). intros f Hf. unfold bterm.
  destruct (ortho_derive (fun t => face_jac three b (moved P V t) f) (face_jac three b V f)) as [v [D1 D2]].
  { intros a l _ _. eapply DV_ext; [intros t; symmetry; apply face_moved|].
    apply (DV_eq _ 0 (0 + 1 * face_jac three b V f a l)); [|ring]. apply DV_plus; [apply DV_const|]. apply DV_scal_r, DV_id. }
  assert (E0 : face_jac three b (moved P V 0) f = face_jac three b P f).
  { apply FunctionalExtensionality.functional_extensionality; intros k. apply FunctionalExtensionality.functional_extensionality; intros l. rewrite face_moved. ring. }
  eapply DV_eq; [apply DV_scal; apply (proj2 HF _ _ (psi (sf_idx b f)) (fun t => calc_ortho three (face_jac three b (moved P V t) f)) v D1)|].
  cbv beta. rewrite E0 in *.
  rewrite <- D2, <- rsum_scal. apply rsum_ext. intros k _. ring.
Qed.
End Bnd.
End Sens.

(** ** the fluxes *)
Lemma ir_same d entvar : ir_sens_flux d entvar = irFlux d entvar.
Proof. reflexivity. Qed.
Lemma slip_bar d entvar : is_flux_bar d (d + 2) (slip_flux d entvar) (slip_flux_bar d entvar).
Proof.
  split; [intros; reflexivity|]. intros x u b c v H. unfold slip_flux, calcSlipWallFlux, slip_flux_bar. cbv zeta.
  set (press := if entvar then _ else _).
  apply (DV_ext (fun t => rsum d (fun k => b (S k) * press * c t k))).
  - intros t. replace (d + 2)%nat with (S (S d)) by lia. 
    assert (E : forall f, rsum (S (S d)) f = f 0%nat + rsum d (fun k => f (S k)) + f (S d)).
    { intros f. change (rsum (S d) f + f (S d) = f 0%nat + rsum d (fun k => f (S k)) + f (S d)). f_equal. clear. revert f. induction d as [|k IH]; intros f; [cbn; ring|]. rewrite (rsum_S (S k)), IH, (rsum_S k). ring. }
    rewrite E. unfold mk. rewrite Nat.ltb_irrefl.
    rewrite (rsum_ext d (fun k => b (S k) * (if Nat.ltb k d then c t k * press else 0)) (fun k => b (S k) * press * c t k)).
    + ring.
    + intros k Hk. apply Nat.ltb_lt in Hk. rewrite Hk. ring.
  - apply (DV_sum d (fun k t => b (S k) * press * c t k)). intros k Hk. apply DV_scal. now apply H.
Qed.

(** ** the mesh *)
Lemma weighted_test N ns psi r : weighted N ns psi r = test N ns psi r. Proof. reflexivity. Qed.
Lemma along_test NN d G V : along NN d G V = test NN d (fun J k => V k J) G.
Proof. unfold along, test, dot. apply rsum_ext. intros. apply rsum_ext. intros; ring. Qed.
Lemma pair_test nn d (S : mat) (V : mat) : test nn d (fun j k => V k j) (fun j k => S k j) = pairing d nn S V.
Proof. unfold test, dot, pairing. rewrite rsum_swap. apply rsum_ext. intros. apply rsum_ext. intros; ring. Qed.
Lemma fold_read' {S A : Type} (r : S -> R) (f : S -> A -> S) (g : A -> R) l s :
  (forall t a, In a l -> r (f t a) = r t + g a) -> r (fold_left f l s) = r s + lsum g l.
Proof.
  revert s. induction l as [|a l IH]; intros s H; cbn; [ring|]. rewrite IH by (intros; apply H; now right). rewrite H by now left. unfold lsum. ring.
Qed.
Lemma lsum_derive' {A : Type} (l : list A) (f : A -> R -> R) (g : A -> R) : (forall a, In a l -> is_derive (f a) 0 (g a)) ->
  is_derive (fun t => lsum (fun a => f a t) l) 0 (lsum g l).
Proof.
  induction l as [|a l IH]; intros H; cbn; [apply DV_const|].
  apply DV_plus; [apply H; now left|apply IH; intros; apply H; now right].
Qed.
Section Mesh.
Variables (three : bool) (ns : nat) (alpha : R) (flux : nat -> vec -> vec -> vec) (bflux : vec -> vec -> vec -> vec) (bfluxBar : vec -> vec -> vec -> vec -> vec).
Variables (N NN : nat) (M : smesh) (u psi : nat -> vec).
Hypothesis HM : numbered N NN M.
Notation d := (gdim three).
Lemma res_test X : weighted N ns psi (flow_res three ns alpha flux bflux M X u) =
  lsum (fun e => test (se_n e) ns (fun i => psi (se_glob e i)) (vol_vector three ns alpha flux e (el_nodes e X) (fun i => u (se_glob e i)))) (sm_els M) +
  lsum (fun b => test (se_n (sf_el b)) ns (fun i => psi (se_glob (sf_el b) i)) (bnd_vector three ns alpha bflux b (el_nodes (sf_el b) X) (fun i => u (se_glob (sf_el b) i)))) (sm_bnd M).
Proof.
  rewrite weighted_test. unfold flow_res. cbv zeta.
  rewrite (fold_read' (test N ns psi) _ (fun b => test (se_n (sf_el b)) ns (fun i => psi (se_glob (sf_el b) i)) (bnd_vector three ns alpha bflux b (el_nodes (sf_el b) X) (fun i => u (se_glob (sf_el b) i))))).
  - f_equal. rewrite (fold_read' (test N ns psi) _ (fun e => test (se_n e) ns (fun i => psi (se_glob e i)) (vol_vector three ns alpha flux e (el_nodes e X) (fun i => u (se_glob e i))))).
    + rewrite test_zero. ring.
    + intros t e He. apply test_scatter. apply (proj1 HM e He).
  - intros t b Hb. apply test_scatter. apply (proj2 HM b Hb).
Qed.
Lemma sens_test X V : along NN d (flow_sens three ns alpha flux bfluxBar M X u psi) V =
  lsum (fun e => pairing d (se_nn e) (vol_sens three ns alpha flux e (el_nodes e X) (fun i => u (se_glob e i)) (fun i => psi (se_glob e i))) (el_nodes e V)) (sm_els M) +
  lsum (fun b => pairing d (se_nn (sf_el b)) (bnd_sens three alpha bfluxBar b (el_nodes (sf_el b) X) (fun i => u (se_glob (sf_el b) i)) (fun i => psi (se_glob (sf_el b) i))) (el_nodes (sf_el b) V)) (sm_bnd M).
Proof.
  rewrite along_test. unfold flow_sens. cbv zeta.
  rewrite (fold_read' (test NN d (fun J k => V k J)) _ (fun b => pairing d (se_nn (sf_el b)) (bnd_sens three alpha bfluxBar b (el_nodes (sf_el b) X) (fun i => u (se_glob (sf_el b) i)) (fun i => psi (se_glob (sf_el b) i))) (el_nodes (sf_el b) V))).
  - f_equal. rewrite (fold_read' (test NN d (fun J k => V k J)) _ (fun e => pairing d (se_nn e) (vol_sens three ns alpha flux e (el_nodes e X) (fun i => u (se_glob e i)) (fun i => psi (se_glob e i))) (el_nodes e V))).
    + rewrite test_zero. ring.
    + intros t e He. rewrite test_scatter; [|apply (proj1 HM e He)]. f_equal. exact (pair_test (se_nn e) d _ (el_nodes e V)).
  - intros t b Hb. rewrite test_scatter; [|apply (proj2 HM b Hb)]. f_equal. exact (pair_test (se_nn (sf_el b)) d _ (el_nodes (sf_el b) V)).
Qed.
Lemma flow_derive X V : is_flux_bar d ns bflux bfluxBar -> invertible three M X ->
  is_derive (fun t => weighted N ns psi (flow_res three ns alpha flux bflux M (moved X V t) u)) 0
    (along NN d (flow_sens three ns alpha flux bfluxBar M X u psi) V).
Proof.
  intros HF HJ. rewrite sens_test. eapply DV_ext; [intros t; symmetry; apply res_test|].
  apply DV_plus.
  - apply (lsum_derive' (sm_els M) (fun e t => test (se_n e) ns (fun i => psi (se_glob e i)) (vol_vector three ns alpha flux e (el_nodes e (moved X V t)) (fun i => u (se_glob e i))))).
    intros e He. exact (vol_derive three ns alpha flux e (el_nodes e X) (el_nodes e V) (fun i => u (se_glob e i)) (fun i => psi (se_glob e i))).
  - apply (lsum_derive' (sm_bnd M) (fun b t => test (se_n (sf_el b)) ns (fun i => psi (se_glob (sf_el b) i)) (bnd_vector three ns alpha bflux b (el_nodes (sf_el b) (moved X V t)) (fun i => u (se_glob (sf_el b) i))))).
    intros b Hb. refine (bnd_derive three ns alpha bflux bfluxBar b (el_nodes (sf_el b) X) (el_nodes (sf_el b) V) (fun i => u (se_glob (sf_el b) i)) (fun i => psi (se_glob (sf_el b) i)) HF _ _).
    + apply (proj2 HM b Hb).
    + intros f Hf. exact (HJ b f Hb Hf).
Qed.
(** without boundary faces nothing is asked of the mapping *)
Lemma flow_derive_vol X V : sm_bnd M = [] ->
  is_derive (fun t => weighted N ns psi (flow_res three ns alpha flux bflux M (moved X V t) u)) 0
    (along NN d (flow_sens three ns alpha flux bfluxBar M X u psi) V).
Proof.
  intros HB. rewrite sens_test. eapply DV_ext; [intros t; symmetry; apply res_test|]. rewrite HB.
  apply DV_plus; [|cbn; apply DV_const].
  apply (lsum_derive' (sm_els M) (fun e t => test (se_n e) ns (fun i => psi (se_glob e i)) (vol_vector three ns alpha flux e (el_nodes e (moved X V t)) (fun i => u (se_glob e i))))).
  intros e He. exact (vol_derive three ns alpha flux e (el_nodes e X) (el_nodes e V) (fun i => u (se_glob e i)) (fun i => psi (se_glob e i))).
Qed.
End Mesh.
