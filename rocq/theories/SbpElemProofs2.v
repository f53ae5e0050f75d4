(** Consequences of the table checks for all polynomials. *)
From Coq Require Import Reals QArith Qreals List Arith ZArith Lia Lra Bool Psatz.
From Coquelicot Require Import Coquelicot.
From Verif Require Import Num Vec Sbp SbpTables SbpElem SbpPolySpec SbpElemProofs SbpIntegrals SbpTablesOk.
Import ListNotations.
Local Open Scope R_scope.

Lemma all_ok_in els el : all_ok els = true -> In (Some el) els -> sbp_ok el = true.
Proof. unfold all_ok. rewrite forallb_forall. intros T Hi. exact (T _ Hi). Qed.
Lemma is_ok el : In (Some el) [triElement 1; triElement 2; triElement 3; triElement 4; tetElement 1] -> sbp_ok el = true.
Proof. exact (all_ok_in _ el tables_ok). Qed.
Lemma tri_ok p el : triElement p = Some el -> (1 <= p)%nat -> sbp_ok el = true /\ edim el = 2%nat /\ edeg el = p.
Proof.
  intros Hp H1. split.
  - apply is_ok. rewrite <- Hp. destruct p as [|[|[|[|[|p]]]]]; try lia; try discriminate Hp; cbn [In]; auto 10.
  - destruct p as [|[|[|[|[|p]]]]]; try lia; try discriminate Hp; injection Hp as <-; split; reflexivity.
Qed.
Lemma tet_ok el : tetElement 1 = Some el -> sbp_ok el = true /\ edim el = 3%nat /\ edeg el = 1%nat.
Proof. intros Hp. split; [apply is_ok; rewrite <- Hp; cbn [In]; auto 10|]. injection Hp as <-. split; reflexivity. Qed.
Lemma sbp_parts el : sbp_ok el = true ->
  data_ok el = true /\ pos_ok el = true /\ skew_ok el = true /\ deriv_ok E14 (edeg el) el = true /\
  vol_ok E14 (2 * edeg el) el = true /\ bdr_ok E14 (2 * edeg el + 1) el = true.
Proof.
  unfold sbp_ok. intros H. apply andb_prop in H. destruct H as [H H6]. apply andb_prop in H. destruct H as [H H5].
  apply andb_prop in H. destruct H as [H H4]. apply andb_prop in H. destruct H as [H H3]. apply andb_prop in H. destruct H as [H1 H2].
  auto 10.
Qed.
Lemma E14_pos : (0 < E14)%Z. Proof. reflexivity. Qed.
Lemma E14_val : 1 / IZR E14 = 1 / 10 ^ 14.
Proof. unfold E14. change 14%Z with (Z.of_nat 14). rewrite <- pow_IZR. reflexivity. Qed.

Lemma deriv_all el f k i D : sbp_ok el = true -> has_degree (edim el) (edeg el) f -> (k < edim el)%nat -> (i < nnode el)%nat ->
  is_partial (peval f) k (coord el i) D ->
  Rabs (rsum (nnode el) (fun j => getQ (Qof el) k i j * peval f (coord el j)) - Hof el i * D) <= 1 / 10 ^ 14 * psize f.
Proof.
  intros Hs Hf Hk Hi HD. destruct (sbp_parts el Hs) as (H1 & H2 & H3 & H4 & _).
  replace D with (dpoly k f (coord el i)).
  - rewrite <- E14_val. apply (deriv_poly el E14 (edeg el)); auto using E14_pos.
  - pose proof (dpoly_spec _ _ k f (coord el i) Hf Hk) as P. unfold is_partial in *.
    apply is_derive_unique in HD, P. congruence.
Qed.

Lemma fold_ext (F G : list nat -> R) d p f : has_degree d p f -> (forall e, length e = d -> F e = G e) ->
  fold_right (fun t s => fst t * F (snd t) + s) 0 f = fold_right (fun (t : R * list nat) s => fst t * G (snd t) + s) 0 f.
Proof. intros Hf E. induction Hf as [|[c e] f [Hl _] Hf IH]; [reflexivity|]. cbn [fold_right fst snd]. rewrite IH, E; auto. Qed.
Definition psum (G : list nat -> R) (f : poly) : R := fold_right (fun t s => fst t * G (snd t) + s) 0 f.
Lemma tri_poly p f : has_degree 2 p f -> tri_integral (peval f) (psum (vval 2) f).
Proof.
  intros Hf. induction Hf as [|[c e] f [Hl _] Hf IH].
  - apply (tri_ext (fun _ => 0)); [reflexivity|apply tri_zero].
  - cbn [psum fold_right fst snd]. fold (psum (vval 2) f).
    apply (tri_ext (fun x => c * mono e x + peval f x)); [reflexivity|]. apply (tri_lin (mono e) (peval f)); [|exact IH].
    destruct e as [|a [|b [|? ?]]]; try discriminate Hl. rewrite vval2. apply tri_mono.
Qed.
Lemma tet_poly p f : has_degree 3 p f -> tet_integral (peval f) (psum (vval 3) f).
Proof.
  intros Hf. induction Hf as [|[c e] f [Hl _] Hf IH].
  - apply (tet_ext (fun _ => 0)); [reflexivity|apply tet_zero].
  - cbn [psum fold_right fst snd]. fold (psum (vval 3) f).
    apply (tet_ext (fun x => c * mono e x + peval f x)); [reflexivity|]. apply (tet_lin (mono e) (peval f)); [|exact IH].
    destruct e as [|a [|b [|c' [|? ?]]]]; try discriminate Hl. rewrite vval3. apply tet_mono.
Qed.
Lemma trib_poly p k f : (k < 2)%nat -> has_degree 2 p f -> tri_boundary k (peval f) (psum (bval 2 k) f).
Proof.
  intros Hk Hf. induction Hf as [|[c e] f [Hl _] Hf (h & l & Hh & HL & E)].
  - exists 0, 0. split; [apply (is_RInt_extR (fun _ => 0)); [reflexivity|apply is_RInt_zero]|].
    split; [apply (is_RInt_extR (fun _ => 0)); [reflexivity|apply is_RInt_zero]|]. cbn. ring.
  - cbn [psum fold_right fst snd]. fold (psum (bval 2 k) f).
    destruct e as [|a [|b [|? ?]]]; try discriminate Hl. destruct (trib_mono k a b Hk) as (h' & l' & Hh' & HL' & E').
    exists (c * h' + h), (c * l' + l). split; [|split].
    + apply (is_RInt_extR (fun t => c * mono [a; b] (pt2 (1 - t) t) + peval f (pt2 (1 - t) t))); [reflexivity|].
      apply is_RInt_plusR; [apply is_RInt_scalR|]; assumption.
    + apply (is_RInt_extR (fun t => c * mono [a; b] (upd_at (pt2 t t) k 0) + peval f (upd_at (pt2 t t) k 0))); [reflexivity|].
      apply is_RInt_plusR; [apply is_RInt_scalR|]; assumption.
    + rewrite E, E'. ring.
Qed.
Lemma tetb_poly p k f : (k < 3)%nat -> has_degree 3 p f -> tet_boundary k (peval f) (psum (bval 3 k) f).
Proof.
  intros Hk Hf. induction Hf as [|[c e] f [Hl _] Hf (h & l & Hh & HL & E)].
  - exists 0, 0. split; [apply (tri_ext (fun _ => 0)); [reflexivity|apply tri_zero]|].
    split; [apply (tri_ext (fun _ => 0)); [reflexivity|apply tri_zero]|]. cbn. ring.
  - cbn [psum fold_right fst snd]. fold (psum (bval 3 k) f).
    destruct e as [|a [|b [|c' [|? ?]]]]; try discriminate Hl. destruct (tetb_mono k a b c' Hk) as (h' & l' & Hh' & HL' & E').
    exists (c * h' + h), (c * l' + l). split; [|split].
    + eapply tri_ext; [|exact (tri_lin _ _ c _ _ Hh' Hh)]. reflexivity.
    + eapply tri_ext; [|exact (tri_lin _ _ c _ _ HL' HL)]. reflexivity.
    + rewrite E, E'. ring.
Qed.
Lemma trib_unique k f v w : tri_boundary k f v -> tri_boundary k f w -> v = w.
Proof.
  intros (h & l & Hh & HL & ->) (h' & l' & Hh' & HL' & ->). f_equal; eapply is_RInt_uniq; eauto; reflexivity.
Qed.
Lemma tetb_unique k f v w : tet_boundary k f v -> tet_boundary k f w -> v = w.
Proof.
  intros (h & l & Hh & HL & ->) (h' & l' & Hh' & HL' & ->). f_equal; eapply tri_unique; eauto.
Qed.

Lemma vol_all el f : sbp_ok el = true -> has_degree (edim el) (2 * edeg el) f ->
  Rabs (rsum (nnode el) (fun j => Hof el j * peval f (coord el j)) - psum (vval (edim el)) f) <= 1 / 10 ^ 14 * psize f.
Proof.
  intros Hs Hf. destruct (sbp_parts el Hs) as (H1 & H2 & H3 & H4 & H5 & _). rewrite rsum_peval. unfold psum. rewrite <- E14_val.
  apply (poly_bound (edim el) (2 * edeg el) (1 / IZR E14) (fun e => rsum (nnode el) (fun j => Hof el j * mono e (coord el j))) (vval (edim el))); [|exact Hf].
  intros e Hl He. unfold vval. apply (quad_mono el E14 (2 * edeg el) (hz el) (Hof el) vol_num (vol_den (edim el))); auto using E14_pos.
  intros j _. eapply near_mono; [|apply hz_spec]. lra.
Qed.
Lemma bdr_all el k f : sbp_ok el = true -> (k < edim el)%nat -> has_degree (edim el) (2 * edeg el + 1) f ->
  Rabs (rsum (nnode el) (fun j => 2 * getQ (Qof el) k j j * peval f (coord el j)) - psum (bval (edim el) k) f) <= 1 / 10 ^ 14 * psize f.
Proof.
  intros Hs Hk Hf. destruct (sbp_parts el Hs) as (H1 & H2 & H3 & H4 & H5 & H6).
  rewrite (rsum_peval _ (fun j => 2 * getQ (Qof el) k j j)). unfold psum. rewrite <- E14_val.
  apply (poly_bound (edim el) (2 * edeg el + 1) (1 / IZR E14) (fun e => rsum (nnode el) (fun j => 2 * getQ (Qof el) k j j * mono e (coord el j))) (bval (edim el) k)); [|exact Hf].
  unfold bdr_ok in H6. rewrite forallb_forall in H6. specialize (H6 k ltac:(apply in_seq; lia)).
  intros e Hl He. unfold bval. apply (quad_mono el E14 (2 * edeg el + 1) (diag2 el k) (fun j => 2 * getQ (Qof el) k j j) (bdr_num k) (vol_den (edim el - 1))); auto using E14_pos.
  intros j Hj. unfold diag2. set (g := fun i : nat => (2 * nth (i + i * nnode el)%nat (oz el k) 0)%Z).
  rewrite (nth_indep _ 0%Z (g 0%nat)) by (rewrite map_length, seq_length; exact Hj).
  rewrite (map_nth g), seq_nth by exact Hj. unfold g. cbn [Nat.add]. pose proof (oz_spec el k j j) as O. unfold near in *. rewrite mult_IZR.
  unfold getQ. replace (2 * IZR (nth (j + j * nnode el) (oz el k) 0%Z) / RB - 2 * Qof el k j j) with (2 * (IZR (nth (j + j * nnode el) (oz el k) 0%Z) / RB - Qof el k j j)) by (field; apply Rgt_not_eq, RB_pos).
  rewrite Rabs_mult, (Rabs_pos_eq 2) by lra. replace (2 / RB) with (2 * (1 / RB)) by (field; apply Rgt_not_eq, RB_pos). lra.
Qed.
(** summation by parts for arbitrary nodal values *)
Lemma by_parts el k (u v : nat -> R) : sbp_ok el = true -> (k < edim el)%nat ->
  rsum (nnode el) (fun i => u i * rsum (nnode el) (fun j => getQ (Qof el) k i j * v j)) +
  rsum (nnode el) (fun i => v i * rsum (nnode el) (fun j => getQ (Qof el) k i j * u j)) =
  rsum (nnode el) (fun i => 2 * getQ (Qof el) k i i * (u i * v i)).
Proof.
  intros Hs Hk. destruct (sbp_parts el Hs) as (H1 & H2 & H3 & _). set (n := nnode el).
  rewrite (rsum_ext n (fun i => u i * rsum n (fun j => getQ (Qof el) k i j * v j)) (fun i => rsum n (fun j => getQ (Qof el) k i j * (u i * v j)))).
  2:{ intros i _. rewrite <- rsum_scal. apply rsum_ext. intros; ring. }
  rewrite (rsum_ext n (fun i => v i * rsum n (fun j => getQ (Qof el) k i j * u j)) (fun i => rsum n (fun j => getQ (Qof el) k i j * (v i * u j)))).
  2:{ intros i _. rewrite <- rsum_scal. apply rsum_ext. intros; ring. }
  rewrite (rsum_swap n n (fun i j => getQ (Qof el) k i j * (v i * u j))), <- rsum_plus. apply rsum_ext. intros i Hi.
  rewrite <- rsum_plus. rewrite <- (rsum_delta n (fun j => 2 * getQ (Qof el) k j j * (u j * v j)) i Hi). apply rsum_ext. intros j Hj.
  destruct (Nat.eqb_spec j i) as [->|N]; [ring|]. rewrite (skew_exact el k i j H1 H3 Hk Hi Hj) by congruence. ring.
Qed.
