(** C123-C127: the concrete SBP elements (tables, nodes, shape functions, shared edge nodes). *)
From Coq Require Import Reals QArith Qreals List Arith ZArith Lia Lra Bool.
From Coquelicot Require Import Coquelicot.
From Verif Require Import Num Vec Sbp SbpTables SbpElem OrthoPoly OrthoPolySpec OrthoPolyProofs3 SbpPolySpec SbpElemProofs SbpIntegrals SbpTablesOk SbpElemProofs2 SbpElemProofs3.
Import ListNotations.
Local Open Scope R_scope.

(** ** C123: triangle (degrees 1-4) and tetrahedron (degree 1) operators are summation-by-parts operators *)
(** positive norm; exact summation by parts with a diagonal boundary operator, for ALL nodal values *)
Theorem C123_triangle_summation_by_parts :
  forall p el, triElement p = Some el -> (1 <= p)%nat ->
  (forall i, (i < nnode el)%nat -> 0 < Hof el i) /\
  (forall k u v, (k < 2)%nat ->
     rsum (nnode el) (fun i => u i * rsum (nnode el) (fun j => getQ (Qof el) k i j * v j)) +
     rsum (nnode el) (fun i => v i * rsum (nnode el) (fun j => getQ (Qof el) k i j * u j)) =
     rsum (nnode el) (fun i => 2 * getQ (Qof el) k i i * (u i * v i))).
Proof.
  intros p el Hp H1. destruct (tri_ok p el Hp H1) as (Hs & Hd & _). split.
  - intros i Hi. destruct (sbp_parts el Hs) as (A & B & _). apply pos_exact; assumption.
  - intros k u v Hk. apply by_parts; [exact Hs|lia].
Qed.
Print Assumptions C123_triangle_summation_by_parts.
Theorem C123_tetrahedron_summation_by_parts :
  forall el, tetElement 1 = Some el ->
  (forall i, (i < nnode el)%nat -> 0 < Hof el i) /\
  (forall k u v, (k < 3)%nat ->
     rsum (nnode el) (fun i => u i * rsum (nnode el) (fun j => getQ (Qof el) k i j * v j)) +
     rsum (nnode el) (fun i => v i * rsum (nnode el) (fun j => getQ (Qof el) k i j * u j)) =
     rsum (nnode el) (fun i => 2 * getQ (Qof el) k i i * (u i * v i))).
Proof.
  intros el Hp. destruct (tet_ok el Hp) as (Hs & Hd & _). split.
  - intros i Hi. destruct (sbp_parts el Hs) as (A & B & _). apply pos_exact; assumption.
  - intros k u v Hk. apply by_parts; [exact Hs|lia].
Qed.
Print Assumptions C123_tetrahedron_summation_by_parts.
(** the operators differentiate every polynomial of degree p: |sum_j Q_ij f(x_j) - H_i f'(x_i)| <= 1e-14 * (sum of |coefficients|) *)
Theorem C123_triangle_derivative :
  forall p el f k i D, triElement p = Some el -> (1 <= p)%nat -> has_degree 2 p f -> (k < 2)%nat -> (i < nnode el)%nat ->
  is_partial (peval f) k (coord el i) D ->
  Rabs (rsum (nnode el) (fun j => getQ (Qof el) k i j * peval f (coord el j)) - Hof el i * D) <= 1 / 10 ^ 14 * psize f.
Proof.
  intros p el f k i D Hp H1 Hf Hk Hi HD. destruct (tri_ok p el Hp H1) as (Hs & Hd & Hg). apply deriv_all; try assumption.
  - rewrite Hd, Hg. exact Hf.
  - lia.
Qed.
Print Assumptions C123_triangle_derivative.
Theorem C123_tetrahedron_derivative :
  forall el f k i D, tetElement 1 = Some el -> has_degree 3 1 f -> (k < 3)%nat -> (i < nnode el)%nat ->
  is_partial (peval f) k (coord el i) D ->
  Rabs (rsum (nnode el) (fun j => getQ (Qof el) k i j * peval f (coord el j)) - Hof el i * D) <= 1 / 10 ^ 14 * psize f.
Proof.
  intros el f k i D Hp Hf Hk Hi HD. destruct (tet_ok el Hp) as (Hs & Hd & Hg). apply deriv_all; try assumption.
  - rewrite Hd, Hg. exact Hf.
  - lia.
Qed.
Print Assumptions C123_tetrahedron_derivative.
(** the norm is a quadrature exact to degree 2p, the boundary operator one exact to degree 2p + 1 *)
Theorem C123_triangle_quadrature :
  forall p el, triElement p = Some el -> (1 <= p)%nat ->
  (forall f v, has_degree 2 (2 * p) f -> tri_integral (peval f) v ->
     Rabs (rsum (nnode el) (fun i => Hof el i * peval f (coord el i)) - v) <= 1 / 10 ^ 14 * psize f) /\
  (forall k f v, (k < 2)%nat -> has_degree 2 (2 * p + 1) f -> tri_boundary k (peval f) v ->
     Rabs (rsum (nnode el) (fun i => 2 * getQ (Qof el) k i i * peval f (coord el i)) - v) <= 1 / 10 ^ 14 * psize f).
Proof.
  intros p el Hp H1. destruct (tri_ok p el Hp H1) as (Hs & Hd & Hg). split.
  - intros f v Hf Hv. rewrite (tri_unique _ _ _ Hv (tri_poly _ f Hf)). pose proof (vol_all el f Hs) as V. rewrite Hd, Hg in V. apply V. exact Hf.
  - intros k f v Hk Hf Hv. rewrite (trib_unique _ _ _ _ Hv (trib_poly _ k f Hk Hf)). pose proof (bdr_all el k f Hs) as V. rewrite Hd, Hg in V.
    apply V; assumption.
Qed.
Print Assumptions C123_triangle_quadrature.
Theorem C123_tetrahedron_quadrature :
  forall el, tetElement 1 = Some el ->
  (forall f v, has_degree 3 2 f -> tet_integral (peval f) v ->
     Rabs (rsum (nnode el) (fun i => Hof el i * peval f (coord el i)) - v) <= 1 / 10 ^ 14 * psize f) /\
  (forall k f v, (k < 3)%nat -> has_degree 3 3 f -> tet_boundary k (peval f) v ->
     Rabs (rsum (nnode el) (fun i => 2 * getQ (Qof el) k i i * peval f (coord el i)) - v) <= 1 / 10 ^ 14 * psize f).
Proof.
  intros el Hp. destruct (tet_ok el Hp) as (Hs & Hd & Hg). split.
  - intros f v Hf Hv. rewrite (tet_unique _ _ _ Hv (tet_poly _ f Hf)). pose proof (vol_all el f Hs) as V. rewrite Hd, Hg in V. apply V. exact Hf.
  - intros k f v Hk Hf Hv. rewrite (tetb_unique _ _ _ _ Hv (tetb_poly _ k f Hk Hf)). pose proof (bdr_all el k f Hs) as V. rewrite Hd, Hg in V.
    apply V; assumption.
Qed.
Print Assumptions C123_tetrahedron_quadrature.
(** such integrals exist for every polynomial, so the statements above are about something *)
Theorem C123_integrals_exist :
  forall p f g k, has_degree 2 p f -> has_degree 3 p g ->
  (exists v, tri_integral (peval f) v) /\ ((k < 2)%nat -> exists v, tri_boundary k (peval f) v) /\
  (exists v, tet_integral (peval g) v) /\ ((k < 3)%nat -> exists v, tet_boundary k (peval g) v).
Proof.
  intros p f g k Hf Hg. repeat split; intros; eexists; [apply (tri_poly p)|apply (trib_poly p)|apply (tet_poly p)|apply (tetb_poly p)]; assumption.
Qed.
Print Assumptions C123_integrals_exist.
(** degree 0: the triangle operator is not skew-symmetric off the diagonal, the summation-by-parts identity with a
    diagonal boundary operator fails *)
Theorem C123_triangle_degree_zero_refuted :
  exists el, triElement 0 = Some el /\ exists u v,
  Rabs (rsum (nnode el) (fun i => u i * rsum (nnode el) (fun j => getQ (Qof el) 0 i j * v j)) +
        rsum (nnode el) (fun i => v i * rsum (nnode el) (fun j => getQ (Qof el) 0 i j * u j)) -
        rsum (nnode el) (fun i => 2 * getQ (Qof el) 0 i i * (u i * v i))) > 1 / 10.
Proof.
  eexists. split; [reflexivity|]. exists (fun i => if Nat.eqb i 0 then 1 else 0), (fun i => if Nat.eqb i 2 then 1 else 0).
  unfold getQ, Qof, nnode. cbn [enodes eops nodes_tri0 length rsum nth p0Qx_tri Nat.add Nat.mul Nat.eqb]. unfold Q2R. cbn [Qnum Qden]. apply Rlt_gt.
  rewrite Rabs_left; lra.
Qed.
Print Assumptions C123_triangle_degree_zero_refuted.
(** ... and the degree-0 tetrahedron operator does not differentiate linear functions (it only claims degree 0) *)
Theorem C123_tetrahedron_degree_zero_refuted :
  exists el f D, tetElement 0 = Some el /\ has_degree 3 1 f /\ is_partial (peval f) 0 (coord el 0) D /\
  Rabs (rsum (nnode el) (fun j => getQ (Qof el) 0 0 j * peval f (coord el j)) - Hof el 0 * D) > 1 / 100.
Proof.
  eexists. exists [(1, [1; 0; 0]%nat)]. eexists. split; [reflexivity|]. split.
  { repeat constructor. }
  split.
  { apply (dpoly_spec 3 1); [repeat constructor|lia]. }
  unfold getQ, Qof, Hof, coord, nnode. cbn [enodes eops nodes_tet0 length rsum nth p0Qx_tet Nat.add Nat.mul peval mono dpoly dmono dec_at fst snd pred pow INR]. unfold dmono. cbn [nth dec_at mono pred pow INR fst snd]. unfold Q2R. cbn [Qnum Qden]. apply Rlt_gt.
  rewrite Rabs_left; lra.
Qed.
Print Assumptions C123_tetrahedron_degree_zero_refuted.
Example C123_elements_exist : exists t1 t4 e1, triElement 1 = Some t1 /\ nnode t1 = 7%nat /\ triElement 4 = Some t4 /\ nnode t4 = 27%nat /\ tetElement 1 = Some e1 /\ nnode e1 = 14%nat.
Proof. do 3 eexists. repeat split. Qed.

(** ** C124: the gradient operator used by the viscous terms on straight-sided elements *)
Theorem C124_affine_gradient :
  forall p el (A : nat -> nat -> R) f di i (D : nat -> R), triElement p = Some el -> (1 <= p)%nat -> has_degree 2 p f -> (i < nnode el)%nat ->
  (forall k, (k < 2)%nat -> is_partial (peval f) k (coord el i) (D k)) ->
  Rabs (rsum (nnode el) (fun j => getQEntry 2 (Qof el) di i j A A * peval f (coord el j)) - Hof el i * rsum 2 (fun k => A k di * D k))
  <= 1 / 10 ^ 14 * psize f * rsum 2 (fun k => Rabs (A k di)).
Proof.
  intros p el A f di i D Hp H1 Hf Hi HD. destruct (tri_ok p el Hp H1) as (Hs & Hd & Hg). destruct (sbp_parts el Hs) as (S1 & S2 & S3 & _).
  rewrite (rsum_ext (nnode el) _ (fun j => A 0%nat di * (getQ (Qof el) 0 i j * peval f (coord el j)) + A 1%nat di * (getQ (Qof el) 1 i j * peval f (coord el j)))).
  2:{ intros j Hj. unfold getQEntry. destruct (Nat.eqb_spec i j) as [->|N].
      - unfold getSymEntry, getQ. cbn [rsum]. ring.
      - unfold getSkewEntry. cbn [rsum].
        pose proof (skew_exact el 0 i j S1 S3 ltac:(lia) Hi Hj N) as K0. pose proof (skew_exact el 1 i j S1 S3 ltac:(lia) Hi Hj N) as K1. unfold getQ in K0, K1 |- *.
        rewrite K0, K1. field. }
  rewrite rsum_plus, !rsum_scal. cbn [rsum].
  pose proof (C123_triangle_derivative p el f 0 i (D 0%nat) Hp H1 Hf ltac:(lia) Hi (HD 0%nat ltac:(lia))) as D0.
  pose proof (C123_triangle_derivative p el f 1 i (D 1%nat) Hp H1 Hf ltac:(lia) Hi (HD 1%nat ltac:(lia))) as D1.
  set (s0 := rsum (nnode el) (fun j => getQ (Qof el) 0 i j * peval f (coord el j))) in *.
  set (s1 := rsum (nnode el) (fun j => getQ (Qof el) 1 i j * peval f (coord el j))) in *.
  replace (A 0%nat di * s0 + A 1%nat di * s1 - Hof el i * (0 + A 0%nat di * D 0%nat + A 1%nat di * D 1%nat))
    with (A 0%nat di * (s0 - Hof el i * D 0%nat) + A 1%nat di * (s1 - Hof el i * D 1%nat)) by ring.
  eapply Rle_trans; [apply Rabs_triang|]. rewrite !Rabs_mult.
  replace (1 / 10 ^ 14 * psize f * (0 + Rabs (A 0%nat di) + Rabs (A 1%nat di)))
    with (Rabs (A 0%nat di) * (1 / 10 ^ 14 * psize f) + Rabs (A 1%nat di) * (1 / 10 ^ 14 * psize f)) by ring.
  apply Rplus_le_compat; apply Rmult_le_compat_l; auto using Rabs_pos.
Qed.
Print Assumptions C124_affine_gradient.
(** at degree 0 on triangles a constant field has a spurious gradient: on the reference element itself the operator applied to
    the constant 1 gives about 1/12 at node 0 (divided by H_0 = 1/6: a derivative of 1/2) *)
Theorem C124_constant_gradient_degree_zero_refuted :
  exists el, triElement 0 = Some el /\
  rsum (nnode el) (fun j => getQEntry 2 (Qof el) 0 0 j (fun k di => if Nat.eqb k di then 1 else 0) (fun k di => if Nat.eqb k di then 1 else 0) * 1) / Hof el 0 > 49 / 100.
Proof.
  eexists. split; [reflexivity|].
  unfold getQEntry, getSymEntry, getSkewEntry, Qof, Hof, nnode.
  cbn [enodes eops nodes_tri0 length rsum nth p0Qx_tri p0Qy_tri Nat.add Nat.mul Nat.eqb fst snd]. unfold Q2R. cbn [Qnum Qden]. lra.
Qed.
Print Assumptions C124_constant_gradient_degree_zero_refuted.

(** ** C125: derivatives of the shape functions *)
(** what is returned: the entry for node j is scaled by 1/H_j instead of 1/H_i *)
Theorem C125_scaling :
  forall el i j k, Hof el i <> 0 -> Hof el j <> 0 ->
  CalcDShape el i j k * Hof el j = getStrongOperator (Hof el) (Qof el) k false i j * Hof el i.
Proof. intros el i j k Hi Hj. unfold CalcDShape, getStrongOperator. field. auto. Qed.
Print Assumptions C125_scaling.
(** with equal weights (degree 0 on triangles and tetrahedra) it is the row of the derivative operator *)
Theorem C125_degree_zero :
  forall el i j k, (triElement 0 = Some el \/ tetElement 0 = Some el) -> (i < nnode el)%nat -> (j < nnode el)%nat ->
  CalcDShape el i j k = getStrongOperator (Hof el) (Qof el) k false i j.
Proof.
  intros el i j k Hel Hi Hj.
  assert (E : Hof el i = Hof el j).
  { destruct Hel as [Hel|Hel]; injection Hel as <-; cbn in Hi, Hj; unfold Hof; cbn [enodes];
      destruct i as [|[|[|[|i]]]]; try lia; destruct j as [|[|[|[|j]]]]; try lia; reflexivity. }
  unfold CalcDShape, getStrongOperator. rewrite E. unfold Rdiv. ring.
Qed.
Print Assumptions C125_degree_zero.
(** at every degree >= 1 it is not: the computed x-derivative of the constant field 1 at node 1 is at least 3 *)
Theorem C125_constant_derivative_refuted :
  forall el, (exists p, (1 <= p)%nat /\ triElement p = Some el) \/ tetElement 1 = Some el ->
  3 <= rsum (nnode el) (fun j => CalcDShape el 1%nat j 0%nat * 1).
Proof.
  intros el Hel. rewrite (rsum_ext _ _ (fun j => CalcDShape el 1%nat j 0%nat)) by (intros; ring). apply dshape_bad_spec.
  apply (all_bad_in _ el dshape_tables). destruct Hel as [(p & H1 & Hp)|Hp].
  - rewrite <- Hp. destruct p as [|[|[|[|[|p]]]]]; try lia; try discriminate Hp; cbn [In]; auto 10.
  - rewrite <- Hp. cbn [In]. auto 10.
Qed.
Print Assumptions C125_constant_derivative_refuted.

(** ** C126: values of the shape functions *)
(** at a node object of the element: the Kronecker delta, so every nodal field is interpolated *)
Theorem C126_nodal :
  forall tg order n xs ys H i (u : nat -> R), (i < n)%nat ->
  (forall x, rsum n (fun k => segCalcShape tg order xs H (Some i) x k * u k) = u i) /\
  (forall x y, rsum n (fun k => triCalcShape tg order xs ys H (Some i) x y k * u k) = u i).
Proof.
  intros tg order n xs ys H i u Hi. split; intros.
  - cbn [segCalcShape]. rewrite (rsum_ext n _ (fun k => if Nat.eqb k i then u k else 0)) by (intros k _; destruct (Nat.eqb k i); ring). apply rsum_delta. exact Hi.
  - cbn [triCalcShape]. rewrite (rsum_ext n _ (fun k => if Nat.eqb k i then u k else 0)) by (intros k _; destruct (Nat.eqb k i); ring). apply rsum_delta. exact Hi.
Qed.
Print Assumptions C126_nodal.
(** elsewhere on a triangle: any combination of the basis polynomials of degree <= order is reproduced, up to the defect eps
    of the discrete orthonormality of the basis at the nodes *)
Theorem C126_triangle_reproduces :
  forall tg order n xs ys H x y eps (c : nat * nat -> R),
  (forall a b, (fst a + snd a <= order)%nat -> (fst b + snd b <= order)%nat ->
     Rabs (rsum n (fun k => H k * triV tg xs ys k a * triV tg xs ys k b) - (if andb (Nat.eqb (fst a) (fst b)) (Nat.eqb (snd a) (snd b)) then 1 else 0)) <= eps) ->
  let phi a := prorio2 tg (2 * x - 1) (2 * y - 1) (fst a) (snd a) * 2 in
  Rabs (rsum n (fun k => triCalcShape tg order xs ys H None x y k * fold_right (fun b s => c b * triV tg xs ys k b + s) 0 (tri_basis order)) -
        fold_right (fun b s => c b * phi b + s) 0 (tri_basis order))
  <= eps * fold_right (fun a s => Rabs (phi a) + s) 0 (tri_basis order) * fold_right (fun b s => Rabs (c b) + s) 0 (tri_basis order).
Proof.
  intros tg order n xs ys H x y eps c HM. apply (tri_repro tg order n xs ys H x y eps c). intros a b Ha Hb. apply HM.
  - destruct a as [a1 a2]. apply tri_complete in Ha. exact Ha.
  - destruct b as [b1 b2]. apply tri_complete in Hb. exact Hb.
Qed.
Print Assumptions C126_triangle_reproduces.
(** on a segment: with any node set and weights that integrate the basis exactly, the shape functions sum to sqrt 2 at every
    point and every degree: a constant nodal field 1 evaluates to sqrt 2 *)
Theorem C126_segment_constant_refuted :
  forall tg, is_gamma_function tg -> forall order n xs H x,
  (forall i, (i <= order)%nat -> is_RInt (fun t => jacobiPoly tg (2 * t - 1) 0 0 i) 0 1 (rsum n (fun k => H k * jacobiPoly tg (2 * xs k - 1) 0 0 i))) ->
  rsum n (fun k => segCalcShape tg order xs H None x k * 1) = sqrt 2.
Proof.
  intros tg Htg order n xs H x HQ. rewrite (rsum_ext n _ (segCalcShape tg order xs H None x)) by (intros; ring). apply seg_sum; assumption.
Qed.
Print Assumptions C126_segment_constant_refuted.
Example C126_segment_case : forall tg, is_gamma_function tg ->
  forall i, (i <= 0)%nat -> is_RInt (fun t => jacobiPoly tg (2 * t - 1) 0 0 i) 0 1 (rsum 2 (fun k => (1 / 2) * jacobiPoly tg (2 * INR k - 1) 0 0 i)).
Proof.
  intros tg Htg i Hi. assert (i = 0%nat) as -> by lia. cbn [rsum]. rewrite !J0 by exact Htg.
  apply (is_RInt_valR _ _ _ (sqrt (1 / 2))); [field|]. exact (J_int tg Htg 0).
Qed.

(** ** C127: dofs shared between elements *)
(** the dof counts of the collection are the node counts of the tables *)
Theorem C127_counts :
  (forall p el, triElement p = Some el -> triDof p = Some (Z.of_nat (nnode el))) /\
  (forall p el, tetElement p = Some el -> tetDof p = Some (Z.of_nat (nnode el))).
Proof.
  split; intros p el Hp.
  - destruct p as [|[|[|[|[|p]]]]]; try discriminate Hp; injection Hp as <-; reflexivity.
  - destruct p as [|[|p]]; try discriminate Hp; injection Hp as <-; reflexivity.
Qed.
Print Assumptions C127_counts.
(** two triangles (any shape, any space dimension: A and B are one component of the vertex positions) sharing an edge, traversed
    in the same or opposite sense: dofs identified by the orientation tables sit at the same point *)
Theorem C127_shared_edge_nodes_coincide :
  forall p el A B e1 e2 o1 o2 j1 j2, triElement p = Some el -> (e1 < 3)%nat -> (e2 < 3)%nat -> (j1 < p)%nat -> (j2 < p)%nat ->
  nth j1 (segDofOrder p o1) 0%nat = nth j2 (segDofOrder p o2) 0%nat ->
  ((A (estart e1) = B (estart e2) /\ A (eend e1) = B (eend e2) /\ Z.ltb 0 o1 = Z.ltb 0 o2) \/
   (A (estart e1) = B (eend e2) /\ A (eend e1) = B (estart e2) /\ Z.ltb 0 o1 = negb (Z.ltb 0 o2))) ->
  Rabs (place el A (3 + e1 * p + j1) - place el B (3 + e2 * p + j2)) <= 2 / 10 ^ 15 * (spread A + spread B).
Proof. exact edge_shared. Qed.
Print Assumptions C127_shared_edge_nodes_coincide.
Example C127_edge_case : exists el (A B : nat -> R), triElement 2 = Some el /\ A (estart 0) = B (eend 1) /\ A (eend 0) = B (estart 1) /\ A 1%nat <> A 0%nat.
Proof.
  eexists. exists (fun v => if Nat.eqb v 1 then 1 else 0), (fun v => if Nat.eqb v 1 then 1 else 0). split; [reflexivity|]. cbn. repeat split; lra.
Qed.
(** the segment element claims "ordering consistent with SBPTriangleElement's edges" (sbp_fe.cpp:341-342): it is not for degrees 3 and 4 *)
Theorem C127_segment_order_refuted :
  (forall pts el, triElement 3 = Some el -> 0 < pts 1%nat < 1 / 4 ->
     Rabs (segNode 3 pts 2 - coord el 3 0) > 1 / 4) /\
  (forall pts el, triElement 4 = Some el -> 0 < pts 1%nat < 1 / 8 ->
     Rabs (segNode 4 pts 2 - coord el 3 0) > 1 / 8).
Proof.
  split; intros pts el Hel Hp; injection Hel as <-; unfold segNode; cbn [Nat.eqb Nat.modulo Nat.divmod Nat.add Nat.div fst snd andb Nat.sub];
    unfold coord; cbn [enodes nodes_tri3 nodes_tri4 nth fst]; unfold Q2R; cbn [Qnum Qden]; apply Rlt_gt; rewrite Rabs_left; lra.
Qed.
Print Assumptions C127_segment_order_refuted.
(** it is for degrees 1 and 2, when the Lobatto points are accurate to 1e-15 *)
Theorem C127_segment_order :
  (forall pts el, triElement 1 = Some el -> pts 1%nat = 1 / 2 -> segNode 1 pts 2 = coord el 3 0) /\
  (forall pts el, triElement 2 = Some el -> Rabs (pts 1%nat - coord el 3 0) <= 1 / 10 ^ 15 ->
     Rabs (segNode 2 pts 2 - coord el 3 0) <= 1 / 10 ^ 15 /\ Rabs (segNode 2 pts 3 - coord el 4 0) <= 2 / 10 ^ 15).
Proof.
  split; intros pts el Hel Hp; injection Hel as <-; unfold segNode; cbn [Nat.eqb Nat.modulo Nat.divmod Nat.add Nat.div fst snd andb Nat.sub].
  - rewrite Hp. unfold coord; cbn [enodes nodes_tri1 nth fst]; unfold Q2R; cbn [Qnum Qden]. lra.
  - unfold coord in *; cbn [enodes nodes_tri2 nth fst] in *; unfold Q2R in *; cbn [Qnum Qden] in *. split; [exact Hp|].
    apply Rabs_le in Hp || idtac. revert Hp. unfold Rabs. repeat destruct Rcase_abs; lra.
Qed.
Print Assumptions C127_segment_order.
(** and its own node order is not compatible with the reversed dof order at degree 3: the table keeps dof 0 and swaps 1 and 2,
    but reflecting the segment swaps interior nodes 0 and 1 and keeps the midpoint *)
Theorem C127_segment_reversal_refuted :
  forall pts, 0 < pts 1%nat < 1 / 4 -> pts 2%nat = 1 / 2 ->
  segDofOrder 3 (-1) = [0; 2; 1]%nat /\ segNode 3 pts (2 + 0) <> 1 - segNode 3 pts (2 + 0) /\
  segNode 3 pts (2 + 1) = 1 - segNode 3 pts (2 + 0) /\ segNode 3 pts (2 + 2) = 1 - segNode 3 pts (2 + 2).
Proof.
  intros pts Hp H2. split; [reflexivity|]. unfold segNode. cbn [Nat.eqb Nat.modulo Nat.divmod Nat.add Nat.div fst snd andb Nat.sub]. rewrite H2. repeat split; lra.
Qed.
Print Assumptions C127_segment_reversal_refuted.
