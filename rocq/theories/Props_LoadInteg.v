(** C98, C99: the 2-D current load and the 3-D magnet load as linear forms. *)
From Coq Require Import Reals ZArith List Bool Arith Lia Lra FunctionalExtensionality String.
From Coquelicot Require Import Coquelicot.
From Verif Require Import Vec Deriv Form EmInteg EmIntegSpec EmMeshProofs IsoGeom SbpSpec SbpMeshProofs CommonFun CommonFunProofs LoadInteg LoadIntegSpec LoadIntegProofs Props_Projector.
Import ListNotations.
Local Open Scope R_scope.
Local Notation mat := (nat -> nat -> R).

Section Claims.
Variables (dim m NN : nat) (M : list lelem) (X : mat) (ess : list nat).
Hypothesis HN : lnumbered m NN M.
Notation after_load L Y tv := (addLoad mat L Y ess tv).
Notation mesh_product L bar acc := (lvjp_field mat L X ess "mesh_coords" bar acc).

(** ** C98 *)
Section Current.
Variables (marked : Z -> bool) (Q : scoef) (alpha : R).
Notation L := (current_2d dim NN M marked Q alpha).
(** addLoad adds the integral of alpha times the coefficient times the test function over the marked elements, by the rule of
    order 2 p - 2; essential dofs are left alone *)
Theorem C98_value : forall tv, (forall i, memb i ess = true -> after_load L X tv i = tv i) /\
  (forall v, (forall i, memb i ess = true -> v i = 0) -> dot m v (after_load L X tv) = dot m v tv +
    lsum (fun e => if marked (le_attr e) then let r := le_rules e (2 * le_order e - 2) in
      rsum (lr_nq r) (fun q => lr_pw r q * lr_W r q (element_nodes e X) * (alpha * sc_eval Q (le_attr e) (point_at e r (element_nodes e X) q)) *
        rsum (le_nd e) (fun i => lr_S r q i * (le_sg e i * v (le_dof e i)))) else 0) M).
Proof.
  intros tv. split.
  - intros i H. unfold addLoad, zero_at. rewrite H. ring.
  - intros v H. replace (dot m v (after_load L X tv)) with (dot m v tv + dot m v (Form.assembled mat L X)).
    + f_equal. cbn [Form.assembled current_2d]. rewrite (load_pair m NN M HN). apply lsum_ext. intros e He. destruct (marked (le_attr e)); [|reflexivity]. cbv zeta.
      unfold dot, dom_elvect. fold (dom_rule e). set (r := dom_rule e). change (element_nodes e X) with (le_nodes e X). change (point_at e r (le_nodes e X)) with (le_pos (le_nn e) r (le_nodes e X)).
      rewrite (rsum_ext (le_nd e) _ (fun i => rsum (lr_nq r) (fun q => lr_pw r q * lr_W r q (le_nodes e X) * (alpha * sc_eval Q (le_attr e) (le_pos (le_nn e) r (le_nodes e X) q)) * (lr_S r q i * le_vals e v i)))).
      * rewrite (rsum_swap (le_nd e) (lr_nq r)). apply rsum_ext. intros q _. now rewrite rsum_scal.
      * intros i _. rewrite scaled_eq, <- Rmult_assoc, <- rsum_scal. apply rsum_ext. intros q _. ring.
    + unfold dot. rewrite <- rsum_plus. apply rsum_ext. intros i _. unfold addLoad, zero_at. destruct (memb i ess) eqn:E; [rewrite (H i E); ring|ring].
Qed.
(** the product with respect to "mesh_coords" adds the derivative of load_bar times what addLoad leaves, on simplices *)
Theorem C98_mesh_partial : (forall e, In e M -> le_space e = Pk) ->
  (forall e q, In e M -> let r := le_rules e (2 * le_order e - 2) in (q < lr_nq r)%nat -> rev_scalar dim (le_nn e) (lr_W r q) (lr_WRev r q) /\ scalar_rev_at dim Q (le_attr e) (point_at e r (element_nodes e X) q)) ->
  forall V tv load_bar acc, is_derive (fun t => dot m load_bar (after_load L (moved X V t) tv)) 0
    (with_nodes dim NN (fun i => mesh_product L load_bar acc i - acc i) V).
Proof.
  intros HP HR V tv lb acc. unfold lvjp_field. cbn [lsens current_2d String.eqb Ascii.eqb Bool.eqb]. rewrite with_nodes_diff.
  apply (DV_ext (fun t => dot m lb tv + dot m (zero_at ess lb) (Form.assembled mat L (moved X V t)))).
  { intros t. rewrite <- zero_dot. unfold dot. rewrite <- rsum_plus. apply rsum_ext. intros i _. unfold addLoad. ring. }
  eapply DV_eq; [apply DV_plus; [apply DV_const|]|apply Rplus_0_l].
  apply (assembled_derive dim m NN M HN marked (fun e Y => dom_elvect e Q alpha Y) (fun e => dom_mesh dim e Q alpha (le_nodes e X) (le_vals e (zero_at ess lb))) X V (zero_at ess lb)).
  intros e He _. apply dom_element.
  - unfold dom_sens_rule, dom_rule. now rewrite (HP e He).
  - intros q Hq. exact (HR e q He Hq).
Qed.
End Current.

(** ** C99 *)
(** the product of the 3-D magnet load leaves the destination as it was, whatever the argument *)
Theorem C99_silent : forall F wrt load_bar acc, lvjp_field mat (magnet_3d dim M F) X ess wrt load_bar acc = acc /\ lvjp_scalar mat (magnet_3d dim M F) X wrt load_bar = 0.
Proof. intros. split; reflexivity. Qed.
(** the sensitivity integrator itself is right: if it were registered the product would add the derivative *)
Theorem C99_integrator : forall F, (forall e q, In e M -> let r := le_rules e (2 * le_order e) in (q < lr_nq r)%nat -> rev_scalar dim (le_nn e) (lr_W r q) (lr_WRev r q) /\
     rev_rect_at (le_nd e) dim dim (le_nn e) (lr_C r q) (lr_CRev r q) (element_nodes e X) /\ vector_rev_at dim F (le_attr e) (point_at e r (element_nodes e X) q)) ->
  forall V tv load_bar acc, is_derive (fun t => dot m load_bar (after_load (magnet_3d dim M F) (moved X V t) tv)) 0
    (with_nodes dim NN (fun i => mesh_product (magnet_3d_registered dim NN M F) load_bar acc i - acc i) V).
Proof.
  intros F HR V tv lb acc. unfold lvjp_field. cbn [lsens magnet_3d_registered String.eqb Ascii.eqb Bool.eqb]. rewrite with_nodes_diff.
  apply (DV_ext (fun t => dot m lb tv + dot m (zero_at ess lb) (Form.assembled mat (magnet_3d dim M F) (moved X V t)))).
  { intros t. rewrite <- zero_dot. unfold dot. rewrite <- rsum_plus. apply rsum_ext. intros i _. unfold addLoad. ring. }
  eapply DV_eq; [apply DV_plus; [apply DV_const|]|apply Rplus_0_l].
  apply (assembled_derive dim m NN M HN (fun _ => true) (fun e Y => curl_elvect dim e F (-1) Y) (fun e => curl_mesh dim e F (-1) (le_nodes e X) (le_vals e (zero_at ess lb))) X V (zero_at ess lb)).
  intros e He _. apply curl_element. intros q Hq. exact (HR e q He Hq).
Qed.
End Claims.
Print Assumptions C98_value.
Print Assumptions C98_mesh_partial.
Print Assumptions C99_silent.
Print Assumptions C99_integrator.

(** *** a quadrilateral: bilinear nodes, order 1, one-point and 2x2 rules *)
Definition quad_N (a b : R) (j : nat) : R := match j with O => (1 - a) * (1 - b) | S O => a * (1 - b) | 2%nat => a * b | _ => (1 - a) * b end.
Definition quad_dN (a b : R) : mat := fun j l => match j, l with O, O => - (1 - b) | O, _ => - (1 - a) | S O, O => 1 - b | S O, _ => - a | 2%nat, O => b | 2%nat, _ => a | _, O => - b | _, _ => 1 - a end.
Definition quad_rule (nq : nat) (w : R) (xi eta : nat -> R) : lrule := {| lr_nq := nq; lr_pw := fun _ => w; lr_W := fun q X => wt2 4 (quad_dN (xi q) (eta q)) X;
  lr_WRev := fun q X b => wt2_rev 4 (quad_dN (xi q) (eta q)) X b; lr_N := fun q => quad_N (xi q) (eta q); lr_S := fun q => quad_N (xi q) (eta q); lr_C := fun _ _ _ _ => 0; lr_CRev := fun _ _ _ _ _ => 0 |}.
Definition g1 : R := (1 - gauss) / 2.
Definition g2 : R := (1 + gauss) / 2.
Definition quad_rules (order : nat) : lrule := if Nat.ltb order 2 then quad_rule 1 1 (fun _ => 1 / 2) (fun _ => 1 / 2)
  else quad_rule 4 (1 / 4) (fun q => match q with O | 2%nat => g1 | _ => g2 end) (fun q => match q with O | S O => g1 | _ => g2 end).
Definition quad (sp : space) : lelem := {| le_nn := 4; le_node := fun j => j; le_nd := 4; le_dof := fun j => j; le_sg := fun _ => 1; le_attr := 1; le_space := sp; le_order := 1; le_rules := quad_rules; le_refined := quad_rules |}.
Definition square : mat := fun k j => match k, j with O, S O => 1 | O, 2%nat => 1 | S O, 2%nat => 1 | S O, 3%nat => 1 | _, _ => 0 end.
Definition corner : mat := fun k j => match k, j with O, O => 1 | _, _ => 0 end.
Definition uniform : scoef := {| sc_eval := fun _ _ => 1; sc_rev := fun _ _ _ _ => 0 |}.
Definition dof0 : vec := fun i => match i with O => 1 | _ => 0 end.
Lemma quad_numbered sp : lnumbered 4 4 [quad sp].
Proof. intros e [<-|[]]. split; intros i Hi; exact Hi. Qed.
Lemma quad_revs sp r q x : rev_scalar 2 4 (lr_W (quad_rules r) q) (lr_WRev (quad_rules r) q) /\ scalar_rev_at 2 uniform (le_attr (quad sp)) x.
Proof.
  split.
  - unfold quad_rules. destruct (Nat.ltb r 2); apply wt2_ok.
  - intros b d. cbn. eapply DV_eq; [apply DV_const|]. unfold dot. cbn. ring.
Qed.
(** moving a corner of the unit square, forward: the load at the corner is 1/4 - t/8 *)
Lemma quad_forward t : dot 4 dof0 (addLoad mat (current_2d 2 4 [quad Qk] (fun _ => true) uniform 1) (moved square corner t) [] (fun _ => 0)) = 1 / 4 - t / 8.
Proof.
  unfold addLoad, zero_at. cbn [memb existsb Form.assembled current_2d]. unfold assembled_vec, lsum, dom_elvect, dot. cbn [rsum dof0 map fold_right].
  cbn [quad le_nd le_attr le_dof le_sg rsum Nat.eqb]. rewrite !scaled_eq. unfold dom_rule, quad_rules. cbn. unfold wt2, det2, iso_jac, le_nodes, moved, quad_dN. cbn. field.
Qed.
(** the product with respect to the mesh uses another rule on quadrilaterals *)
Theorem C98_quad_refuted : ~ forall dim m NN M X ess marked Q alpha, lnumbered m NN M ->
  (forall e q, In e M -> let r := le_rules e (2 * le_order e - 2) in (q < lr_nq r)%nat -> rev_scalar dim (le_nn e) (lr_W r q) (lr_WRev r q) /\ scalar_rev_at dim Q (le_attr e) (point_at e r (element_nodes e X) q)) ->
  forall V tv load_bar acc, is_derive (fun t => dot m load_bar (addLoad mat (current_2d dim NN M marked Q alpha) (moved X V t) ess tv)) 0
    (with_nodes dim NN (fun i => lvjp_field mat (current_2d dim NN M marked Q alpha) X ess "mesh_coords" load_bar acc i - acc i) V).
Proof.
  intros H. specialize (H 2%nat 4%nat 4%nat [quad Qk] square [] (fun _ => true) uniform 1 (quad_numbered Qk)).
  assert (K := H ltac:(intros e q [<-|[]] r Hq; apply quad_revs) corner (fun _ => 0) dof0 (fun _ => 0)). clear H.
  assert (A : is_derive (fun t => dot 4 dof0 (addLoad mat (current_2d 2 4 [quad Qk] (fun _ => true) uniform 1) (moved square corner t) [] (fun _ => 0))) 0 (- (1 / 8))).
  { apply (DV_ext (fun t => 1 / 4 - t / 8)); [intros t; symmetry; apply quad_forward|]. auto_derive; [exact Logic.I|]. field. }
  assert (E := DV_unique _ _ _ _ K A). clear K A.
  unfold lvjp_field in E. cbn [lsens current_2d String.eqb Ascii.eqb Bool.eqb] in E. rewrite with_nodes_diff in E. rewrite (mesh_pair 2 4 4 [quad Qk] (quad_numbered Qk)) in E.
  unfold lsum in E. cbn [map fold_right quad le_attr le_nn] in E.
  assert (S : pairing 2 4 (dom_mesh 2 (quad Qk) uniform 1 (le_nodes (quad Qk) square) (le_vals (quad Qk) (zero_at [] dof0))) (le_nodes (quad Qk) corner) = - (1 / 6)).
  { unfold pairing. cbn [rsum]. unfold le_nodes at 2 4 6 8 10 12 14 16. cbn [quad le_node corner]. ring_simplify.
    unfold dom_mesh, dom_sens_rule. cbn [le_space quad le_order le_rules quad_rules Nat.mul Nat.add Nat.sub Nat.ltb Nat.leb lr_nq quad_rule].
    unfold quad_rules. cbn [Nat.ltb Nat.leb Nat.sub Nat.mul Nat.add lr_nq quad_rule rsum]. cbn. unfold wt2_rev, to_nodes, adj2, iso_jac, wt2, det2, iso_jac, dot, le_vals, le_nodes, zero_at. cbn.
    unfold g1, g2. field_simplify. 
    assert (G := gauss_sq). nra. }
  fold (quad Qk) in E. rewrite S in E. lra.
Qed.
Print Assumptions C98_quad_refuted.
Example C98_nonvacuous : (forall e, In e [quad Pk] -> le_space e = Pk) /\ lnumbered 4 4 [quad Pk] /\
  (forall e q, In e [quad Pk] -> let r := le_rules e (2 * le_order e - 2) in (q < lr_nq r)%nat -> rev_scalar 2 (le_nn e) (lr_W r q) (lr_WRev r q) /\ scalar_rev_at 2 uniform (le_attr e) (point_at e r (element_nodes e square) q)) /\
  dot 4 dof0 (addLoad mat (current_2d 2 4 [quad Qk] (fun _ => true) uniform 1) (moved square corner 1) [] (fun _ => 0)) = 1 / 8.
Proof.
  split; [intros e [<-|[]]; reflexivity|]. split; [apply quad_numbered|]. split; [intros e q [<-|[]] r Hq; apply quad_revs|]. rewrite quad_forward. field.
Qed.

(** *** a tetrahedron with its six edge functions lam_a grad lam_b - lam_b grad lam_a, constant curls 2 grad lam_a x grad lam_b *)
Definition tet_dN : mat := fun j l => match j with O => -1 | S j => if Nat.eqb j l then 1 else 0 end.
Definition edge_of (i : nat) : nat * nat := match i with O => (0, 1) | S O => (0, 2) | 2 => (0, 3) | 3 => (1, 2) | 4 => (1, 3) | _ => (2, 3) end%nat.
Definition tet_curl : mat := fun i c => let '(a, b) := edge_of i in let l := ((c + 1) mod 3)%nat in let l' := ((c + 2) mod 3)%nat in 2 * (tet_dN a l * tet_dN b l' - tet_dN a l' * tet_dN b l).
Definition physical_curl (X : mat) : mat := fun i k => rsum 3 (fun l => iso_jac 4 tet_dN X k l * tet_curl i l) / wt3 4 tet_dN X.
Definition physical_curl_rev (X B : mat) : mat := fun k j =>
  to_nodes tet_dN 3 (fun k l => rsum 6 (fun i => B i k * tet_curl i l) / wt3 4 tet_dN X) k j +
  wt3_rev 4 tet_dN X (- rsum 6 (fun i => rsum 3 (fun k => B i k * rsum 3 (fun l => iso_jac 4 tet_dN X k l * tet_curl i l))) / wt3 4 tet_dN X ^ 2) k j.
Lemma physical_curl_ok X : wt3 4 tet_dN X <> 0 -> rev_rect_at 6 3 3 4 physical_curl physical_curl_rev X.
Proof.
  intros W V B. destruct (rev_scalar_entries 3 4 (wt3 4 tet_dN) (wt3_rev 4 tet_dN) X V (wt3_ok 4 tet_dN)) as [dW [D1 D2]].
  unfold physical_curl_rev. rewrite pairing_plus, D2, to_nodes_pair.
  set (w := wt3 4 tet_dN X) in *. set (J := iso_jac 4 tet_dN X). set (dJ := iso_jac 4 tet_dN V).
  eapply DV_eq.
  - unfold pairing. apply (DV_sum 6 (fun i t => rsum 3 (fun k => B i k * physical_curl (moved X V t) i k))). intros i _.
    apply (DV_sum 3 (fun k t => B i k * physical_curl (moved X V t) i k)). intros k _. apply DV_scal. unfold physical_curl.
    apply (DV_div (fun t => rsum 3 (fun l => iso_jac 4 tet_dN (moved X V t) k l * tet_curl i l)) (fun t => wt3 4 tet_dN (moved X V t))); [|exact D1|rewrite moved_0'; exact W].
    apply (DV_sum 3 (fun l t => iso_jac 4 tet_dN (moved X V t) k l * tet_curl i l)). intros l _. apply DV_scal_r, jac_derive.
  - cbv beta. rewrite !moved_0'. fold w J dJ.
    rewrite (rsum_ext 6 _ (fun i => rsum 3 (fun k => rsum 3 (fun l => B i k * tet_curl i l / w * dJ k l)) + (- dW / w ^ 2) * rsum 3 (fun k => B i k * rsum 3 (fun l => J k l * tet_curl i l)))).
    + rewrite rsum_plus, rsum_scal. f_equal; [|field; exact W].
      unfold pairing. rewrite (rsum_swap 6 3). apply rsum_ext. intros k _. rewrite (rsum_swap 6 3). apply rsum_ext. intros l _. unfold Rdiv. rewrite rsum_scal_r, rsum_scal_r. reflexivity.
    + intros i _. rewrite <- rsum_scal, <- rsum_plus. apply rsum_ext. intros k _.
      assert (E : rsum 3 (fun l => B i k * tet_curl i l / w * dJ k l) = B i k / w * rsum 3 (fun l => dJ k l * tet_curl i l)) by (rewrite <- rsum_scal; apply rsum_ext; intros; unfold Rdiv; ring).
      rewrite E. field. exact W.
Qed.
Definition tet_rule : lrule := {| lr_nq := 1; lr_pw := fun _ => 1 / 6; lr_W := fun _ => wt3 4 tet_dN; lr_WRev := fun _ => wt3_rev 4 tet_dN; lr_N := fun _ _ => 1 / 4; lr_S := fun _ _ => 0;
  lr_C := fun _ => physical_curl; lr_CRev := fun _ => physical_curl_rev |}.
Definition tet : lelem := {| le_nn := 4; le_node := fun j => j; le_nd := 6; le_dof := fun j => j; le_sg := fun _ => 1; le_attr := 1; le_space := Pk; le_order := 1; le_rules := fun _ => tet_rule; le_refined := fun _ => tet_rule |}.
Definition corner_tet : mat := fun k j => match j with O => 0 | S j => if Nat.eqb j k then 1 else 0 end.
Definition raise_top : mat := fun k j => match k, j with 2%nat, 3%nat => 1 | _, _ => 0 end.
Definition upward : vcoef := {| vc_eval := fun _ _ k => match k with 2%nat => 1 | _ => 0 end; vc_rev := fun _ _ _ _ => 0 |}.
Lemma tet_W t : wt3 4 tet_dN (moved corner_tet raise_top t) = 1 + t.
Proof. unfold wt3, det3, iso_jac, moved. cbn. ring. Qed.
Lemma tet_numbered : lnumbered 6 4 [tet].
Proof. intros e [<-|[]]. split; intros i Hi; exact Hi. Qed.
Lemma tet_revs : forall e q, In e [tet] -> let r := le_rules e (2 * le_order e) in (q < lr_nq r)%nat -> rev_scalar 3 (le_nn e) (lr_W r q) (lr_WRev r q) /\
     rev_rect_at (le_nd e) 3 3 (le_nn e) (lr_C r q) (lr_CRev r q) (element_nodes e corner_tet) /\ vector_rev_at 3 upward (le_attr e) (point_at e r (element_nodes e corner_tet) q).
Proof.
  intros e q [<-|[]] r Hq. split; [exact (wt3_ok 4 tet_dN)|]. split.
  - apply physical_curl_ok. change (element_nodes tet corner_tet) with corner_tet. assert (K := tet_W 0). rewrite moved_0' in K. rewrite K. lra.
  - intros b d. cbn. eapply DV_eq; [apply DV_const|]. unfold dot. cbn. ring.
Qed.
(** raising the top of the tetrahedron: the load on the first edge is -(1 + t) / 3, for small t *)
Lemma tet_forward t : -1 < t -> dot 6 dof0 (addLoad mat (magnet_3d 3 [tet] upward) (moved corner_tet raise_top t) [] (fun _ => 0)) = - (1 + t) / 3.
Proof.
  intros H. unfold addLoad, zero_at. cbn [memb existsb Form.assembled magnet_3d]. unfold assembled_vec, lsum, curl_elvect, dot. cbn [rsum dof0 map fold_right].
  cbn [tet le_nd le_attr le_dof le_sg rsum Nat.eqb]. rewrite !scaled_eq. unfold curl_rule. cbn [tet le_rules lr_nq tet_rule rsum lr_C lr_pw lr_W vc_eval upward].
  change (le_nodes _ (moved corner_tet raise_top t)) with (moved corner_tet raise_top t). rewrite tet_W. unfold physical_curl. rewrite tet_W. cbn [rsum].
  unfold tet_curl, iso_jac, moved. cbn. field. lra.
Qed.
(** the product with respect to the mesh is not the derivative *)
Theorem C99_mesh_refuted : ~ forall dim m NN M X ess F, lnumbered m NN M ->
  (forall e q, In e M -> let r := le_rules e (2 * le_order e) in (q < lr_nq r)%nat -> rev_scalar dim (le_nn e) (lr_W r q) (lr_WRev r q) /\
     rev_rect_at (le_nd e) dim dim (le_nn e) (lr_C r q) (lr_CRev r q) (element_nodes e X) /\ vector_rev_at dim F (le_attr e) (point_at e r (element_nodes e X) q)) ->
  forall V tv load_bar acc, is_derive (fun t => dot m load_bar (addLoad mat (magnet_3d dim M F) (moved X V t) ess tv)) 0
    (with_nodes dim NN (fun i => lvjp_field mat (magnet_3d dim M F) X ess "mesh_coords" load_bar acc i - acc i) V).
Proof.
  intros H. assert (K := H 3%nat 6%nat 4%nat [tet] corner_tet [] upward tet_numbered tet_revs raise_top (fun _ => 0) dof0 (fun _ => 0)).
  assert (A : is_derive (fun t => dot 6 dof0 (addLoad mat (magnet_3d 3 [tet] upward) (moved corner_tet raise_top t) [] (fun _ => 0))) 0 (- (1 / 3))).
  { apply (is_derive_ext_loc (fun t => - (1 + t) / 3)).
    - exists (mkposreal 1 Rlt_0_1). intros t Ht. change (Rabs (t - 0) < 1) in Ht. rewrite Rminus_0_r in Ht. apply Rabs_def2 in Ht. symmetry. apply tet_forward. lra.
    - auto_derive; [exact Logic.I|]. field. }
  assert (E := DV_unique _ _ _ _ K A). unfold with_nodes, lvjp_field in E. cbn in E. lra.
Qed.
Print Assumptions C99_mesh_refuted.
Example C99_nonvacuous : lnumbered 6 4 [tet] /\ (forall e q, In e [tet] -> let r := le_rules e (2 * le_order e) in (q < lr_nq r)%nat -> rev_scalar 3 (le_nn e) (lr_W r q) (lr_WRev r q) /\
     rev_rect_at (le_nd e) 3 3 (le_nn e) (lr_C r q) (lr_CRev r q) (element_nodes e corner_tet) /\ vector_rev_at 3 upward (le_attr e) (point_at e r (element_nodes e corner_tet) q)).
Proof. split; [exact tet_numbered|exact tet_revs]. Qed.
