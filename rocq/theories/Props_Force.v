(** C110-C113: force and torque outputs of the magnetostatic solver. *)
From Coq Require Import Reals Lra Lia List Bool Arith Ascii String.
From Coquelicot Require Import Coquelicot.
From Verif Require Import Num Vec Deriv EmIntegSpec EmInteg IsoGeom Force ForceSpec ForceProofs.
Import ListNotations.
Local Open Scope R_scope.

(** a valid mesh with differentiable reluctivity: positive Jacobian determinants, and shape functions that sum to a constant *)
Definition valid_elements (three : bool) (X : mat) (es : list felem) : Prop := forall e, In e es ->
  (forall q b, (q < fe_nq e)%nat -> 0 < b -> is_derive (fe_nu e q) b (fe_dnu e q b)) /\
  (forall q, (q < fe_nq e)%nat -> 0 < gdet three (iso_jac (fe_nn e) (fe_dN e q) (fun k j => X k (fe_node e j)))) /\
  (forall q l, (q < fe_nq e)%nat -> (l < gdim three)%nat -> rsum (fe_nn e) (fun j => fe_dN e q j l) = 0).
Lemma valid_good three ns sx X es : valid_elements three X es -> forall e, In e es -> el_good three ns sx X e.
Proof. intros H e He. destruct (H e He) as (A & B & C). now constructor. Qed.
(** every node of the body moves by at least 1e-14 in some direction, or not at all *)
Definition no_tiny (three : bool) (es : list felem) (attrs : list nat) (vel : vec -> vec) (X : mat) : Prop := forall n, body_node es attrs n ->
  (forall k, (k < gdim three)%nat -> vel (fun c => X c n) k = 0) \/ exists k, (k < gdim three)%nat /\ / 10 ^ 14 <= Rabs (vel (fun c => X c n) k).
(** the elements around the body are among the "air_attributes" *)
Definition air_around (es : list felem) (attrs : list nat) (air : option (list nat)) : Prop := forall l, air = Some l -> forall e, In e es ->
  In (fe_attr e) l \/ In (fe_attr e) attrs \/ forall j, (j < fe_nn e)%nat -> ~ body_node es attrs (fe_node e j).
Definition is_torque (name : string) : bool := negb (prefix "force" name).

(** ** C110: the force is minus the change of the energy *)
Theorem C110_virtual_work : forall three ns sx sw es name o s s' u F,
  (forall j, (j < ns)%nat -> 0 < sx j) -> valid_elements three (s_X s) es ->
  create_output three es name o s = FOk s' ->
  (is_torque name = true -> 0 < rsum (o_na o) (fun i => o_axis o i * o_axis o i)) ->
  no_tiny three es (o_attrs o) (velocity three (is_torque name) o) (s_X s) ->
  air_around es (o_attrs o) (if is_torque name then o_air o else None) ->
  calc_force three ns sx sw es name u s' = FOk (Some F) ->
  exists V, moves_body (gdim three) (body_node es (o_attrs o)) (velocity three (is_torque name) o) (s_X s) V /\
    virtual_force (fun X => total_energy three ns sx sw es X u) (s_X s) V F.
Proof.
  intros three ns sx sw es name o s s' u F Hsx HV HC _ HT HA HF.
  destruct (create_inv _ _ _ _ _ _ HC) as (torque & V & -> & HN & Hv & HX & _ & HO). fold (is_torque name) in *.
  assert (M := new_field_moves _ _ _ _ _ _ HN). exists V. split; [exact M|].
  unfold calc_force in HF. rewrite HO in HF. cbn [lookup] in HF. rewrite String.eqb_refl in HF. cbn [out_torque out_attrs out_air] in HF. injection HF as HF. rewrite Hv, HX in HF.
  apply (total_force_work three ns sx sw Hsx es _ _ _ _ _ _ (valid_good _ _ _ _ _ HV)) in HF; [exact HF|].
  intros e He [U|[B|T]].
  - unfold in_marker in U. destruct (if is_torque name then o_air o else None) as [l|] eqn:AIR; [|discriminate].
    destruct (HA l eq_refl e He) as [I|[I|I]].
    + apply memn_In in I. congruence.
    + apply (body_rigid three (is_torque name) o es _ _ e M He). now apply memn_In.
    + now apply (unmarked_zero _ _ _ _ _ _ _ M).
  - now apply (body_rigid three (is_torque name) o es _ _ e M He).
  - now apply (tiny_zero _ _ _ _ _ _ _ M He).
Qed.
Print Assumptions C110_virtual_work.
(** the output is not a number exactly when the flux vanishes at a quadrature point of a marked element that the body's motion deforms *)
Theorem C110_nan : forall three ns sx sw es marked attrs X V u,
  total_force three ns sx sw es marked attrs X V u = None <->
  exists e q, In e es /\ marked (fe_attr e) = true /\ ~ In (fe_attr e) attrs /\ (q < fe_nq e)%nat /\
    / 10 ^ 14 <= norm_inf (gdim three) (fe_nn e) (el_mat e V) /\
    norm (gdim three) (flux (fe_ndof e) (f_S three (fe_nn e) (fe_dN e) (fe_shape e) (el_mat e X)) q (el_vec e u)) = 0.
Proof.
  intros. rewrite total_none. split.
  - intros (e & He & M & H). unfold el_force, element_force, f_skip in H. destruct (memn (fe_attr e) attrs) eqn:A; [discriminate|]. cbn [orb] in H. unfold Rltb in H.
    destruct (Rlt_dec (norm_inf (gdim three) (fe_nn e) (el_mat e V)) (/ 10 ^ 14)) as [L|L]; [discriminate|].
    destruct (f_ok three (fe_ndof e) (fe_nn e) (fe_nq e) (fe_dN e) (fe_shape e) (el_mat e X) (el_vec e u)) eqn:OK; [discriminate|].
    assert (K : exists q, (q < fe_nq e)%nat /\ norm (gdim three) (flux (fe_ndof e) (f_S three (fe_nn e) (fe_dN e) (fe_shape e) (el_mat e X)) q (el_vec e u)) = 0).
    { unfold f_ok in OK. revert OK. induction (fe_nq e) as [|n IH]; [discriminate|]. cbn [all_fluxes_nonzero].
      destruct (Req_EM_T (norm (gdim three) (flux (fe_ndof e) (f_S three (fe_nn e) (fe_dN e) (fe_shape e) (el_mat e X)) n (el_vec e u))) 0) as [Z|Z].
      - intros _. exists n. split; [lia|exact Z].
      - intros K. destruct (IH K) as (q & Hq & Z'). exists q. split; [lia|exact Z']. }
    destruct K as (q & Hq & Z). exists e, q. repeat split; auto; [|lra]. intros I. apply memn_In in I. congruence.
  - intros (e & q & He & M & NA & Hq & L & Z). exists e. repeat split; auto. unfold el_force, element_force, f_skip.
    assert (A : memn (fe_attr e) attrs = false) by (destruct (memn (fe_attr e) attrs) eqn:A; [apply memn_In in A; contradiction|reflexivity]). rewrite A. cbn [orb]. unfold Rltb.
    destruct (Rlt_dec (norm_inf (gdim three) (fe_nn e) (el_mat e V)) (/ 10 ^ 14)); [lra|].
    destruct (f_ok three (fe_ndof e) (fe_nn e) (fe_nq e) (fe_dN e) (fe_shape e) (el_mat e X) (el_vec e u)) eqn:OK; [|reflexivity].
    exfalso. refine (proj1 (ok_link _ _ _ _ _ _ _ _) OK q Hq _). rewrite <- n_link. exact Z.
Qed.
Print Assumptions C110_nan.
(** without any field the force should be 0; it is not a number *)
Theorem C110_zero_field_refuted : forall three ns sx sw es marked attrs X V e,
  In e es -> marked (fe_attr e) = true -> ~ In (fe_attr e) attrs -> (0 < fe_nq e)%nat -> / 10 ^ 14 <= norm_inf (gdim three) (fe_nn e) (el_mat e V) ->
  virtual_force (fun X => total_energy three ns sx sw es X (fun _ => 0)) X V 0 /\ total_force three ns sx sw es marked attrs X V (fun _ => 0) = None.
Proof.
  intros three ns sx sw es marked attrs X V e He M NA Hq L. split.
  - unfold virtual_force. apply (DV_ext (fun _ => 0)); [intros; symmetry; apply zero_energy|]. apply (DV_eq _ 0 0); [apply DV_const|ring].
  - apply C110_nan. exists e, 0%nat. repeat split; auto. rewrite (ForceProofs.norm_ext _ _ (fun _ => 0)).
    + unfold norm, dot. rewrite (rsum_ext _ _ (fun _ => 0)) by (intros; ring). rewrite rsum_0. apply sqrt_0.
    + intros k _. unfold flux, el_vec. rewrite (rsum_ext _ _ (fun _ => 0)) by (intros; ring). apply rsum_0.
Qed.
Print Assumptions C110_zero_field_refuted.

(** two triangles of the unit square; the one at the origin (attribute 1) is the body, the other (attribute 2) is air *)
Definition tri_dN : mat := fun j l => match j, l with O, _ => -1 | S O, O => 1 | S (S O), S O => 1 | _, _ => 0 end.
Definition tri (attr : nat) (nodes : nat -> nat) : felem :=
  {| fe_attr := attr; fe_ndof := 3; fe_nn := 3; fe_nq := 1; fe_pw := fun _ => 1; fe_dN := fun _ => tri_dN; fe_shape := fun _ => tri_dN;
     fe_nu := fun _ _ => 1; fe_dnu := fun _ _ => 0; fe_d2nu := fun _ _ => 0; fe_dof := nodes; fe_sg := fun _ => 1; fe_node := nodes |}.
Definition body_tri : felem := tri 1 (fun j => j).
Definition air_tri : felem := tri 2 (fun j => match j with O => 1%nat | S O => 3%nat | _ => 2%nat end).
Definition square : list felem := [body_tri; air_tri].
Definition sqX : mat := fun k n => match k, n with O, S O => 1 | O, 3%nat => 1 | S O, S (S O) => 1 | S O, 3%nat => 1 | _, _ => 0 end.
Definition sq_opt (c : R) : fopts := {| o_attrs := [1%nat]; o_axis := fun k => if Nat.eqb k 0 then c else 0; o_na := 2; o_about := fun _ => 0; o_air := None |}.
Definition sq_solver : fsolver := {| s_fields := []; s_v := fun _ _ _ => 0; s_outs := []; s_X := sqX |}.
Definition sq_u : vec := fun n => match n with 3%nat => 1 | _ => 0 end.
Lemma sq_jac e : In e square -> forall k l, (k < 2)%nat -> (l < 2)%nat ->
  f_jac (fe_nn e) (fe_dN e) 0 (el_mat e sqX) k l = if Nat.eqb (fe_attr e) 1 then (if Nat.eqb k l then 1 else 0) else (if Nat.eqb k 0 then (if Nat.eqb l 0 then 0 else -1) else 1).
Proof.
  intros He k l Hk Hl. unfold f_jac, iso_jac, el_mat. destruct He as [<-|[<-|[]]]; destruct k as [|[|k]]; try lia; destruct l as [|[|l]]; try lia; cbn; ring.
Qed.
Lemma sq_valid : valid_elements false sqX square.
Proof.
  intros e He. split; [|split].
  - intros q b _ _. destruct He as [<-|[<-|[]]]; change (is_derive (fun _ : R => 1) b 0); apply DV_const.
  - intros q Hq. assert (q = 0%nat) by (destruct He as [<-|[<-|[]]]; cbn in Hq; lia). subst q.
    change (0 < gdet false (f_jac (fe_nn e) (fe_dN e) 0 (el_mat e sqX))). unfold gdet, det2. rewrite !(sq_jac e He) by lia. destruct He as [<-|[<-|[]]]; cbn; lra.
  - intros q l _ Hl. destruct He as [<-|[<-|[]]]; destruct l as [|[|l]]; cbn in Hl; try lia; cbn; ring.
Qed.
Lemma sq_body n : body_node square [1%nat] n <-> (n < 3)%nat.
Proof.
  split.
  - intros (e & j & [<-|[<-|[]]] & Ha & Hj & E); cbn in *; [lia|destruct Ha as [Ha|[]]; discriminate].
  - intros H. exists body_tri, n. repeat split; cbn; auto.
Qed.
Lemma sq_field c : exists V, force_field false square (sq_opt c) sqX = Some V /\ forall k n, (k < 2)%nat -> V k n = if andb (Nat.eqb k 0) (Nat.ltb n 3) then c else 0.
Proof.
  unfold force_field. replace (Nat.ltb (o_na (sq_opt c)) (gdim false)) with false by reflexivity. eexists. split; [reflexivity|]. intros k n Hk. unfold project.
  destruct (node_in square (o_attrs (sq_opt c)) n) eqn:I.
  - apply node_in_iff in I. apply sq_body in I. apply Nat.ltb_lt in I. rewrite I, andb_true_r. reflexivity.
  - assert (N : (n <? 3)%nat = false). { destruct (n <? 3)%nat eqn:L; [|reflexivity]. apply Nat.ltb_lt, sq_body, node_in_iff in L. cbn [o_attrs sq_opt] in I. congruence. }
    rewrite N, andb_false_r. reflexivity.
Qed.
Lemma sq_calc V c : (forall k n, (k < 2)%nat -> V k n = if andb (Nat.eqb k 0) (Nat.ltb n 3) then c else 0) -> / 10 ^ 14 <= Rabs c ->
  total_force false 1 (fun _ => / 2) (fun _ => 1) square (fun _ => true) [1%nat] sqX V sq_u = Some (- c).
Proof.
  intros HV Hc.
  assert (Hin : In air_tri square) by (right; left; reflexivity).
  unfold total_force, square. cbn [fold_right]. unfold el_force at 1. unfold element_force at 1. unfold f_skip at 1. replace (memn (fe_attr body_tri) [1%nat]) with true by reflexivity. cbn [orb].
  unfold el_force, element_force, f_skip. replace (memn (fe_attr air_tri) [1%nat]) with false by reflexivity. cbn [orb]. unfold Rltb.
  assert (L : / 10 ^ 14 <= norm_inf (gdim false) (fe_nn air_tri) (el_mat air_tri V)).
  { eapply Rle_trans; [|apply (rmaxn_le (gdim false) (fun k => rmaxn (fe_nn air_tri) (fun j => Rabs (el_mat air_tri V k j))) 0%nat); cbn; lia].
    eapply Rle_trans; [|apply (rmaxn_le (fe_nn air_tri) (fun j => Rabs (el_mat air_tri V 0%nat j)) 0%nat); cbn; lia]. unfold el_mat. rewrite HV by lia. exact Hc. }
  destruct (Rlt_dec (norm_inf (gdim false) (fe_nn air_tri) (el_mat air_tri V)) (/ 10 ^ 14)) as [T|_]; [lra|].
  set (J := f_jac (fe_nn air_tri) (fe_dN air_tri) 0 (el_mat air_tri sqX)). set (h := f_bhat (fe_ndof air_tri) (fe_shape air_tri) (el_vec air_tri sq_u) 0%nat).
  assert (HJ : forall k l, (k < 2)%nat -> (l < 2)%nat -> J k l = if Nat.eqb k 0 then (if Nat.eqb l 0 then 0 else -1) else 1) by (intros k l Hk Hl; unfold J; now rewrite (sq_jac air_tri Hin)).
  assert (Hh : h 0%nat = 1 /\ h 1%nat = 0) by (unfold h, f_bhat, el_vec; cbn; split; ring). destruct Hh as [H0 H1].
  assert (Hb : bb false J h 0%nat = 1 /\ bb false J h 1%nat = 1).
  { unfold bb, gadj, adj2. cbn [gdim rsum]. rewrite !HJ, H0, H1 by lia. cbn [Nat.eqb]. split; ring. }
  assert (NN : norm (gdim false) (bb false J h) = sqrt 2).
  { unfold norm, dot. cbn [gdim rsum]. destruct Hb as [-> ->]. f_equal. ring. }
  assert (S2 : 0 < sqrt 2) by (apply sqrt_lt_R0; lra).
  assert (DET : gdet false J = 1) by (unfold gdet, det2; rewrite !HJ by lia; cbn [Nat.eqb]; ring).
  assert (OK : f_ok false (fe_ndof air_tri) (fe_nn air_tri) (fe_nq air_tri) (fe_dN air_tri) (fe_shape air_tri) (el_mat air_tri sqX) (el_vec air_tri sq_u) = true).
  { apply ok_link. intros q Hq. assert (q = 0%nat) by (cbn in Hq; lia). subst q. fold J h. rewrite NN. lra. }
  rewrite OK. unfold oplus. f_equal. change (fe_nq air_tri) with 1%nat. cbn [rsum]. rewrite point_link; [|fold J; rewrite DET; lra|fold J h; rewrite NN; lra]. fold J h.
  set (G := iso_jac (fe_nn air_tri) (fe_dN air_tri 0%nat) (el_mat air_tri V)).
  assert (HG : G 0%nat 0%nat = - c /\ G 0%nat 1%nat = 0 /\ G 1%nat 0%nat = 0 /\ G 1%nat 1%nat = 0).
  { unfold G, iso_jac, el_mat. cbn [fe_nn air_tri tri rsum fe_node fe_dN]. rewrite !HV by lia. cbn. repeat split; ring. }
  destruct HG as (G00 & G01 & G10 & G11). destruct Hb as [B0 B1].
  assert (PB : pB false J G h = - (2 * c)).
  { unfold pB, mv. cbn [gdim rsum]. rewrite B0, B1, G00, G01, G10, G11. unfold gadj, adj2. rewrite !HJ by lia. cbn [Nat.eqb]. ring. }
  assert (DD : ddet false J G = - c). { unfold ddet. cbn [gdim rsum]. rewrite G00, G01, G10, G11. unfold gadj, adj2. rewrite !HJ by lia. cbn [Nat.eqb]. ring. }
  unfold Fp, pdB, pmag. rewrite PB, DD, NN, DET. unfold calcMagneticEnergyDot. cbn [rsum]. unfold calcMagneticEnergy. cbn [rsum]. cbn [fe_nu fe_dnu fe_pw air_tri tri]. assert (SS : sqrt 2 * sqrt 2 = 2) by (apply sqrt_sqrt; lra). set (r := sqrt 2) in *. field_simplify; [|lra]. replace (r ^ 3) with (2 * r) by (rewrite <- SS; ring). field. lra.
Qed.
Lemma tiny_le_1 : / 10 ^ 14 <= 1.
Proof. rewrite <- Rinv_1. apply Rinv_le_contravar; [lra|]. apply pow_R1_Rle. lra. Qed.
Lemma sq_create c : exists V s', create_output false square "force" (sq_opt c) sq_solver = FOk s' /\ s_v s' "vforce"%string = V /\
  s_outs s' = [("force"%string, {| out_torque := false; out_attrs := [1%nat]; out_air := None |})] /\ s_X s' = sqX /\ has "vforce" (s_fields s') = true /\
  (forall k n, (k < 2)%nat -> V k n = if andb (Nat.eqb k 0) (Nat.ltb n 3) then c else 0).
Proof.
  destruct (sq_field c) as (V & HV & E). exists V. unfold create_output. change (lookup "force" (s_outs sq_solver)) with (@None fout).
  change (prefix "force" "force") with true. cbn [orb negb]. change (has ("v" ++ "force") (s_fields sq_solver)) with false. unfold set_field. cbn [s_fields s_X s_outs s_v].
  change (has (key false) [("v" ++ "force")%string]) with true. cbv iota. unfold new_field. change (s_X sq_solver) with sqX. rewrite HV. cbv iota.
  eexists. split; [reflexivity|]. cbn [s_v s_outs s_X s_fields]. change (String.eqb "vforce" (key false)) with true. repeat split; auto.
Qed.
Example C110_witness : exists s' F, create_output false square "force" (sq_opt 1) sq_solver = FOk s' /\ calc_force false 1 (fun _ => / 2) (fun _ => 1) square "force" sq_u s' = FOk (Some F) /\ F <> 0 /\
  valid_elements false (s_X sq_solver) square /\ no_tiny false square (o_attrs (sq_opt 1)) (velocity false (is_torque "force") (sq_opt 1)) (s_X sq_solver) /\
  air_around square (o_attrs (sq_opt 1)) (if is_torque "force" then o_air (sq_opt 1) else None).
Proof.
  destruct (sq_create 1) as (V & s' & HC & Hv & HO & HX & _ & E). exists s', (-1). split; [exact HC|]. split; [|split; [lra|split; [exact sq_valid|split]]].
  - unfold calc_force. rewrite HO. cbn [lookup]. replace (("force" =? "force")%string) with true by reflexivity. cbn [out_torque out_attrs out_air]. unfold key. rewrite Hv, HX. f_equal.
    change (in_marker None) with (fun _ : nat => true). rewrite (sq_calc V 1 E); [reflexivity|]. rewrite Rabs_R1. exact tiny_le_1.
  - intros n _. right. exists 0%nat. split; [cbn; lia|]. unfold velocity. change (is_torque "force") with false. cbv iota. cbn [o_axis sq_opt Nat.eqb]. rewrite Rabs_R1. exact tiny_le_1.
  - intros l D. discriminate.
Qed.

(** ** C111: derivative with respect to the state *)
Definition smooth_elements (three : bool) (X : mat) (es : list felem) : Prop := forall e, In e es ->
  (forall q b, (q < fe_nq e)%nat -> 0 < b -> is_derive (fe_nu e q) b (fe_dnu e q b)) /\
  (forall q b, (q < fe_nq e)%nat -> 0 < b -> is_derive (fe_dnu e q) b (fe_d2nu e q b)) /\
  (forall q, (q < fe_nq e)%nat -> 0 < gdet three (iso_jac (fe_nn e) (fe_dN e q) (fun k j => X k (fe_node e j)))).
Lemma smooth_good three X es : smooth_elements three X es -> forall e, In e es -> el_smooth three X e.
Proof. intros H e He. destruct (H e He) as (A & B & C). now constructor. Qed.
Theorem C111_state : forall three ns sx sw es marked attrs X V u N g z,
  (forall j, (j < ns)%nat -> 0 < sx j) -> smooth_elements three X es ->
  (forall e i, In e es -> (i < fe_ndof e)%nat -> (fe_dof e i < N)%nat) ->
  total_grad three ns sx sw es marked attrs X V u = Some g ->
  derivative_of (fun t => total_force three ns sx sw es marked attrs X V (along u z t)) (dot N g z).
Proof. intros. apply total_state; auto. now apply smooth_good. Qed.
Print Assumptions C111_state.
(** the derivative exists whenever the force does *)
Theorem C111_defined : forall three ns sx sw es marked attrs X V u,
  total_grad three ns sx sw es marked attrs X V u = None <-> total_force three ns sx sw es marked attrs X V u = None.
Proof.
  intros. unfold total_grad, total_force. induction es as [|e es IH]; cbn [fold_right]; [split; discriminate|].
  destruct (marked (fe_attr e)); [|exact IH].
  assert (K : el_grad three ns sx sw attrs X V u e = None <-> el_force three ns sx sw attrs X V u e = None).
  { unfold el_grad, el_force, element_force_grad, element_force. destruct (f_skip _ _ _ _); [split; discriminate|]. destruct (f_ok _ _ _ _ _ _ _ _); split; (discriminate || reflexivity). }
  match type of IH with ?x = None <-> ?y = None => set (a := x) in *; set (b := y) in * end. clearbody a b.
  destruct (el_grad three ns sx sw attrs X V u e) as [ge|], (el_force three ns sx sw attrs X V u e) as [fe|].
  - destruct a as [r|], b as [y|]; cbn; split; intros H; try discriminate; try reflexivity; destruct IH as [IH1 IH2]; try (specialize (IH1 eq_refl)); try (specialize (IH2 eq_refl)); discriminate.
  - destruct K as [_ K]. specialize (K eq_refl). discriminate.
  - destruct K as [K _]. specialize (K eq_refl). discriminate.
  - split; reflexivity.
Qed.
Print Assumptions C111_defined.

(** ** C112: derivative with respect to the coordinates, for the displacement field as stored *)
Theorem C112_mesh : forall three ns sx sw es marked attrs X V u N g Y,
  (forall j, (j < ns)%nat -> 0 < sx j) -> smooth_elements three X es ->
  (forall e j, In e es -> (j < fe_nn e)%nat -> (fe_node e j < N)%nat) ->
  total_mesh three ns sx sw es marked attrs X V u = Some g ->
  derivative_of (fun t => total_force three ns sx sw es marked attrs (moved X Y t) V u) (pairing (gdim three) N g Y).
Proof. intros. apply total_mesh_derive; auto. now apply smooth_good. Qed.
Print Assumptions C112_mesh.
(** in terms of the solver: the partial is the derivative of calcOutput when "mesh_coords" changes after the output was created *)
Theorem C112_output : forall three ns sx sw es name f s u N g Y,
  (forall j, (j < ns)%nat -> 0 < sx j) -> smooth_elements three (s_X s) es ->
  (forall e j, In e es -> (j < fe_nn e)%nat -> (fe_node e j < N)%nat) ->
  lookup name (s_outs s) = Some f ->
  total_mesh three ns sx sw es (in_marker (out_air f)) (out_attrs f) (s_X s) (s_v s (key (out_torque f))) u = Some g ->
  derivative_of (fun t => match calc_force three ns sx sw es name u (set_mesh (moved (s_X s) Y t) s) with FOk r => r | _ => None end) (pairing (gdim three) N g Y).
Proof.
  intros three ns sx sw es name f s u N g Y Hsx HS HN HL HG. unfold calc_force, set_mesh. cbn [s_outs s_X s_v]. rewrite HL.
  now apply C112_mesh.
Qed.
Print Assumptions C112_output.
Lemma sq_smooth : smooth_elements false sqX square.
Proof.
  intros e He. destruct (sq_valid e He) as (A & B & _). split; [exact A|split; [|exact B]].
  intros q b _ _. destruct He as [<-|[<-|[]]]; change (is_derive (fun _ : R => 0) b 0); apply DV_const.
Qed.
Example C111_C112_witness : exists V g m, total_grad false 1 (fun _ => / 2) (fun _ => 1) square (fun _ => true) [1%nat] sqX V sq_u = Some g /\
  total_mesh false 1 (fun _ => / 2) (fun _ => 1) square (fun _ => true) [1%nat] sqX V sq_u = Some m /\ smooth_elements false sqX square /\
  total_force false 1 (fun _ => / 2) (fun _ => 1) square (fun _ => true) [1%nat] sqX V sq_u = Some (-1).
Proof.
  destruct (sq_field 1) as (V & _ & E). exists V.
  assert (F : total_force false 1 (fun _ => / 2) (fun _ => 1) square (fun _ => true) [1%nat] sqX V sq_u = Some (-1)).
  { apply (sq_calc V 1 E). rewrite Rabs_R1. exact tiny_le_1. }
  destruct (total_grad false 1 (fun _ => / 2) (fun _ => 1) square (fun _ => true) [1%nat] sqX V sq_u) as [g|] eqn:G.
  2:{ apply C111_defined in G. congruence. }
  exists g. assert (M : exists m, total_mesh false 1 (fun _ => / 2) (fun _ => 1) square (fun _ => true) [1%nat] sqX V sq_u = Some m).
  { unfold total_force, square, el_force, element_force in F. unfold total_mesh, square, el_mesh, element_force_mesh. cbn [fold_right] in *.
    destruct (f_skip _ _ (el_mat body_tri V) _); [|destruct (f_ok _ _ _ _ _ _ (el_mat body_tri sqX) _); [|discriminate]];
    (destruct (f_skip _ _ (el_mat air_tri V) _); [|destruct (f_ok _ _ _ _ _ _ (el_mat air_tri sqX) _); [|discriminate]]); eexists; reflexivity. }
  destruct M as [m M]. exists m. repeat split; auto; apply sq_smooth; auto.
Qed.

(** ** C113: options and names *)
(** an output called other than "force" cannot be created unless "force" exists: the field is looked up under a fixed name *)
Theorem C113_name_refuted : forall three es name o s, lookup name (s_outs s) = None -> prefix "force" name = true -> name <> "force"%string ->
  has "vforce" (s_fields s) = false -> create_output three es name o s = FOutOfRange.
Proof.
  intros three es name o s L P N H. unfold create_output. rewrite L, P. cbn [orb negb].
  assert (K : has "vforce" (s_fields (if has ("v" ++ name) (s_fields s) then s else {| s_fields := ("v" ++ name)%string :: s_fields s;
     s_v := fun k => if String.eqb k ("v" ++ name) then (fun _ _ => 0) else s_v s k; s_outs := s_outs s; s_X := s_X s |})) = false).
  { destruct (has ("v" ++ name) (s_fields s)); [exact H|]. cbn [s_fields has existsb]. unfold has in H. rewrite H, orb_false_r.
    apply String.eqb_neq. intros E. apply N. cbn in E. congruence. }
  unfold set_field. unfold key at 1. rewrite K. reflexivity.
Qed.
Print Assumptions C113_name_refuted.
(** all force outputs share one displacement field: what the first returns after a second was created *)
Theorem C113_shared_field : forall three ns sx sw es n1 n2 o1 o2 s s1 s2 u, n1 <> n2 -> is_torque n1 = is_torque n2 ->
  create_output three es n1 o1 s = FOk s1 -> create_output three es n2 o2 s1 = FOk s2 ->
  exists V2, new_field three es (is_torque n2) o2 (s_X s) = Some V2 /\
    calc_force three ns sx sw es n1 u s2 = FOk (total_force three ns sx sw es (in_marker (if is_torque n1 then o_air o1 else None)) (o_attrs o1) (s_X s) V2 u).
Proof.
  intros three ns sx sw es n1 n2 o1 o2 s s1 s2 u N T H1 H2.
  destruct (create_inv _ _ _ _ _ _ H1) as (t1 & V1 & -> & _ & _ & X1 & _ & O1). destruct (create_inv _ _ _ _ _ _ H2) as (t2 & V2 & -> & N2 & v2 & X2 & _ & O2).
  fold (is_torque n1) (is_torque n2) in *. exists V2. rewrite <- X1. split; [exact N2|].
  unfold calc_force. rewrite O2. cbn [lookup]. apply String.eqb_neq in N. rewrite N, O1. cbn [lookup]. rewrite String.eqb_refl. cbn [out_torque out_attrs out_air].
  now rewrite T, v2, X2.
Qed.
Print Assumptions C113_shared_field.
(** so creating an output with the opposite axis turns the sign of the other one *)
Theorem C113_independence_refuted : exists three ns sx sw es n1 n2 o1 o2 s s1 s2 u F,
  n1 <> n2 /\ create_output three es n1 o1 s = FOk s1 /\ calc_force three ns sx sw es n1 u s1 = FOk (Some F) /\
  create_output three es n2 o2 s1 = FOk s2 /\ calc_force three ns sx sw es n1 u s2 = FOk (Some (- F)) /\ F <> 0.
Proof.
  destruct (sq_create 1) as (V & s1 & HC & Hv & HO & HX & Hh & E).
  destruct (sq_field (-1)) as (V2 & HV2 & E2).
  assert (C2 : exists s2, create_output false square "force_rotor" (sq_opt (-1)) s1 = FOk s2).
  { unfold create_output. rewrite HO. cbn [lookup]. replace (String.eqb "force_rotor" "force") with false by reflexivity.
    replace (prefix "force" "force_rotor") with true by reflexivity. cbn [orb negb]. unfold set_field.
    match goal with |- context [has (key false) (s_fields ?t)] => assert (K : has (key false) (s_fields t) = true /\ s_X t = sqX) end.
    { destruct (has ("v" ++ "force_rotor") (s_fields s1)); [split; assumption|]. cbn [s_fields s_X]. split; [|exact HX]. cbn [has existsb]. unfold key. unfold has in Hh. rewrite Hh. apply orb_true_r. }
    destruct K as [K1 K2]. rewrite K1, K2. unfold new_field. rewrite HV2. eexists. reflexivity. }
  destruct C2 as [s2 C2].
  assert (B1 : forall c, Rabs c = 1 -> / 10 ^ 14 <= Rabs c).
  { intros c ->. exact tiny_le_1. }
  exists false, 1%nat, (fun _ => / 2), (fun _ => 1), square, "force"%string, "force_rotor"%string, (sq_opt 1), (sq_opt (-1)), sq_solver, s1, s2, sq_u, (-1).
  split; [discriminate|]. split; [exact HC|]. split; [|split; [exact C2|split; [|lra]]].
  - unfold calc_force. rewrite HO. cbn [lookup]. replace (String.eqb "force" "force") with true by reflexivity. cbn [out_torque out_attrs out_air]. unfold key. rewrite Hv, HX. f_equal.
    change (in_marker None) with (fun _ : nat => true). rewrite (sq_calc V 1 E); [reflexivity|]. apply B1, Rabs_R1.
  - destruct (C113_shared_field false 1 (fun _ => / 2) (fun _ => 1) square "force" "force_rotor" (sq_opt 1) (sq_opt (-1)) sq_solver s1 s2 sq_u ltac:(discriminate) eq_refl HC C2) as (W & HW & ->).
    assert (EW : W = V2). { cbn [s_X sq_solver] in HW. change (is_torque "force_rotor") with false in HW. unfold new_field in HW. congruence. }
    subst W. f_equal. change (in_marker (if is_torque "force" then o_air (sq_opt 1) else None)) with (fun _ : nat => true). cbn [o_attrs sq_opt s_X sq_solver].
    rewrite (sq_calc V2 (-1) E2); [reflexivity|]. apply B1. rewrite Rabs_left; lra.
Qed.
Print Assumptions C113_independence_refuted.
(** setOutputOptions replaces the displacement field, but the integrator keeps the attributes it was created with *)
Theorem C113_set_options : forall three ns sx sw es name o o' s s1 s2 u,
  create_output three es name o s = FOk s1 -> set_output_options three es name o' s1 = FOk s2 ->
  exists V', new_field three es (is_torque name) o' (s_X s) = Some V' /\
    calc_force three ns sx sw es name u s2 = FOk (total_force three ns sx sw es (in_marker (if is_torque name then o_air o else None)) (o_attrs o) (s_X s) V' u).
Proof.
  intros three ns sx sw es name o o' s s1 s2 u H1 H2. destruct (create_inv _ _ _ _ _ _ H1) as (t1 & V1 & -> & _ & _ & X1 & _ & O1). fold (is_torque name) in *.
  unfold set_output_options in H2. rewrite O1 in H2. cbn [lookup] in H2. rewrite String.eqb_refl in H2. cbn [out_torque] in H2.
  destruct (set_field_inv _ _ _ _ _ _ H2) as (V' & N2 & _ & _ & v2 & _ & O2 & X2). exists V'. rewrite <- X1. split; [exact N2|].
  unfold calc_force. rewrite O2, O1. cbn [lookup]. rewrite String.eqb_refl. cbn [out_torque out_attrs out_air]. now rewrite v2, X2.
Qed.
Print Assumptions C113_set_options.
(** with the same attributes, setting the options is as good as creating the output with them *)
Theorem C113_new_axis : forall three ns sx sw es name o o' s s1 s2 s1' u,
  o_attrs o' = o_attrs o -> (if is_torque name then o_air o' else None) = (if is_torque name then o_air o else None) ->
  create_output three es name o s = FOk s1 -> set_output_options three es name o' s1 = FOk s2 -> create_output three es name o' s = FOk s1' ->
  calc_force three ns sx sw es name u s2 = calc_force three ns sx sw es name u s1'.
Proof.
  intros three ns sx sw es name o o' s s1 s2 s1' u HA HR H1 H2 H3. destruct (C113_set_options three ns sx sw es name o o' s s1 s2 u H1 H2) as (V' & HV & ->).
  destruct (create_inv _ _ _ _ _ _ H3) as (t1 & V1 & -> & N1 & v1 & X1 & _ & O1). fold (is_torque name) in *.
  unfold calc_force. rewrite O1. cbn [lookup]. rewrite String.eqb_refl. cbn [out_torque out_attrs out_air]. rewrite v1, X1, HA, HR. congruence.
Qed.
Print Assumptions C113_new_axis.
(** the torque does not depend on the length of the axis; the force grows with it *)
Theorem C113_axis_length : forall three es o c X V, 0 < c -> 0 < rsum (o_na o) (fun i => o_axis o i * o_axis o i) ->
  let o' := {| o_attrs := o_attrs o; o_axis := fun k => c * o_axis o k; o_na := o_na o; o_about := o_about o; o_air := o_air o |} in
  (torque_field three es o X = Some V -> exists V', torque_field three es o' X = Some V' /\ forall k n, V' k n = V k n) /\
  (force_field three es o X = Some V -> exists V', force_field three es o' X = Some V' /\ forall k n, V' k n = c * V k n).
Proof.
  intros three es o c X V Hc HP o'. split.
  - unfold torque_field. change (o_na o') with (o_na o). destruct (Nat.ltb (o_na o) 3); [discriminate|]. intros [= <-]. eexists. split; [reflexivity|].
    intros k n. unfold project. change (o_attrs o') with (o_attrs o). destruct (node_in es (o_attrs o) n); [|reflexivity].
    assert (E : forall i, o_axis o' i / norm (o_na o) (o_axis o') = o_axis o i / norm (o_na o) (o_axis o)).
    { intros i. assert (P : 0 < norm (o_na o) (o_axis o)) by (unfold norm; apply sqrt_lt_R0; exact HP).
      assert (NS : norm (o_na o) (o_axis o') = c * norm (o_na o) (o_axis o)).
      { unfold norm, dot, o'. cbn [o_axis]. rewrite (rsum_ext _ _ (fun i => c * c * (o_axis o i * o_axis o i))) by (intros; ring). rewrite rsum_scal, sqrt_mult by (try nra; apply Rlt_le, HP). rewrite sqrt_square by lra. reflexivity. }
      rewrite NS. cbn [o_axis o']. field. lra. }
    unfold torque_coef. change (o_about o') with (o_about o). destruct three; [destruct k as [|[|k]]|destruct k]; rewrite !E; reflexivity.
  - unfold force_field. change (o_na o') with (o_na o). destruct (Nat.ltb (o_na o) (gdim three)); [discriminate|]. intros [= <-]. eexists. split; [reflexivity|].
    intros k n. unfold project. change (o_attrs o') with (o_attrs o). destruct (node_in es (o_attrs o) n); [reflexivity|ring].
Qed.
Print Assumptions C113_axis_length.
(** after the mesh has moved, a torque output still uses the rotation about the old positions *)
Theorem C113_stale_field : forall three ns sx sw es name o s s1 X' u, create_output three es name o s = FOk s1 ->
  exists V, new_field three es (is_torque name) o (s_X s) = Some V /\
    calc_force three ns sx sw es name u (set_mesh X' s1) = FOk (total_force three ns sx sw es (in_marker (if is_torque name then o_air o else None)) (o_attrs o) X' V u).
Proof.
  intros three ns sx sw es name o s s1 X' u H1. destruct (create_inv _ _ _ _ _ _ H1) as (t1 & V1 & -> & N1 & v1 & X1 & _ & O1). fold (is_torque name) in *.
  exists V1. split; [exact N1|]. unfold calc_force, set_mesh. cbn [s_outs s_X s_v]. rewrite O1. cbn [lookup]. rewrite String.eqb_refl. cbn [out_torque out_attrs out_air]. now rewrite v1.
Qed.
Print Assumptions C113_stale_field.
Definition tq_opt : fopts := {| o_attrs := [1%nat]; o_axis := fun k => if Nat.eqb k 2 then 1 else 0; o_na := 3; o_about := fun _ => 0; o_air := None |}.
Theorem C113_stale_rotation_refuted : exists es o s s1 X' V, create_output false es "torque" o s = FOk s1 /\
  (forall ns sx sw u, calc_force false ns sx sw es "torque" u (set_mesh X' s1) = FOk (total_force false ns sx sw es (fun _ => true) (o_attrs o) X' V u)) /\
  ~ moves_body 2 (body_node es (o_attrs o)) (velocity false true o) X' V.
Proof.
  assert (HC : exists s1, create_output false square "torque" tq_opt sq_solver = FOk s1).
  { unfold create_output. change (lookup "torque" (s_outs sq_solver)) with (@None fout). change (prefix "force" "torque") with false. change (prefix "torque" "torque") with true. cbn [orb negb].
    change (has ("v" ++ "torque") (s_fields sq_solver)) with false. unfold set_field. cbn [s_fields s_X s_outs s_v]. change (has (key true) [("v" ++ "torque")%string]) with true. cbv iota.
    unfold new_field, torque_field. change (Nat.ltb (o_na tq_opt) 3) with false. cbv iota. eexists. reflexivity. }
  destruct HC as [s1 HC]. set (X' := fun k n => 2 * sqX k n).
  destruct (create_inv _ _ _ _ _ _ HC) as (t1 & V & Et & N1 & _).
  exists square, tq_opt, sq_solver, s1, X', V. split; [exact HC|]. split.
  - intros. destruct (C113_stale_field false ns sx sw square "torque" tq_opt sq_solver s1 X' u HC) as (V1 & HV1 & ->).
    change (is_torque "torque") with true in HV1. change (negb (prefix "force" "torque")) with true in Et. subst t1. replace V1 with V by congruence. reflexivity.
  - intros M. change (negb (prefix "force" "torque")) with true in Et. subst t1. assert (M0 := new_field_moves _ _ _ _ _ _ N1).
    assert (B : body_node square (o_attrs tq_opt) 1%nat) by (apply sq_body; lia).
    destruct (M 1%nat 1%nat ltac:(lia)) as [A _]. destruct (M0 1%nat 1%nat ltac:(cbn; lia)) as [A0 _]. specialize (A B). specialize (A0 B). rewrite A0 in A. clear A0.
    unfold velocity, rotation, unit_axis, X' in A. cbn in A. replace (0 + 0 * 0 + 0 * 0 + 1 * 1) with 1 in A by ring. rewrite sqrt_1 in A. lra.
Qed.
Print Assumptions C113_stale_rotation_refuted.
(** reading options that are too short is undefined behaviour *)
Theorem C113_short_axis : forall three es name o s, lookup name (s_outs s) = None -> prefix "torque" name = true -> has "vtorque" (s_fields s) = true -> (o_na o < 3)%nat ->
  create_output three es name o s = FUB.
Proof.
  intros three es name o s L P H A. unfold create_output. rewrite L, P, orb_true_r.
  assert (PF : prefix "force" name = false) by (destruct name as [|a name]; [reflexivity|]; cbn [prefix] in *; destruct (Ascii.ascii_dec "t"%char a) as [<-|]; [reflexivity|discriminate]).
  rewrite PF. cbn [negb]. unfold set_field.
  match goal with |- context [has (key true) (s_fields ?t)] => assert (K : has (key true) (s_fields t) = true) end.
  { destruct (has ("v" ++ name) (s_fields s)); [exact H|]. cbn [s_fields has existsb]. unfold key. unfold has in H. rewrite H. apply orb_true_r. }
  rewrite K. unfold new_field, torque_field. apply Nat.ltb_lt in A. rewrite A. reflexivity.
Qed.
Print Assumptions C113_short_axis.
Example C113_witness : exists s1 s2, create_output false square "force" (sq_opt 1) sq_solver = FOk s1 /\ set_output_options false square "force" (sq_opt 2) s1 = FOk s2 /\
  (exists V, torque_field true square {| o_attrs := [1%nat]; o_axis := fun _ => 1; o_na := 3; o_about := fun _ => 0; o_air := None |} sqX = Some V) /\
  lookup "force_x" (s_outs sq_solver) = None /\ has "vforce" (s_fields sq_solver) = false.
Proof.
  destruct (sq_create 1) as (V & s1 & HC & Hv & HO & HX & Hh & E). exists s1. destruct (sq_field 2) as (V2 & HV2 & _).
  unfold set_output_options. rewrite HO. cbn [lookup]. replace (String.eqb "force" "force") with true by reflexivity. cbn [out_torque]. unfold set_field. unfold key at 1. rewrite Hh, HX. unfold new_field. rewrite HV2.
  eexists. split; [exact HC|]. split; [reflexivity|]. split; [eexists; reflexivity|]. split; reflexivity.
Qed.
