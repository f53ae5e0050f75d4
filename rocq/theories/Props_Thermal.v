(** C75: heat exchange on boundaries and interfaces. *)
From Coq Require Import Reals String List Bool Arith Lra Lia.
From Coquelicot Require Import Coquelicot.
From Verif Require Import Vec Deriv Inputs EmInteg EmIntegSpec IsoGeom Thermal ThermalSpec ThermalProofs.
Import ListNotations.
Local Open Scope R_scope.

(** C75: the entries assembled for each side sum to alpha times the integral of the heat leaving that side: h (T1 - T2) and
    its opposite across a contact, h (T - T_fluid) for convection, the given flux.  So a contact loses no heat, and never
    sends heat from cold to hot. *)
Theorem C75_heat : forall F X g u, unity F ->
  let o := vec_order F g in
  rsum (n1 F) (face_vector F X g u) = scale g * integral F X o (fun q => law1 g (T1 F o u q) (T2 F o u q)) /\
  (interface g = true ->
     rsum (n2 F) (fun i => face_vector F X g u (n1 F + i)%nat) = scale g * integral F X o (fun q => law2 g (T1 F o u q) (T2 F o u q))).
Proof.
  intros F X g u U o. split.
  - rewrite (rsum_ext _ _ (fun i => integral F X o (fun q => scale g * (law1 g (T1 F o u q) (T2 F o u q) * sh1 F o q i)))).
    + rewrite integral_sum, <- integral_scal. apply integral_ext. intros q _. rewrite !rsum_scal. destruct (U o q) as [-> _]. ring.
    + intros i Hi. rewrite entry1 by exact Hi. fold o. now rewrite <- integral_scal.
  - intros I. rewrite (rsum_ext _ _ (fun i => integral F X o (fun q => scale g * (law2 g (T1 F o u q) (T2 F o u q) * sh2 F o q i)))).
    + rewrite integral_sum, <- integral_scal. apply integral_ext. intros q _. rewrite !rsum_scal. destruct (U o q) as [_ ->]. ring.
    + intros i Hi. rewrite entry2 by exact I. fold o. now rewrite <- integral_scal.
Qed.
Print Assumptions C75_heat.

Theorem C75_contact : forall F X name h alpha u, let g := Contact name h alpha in let o := vec_order F g in
  (unity F -> rsum (n1 F + n2 F) (face_vector F X g u) = 0) /\
  ((forall q, (q < npts F o)%nat -> T1 F o u q = T2 F o u q) -> forall i, (i < n1 F + n2 F)%nat -> face_vector F X g u i = 0) /\
  (0 <= alpha -> 0 <= h -> (forall q, (q < npts F o)%nat -> 0 <= wts F o q * Wf F o q X) -> 0 <= dot (n1 F + n2 F) u (face_vector F X g u)).
Proof.
  intros F X name h alpha u g o. split; [|split].
  - intros U. destruct (C75_heat F X g u U) as [A B]. rewrite rsum_app. rewrite A. rewrite (B eq_refl).
    rewrite <- !integral_scal, <- integral_plus. fold o. unfold integral. rewrite (rsum_ext _ _ (fun _ => 0)); [apply rsum_0|]. intros q _. cbn [law1 law2 g]. ring.
  - intros E i Hi. destruct (Nat.lt_ge_cases i (n1 F)) as [L|L].
    + rewrite entry1 by exact L. fold o. unfold integral. rewrite (rsum_ext _ _ (fun _ => 0)); [rewrite rsum_0; ring|]. intros q Hq. cbn [law1 g]. rewrite (E q Hq). ring.
    + replace i with (n1 F + (i - n1 F))%nat by lia. rewrite entry2 by reflexivity. fold o. unfold integral. rewrite (rsum_ext _ _ (fun _ => 0)); [rewrite rsum_0; ring|].
      intros q Hq. cbn [law2 g]. rewrite (E q Hq). ring.
  - intros Ha Hh W. assert (S := site_formula F X g u u). unfold size in S. cbn [interface g] in S. rewrite S. cbn [scale g].
    apply Rmult_le_pos; [exact Ha|]. apply integral_nonneg; [exact W|]. intros q.
    set (a := T1 F _ u q). set (b := T2 F _ u q). change (0 <= a * (h * (a - b)) + b * (h * (b - a))). replace (a * (h * (a - b)) + b * (h * (b - a))) with (h * ((a - b) * (a - b))) by ring.
    apply Rmult_le_pos; [exact Hh|]. apply Rle_0_sqr.
Qed.
Print Assumptions C75_contact.

(** C75: the matrices are symmetric, positive semidefinite, and the derivative of the vector whenever both use the same
    rule: always for contact and boundary terms, for internal convection when the transformation has order 0 weight. *)
Theorem C75_jacobian_partial : forall F X g u,
  (forall i j, face_grad F X g u i j = face_grad F X g u j i) /\
  ((match g with InternalConvection _ _ _ _ => ordW F = O | _ => True end) ->
     forall v, derivative_at (size F g) (face_vector F X g) u v (mv (size F g) (face_grad F X g u) v)) /\
  (0 <= scale g -> 0 <= transfer g -> (forall q, (q < npts F (grad_order F g))%nat -> 0 <= wts F (grad_order F g) q * Wf F (grad_order F g) q X) ->
     forall v, 0 <= dot (size F g) v (mv (size F g) (face_grad F X g u) v)).
Proof.
  intros F X g u. split; [intros; apply grad_sym|]. split.
  - intros O v. apply jacobian. destruct g; cbn [vec_order grad_order]; try reflexivity. rewrite O. lia.
  - intros Ha Hh W v. rewrite grad_form. apply Rmult_le_pos; [exact Ha|]. apply integral_nonneg; [exact W|]. intros q. cbv zeta.
    set (a := T1 F _ v q). set (b := T2 F _ v q). destruct g; cbn [lin1 lin2 transfer] in *.
    + replace (a * (h * (a - b)) + b * (h * (b - a))) with (h * ((a - b) * (a - b))) by ring. apply Rmult_le_pos; [exact Hh|apply Rle_0_sqr].
    + replace (a * (h * a) + b * (h * b)) with (h * (a * a) + h * (b * b)) by ring. apply Rplus_le_le_0_compat; apply Rmult_le_pos; try exact Hh; apply Rle_0_sqr.
    + replace (a * (h * a) + b * 0) with (h * (a * a)) by ring. apply Rmult_le_pos; [exact Hh|apply Rle_0_sqr].
    + lra.
Qed.
Print Assumptions C75_jacobian_partial.

(** C75: for every residual made of such terms, and every input name except "outflux", the number returned for that input is
    the derivative of psi . R in it, when vector and sensitivity use the same rule (contacts: weights of order 0). *)
Theorem C75_parameters_partial : forall (r : residual) k x, k <> "outflux"%string ->
  (forall g s, In (g, s) r -> forall F X p, In (F, X, p) s -> match g with Contact _ _ _ => ordW F = O | _ => True end) ->
  (forall t, with_inputs [(k, Scalar t)] r <> None) /\
  (forall w d, (forall t, exists r', with_inputs [(k, Scalar t)] r = Some r' /\ w t = weighted r' /\ (t = x -> d = reported k r')) -> is_derive w x d).
Proof.
  intros r k x K O. split; [intros t; rewrite with_one; discriminate|]. intros w d H.
  assert (Hw : forall t, w t = lsum (fun p => lsum (site_term (given k t (fst p))) (snd p)) r).
  { intros t. destruct (H t) as [r' [E [-> _]]]. rewrite with_one in E. injection E as <-. unfold weighted. clear. induction r as [|p r IH]; [reflexivity|]. cbn [map lsum fst snd]. now rewrite IH. }
  assert (Hd : d = lsum (fun p => lsum (fun s : site => match s with (F, X, (u, psi)) => named k (par_sens F X (given k x (fst p)) u psi) end) (snd p)) r).
  { destruct (H x) as [r' [E [_ D]]]. rewrite (D eq_refl). rewrite with_one in E. injection E as <-. unfold reported. clear. induction r as [|p r IH]; [reflexivity|]. cbn [map lsum fst snd]. now rewrite IH. }
  rewrite Hd. apply (DV_ext (fun t => lsum (fun p => lsum (site_term (given k t (fst p))) (snd p)) r)); [intros t; now rewrite Hw|].
  apply (lsum_derive (fun p t => lsum (site_term (given k t (fst p))) (snd p))). intros [g s] Hg. cbn [fst snd].
  apply (lsum_derive (fun st t => site_term (given k t g) st)). intros st Hs. apply site_param; [exact K|].
  destruct st as [[F X] p]. specialize (O g s Hg F X p Hs). destruct g; cbn [vec_order par_order]; try reflexivity; [rewrite O; lia|lia|lia].
Qed.
Print Assumptions C75_parameters_partial.

(** a unit segment with one dof per side, used in the examples: midpoint rule *)
Definition unit_face : face := {| n1 := 1; n2 := 1; ord1 := 0; ord2 := 0; ordW := 0; npts := fun _ => 1%nat; wts := fun _ _ => 1;
  sh1 := fun _ _ _ => 1; sh2 := fun _ _ _ => 1; fdim := 2; fnn := 2; Wf := fun _ _ _ => 1; WfRev := fun _ _ _ _ _ _ => 0 |}.
Example C75_heat_met : unity unit_face /\
  rsum 1 (face_vector unit_face (fun _ _ => 0) (Contact "gap" 2 1) (fun i => match i with O => 5 | _ => 3 end)) = 4.
Proof. split; [intros o q; cbn; split; ring|]. cbn. unfold wf, val1, val2, dot. cbn. ring. Qed.

(** The "outflux" input changes the residual but nothing is registered for it: the product returned is 0. *)
Theorem C75_outflux_refuted : forall F X u psi flux,
  let r := [(OutfluxBC flux 1, [(F, X, (u, psi))])] in
  (forall k x, exists r', with_inputs [(k, Scalar x)] r = Some r' /\ reported k r' = 0) /\
  (forall x w, (forall t, exists r', with_inputs [("outflux"%string, Scalar t)] r = Some r' /\ w t = weighted r') ->
     is_derive w x (integral F X (vec_order F (OutfluxBC flux 1)) (T1 F (vec_order F (OutfluxBC flux 1)) psi))).
Proof.
  intros F X u psi flux r. split.
  - intros k x. exists (map (fun p => (given k x (fst p), snd p)) r). split; [apply with_one|]. unfold reported, r. cbn. ring.
  - intros x w H. set (o := vec_order F (OutfluxBC flux 1)).
    apply (DV_ext (fun t => 0 + t * integral F X o (T1 F o psi))).
    + intros t. destruct (H t) as [r' [E ->]]. rewrite with_one in E. injection E as <-. unfold weighted, r. cbn [map lsum fst snd given site_term].
      rewrite site_formula. cbn [scale law1 law2]. change (take1 "outflux" t "outflux" flux) with t. change (vec_order F (OutfluxBC t 1)) with o.
      rewrite <- !integral_scal. rewrite !Rplus_0_r, Rplus_0_l. apply integral_ext. intros; ring.
    + apply (DV_eq _ x (0 + 1 * integral F X o (T1 F o psi))); [|ring]. apply DV_plus; [apply DV_const|]. apply DV_scal_r, DV_id.
Qed.
Print Assumptions C75_outflux_refuted.
Example C75_outflux_met : integral unit_face (fun _ _ => 0) 0 (T1 unit_face 0 (fun _ => 1)) = 1.
Proof. unfold integral, T1. cbn. ring. Qed.

(** Without the hypothesis on the weight both statements fail.  A straight face of a cubic mesh, x -> x + x^3/3, with
    linear elements: the code asks for order 2 (two Gauss points) for one quantity and order 4 (three) for the other. *)
Definition gx (o q : nat) : R := if (o <? 4)%nat then match q with O => 1 / 2 - sqrt 3 / 6 | _ => 1 / 2 + sqrt 3 / 6 end
  else match q with O => 1 / 2 - sqrt 15 / 10 | 1%nat => 1 / 2 | _ => 1 / 2 + sqrt 15 / 10 end.
Definition gw (o q : nat) : R := if (o <? 4)%nat then 1 / 2 else match q with 1%nat => 4 / 9 | _ => 5 / 18 end.
Definition lin_shape (x : R) : vec := fun i => match i with O => 1 - x | _ => x end.
Definition cubic_face : face := {| n1 := 2; n2 := 2; ord1 := 1; ord2 := 1; ordW := 2; npts := fun o => if (o <? 4)%nat then 2%nat else 3%nat; wts := gw;
  sh1 := fun o q => lin_shape (gx o q); sh2 := fun o q => lin_shape (gx o q); fdim := 1; fnn := 4;
  Wf := fun o q _ => 1 + gx o q * gx o q; WfRev := fun _ _ _ _ _ _ => 0 |}.
Lemma gauss2 : integral cubic_face (fun _ _ => 0) 2 (fun q => gx 2 q * gx 2 q) = 19 / 36.
Proof.
  unfold integral. cbn [npts cubic_face wts Wf Nat.ltb Nat.leb rsum]. unfold gw, gx. cbn [Nat.ltb Nat.leb].
  set (s := sqrt 3). assert (S : s * s = 3) by (apply sqrt_sqrt; lra).
  match goal with |- ?l = _ => replace l with (1 / 4 + s * s / 36 + 1 / 16 + 6 / 4 * (s * s) / 36 + (s * s) * (s * s) / 1296) by field end. rewrite S. field.
Qed.
Lemma gauss3 : integral cubic_face (fun _ _ => 0) 4 (fun q => gx 4 q * gx 4 q) = 8 / 15.
Proof.
  unfold integral. cbn [npts cubic_face wts Wf Nat.ltb Nat.leb rsum]. unfold gw, gx. cbn [Nat.ltb Nat.leb].
  set (s := sqrt 15). assert (S : s * s = 15) by (apply sqrt_sqrt; lra).
  match goal with |- ?l = _ => replace l with (4 / 9 * (1 + 1 / 4) / 4 + 5 / 9 * (1 / 4 + s * s / 100 + 1 / 16 + 6 / 4 * (s * s) / 100 + (s * s) * (s * s) / 10000)) by field end. rewrite S. field.
Qed.
Theorem C75_rule_refuted :
  let X := fun _ _ : nat => 0 in let u := fun i => match i with 1%nat => 1 | _ => 0 end in
  (~ derivative_at 4 (face_vector cubic_face X (InternalConvection "c" 1 0 1)) u u (mv 4 (face_grad cubic_face X (InternalConvection "c" 1 0 1) u) u)) /\
  (forall w, (forall t, exists r', with_inputs [("h:c"%string, Scalar t)] [(Contact "c" 1 1, [(cubic_face, X, (u, u))])] = Some r' /\ w t = weighted r') ->
     is_derive w 1 (19 / 36)) /\
  (exists r', with_inputs [("h:c"%string, Scalar 1)] [(Contact "c" 1 1, [(cubic_face, X, (u, u))])] = Some r' /\ reported "h:c" r' = 8 / 15).
Proof.
  intros X u.
  assert (P1 : forall o q, T1 cubic_face o u q = gx o q) by (intros o q; unfold T1; cbn; ring).
  assert (P2 : forall o q, T2 cubic_face o u q = 0) by (intros o q; unfold T2; cbn; ring).
  split; [|split].
  - intros D. specialize (D 1%nat ltac:(lia)). cbv beta in D.
    assert (E : forall t, face_vector cubic_face X (InternalConvection "c" 1 0 1) (along u u t) 1%nat = 8 / 15 + t * (8 / 15)).
    { intros t. rewrite entry1 by (cbn; lia). change (vec_order cubic_face (InternalConvection "c" 1 0 1)) with 4%nat. cbn [scale law1].
      assert (G := gauss3). fold X in G. rewrite <- !G, <- !integral_scal, <- integral_plus. apply integral_ext. intros q _.
      rewrite T1_along, P1. change (sh1 cubic_face 4 q 1%nat) with (gx 4 q). ring. }
    assert (E2 : mv 4 (face_grad cubic_face X (InternalConvection "c" 1 0 1) u) u 1%nat = 19 / 36).
    { assert (Q := grad1 cubic_face X (InternalConvection "c" 1 0 1) u u 1%nat ltac:(cbn; lia)). cbn [size interface n1 n2 cubic_face Nat.add] in Q. rewrite Q.
      change (grad_order cubic_face (InternalConvection "c" 1 0 1)) with 2%nat. cbn [scale lin1]. assert (G := gauss2). fold X in G. rewrite <- G, Rmult_1_l. apply integral_ext. intros q _.
      rewrite P1. change (sh1 cubic_face 2 q 1%nat) with (gx 2 q). ring. }
    rewrite E2 in D.
    assert (D2 : is_derive (fun t => face_vector cubic_face X (InternalConvection "c" 1 0 1) (along u u t) 1%nat) 0 (8 / 15)).
    { apply (DV_ext (fun t => 8 / 15 + t * (8 / 15))); [intros t; now rewrite E|]. apply affine_derive. }
    assert (Z := DV_unique _ _ _ _ D D2). lra.
  - intros w H. apply (DV_ext (fun t => 0 + t * (19 / 36))).
    + intros t. destruct (H t) as [r' [E ->]]. rewrite with_one in E. injection E as <-. unfold weighted. cbn [map lsum fst snd given site_term].
      rewrite site_formula. cbn [scale law1 law2]. change (take1 "h:c" t (h_name "c") 1) with t. change (vec_order cubic_face (Contact "c" t 1)) with 2%nat.
      assert (G := gauss2). fold X in G. rewrite <- G. rewrite <- !integral_scal. rewrite !Rplus_0_r, Rplus_0_l. apply integral_ext. intros q _. rewrite P1, P2. ring.
    + apply (DV_eq _ 1 (0 + 1 * (19 / 36))); [|ring]. apply DV_plus; [apply DV_const|]. apply DV_scal_r, DV_id.
  - eexists. split; [apply with_one|]. unfold reported. cbn [map lsum fst snd given par_sens named]. change (String.eqb (h_name "c") "h:c") with true. cbn iota.
    change (par_order cubic_face (Contact "c" (take1 "h:c" 1 (h_name "c") 1) 1)) with 4%nat. rewrite !Rplus_0_r. rewrite <- gauss3. fold X. unfold integral. apply rsum_ext. intros q _.
    change (val1 cubic_face 4 u q) with (T1 cubic_face 4 u q). change (val2 cubic_face 4 u q) with (T2 cubic_face 4 u q). rewrite P1, P2. unfold wf. ring.
Qed.
Print Assumptions C75_rule_refuted.

(** C75: moving the nodes of the mesh along V changes psi . R at the rate given by the vector returned: for an interface
    after insertion into the nodes of the first element, provided these contain the nodes of the face. *)
Theorem C75_mesh_partial : forall F g u psi (vdofs1 vdofs2 : list nat) (x V : nat -> R),
  (forall o q, rev_scalar (fdim F) (fnn F) (Wf F o q) (WfRev F o q)) ->
  (match g with InternalConvection _ _ _ _ => ordW F = O | _ => True end) ->
  length vdofs2 = (fdim F * fnn F)%nat -> (0 < fnn F)%nat -> (forall d, In d vdofs2 -> In d vdofs1) ->
  let nodes (y : nat -> R) := fun k j => y (nth (k * fnn F + j) vdofs2 O) in
  let fb := face_bar F (nodes x) g u psi in
  is_derive (fun t => dot (size F g) psi (face_vector F (nodes (along x V t)) g u)) 0 (pairing (fdim F) (fnn F) fb (nodes V)) /\
  is_derive (fun t => dot (size F g) psi (face_vector F (nodes (along x V t)) g u)) 0
    (rsum (length vdofs1) (fun i => insert vdofs1 vdofs2 0 (flat (fnn F) fb) (fun _ => 0) i * V (nth i vdofs1 O))).
Proof.
  intros F g u psi v1 v2 x V HW O L Hn Hin nodes fb.
  assert (D : is_derive (fun t => dot (size F g) psi (face_vector F (nodes (along x V t)) g u)) 0 (pairing (fdim F) (fnn F) fb (nodes V))).
  { apply (face_mesh F (nodes x) (nodes V) g u psi); [|exact HW]. destruct g; cbn [vec_order mesh_order]; try reflexivity; [rewrite O; lia|lia|lia]. }
  split; [exact D|]. apply (DV_eq _ 0 _ _ D). rewrite insert_sum by exact Hin.
  rewrite (rsum_ext (length v1) _ (fun _ => 0)) by (intros; ring). rewrite rsum_0, Rplus_0_l, L.
  rewrite <- (flat_pair _ _ fb (nodes V)) by exact Hn. apply rsum_ext. intros i Hi. cbn [Nat.add]. f_equal. unfold flat, nodes. f_equal. f_equal.
  assert (DM := Nat.div_mod i (fnn F) ltac:(lia)). nia.
Qed.
Print Assumptions C75_mesh_partial.
(** a straight two-node face in the plane: its length and the derivative of the length meet the hypothesis away from 0; here
    the area of a face of a three-dimensional mesh projected on a plane, which meets it everywhere *)
Example C75_mesh_met : forall dN, exists F : face, (forall o q, rev_scalar (fdim F) (fnn F) (Wf F o q) (WfRev F o q)) /\ (0 < fnn F)%nat /\ Wf F 0 0 = wt2 3 dN.
Proof.
  intros dN. exists {| n1 := 1; n2 := 1; ord1 := 0; ord2 := 0; ordW := 0; npts := fun _ => 1%nat; wts := fun _ _ => 1;
    sh1 := fun _ _ _ => 1; sh2 := fun _ _ _ => 1; fdim := 2; fnn := 3; Wf := fun _ _ => wt2 3 dN; WfRev := fun _ _ => wt2_rev 3 dN |}.
  split; [intros; apply wt2_ok|]. split; [cbn; lia|reflexivity].
Qed.

(** C75: the projection integrator and the test boundary term. *)
Theorem C75_projection : forall ndof nq pw sh alpha Wt WtRev gval gRev sdim nn X V u v psi,
  (forall q, rev_scalar sdim nn (Wt q) (WtRev q)) -> (forall q, rev_scalar sdim nn (gval q) (gRev q)) ->
  derivative_at ndof (l2_vector ndof nq pw sh alpha Wt gval X) u v (mv ndof (l2_grad nq pw sh alpha Wt X u) v) /\
  is_derive (fun t => dot ndof psi (l2_vector ndof nq pw sh alpha Wt gval (moved X V t) u)) 0
    (pairing sdim nn (l2_mesh_bar ndof nq pw sh alpha Wt WtRev gval gRev X u psi) V) /\
  is_derive (fun t => dot ndof psi (test_vector ndof nq pw sh Wt (moved X V t) u)) 0
    (pairing sdim nn (test_mesh_bar ndof nq pw sh WtRev X u psi) V).
Proof.
  intros ndof nq pw sh alpha Wt WtRev gval gRev sdim nn X V u v psi H1 H2.
  assert (DW : forall q, is_derive (fun t => Wt q (moved X V t)) 0 (pairing sdim nn (WtRev q X 1) V)).
  { intros q. apply (DV_ext (fun t => 1 * Wt q (moved X V t))); [intros; ring|apply H1]. }
  assert (DG : forall q, is_derive (fun t => gval q (moved X V t)) 0 (pairing sdim nn (gRev q X 1) V)).
  { intros q. apply (DV_ext (fun t => 1 * gval q (moved X V t))); [intros; ring|apply H2]. }
  assert (SW : forall q b, pairing sdim nn (WtRev q X b) V = b * pairing sdim nn (WtRev q X 1) V).
  { intros q b. apply (DV_unique (fun t => b * Wt q (moved X V t)) 0); [apply H1|]. now apply DV_scal. }
  assert (SG : forall q b, pairing sdim nn (gRev q X b) V = b * pairing sdim nn (gRev q X 1) V).
  { intros q b. apply (DV_unique (fun t => b * gval q (moved X V t)) 0); [apply H2|]. now apply DV_scal. }
  assert (M0 : forall q, Wt q (moved X V 0) = Wt q X).
  { intros q. f_equal. unfold moved. apply FunctionalExtensionality.functional_extensionality. intros k. apply FunctionalExtensionality.functional_extensionality. intros j. ring. }
  assert (G0 : forall q, gval q (moved X V 0) = gval q X).
  { intros q. f_equal. unfold moved. apply FunctionalExtensionality.functional_extensionality. intros k. apply FunctionalExtensionality.functional_extensionality. intros j. ring. }
  assert (PS : forall (B : nat -> mat), pairing sdim nn (fun k j => rsum nq (fun q => B q k j)) V = rsum nq (fun q => pairing sdim nn (B q) V)).
  { intros B. unfold pairing. rewrite (rsum_ext sdim _ (fun k => rsum nq (fun q => rsum nn (fun j => B q k j * V k j)))); [apply rsum_swap|].
    intros k _. rewrite rsum_swap. apply rsum_ext. intros j _. now rewrite rsum_scal_r. }
  split; [|split].
  - intros i Hi. apply (DV_ext (fun t => l2_vector ndof nq pw sh alpha Wt gval X u i + t * mv ndof (l2_grad nq pw sh alpha Wt X u) v i)); [|apply affine_derive].
    intros t. unfold l2_vector, mv, l2_grad.
    rewrite (rsum_ext ndof _ (fun j => rsum nq (fun q => alpha * pw q * Wt q X * sh q i * (v j * sh q j)))) by (intros j _; rewrite <- rsum_scal_r; apply rsum_ext; intros; ring).
    rewrite rsum_swap, <- rsum_scal, <- rsum_plus. apply rsum_ext. intros q _. rewrite rsum_scal.
    assert (E : dot ndof (along u v t) (sh q) = dot ndof u (sh q) + t * rsum ndof (fun j => v j * sh q j)).
    { unfold dot, along. rewrite <- rsum_scal, <- rsum_plus. apply rsum_ext; intros; ring. }
    rewrite E. ring.
  - apply (DV_ext (fun t => rsum nq (fun q => alpha * pw q * dot ndof psi (sh q) * (Wt q (moved X V t) * (dot ndof u (sh q) - gval q (moved X V t)))))).
    { intros t. unfold dot at 3. unfold l2_vector. rewrite (rsum_ext ndof _ (fun i => rsum nq (fun q => alpha * pw q * Wt q (moved X V t) * (dot ndof u (sh q) - gval q (moved X V t)) * (psi i * sh q i)))).
      - rewrite rsum_swap. apply rsum_ext. intros q _. rewrite rsum_scal. unfold dot. ring.
      - intros i _. rewrite <- rsum_scal. apply rsum_ext; intros; ring. }
    unfold l2_mesh_bar. rewrite PS.
    apply (DV_sum nq (fun q t => alpha * pw q * dot ndof psi (sh q) * (Wt q (moved X V t) * (dot ndof u (sh q) - gval q (moved X V t))))). intros q _.
    set (B := fun k j => gRev q X _ k j + _).
    assert (EB : pairing sdim nn B V = pairing sdim nn (gRev q X (- (alpha * pw q * Wt q X) * dot ndof psi (sh q))) V + pairing sdim nn (WtRev q X ((dot ndof u (sh q) - gval q X) * dot ndof psi (sh q) * alpha * pw q)) V).
    { unfold B, pairing. rewrite <- rsum_plus. apply rsum_ext. intros k _. rewrite <- rsum_plus. apply rsum_ext. intros j _. ring. }
    rewrite EB, SW, SG.
    apply (DV_eq _ 0 (alpha * pw q * dot ndof psi (sh q) * (pairing sdim nn (WtRev q X 1) V * (dot ndof u (sh q) - gval q (moved X V 0)) + Wt q (moved X V 0) * (0 - pairing sdim nn (gRev q X 1) V)))).
    + apply DV_scal. apply (DV_mult (fun t => Wt q (moved X V t)) (fun t => dot ndof u (sh q) - gval q (moved X V t))); [apply DW|]. apply DV_minus; [apply DV_const|apply DG].
    + rewrite M0, G0. ring.
  - apply (DV_ext (fun t => rsum nq (fun q => (dot ndof psi (sh q) * dot ndof u (sh q) * pw q) * Wt q (moved X V t)))).
    { intros t. unfold dot at 3. unfold test_vector. rewrite (rsum_ext ndof _ (fun i => rsum nq (fun q => dot ndof u (sh q) * pw q * Wt q (moved X V t) * (psi i * sh q i)))).
      - rewrite rsum_swap. apply rsum_ext. intros q _. rewrite rsum_scal. unfold dot. ring.
      - intros i _. rewrite <- rsum_scal. apply rsum_ext; intros; ring. }
    unfold test_mesh_bar. rewrite PS. apply (DV_sum nq (fun q t => (dot ndof psi (sh q) * dot ndof u (sh q) * pw q) * Wt q (moved X V t))). intros q _. apply H1.
Qed.
Print Assumptions C75_projection.
