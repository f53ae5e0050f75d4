(** C86, C87, C88: transfers of a field, its curl and the magnitude of its curl to a discontinuous space. *)
From Coq Require Import Reals String List Bool Arith Lia Lra FunctionalExtensionality.
From Coquelicot Require Import Coquelicot.
From Verif Require Import Vec Deriv EmInteg EmIntegSpec EmMeshProofs IsoGeom SbpSpec SbpMeshProofs CommonFun CommonFunSpec CommonFunProofs
  FieldFun FieldFunSpec FieldFunProofs Transfer TransferSpec TransferProofs Props_CommonFun.
Import ListNotations.
Local Open Scope R_scope.

(** linear triangles: the output element has its three nodes at the vertices; numbering of output dofs by triangle *)
Definition dgtri (g : nat -> nat) : elem := {| e_nq := 3; e_pw := fun _ => 0; e_ndof := 3; e_dof := g; e_shape := fun _ _ => 0;
  e_nn := 3; e_node := g; e_W := fun _ => wt2 3 tri_dN; e_WRev := fun _ => wt2_rev 3 tri_dN |}.
Definition kron (i j : nat) : R := if Nat.eqb j i then 1 else 0.
(** the output dofs of the triangle whose first vertex is n are 10 n ..: distinct when first vertices are *)
Definition DG : ospace := {| os_dof := fun e q c => (10 * e_node e 0 + 3 * c + q)%nat; os_shape := fun _ q _ p => kron q p; os_rev := fun _ _ _ _ _ _ => 0 |}.
Definition plus1 : elem -> nat -> R := fun _ _ => 1.
Definition triA : elem -> nat -> mat -> mat := fun _ _ => adjm2 3 tri_dN.
Definition triARev : elem -> nat -> mat -> mat -> mat := fun _ _ => adjm2_rev tri_dN.
Definition two_tri : list elem := [dgtri (fun j => j); dgtri (fun j => match j with O => 3 | 1 => 2 | _ => 1 end)%nat].
(** the unit square *)
Definition square : mat := fun k j => match k, j with O, S O => 1 | S O, S (S O) => 1 | _, S (S (S O)) => 1 | _, _ => 0 end.
Lemma two_tri_dg nc : (nc <= 2)%nat -> discontinuous DG nc two_tri.
Proof.
  intros L a b e f q r c d Ha Hb Hq Hr Hc Hd E.
  destruct a as [|[|a]]; [| |destruct a; discriminate]; destruct b as [|[|b]]; try (destruct b; discriminate); injection Ha as <-; injection Hb as <-;
    cbn in *; repeat split; lia.
Qed.
Lemma two_tri_nodal : nodal DG two_tri.
Proof. intros e q _ _. split; [reflexivity|reflexivity]. Qed.
Lemma two_tri_numbered nc : (nc <= 2)%nat -> numbered DG nc 4 40 4 two_tri.
Proof. intros L e [<-|[<-|[]]]; (split; [|split]); cbn; intros; try (destruct i as [|[|[|i]]]; lia); try (destruct j as [|[|[|j]]]; lia); lia. Qed.

Section C86.
Variables (OS : ospace) (sg : elem -> nat -> R).
Notation el e u := (fun i => sg e i * u (e_dof e i)).

(** C86: after the operator is applied, the dof of node q, component c of an element holds what its name says: the state's
    (scalar or vector) value at that node; the physical curl (3-D: J curl u / W); the magnitude of the curl (3-D) or gradient. *)
Theorem C86_values : forall (M : list elem) X u a e q, nth_error M a = Some e -> (q < e_nq e)%nat ->
  let P := fun k j => X k (e_node e j) in
  (forall N NRev, discontinuous OS 1 M ->
     transfer OS sg (ScalarIdentity OS N NRev) M X u (os_dof OS e q 0) = rsum (e_ndof e) (fun i => N e q P i * (sg e i * u (e_dof e i)))) /\
  (forall sdim Vs VRev junk c, discontinuous OS sdim M -> (c < sdim)%nat ->
     transfer OS sg (VectorIdentity OS sdim Vs VRev junk) M X u (os_dof OS e q c) = rsum (e_ndof e) (fun i => Vs e q P i c * (sg e i * u (e_dof e i)))) /\
  (forall shape Adj Jac AdjRev JacRev junk c, discontinuous OS 3 M -> (c < 3)%nat ->
     transfer OS sg (Curl OS 3 shape Adj Jac AdjRev JacRev true junk) M X u (os_dof OS e q c) =
     field (e_ndof e) (physical 3 true (shape e q) (Jac e q P)) (e_W e q P) (el e u) c) /\
  (forall sdim three shape Adj Jac AdjRev JacRev, discontinuous OS 1 M -> 0 < e_W e q P ->
     transfer OS sg (CurlMagnitude OS sdim shape Adj Jac AdjRev JacRev three) M X u (os_dof OS e q 0) =
     field_magnitude (e_ndof e) sdim (physical sdim three (shape e q) ((if three then Jac else Adj) e q P)) (e_W e q P) (el e u)).
Proof.
  intros M X u a e q Ha Hq P. split; [|split; [|split]].
  - intros N NRev D. now rewrite (transfer_value OS sg (ScalarIdentity OS N NRev) M X u a e q 0 D Ha Hq ltac:(cbn; lia)).
  - intros sdim Vs VRev junk c D Hc. now rewrite (transfer_value OS sg (VectorIdentity OS sdim Vs VRev junk) M X u a e q c D Ha Hq Hc).
  - intros shape Adj Jac AdjRev JacRev junk c D Hc. now rewrite (transfer_value OS sg (Curl OS 3 shape Adj Jac AdjRev JacRev true junk) M X u a e q c D Ha Hq Hc).
  - intros sdim three shape Adj Jac AdjRev JacRev D W.
    rewrite (transfer_value OS sg (CurlMagnitude OS sdim shape Adj Jac AdjRev JacRev three) M X u a e q 0 D Ha Hq ltac:(cbn; lia)).
    cbn [o_val CurlMagnitude]. unfold cm_val. symmetry. assert (K := sample_mag sdim shape Adj Jac three e P q (el e u) W). unfold mat_of in K. exact K.
Qed.

(** C86: when the state's basis is nodal at the output nodes as well, the transfer copies the dofs; a constant state (basis
    adding up to one) is transferred to the same constant. *)
Theorem C86_copy : forall (M : list elem) X u a e q N NRev, discontinuous OS 1 M -> nth_error M a = Some e -> (q < e_nq e)%nat ->
  (forall i, (i < e_ndof e)%nat -> sg e i = 1) ->
  ((q < e_ndof e)%nat -> (forall i, (i < e_ndof e)%nat -> N e q (fun k j => X k (e_node e j)) i = if Nat.eqb i q then 1 else 0) ->
     transfer OS sg (ScalarIdentity OS N NRev) M X u (os_dof OS e q 0) = u (e_dof e q)) /\
  (rsum (e_ndof e) (N e q (fun k j => X k (e_node e j))) = 1 -> forall c, (forall i, (i < e_ndof e)%nat -> u (e_dof e i) = c) ->
     transfer OS sg (ScalarIdentity OS N NRev) M X u (os_dof OS e q 0) = c).
Proof.
  intros M X u a e q N NRev D Ha Hq S. destruct (C86_values M X u a e q Ha Hq) as [V _]. cbv zeta in V. rewrite (V N NRev D). split.
  - intros Hd HN. rewrite (rsum_ext _ _ (fun i => if Nat.eqb i q then u (e_dof e i) else 0)).
    + now rewrite (rsum_delta (e_ndof e) (fun i => u (e_dof e i)) q Hd).
    + intros i Hi. rewrite HN, S by exact Hi. destruct (Nat.eqb i q); ring.
  - intros U c Hc. rewrite (rsum_ext _ _ (fun i => N e q (fun k j => X k (e_node e j)) i * c)) by (intros i Hi; rewrite S, Hc by exact Hi; ring).
    rewrite rsum_scal_r, U. ring.
Qed.
End C86.
Print Assumptions C86_values.
Print Assumptions C86_copy.
Definition nodalN : elem -> nat -> mat -> vec := fun _ q _ i => kron q i.
Example C86_copy_nonvacuous : discontinuous DG 1 two_tri /\
  transfer DG plus1 (ScalarIdentity DG nodalN (fun _ _ _ _ _ _ => 0)) two_tri square (fun J => INR J) (os_dof DG (dgtri (fun j => match j with O => 3 | 1 => 2 | _ => 1 end)%nat) 1 0) = 2 /\
  forall i, plus1 (dgtri (fun j => j)) i = 1.
Proof.
  split; [apply two_tri_dg; lia|]. split; [|reflexivity].
  destruct (C86_copy DG plus1 two_tri square (fun J => INR J) 1 _ 1 nodalN (fun _ _ _ _ _ _ => 0) (two_tri_dg 1 ltac:(lia)) eq_refl ltac:(cbn; lia) ltac:(reflexivity)) as [K _].
  rewrite K; [cbn; lra|cbn; lia|reflexivity].
Qed.

(** C86: on any mesh of linear triangles that are not degenerate, for the potential A = a x + b y + d, the transferred field
    is (-b, a) at every node: minus the curl (dA/dy, -dA/dx) of (0, 0, A).  The magnitude is |grad A| (triangles positively
    oriented). *)
Theorem C86_planar_field : forall (OS : ospace) (gs : list (nat -> nat)) X a b d i g q junk, discontinuous OS 2 (map dgtri gs) -> nth_error gs i = Some g -> (q < 3)%nat ->
  wt2 3 tri_dN (fun k j => X k (g j)) <> 0 ->
  let A := fun J => a * X 0%nat J + b * X 1%nat J + d in
  let out := transfer OS plus1 (Curl OS 2 (fun _ _ => tri_dN) triA triA triARev triARev false junk) (map dgtri gs) X A in
  out (os_dof OS (dgtri g) q 0) = - b /\ out (os_dof OS (dgtri g) q 1) = a.
Proof.
  intros OS gs X a b d i g q junk D Hi Hq W A out.
  assert (Hn : nth_error (map dgtri gs) i = Some (dgtri g)) by (now apply map_nth_error).
  assert (K := fun c Hc => transfer_value OS plus1 (Curl OS 2 (fun _ _ => tri_dN) triA triA triARev triARev false junk) (map dgtri gs) X A i (dgtri g) q c D Hn Hq Hc).
  assert (K0 := K 0%nat ltac:(cbn; lia)). assert (K1 := K 1%nat ltac:(cbn; lia)). clear K. unfold out.
  rewrite K0, K1. clear K0 K1.
  unfold wt2, det2, iso_jac, tri_dN in W. cbn in W.
  cbn [o_val Curl]. unfold co_val, co_vec, co_S, grad_to_curl, dshapedxt, triA, adjm2, adj2, el_state, plus1, nodes_of, A. cbn [dgtri e_ndof e_dof e_node e_W].
  unfold wt2, det2, iso_jac, tri_dN. cbn. split; field; intros Z; apply W; (etransitivity; [|exact Z]); ring.
Qed.
Print Assumptions C86_planar_field.
Theorem C86_planar_magnitude : forall (OS : ospace) (gs : list (nat -> nat)) X a b d i g q, discontinuous OS 1 (map dgtri gs) -> nth_error gs i = Some g -> (q < 3)%nat ->
  0 < wt2 3 tri_dN (fun k j => X k (g j)) ->
  transfer OS plus1 (CurlMagnitude OS 2 (fun _ _ => tri_dN) triA triA triARev triARev false) (map dgtri gs) X (fun J => a * X 0%nat J + b * X 1%nat J + d)
    (os_dof OS (dgtri g) q 0) = sqrt (a ^ 2 + b ^ 2).
Proof.
  intros OS gs X a b d i g q D Hi Hq W.
  assert (Hn : nth_error (map dgtri gs) i = Some (dgtri g)) by (now apply map_nth_error).
  destruct (C86_values OS plus1 (map dgtri gs) X (fun J => a * X 0%nat J + b * X 1%nat J + d) i (dgtri g) q Hn Hq) as [_ [_ [_ V]]]. cbv zeta in V.
  rewrite (V 2%nat false _ triA triA triARev triARev D W). unfold field_magnitude. f_equal.
  assert (Wn : wt2 3 tri_dN (fun k j => X k (g j)) <> 0) by lra. clear V D. unfold wt2, det2, iso_jac, tri_dN in Wn. cbn in Wn.
  unfold field, physical, triA, adjm2, adj2, plus1. cbn [dgtri e_ndof e_dof e_node e_W]. unfold wt2, det2, iso_jac, tri_dN. cbn.
  field. intros Z. apply Wn. etransitivity; [|exact Z]. ring.
Qed.
Print Assumptions C86_planar_magnitude.
(** hence C86 is false of the two-dimensional curl *)
Theorem C86_planar_curl_refuted :
  ~ (forall (OS : ospace) (gs : list (nat -> nat)) X a b d i g q junk, discontinuous OS 2 (map dgtri gs) -> nth_error gs i = Some g -> (q < 3)%nat ->
      wt2 3 tri_dN (fun k j => X k (g j)) <> 0 ->
      transfer OS plus1 (Curl OS 2 (fun _ _ => tri_dN) triA triA triARev triARev false junk) (map dgtri gs) X (fun J => a * X 0%nat J + b * X 1%nat J + d)
        (os_dof OS (dgtri g) q 0) = b (* dA/dy *)).
Proof.
  intros K. assert (W : wt2 3 tri_dN (fun k j => square k j) <> 0) by (unfold wt2, det2, iso_jac, tri_dN, square; cbn; lra).
  assert (D := two_tri_dg 2 ltac:(lia)).
  change two_tri with (map dgtri [(fun j => j); (fun j => match j with O => 3 | 1 => 2 | _ => 1 end)%nat]) in D.
  assert (E := K DG _ square 0 1 0 0%nat _ 0%nat (fun _ _ => 0) D eq_refl ltac:(lia) W).
  assert (F := C86_planar_field DG _ square 0 1 0 0%nat _ 0%nat (fun _ _ => 0) D eq_refl ltac:(lia) W). cbv zeta in F. destruct F as [F _].
  rewrite F in E. lra.
Qed.
Print Assumptions C86_planar_curl_refuted.
Example C86_planar_nonvacuous : discontinuous DG 2 two_tri /\ 0 < wt2 3 tri_dN (fun k j => square k j) /\ wt2 3 tri_dN (fun k j => square k (match j with O => 3 | 1 => 2 | _ => 1 end)%nat) <> 0.
Proof. split; [apply two_tri_dg; lia|]. split; unfold wt2, det2, iso_jac, tri_dN, square; cbn; lra. Qed.

(** C86 is false of an output space whose elements share dofs (anything but a discontinuous space is accepted): the values of
    the elements are added up. *)
Definition CG : ospace := {| os_dof := fun e q c => e_node e q; os_shape := fun _ q _ p => kron q p; os_rev := fun _ _ _ _ _ _ => 0 |}.
Theorem C86_continuous_output_refuted :
  ~ (forall (OS : ospace) (M : list elem) X u c, (forall e, In e M -> forall q, (q < e_nq e)%nat -> forall i, os_shape OS e q X i = kron q i) -> (forall J, u J = c) ->
      forall e q, In e M -> (q < e_nq e)%nat -> transfer OS plus1 (ScalarIdentity OS nodalN (fun _ _ _ _ _ _ => 0)) M X u (os_dof OS e q 0) = c).
Proof.
  intros K. assert (E := K CG two_tri square (fun _ => 1) 1 ltac:(intros; reflexivity) ltac:(reflexivity) (dgtri (fun j => j)) 1%nat ltac:(now left) ltac:(cbn; lia)).
  unfold transfer, lsum in E. cbn in E. unfold si_val, dot, nodalN, kron, el_state, plus1 in E. cbn in E. lra.
Qed.
Print Assumptions C86_continuous_output_refuted.

(** ** C87 *)
(** the operators and what is required of their geometry *)
Definition geometry_ok (sdim : nat) (three : bool) (Adj Jac : elem -> nat -> mat -> mat) (AdjRev JacRev : elem -> nat -> mat -> mat -> mat) (M : list elem) : Prop :=
  matrices_ok sdim (if three then Jac else Adj) (if three then JacRev else AdjRev) M /\ weights_rev sdim M.

Section C87.
Variables (OS : ospace) (sg : elem -> nat -> R).
Variables (N NO NN : nat) (M : list elem).
Hypothesis Nodal : nodal OS M.

(** C87: for a nodal output space, the reverse products add the gradient of the weighted sum of outputs, with respect to the
    state and to the mesh nodes: identity, vector identity and curl, whatever the uninitialised memory holds. *)
Theorem C87_identity : forall Nsh NRev X V u v ob wb wm sdim, numbered OS 1 N NO NN M ->
  (forall e q, In e M -> (q < e_nq e)%nat -> rev_vector sdim (e_nn e) (e_ndof e) (Nsh e q) (NRev e q)) ->
  (exists r d, transfer_state_vjp OS sg (ScalarIdentity OS Nsh NRev) M X u ob wb = Some r /\
     is_derive (fun t => dot NO ob (transfer OS sg (ScalarIdentity OS Nsh NRev) M X (along u v t))) 0 d /\ dot N r v = dot N wb v + d) /\
  (exists r d, transfer_mesh_vjp OS sg (ScalarIdentity OS Nsh NRev) M X u ob wm = Some r /\
     is_derive (fun t => dot NO ob (transfer OS sg (ScalarIdentity OS Nsh NRev) M (moved X V t) u)) 0 d /\ pairing sdim NN r V = pairing sdim NN wm V + d).
Proof.
  intros Nsh NRev X V u v ob wb wm sdim HN HR.
  assert (D : all_defined sg (ScalarIdentity OS Nsh NRev) M X u = true) by (apply forallb_forall; reflexivity). split.
  - apply (state_vjp_ok OS sg (ScalarIdentity OS Nsh NRev) M X u v ob wb N NO NN HN D). intros e psi He. now apply (si_state OS Nsh NRev M).
  - apply (mesh_vjp_ok OS sg (ScalarIdentity OS Nsh NRev) M X V u ob wm sdim N NO NN HN D). intros e psi He. apply (si_mesh OS Nsh NRev M); auto.
Qed.
Theorem C87_vector_identity : forall sdim Vs VRev junk X V u v ob wb wm, numbered OS sdim N NO NN M ->
  (forall e q, In e M -> (q < e_nq e)%nat -> rev_table sdim (e_nn e) (e_ndof e) sdim (Vs e q) (VRev e q)) ->
  let Op := VectorIdentity OS sdim Vs VRev junk in
  (exists r d, transfer_state_vjp OS sg Op M X u ob wb = Some r /\
     is_derive (fun t => dot NO ob (transfer OS sg Op M X (along u v t))) 0 d /\ dot N r v = dot N wb v + d) /\
  (exists r d, transfer_mesh_vjp OS sg Op M X u ob wm = Some r /\
     is_derive (fun t => dot NO ob (transfer OS sg Op M (moved X V t) u)) 0 d /\ pairing sdim NN r V = pairing sdim NN wm V + d).
Proof.
  intros sdim Vs VRev junk X V u v ob wb wm HN HR Op.
  assert (D : all_defined sg Op M X u = true) by (apply forallb_forall; reflexivity). split.
  - apply (state_vjp_ok OS sg Op M X u v ob wb N NO NN HN D). intros e psi He. now apply (vi_state OS sdim Vs VRev junk M).
  - apply (mesh_vjp_ok OS sg Op M X V u ob wm sdim N NO NN HN D). intros e psi He. apply (vi_mesh OS sdim Vs VRev junk M); auto.
Qed.
Theorem C87_curl : forall sdim three shape Adj Jac AdjRev JacRev junk X V u v ob wb wm, numbered OS sdim N NO NN M ->
  (three = false -> sdim = 2%nat) -> geometry_ok sdim three Adj Jac AdjRev JacRev M ->
  (forall e q, In e M -> (q < e_nq e)%nat -> e_W e q (fun k j => X k (e_node e j)) <> 0) ->
  let Op := Curl OS sdim shape Adj Jac AdjRev JacRev three junk in
  (exists r d, transfer_state_vjp OS sg Op M X u ob wb = Some r /\
     is_derive (fun t => dot NO ob (transfer OS sg Op M X (along u v t))) 0 d /\ dot N r v = dot N wb v + d) /\
  (exists r d, transfer_mesh_vjp OS sg Op M X u ob wm = Some r /\
     is_derive (fun t => dot NO ob (transfer OS sg Op M (moved X V t) u)) 0 d /\ pairing sdim NN r V = pairing sdim NN wm V + d).
Proof.
  intros sdim three shape Adj Jac AdjRev JacRev junk X V u v ob wb wm HN H2 [HM HW] HZ Op.
  assert (D : all_defined sg Op M X u = true) by (apply forallb_forall; reflexivity). split.
  - apply (state_vjp_ok OS sg Op M X u v ob wb N NO NN HN D). intros e psi He. now apply (co_state OS sdim shape Adj Jac AdjRev JacRev three junk M).
  - apply (mesh_vjp_ok OS sg Op M X V u ob wm sdim N NO NN HN D). intros e psi He.
    apply (co_mesh OS sdim shape Adj Jac AdjRev JacRev three junk M); auto; [|intros q Hq; exact (HZ e q He Hq)].
    unfold matrices_ok in HM. destruct three; intros q Hq; exact (HM e q He Hq).
Qed.
(** C87: for the magnitude the products are numbers exactly when the field vanishes at no output node, and then the gradient. *)
Theorem C87_magnitude : forall sdim three shape Adj Jac AdjRev JacRev X V u v ob wb wm, numbered OS 1 N NO NN M ->
  geometry_ok sdim three Adj Jac AdjRev JacRev M ->
  (forall e q, In e M -> (q < e_nq e)%nat -> 0 < e_W e q (fun k j => X k (e_node e j))) ->
  let Op := CurlMagnitude OS sdim shape Adj Jac AdjRev JacRev three in
  let magnitude e q := o_val Op e (fun k j => X k (e_node e j)) (fun i => sg e i * u (e_dof e i)) q 0%nat in
  ((forall e q, In e M -> (q < e_nq e)%nat -> magnitude e q <> 0) ->
   (exists r d, transfer_state_vjp OS sg Op M X u ob wb = Some r /\
     is_derive (fun t => dot NO ob (transfer OS sg Op M X (along u v t))) 0 d /\ dot N r v = dot N wb v + d) /\
   (exists r d, transfer_mesh_vjp OS sg Op M X u ob wm = Some r /\
     is_derive (fun t => dot NO ob (transfer OS sg Op M (moved X V t) u)) 0 d /\ pairing sdim NN r V = pairing sdim NN wm V + d)) /\
  ((exists e q, In e M /\ (q < e_nq e)%nat /\ magnitude e q = 0) ->
     transfer_state_vjp OS sg Op M X u ob wb = None /\ transfer_mesh_vjp OS sg Op M X u ob wm = None).
Proof.
  intros sdim three shape Adj Jac AdjRev JacRev X V u v ob wb wm HN [HM HW] HP Op magnitude.
  assert (B : forall e q, In e M -> (q < e_nq e)%nat -> (magnitude e q = 0 <-> ff_norm sdim shape Adj Jac three e (nodes_of e X) q (el_state sg e u) = 0)).
  { intros e q He Hq. assert (P := HP e q He Hq). unfold magnitude, Op. cbn [o_val CurlMagnitude]. unfold cm_val.
    change (ff_norm sdim shape Adj Jac three e (fun k j => X k (e_node e j)) q (fun i => sg e i * u (e_dof e i))) with (ff_norm sdim shape Adj Jac three e (nodes_of e X) q (el_state sg e u)).
    split; intros Z; [|rewrite Z; unfold Rdiv; ring]. apply Rmult_integral in Z. destruct Z as [Z|Z]; [exact Z|]. elim (Rinv_neq_0_compat _ ltac:(apply Rgt_not_eq; exact P) Z). }
  assert (T : forall e, fluxes_nonzero (e_ndof e) sdim (el_state sg e u) (ff_S sdim shape Adj Jac three e (nodes_of e X)) (e_nq e) = true <->
     forall q, (q < e_nq e)%nat -> ff_norm sdim shape Adj Jac three e (nodes_of e X) q (el_state sg e u) <> 0).
  { intros e. rewrite fluxes_all. symmetry. apply all_nonzero. }
  split.
  - intros Z. assert (D : all_defined sg Op M X u = true).
    { apply forallb_forall. intros e He. apply T. intros q Hq E. apply (Z e q He Hq). now apply B. }
    split.
    + apply (state_vjp_ok OS sg Op M X u v ob wb N NO NN HN D). intros e psi He. apply (cm_state OS sdim shape Adj Jac AdjRev JacRev three M); auto.
      * intros q Hq. exact (HP e q He Hq).
      * intros q Hq E. apply (Z e q He Hq). now apply B.
    + apply (mesh_vjp_ok OS sg Op M X V u ob wm sdim N NO NN HN D). intros e psi He. apply (cm_mesh OS sdim shape Adj Jac AdjRev JacRev three M); auto.
      * unfold matrices_ok in HM. destruct three; intros q Hq; exact (HM e q He Hq).
      * intros q Hq. exact (HP e q He Hq).
      * intros q Hq E. apply (Z e q He Hq). now apply B.
  - intros (e & q & He & Hq & Z). assert (D : all_defined sg Op M X u = false).
    { destruct (all_defined sg Op M X u) eqn:E; [|reflexivity]. exfalso. unfold all_defined in E. rewrite forallb_forall in E. specialize (E e He). cbn in E.
      assert (E' := proj1 (T e) E q Hq). apply E'. now apply B. }
    unfold transfer_state_vjp, transfer_mesh_vjp. now rewrite D.
Qed.
End C87.
Print Assumptions C87_identity.
Print Assumptions C87_vector_identity.
Print Assumptions C87_curl.
Print Assumptions C87_magnitude.
Lemma two_tri_geometry : geometry_ok 2 false triA triA triARev triARev two_tri.
Proof.
  split.
  - intros e q [<-|[<-|[]]] Hq; exact (adjm2_ok 3 tri_dN).
  - intros e q [<-|[<-|[]]] Hq; exact (wt2_ok 3 tri_dN).
Qed.
Example C87_nonvacuous : nodal DG two_tri /\ numbered DG 2 4 40 4 two_tri /\ geometry_ok 2 false triA triA triARev triARev two_tri /\
  (forall e q, In e two_tri -> (q < e_nq e)%nat -> 0 < e_W e q (fun k j => square k (e_node e j))) /\
  (forall e q, In e two_tri -> (q < e_nq e)%nat ->
     o_val (CurlMagnitude DG 2 (fun _ _ => tri_dN) triA triA triARev triARev false) e (fun k j => square k (e_node e j)) (fun i => 1 * square 0%nat (e_dof e i)) q 0%nat = 1) /\
  (forall e q, In e two_tri -> (q < e_nq e)%nat -> rev_vector 2 (e_nn e) (e_ndof e) (nodalN e q) (fun _ _ _ _ => 0)) /\
  (forall e q, In e two_tri -> (q < e_nq e)%nat -> rev_table 2 (e_nn e) (e_ndof e) 2 (fun X i c => kron i c * wt2 3 tri_dN X) (fun X B => wt2_rev 3 tri_dN X (B 0%nat 0%nat + B 1%nat 1%nat))).
Proof.
  split; [exact two_tri_nodal|]. split; [apply two_tri_numbered; lia|]. split; [exact two_tri_geometry|]. split; [|split; [|split]].
  - intros e q [<-|[<-|[]]] Hq; cbn [dgtri e_W e_node]; unfold wt2, det2, iso_jac, tri_dN, square; cbn; lra.
  - intros e q [<-|[<-|[]]] Hq; cbn [o_val CurlMagnitude]; unfold cm_val, ff_norm, norm, ff_b, flux, ff_S, dshapedxt, triA, adjm2, adj2; cbn [dgtri e_ndof e_dof e_node e_W];
      unfold wt2, det2, dot, iso_jac, tri_dN, square; cbn; (transitivity (sqrt 1 / 1); [f_equal; [f_equal; ring|ring]|rewrite sqrt_1; field]).
  - intros e q He Hq X V B. rewrite pairing_zero. apply (DV_eq _ 0 0); [|reflexivity]. exact (DV_const (dot (e_ndof e) B (fun i => kron q i)) 0).
  - intros e q [<-|[<-|[]]] Hq X V B; cbn [dgtri e_nn e_ndof];
    assert (K := wt2_ok 3 tri_dN X V (B 0%nat 0%nat + B 1%nat 1%nat)); revert K; apply DV_ext; intros t; unfold pairing, kron; cbn; ring.
Qed.

(** C87 is false of output spaces whose functions scale with the element (integral-mapped): in the vector and curl transfers
    the mesh product then depends on uninitialised memory. *)
Definition IntegralDG : ospace := {| os_dof := os_dof DG; os_shape := fun e q X p => kron q p / e_W e q X; os_rev := fun e q X bar k j => bar q * e_WRev e q X (-1 / e_W e q X ^ 2) k j |}.
Theorem C87_uninitialised_refuted :
  ~ (forall (OS : ospace) (M : list elem) sdim Vs VRev junk junk' X u ob wm,
      transfer_mesh_vjp OS plus1 (VectorIdentity OS sdim Vs VRev junk) M X u ob wm = transfer_mesh_vjp OS plus1 (VectorIdentity OS sdim Vs VRev junk') M X u ob wm).
Proof.
  intros K. assert (E := K IntegralDG [dgtri (fun j => j)] 2%nat (fun _ _ _ _ _ => 0) (fun _ _ _ _ _ _ => 0) (fun _ _ => 0) (fun _ _ => 1) ref_tri (fun _ => 0) (fun _ => 0) (fun _ _ => 0)).
  unfold transfer_mesh_vjp in E. cbn [all_defined forallb o_defined VectorIdentity] in E. injection E as E.
  assert (F := f_equal (fun f => f 0%nat 0%nat) E). cbn in F.
  unfold lsum in F. cbn in F. unfold vi_mesh_bar, vi_shape_bar, vi_val, el_adj, el_state, nodes_of, wt2_rev, to_nodes, adj2, wt2, det2, iso_jac, ref_tri, tri_dN in F. cbn in F. lra.
Qed.
Print Assumptions C87_uninitialised_refuted.

(** ** C88 *)
Definition gives_state (c : call) : option vec := match c with CalcOutput i | SetInputs i => in_state i | Vjp _ _ _ _ => None end.
Definition gives_mesh (c : call) : option mat := match c with CalcOutput i | SetInputs i => in_mesh i | Vjp _ _ _ _ => None end.
(** the last value a history provides, if any *)
Definition last_given {A} (f : call -> option A) (l : list call) (a : A) : Prop :=
  exists l1 c l2, l = (l1 ++ c :: l2)%list /\ f c = Some a /\ List.Forall (fun c => f c = None) l2.
Section C88.
Variables (OS : ospace) (sg : elem -> nat -> R) (Op : operation) (M : list elem).
Notation calls := (calls OS sg Op M).
Lemma calls_app l1 l2 p : fst (calls p (l1 ++ l2)%list) = fst (calls (fst (calls p l1)) l2).
Proof.
  revert p. induction l1 as [|c l1 IH]; intros p; [reflexivity|]. cbn [app Transfer.calls]. destruct (step OS sg Op M p c) as [p' a].
  specialize (IH p'). destruct (calls p' (l1 ++ l2)) as [p2 a2]. destruct (calls p' l1) as [p3 a3]. cbn [fst] in *. exact IH.
Qed.
Lemma keeps_state l p : List.Forall (fun c => gives_state c = None) l -> at_state (fst (calls p l)) = at_state p.
Proof.
  revert p. induction l as [|c l IH]; intros p H; [reflexivity|]. inversion_clear H as [|? ? H1 H2]. cbn [Transfer.calls].
  destruct (step OS sg Op M p c) as [p' a] eqn:S. specialize (IH p' H2). destruct (calls p' l) as [p'' as']. cbn [fst] in *. rewrite IH.
  destruct c as [i|i|? ? ? ?]; cbn in *; injection S as <- <-; cbn; try rewrite H1; reflexivity.
Qed.
Lemma keeps_mesh l p : List.Forall (fun c => gives_mesh c = None) l -> at_mesh (fst (calls p l)) = at_mesh p.
Proof.
  revert p. induction l as [|c l IH]; intros p H; [reflexivity|]. inversion_clear H as [|? ? H1 H2]. cbn [Transfer.calls].
  destruct (step OS sg Op M p c) as [p' a] eqn:S. specialize (IH p' H2). destruct (calls p' l) as [p'' as']. cbn [fst] in *. rewrite IH.
  destruct c as [i|i|? ? ? ?]; cbn in *; injection S as <- <-; cbn; try rewrite H1; reflexivity.
Qed.
(** C88: after any history of calls, outputs and products refer to the state and mesh last given. *)
Theorem C88_last_inputs : forall p l u X, last_given gives_state l u -> last_given gives_mesh l X ->
  fst (calls p l) = {| at_state := u; at_mesh := X |}.
Proof.
  intros p l u X (l1 & c & l2 & E1 & E2 & E3) (m1 & d & m2 & F1 & F2 & F3).
  assert (A : at_state (fst (calls p l)) = u).
  { rewrite E1, calls_app. cbn [Transfer.calls]. destruct (step OS sg Op M (fst (calls p l1)) c) as [p' a] eqn:S.
    assert (K := keeps_state l2 p' E3). destruct (calls p' l2) as [p'' a']. cbn [fst] in *. rewrite K.
    destruct c as [i|i|? ? ? ?]; cbn in *; try discriminate; injection S as <- <-; cbn; now rewrite E2. }
  assert (B : at_mesh (fst (calls p l)) = X).
  { rewrite F1, calls_app. cbn [Transfer.calls]. destruct (step OS sg Op M (fst (calls p m1)) d) as [p' a] eqn:S.
    assert (K := keeps_mesh m2 p' F3). destruct (calls p' m2) as [p'' a']. cbn [fst] in *. rewrite K.
    destruct d as [i|i|? ? ? ?]; cbn in *; try discriminate; injection S as <- <-; cbn; now rewrite F2. }
  destruct (fst (calls p l)) as [us Xs]. cbn in A, B. now subst.
Qed.
(** C88: the product with respect to "out" subtracts the given adjoint; "state" and "mesh_coords" are the products of C87 at
    the current point. *)
Theorem C88_products : forall p ob wv wm,
  transfer_vjp OS sg Op M p ob "out" wv wm = BarOut (fun i => wv i - ob i) /\
  transfer_vjp OS sg Op M p ob "state" wv wm = BarState (transfer_state_vjp OS sg Op M (at_mesh p) (at_state p) ob wv) /\
  transfer_vjp OS sg Op M p ob "mesh_coords" wv wm = BarMesh (transfer_mesh_vjp OS sg Op M (at_mesh p) (at_state p) ob wm).
Proof. intros; repeat split. Qed.
End C88.
Print Assumptions C88_last_inputs.
Print Assumptions C88_products.
Example C88_nonvacuous : exists l u X, last_given gives_state l u /\ last_given gives_mesh l X /\ length l = 3%nat.
Proof.
  exists [SetInputs {| in_state := None; in_mesh := Some square |}; CalcOutput {| in_state := Some (fun _ => 1); in_mesh := None |}; Vjp (fun _ => 0) "state" (fun _ => 0) (fun _ _ => 0)], (fun _ => 1), square.
  split; [|split; [|reflexivity]].
  - eexists [_], _, [_]. split; [reflexivity|]. split; [reflexivity|]. repeat constructor.
  - eexists [], _, [_; _]. split; [reflexivity|]. split; [reflexivity|]. repeat constructor.
Qed.
(** C88 is false of other names: a product with respect to an input the operator does not know is silently nothing. *)
Theorem C88_unknown_name_refuted :
  ~ (forall OS sg Op M p ob wrt wv wm, transfer_vjp OS sg Op M p ob wrt wv wm = BarSame -> wrt = "out"%string \/ wrt = "state"%string \/ wrt = "mesh_coords"%string).
Proof.
  intros K. destruct (K DG plus1 (ScalarIdentity DG nodalN (fun _ _ _ _ _ _ => 0)) two_tri {| at_state := fun _ => 0; at_mesh := square |} (fun _ => 0) "mesh-coords"%string (fun _ => 0) (fun _ _ => 0) eq_refl) as [E|[E|E]]; discriminate.
Qed.
Print Assumptions C88_unknown_name_refuted.
