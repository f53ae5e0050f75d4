(** C144: interior penalty terms on faces. *)
From Coq Require Import Reals List Bool Arith Lra Lia.
From Coquelicot Require Import Coquelicot.
From Verif Require Import Vec Deriv EmInteg EmIntegSpec Thermal ThermalProofs DgFace DgFaceSpec DgFaceProofs DgFaceMesh.
Import ListNotations.
Local Open Scope R_scope.
Notation face := DgFace.face.
Notation fnn := DgFace.fnn.

(** C144: tested with any v, the assembled vectors are the weak forms the headers state. *)
Theorem C144_weak_forms : forall F S1 S2 g mu alpha XF X1 X2 u v,
  let ob := (if pk S1 then 2 * sord S1 else 2 * sord S1 + dim F)%nat in   (* orders of the quadrature rules *)
  let oi := (2 * Nat.max (sord S1) (sord S2))%nat in
  dot (nd S1) v (bdr_vector F S1 g mu alpha XF X1 u) =
    over_face F alpha ob (fun q => weak_dirichlet F S1 g mu ob q XF X1 u v) /\
  dot (nd S1 + nd S2) v (int_vector F S1 S2 mu alpha XF X1 X2 u) =
    over_face F alpha oi (fun q => interior_penalty F S1 S2 mu oi q XF X1 X2 u v).
Proof. intros. split; [apply bdr_weak|apply int_weak]. Qed.
Print Assumptions C144_weak_forms.

(** C144: what leaves one side enters the other, and it is the mean flux less the penalised jump; on a boundary it is the flux
    less the penalised difference from the prescribed value. *)
Lemma one_side F o q S X XF : partition S -> value o q S (fun _ => 1) = 1 /\ slope F o q S X (fun _ => 1) XF = 0.
Proof.
  intros P. split.
  - transitivity (rsum (nd S) (shp S o q)); [apply rsum_ext; intros; ring|exact (proj1 (P o q))].
  - unfold slope. rewrite (rsum_ext _ _ (fun _ => 0)); [apply rsum_0|]. intros k _.
    assert (E : gradient F o q S X (fun _ => 1) k = 0); [|rewrite E; ring]. unfold gradient.
    rewrite (rsum_ext _ _ (fun i => rsum (dim F) (fun a => dsh S o q i a * IJ S o q X a k))) by (intros; ring). rewrite rsum_swap.
    rewrite (rsum_ext _ _ (fun _ => 0)); [apply rsum_0|]. intros a _. rewrite rsum_scal_r, (proj2 (P o q) a). ring.
Qed.
Lemma zero_side F o q S X XF : value o q S (fun _ => 0) = 0 /\ slope F o q S X (fun _ => 0) XF = 0.
Proof.
  split.
  - unfold value. rewrite (rsum_ext _ _ (fun _ => 0)) by (intros; ring). apply rsum_0.
  - unfold slope. rewrite (rsum_ext _ _ (fun _ => 0)); [apply rsum_0|]. intros k _. unfold gradient. rewrite (rsum_ext _ _ (fun _ => 0)) by (intros; ring). rewrite rsum_0. ring.
Qed.
Lemma over_ext F alpha o f h : (forall q, (q < np F o)%nat -> f q = h q) -> over_face F alpha o f = over_face F alpha o h.
Proof. intros H. unfold over_face. f_equal. apply rsum_ext; intros q Hq. now rewrite H. Qed.
Theorem C144_conservation : forall F S1 S2 g mu alpha XF X1 X2 u, partition S1 -> partition S2 ->
  rsum (nd S1 + nd S2) (int_vector F S1 S2 mu alpha XF X1 X2 u) = 0 /\
  (let o := int_order S1 S2 in
   rsum (nd S1) (int_vector F S1 S2 mu alpha XF X1 X2 u) = over_face F alpha o (fun q =>
     - ((material F o q S1 X1 u * slope F o q S1 X1 u XF + material F o q S2 X2 (lower S1 u) * slope F o q S2 X2 (lower S1 u) XF) / 2) +
     mu * ((material F o q S1 X1 u * (area2 F o q XF / We S1 o q X1) + material F o q S2 X2 (lower S1 u) * (area2 F o q XF / We S2 o q X2)) / 2) *
       (value o q S1 u - value o q S2 (lower S1 u)))) /\
  (let o := bdr_order F S1 in
   rsum (nd S1) (bdr_vector F S1 g mu alpha XF X1 u) = over_face F alpha o (fun q =>
     material F o q S1 X1 u * (- slope F o q S1 X1 u XF + mu * (area2 F o q XF / We S1 o q X1) * (value o q S1 u - g o q)))).
Proof.
  intros F S1 S2 g mu alpha XF X1 X2 u P1 P2.
  assert (A : rsum (nd S1 + nd S2) (int_vector F S1 S2 mu alpha XF X1 X2 u) = dot (nd S1 + nd S2) (fun _ => 1) (int_vector F S1 S2 mu alpha XF X1 X2 u)) by (apply rsum_ext; intros; ring).
  assert (B : rsum (nd S1) (int_vector F S1 S2 mu alpha XF X1 X2 u) = dot (nd S1 + nd S2) (fun i => if (i <? nd S1)%nat then 1 else 0) (int_vector F S1 S2 mu alpha XF X1 X2 u)).
  { unfold dot. rewrite rsum_app. rewrite (rsum_ext (nd S2) _ (fun _ => 0)).
    - rewrite rsum_0, Rplus_0_r. apply rsum_ext; intros i Hi. apply Nat.ltb_lt in Hi. rewrite Hi. ring.
    - intros i _. assert (E : (nd S1 + i <? nd S1)%nat = false) by (apply Nat.ltb_ge; lia). rewrite E. ring. }
  split; [|split].
  - rewrite A, int_weak. rewrite (over_ext _ _ _ _ (fun _ => 0)).
    + unfold over_face. rewrite (rsum_ext _ _ (fun _ => 0)) by (intros; ring). rewrite rsum_0. ring.
    + intros q _. unfold interior_penalty. change (lower S1 (fun _ => 1)) with (fun _ : nat => 1).
      destruct (one_side F (int_order S1 S2) q S1 X1 XF P1) as [-> ->]. destruct (one_side F (int_order S1 S2) q S2 X2 XF P2) as [-> ->]. unfold Rdiv. ring.
  - intros o. rewrite B, int_weak. apply over_ext. intros q _. unfold interior_penalty. fold o.
    assert (V1 : value o q S1 (fun i => if (i <? nd S1)%nat then 1 else 0) = 1 /\ slope F o q S1 X1 (fun i => if (i <? nd S1)%nat then 1 else 0) XF = 0).
    { destruct (one_side F o q S1 X1 XF P1) as [K1 K2]. split.
      - etransitivity; [|exact K1]. apply rsum_ext; intros i Hi. apply Nat.ltb_lt in Hi. now rewrite Hi.
      - etransitivity; [|exact K2]. apply rsum_ext; intros k _. f_equal. apply rsum_ext; intros i Hi. apply Nat.ltb_lt in Hi. now rewrite Hi. }
    assert (V2 : value o q S2 (lower S1 (fun i => if (i <? nd S1)%nat then 1 else 0)) = 0 /\ slope F o q S2 X2 (lower S1 (fun i => if (i <? nd S1)%nat then 1 else 0)) XF = 0).
    { destruct (zero_side F o q S2 X2 XF) as [K1 K2]. assert (E : forall i, lower S1 (fun i => if (i <? nd S1)%nat then 1 else 0) i = 0).
      { intros i. unfold lower. assert (E : (nd S1 + i <? nd S1)%nat = false) by (apply Nat.ltb_ge; lia). now rewrite E. }
      split.
      - etransitivity; [|exact K1]. apply rsum_ext; intros i _. now rewrite E.
      - etransitivity; [|exact K2]. apply rsum_ext; intros k _. f_equal. apply rsum_ext; intros i _. now rewrite E. }
    destruct V1 as [-> ->]. destruct V2 as [-> ->]. unfold Rdiv. ring.
  - intros o. assert (C : rsum (nd S1) (bdr_vector F S1 g mu alpha XF X1 u) = dot (nd S1) (fun _ => 1) (bdr_vector F S1 g mu alpha XF X1 u)) by (apply rsum_ext; intros; ring).
    rewrite C, bdr_weak. apply over_ext. intros q _. unfold weak_dirichlet. fold o.
    destruct (one_side F o q S1 X1 XF P1) as [-> ->]. unfold Rdiv. ring.
Qed.
Print Assumptions C144_conservation.

(** C144: the terms vanish on exact solutions, up to the flux that integration by parts left on the face: where the two sides
    agree only the mean flux against the jump of the test function remains, and nothing for a continuous test function; where
    the boundary value is met only the flux against the test function. *)
Theorem C144_consistency : forall F S1 S2 g mu alpha XF X1 X2 u v,
  (let o := int_order S1 S2 in
   (forall q, (q < np F o)%nat -> value o q S1 u = value o q S2 (lower S1 u)) ->
   dot (nd S1 + nd S2) v (int_vector F S1 S2 mu alpha XF X1 X2 u) = over_face F (- alpha) o (fun q =>
     (material F o q S1 X1 u * slope F o q S1 X1 u XF + material F o q S2 X2 (lower S1 u) * slope F o q S2 X2 (lower S1 u) XF) / 2 *
     (value o q S1 v - value o q S2 (lower S1 v))) /\
   ((forall q, (q < np F o)%nat -> value o q S1 v = value o q S2 (lower S1 v)) -> dot (nd S1 + nd S2) v (int_vector F S1 S2 mu alpha XF X1 X2 u) = 0)) /\
  (let o := bdr_order F S1 in
   (forall q, (q < np F o)%nat -> value o q S1 u = g o q) ->
   dot (nd S1) v (bdr_vector F S1 g mu alpha XF X1 u) = over_face F (- alpha) o (fun q => material F o q S1 X1 u * slope F o q S1 X1 u XF * value o q S1 v)).
Proof.
  intros F S1 S2 g mu alpha XF X1 X2 u v. assert (N : forall o f, over_face F (- alpha) o f = over_face F alpha o (fun q => - f q)).
  { intros o f. unfold over_face. rewrite <- !rsum_scal. apply rsum_ext; intros; ring. }
  split; intros o H.
  - assert (A : dot (nd S1 + nd S2) v (int_vector F S1 S2 mu alpha XF X1 X2 u) = over_face F (- alpha) o (fun q =>
     (material F o q S1 X1 u * slope F o q S1 X1 u XF + material F o q S2 X2 (lower S1 u) * slope F o q S2 X2 (lower S1 u) XF) / 2 *
     (value o q S1 v - value o q S2 (lower S1 v)))).
    { rewrite int_weak, N. apply over_ext. intros q Hq. unfold interior_penalty. fold o. rewrite (H q Hq). unfold Rdiv. ring. }
    split; [exact A|]. intros Hv. rewrite A. unfold over_face. rewrite (rsum_ext _ _ (fun _ => 0)); [rewrite rsum_0; ring|]. intros q Hq. rewrite (Hv q Hq). ring.
  - rewrite bdr_weak, N. apply over_ext. intros q Hq. unfold weak_dirichlet. fold o. rewrite (H q Hq). unfold Rdiv. ring.
Qed.
Print Assumptions C144_consistency.

(** C144: with a linear material the terms are symmetric. *)
Theorem C144_symmetric : forall F S1 S2 mu alpha XF X1 X2 u v, linear_material S1 -> linear_material S2 ->
  dot (nd S1) v (bdr_vector F S1 (fun _ _ => 0) mu alpha XF X1 u) = dot (nd S1) u (bdr_vector F S1 (fun _ _ => 0) mu alpha XF X1 v) /\
  dot (nd S1 + nd S2) v (int_vector F S1 S2 mu alpha XF X1 X2 u) = dot (nd S1 + nd S2) u (int_vector F S1 S2 mu alpha XF X1 X2 v).
Proof.
  intros F S1 S2 mu alpha XF X1 X2 u v L1 L2. assert (M : forall o q S X y z, linear_material S -> material F o q S X y = material F o q S X z) by (intros; apply H).
  split.
  - rewrite !bdr_weak. apply over_ext. intros q _. unfold weak_dirichlet. rewrite (M _ q S1 X1 v u L1). unfold Rdiv. ring.
  - rewrite !int_weak. apply over_ext. intros q _. unfold interior_penalty. rewrite (M _ q S1 X1 v u L1), (M _ q S2 X2 (lower S1 v) (lower S1 u) L2). unfold Rdiv. ring.
Qed.
Print Assumptions C144_symmetric.

(** C144: the terms can take away at most 1 / mu of the energy at the points of the face (1 / (2 mu) per side of an interior
    face), so with mu above the constant of the trace inequality the whole form stays positive. *)
Lemma young k H s v : 0 <= k -> 0 <= H -> s * s <= k * H -> 0 <= k * (v * v) - 2 * s * v + H.
Proof.
  intros Hk HH Hs. destruct (Req_EM_T k 0) as [->|N].
  - assert (s = 0) by nra. subst. lra.
  - assert (P : 0 < k) by lra. assert (Q : 0 <= k * (k * (v * v) - 2 * s * v + H)).
    { replace (k * (k * (v * v) - 2 * s * v + H)) with ((k * v - s) * (k * v - s) + (k * H - s * s)) by ring. assert (0 <= (k * v - s) * (k * v - s)) by apply Rle_0_sqr. lra. }
    destruct (Rle_dec 0 (k * (v * v) - 2 * s * v + H)); [assumption|]. exfalso. nra.
Qed.
Lemma slope_bound F o q S X u XF : slope F o q S X u XF * slope F o q S X u XF <= area2 F o q XF * (steepness F o q S X u * steepness F o q S X u).
Proof.
  change (slope F o q S X u XF) with (dot (dim F) (gradient F o q S X u) (nor F o q XF)). rewrite steep_norm, norm_sq.
  change (area2 F o q XF) with (dot (dim F) (nor F o q XF) (nor F o q XF)). rewrite <- !norm_sq.
  set (a := gradient F o q S X u). set (b := nor F o q XF). assert (C1 := cauchy (dim F) a b). assert (C2 := cauchy (dim F) (vscal (-1) a) b). rewrite dot_scal_l in C2.
  assert (E : norm (dim F) (vscal (-1) a) = norm (dim F) a) by (unfold norm; f_equal; rewrite dot_scal_l, dot_scal_r; ring). rewrite E in C2.
  assert (P1 := norm_pos (dim F) a). assert (P2 := norm_pos (dim F) b). set (d := dot (dim F) a b) in *. set (m := norm (dim F) a) in *. set (n := norm (dim F) b) in *.
  replace (n * n * (m * m)) with ((m * n) * (m * n)) by ring. assert (Hd : Rabs d <= m * n) by (apply Rabs_le; lra).
  assert (Q : d * d = Rabs d * Rabs d) by (rewrite <- Rabs_mult, Rabs_pos_eq; nra). rewrite Q. apply Rmult_le_compat; try apply Rabs_pos; assumption.
Qed.
Lemma side_bound F o q S X u XF mu v : 0 < mu -> 0 < We S o q X -> 0 <= material F o q S X u ->
  - (/ mu * point_energy F S o q X u) <= material F o q S X u * (mu * (area2 F o q XF / We S o q X) * (v * v) - 2 * slope F o q S X u XF * v).
Proof.
  intros Hm Hw Hn. unfold point_energy. assert (B := slope_bound F o q S X u XF). assert (A : 0 <= area2 F o q XF) by (apply (dot_pos (dim F) (nor F o q XF))).
  set (s := slope F o q S X u XF) in *. set (G := steepness F o q S X u * steepness F o q S X u) in *. set (a := area2 F o q XF) in *. set (W := We S o q X) in *. set (m := material F o q S X u) in *.
  assert (HG : 0 <= G) by apply Rle_0_sqr. assert (Y := young (mu * (a / W)) (/ mu * (W * G)) s v).
  assert (I : 0 < / mu) by now apply Rinv_0_lt_compat. assert (J : 0 < / W) by now apply Rinv_0_lt_compat.
  assert (Y' : 0 <= mu * (a / W) * (v * v) - 2 * s * v + / mu * (W * G)).
  { apply Y; [unfold Rdiv; apply Rmult_le_pos; [lra|apply Rmult_le_pos; lra]|apply Rmult_le_pos; [lra|apply Rmult_le_pos; lra]|].
    replace (mu * (a / W) * (/ mu * (W * G))) with (a * G) by (field; split; lra). exact B. }
  apply (Rmult_le_compat_l m) in Y'; [|exact Hn]. rewrite Rmult_0_r in Y'. nra.
Qed.
Lemma over_le F alpha o f h : 0 <= alpha -> (forall q, (q < np F o)%nat -> 0 <= wt F o q /\ f q <= h q) -> over_face F alpha o f <= over_face F alpha o h.
Proof. intros Ha H. unfold over_face. apply Rmult_le_compat_l; [exact Ha|]. apply rsum_le. intros q Hq. destruct (H q Hq). now apply Rmult_le_compat_l. Qed.
Theorem C144_stability : forall F S1 S2 mu alpha XF X1 X2 u, 0 <= alpha -> 0 < mu ->
  (forall o q, (q < np F o)%nat -> 0 <= wt F o q /\ 0 < We S1 o q X1 /\ 0 < We S2 o q X2) ->
  (forall p x, 0 <= nu S1 p x /\ 0 <= nu S2 p x) ->
  over_face F alpha (bdr_order F S1) (fun q => - / mu * point_energy F S1 (bdr_order F S1) q X1 u) <=
    dot (nd S1) u (bdr_vector F S1 (fun _ _ => 0) mu alpha XF X1 u) /\
  over_face F alpha (int_order S1 S2) (fun q => - / (2 * mu) * (point_energy F S1 (int_order S1 S2) q X1 u + point_energy F S2 (int_order S1 S2) q X2 (lower S1 u))) <=
    dot (nd S1 + nd S2) u (int_vector F S1 S2 mu alpha XF X1 X2 u).
Proof.
  intros F S1 S2 mu alpha XF X1 X2 u Ha Hm HW Hn. assert (I : 0 < / mu) by now apply Rinv_0_lt_compat. split.
  - rewrite bdr_weak. set (o := bdr_order F S1). apply over_le; [exact Ha|]. intros q Hq. destruct (HW o q Hq) as (P & W1 & _). split; [exact P|].
    assert (B := side_bound F o q S1 X1 u XF mu (value o q S1 u) Hm W1 (proj1 (Hn (eip S1 o q) _))). unfold weak_dirichlet. cbv zeta.
    match goal with |- ?l <= ?r => replace r with (material F o q S1 X1 u * (mu * (area2 F o q XF / We S1 o q X1) * (value o q S1 u * value o q S1 u) - 2 * slope F o q S1 X1 u XF * value o q S1 u)) by ring end. lra.
  - rewrite int_weak. set (o := int_order S1 S2). apply over_le; [exact Ha|]. intros q Hq. destruct (HW o q Hq) as (P & W1 & W2). split; [exact P|].
    set (J := value o q S1 u - value o q S2 (lower S1 u)).
    assert (B1 := side_bound F o q S1 X1 u XF mu J Hm W1 (proj1 (Hn (eip S1 o q) _))). assert (B2 := side_bound F o q S2 X2 (lower S1 u) XF mu J Hm W2 (proj2 (Hn (eip S2 o q) _))).
    unfold interior_penalty. cbv zeta. fold J.
    match goal with |- _ <= ?r => replace r with (/ 2 * (material F o q S1 X1 u * (mu * (area2 F o q XF / We S1 o q X1) * (J * J) - 2 * slope F o q S1 X1 u XF * J) +
      material F o q S2 X2 (lower S1 u) * (mu * (area2 F o q XF / We S2 o q X2) * (J * J) - 2 * slope F o q S2 X2 (lower S1 u) XF * J))) by (unfold Rdiv; field; lra) end.
    replace (- / (2 * mu) * (point_energy F S1 o q X1 u + point_energy F S2 o q X2 (lower S1 u))) with (/ 2 * (- (/ mu * point_energy F S1 o q X1 u) + - (/ mu * point_energy F S2 o q X2 (lower S1 u)))) by (field; lra).
    lra.
Qed.
Print Assumptions C144_stability.

(** C144: the copy with alpha = -1 that the thermal residual adds on a contact or a cooled gap takes the term off that face
    again, vector and matrix. *)
Theorem C144_interface_removes : forall F S1 S2 mu XF X1 X2 u i j,
  int_vector F S1 S2 mu 1 XF X1 X2 u i + int_vector F S1 S2 mu (-1) XF X1 X2 u i = 0 /\
  int_grad F S1 S2 mu 1 XF X1 X2 u i j + int_grad F S1 S2 mu (-1) XF X1 X2 u i j = 0.
Proof.
  intros F S1 S2 mu XF X1 X2 u i j. split.
  - unfold int_vector. rewrite <- rsum_plus. rewrite (rsum_ext _ _ (fun _ => 0)); [apply rsum_0|]. intros q _. cbv zeta. unfold iwq, Rdiv. destruct (i <? nd S1)%nat; ring.
  - unfold int_grad. rewrite <- rsum_plus. rewrite (rsum_ext _ _ (fun _ => 0)); [apply rsum_0|]. intros q _. unfold b11, b12, b21, b22, iwq, Rdiv.
    destruct (i <? nd S1)%nat; destruct (j <? nd S1)%nat; ring.
Qed.
Print Assumptions C144_interface_removes.

(** C144: the matrices are the derivatives of the vectors, on materials uniform in each element. *)
Theorem C144_jacobian_partial : forall F S1 S2 g mu alpha XF X1 X2 u v, uniform S1 -> differentiable S1 -> uniform S2 -> differentiable S2 ->
  (forall o q, 0 < We S1 o q X1 /\ 0 < We S2 o q X2) ->
  (resolved F S1 (bdr_order F S1) X1 u ->
     derivative_at (nd S1) (bdr_vector F S1 g mu alpha XF X1) u v (mv (nd S1) (bdr_grad F S1 g mu alpha XF X1 u) v)) /\
  (resolved F S1 (int_order S1 S2) X1 u -> resolved F S2 (int_order S1 S2) X2 (lower S1 u) ->
     derivative_at (nd S1 + nd S2) (int_vector F S1 S2 mu alpha XF X1 X2) u v (mv (nd S1 + nd S2) (int_grad F S1 S2 mu alpha XF X1 X2 u) v)).
Proof.
  intros F S1 S2 g mu alpha XF X1 X2 u v U1 D1 U2 D2 HW. split.
  - intros R1. apply bdr_jacobian; try assumption; [now right|]. intros q _. destruct (HW (bdr_order F S1) q). lra.
  - intros R1 R2. apply int_jacobian; try assumption; try (now right). intros q _. destruct (HW (int_order S1 S2) q). lra.
Qed.
Print Assumptions C144_jacobian_partial.

(** a strip of two elements of unit height and one point per face: reference functions 1 - x and x, face at the right end of
    element 1 and the left end of element 2; only the widths depend on the nodes.  The law is 1 + (gradient)^2. *)
Definition width (X : nat -> nat -> R) : R := X 0%nat 1%nat - X 0%nat 0%nat.
Definition cell (right : bool) : side := {| nd := 2; sord := 1; pk := true;
  shp := fun _ _ i => match i with O => if right then 0 else 1 | _ => if right then 1 else 0 end;
  dsh := fun _ _ i a => match a with O => match i with O => -1 | _ => 1 end | _ => 0 end;
  eip := fun _ _ _ => if right then 1 else 0; nu := fun _ x => 1 + x * x; dnu := fun _ x => 2 * x; snn := 2;
  IJ := fun _ _ X a k => match a, k with O, O => / width X | S O, S O => 1 | _, _ => 0 end; We := fun _ _ X => width X;
  IJRev := fun _ _ X B k j => match k, j with O, O => B 0%nat 0%nat / (width X * width X) | O, S O => - (B 0%nat 0%nat / (width X * width X)) | _, _ => 0 end;
  WeRev := fun _ _ _ b k j => match k, j with O, O => - b | O, S O => b | _, _ => 0 end |}.
Definition strip : face := {| dim := 2; np := fun _ => 1%nat; wt := fun _ _ => 1; fip := fun _ _ _ => 1 / 2; DgFace.fnn := 1;
  nor := fun _ _ _ k => match k with O => 1 | _ => 0 end; norRev := fun _ _ _ _ _ _ => 0 |}.
Definition at_nodes (a b : R) : nat -> nat -> R := fun k j => match k, j with O, O => a | O, S O => b | _, _ => 0 end.
Example C144_conservation_met : partition (cell true) /\ partition (cell false) /\
  rsum 2 (int_vector strip (cell true) (cell false) 4 1 (fun _ _ => 0) (at_nodes 0 1) (at_nodes 1 3)
            (fun i => match i with O => 0 | S O => 1 | S (S O) => 2 | _ => 4 end)) = - 8.
Proof.
  assert (P : forall b, partition (cell b)) by (intros b o q; split; [|intros [|a]]; destruct b; cbn; ring).
  split; [apply P|]. split; [apply P|].
  destruct (C144_conservation strip (cell true) (cell false) (fun _ _ => 0) 4 1 (fun _ _ => 0) (at_nodes 0 1) (at_nodes 1 3) (fun i => match i with O => 0 | S O => 1 | S (S O) => 2 | _ => 4 end) (P true) (P false)) as (_ & H & _).
  cbv zeta in H. etransitivity; [exact H|]. clear H.
  unfold over_face, material. cbn [nu cell].
  assert (Q : forall o q S X u, steepness strip o q S X u * steepness strip o q S X u = rsum 2 (fun k => gradient strip o q S X u k * gradient strip o q S X u k)).
  { intros. unfold steepness. apply sqrt_sqrt. apply rsum_nonneg. intros; apply Rle_0_sqr. }
  change (np strip (int_order (cell true) (cell false))) with 1%nat. cbn [rsum]. rewrite !Q. unfold slope, value, gradient, area2, lower. cbn. unfold width, at_nodes. field.
Qed.
Lemma strip_resolved : resolved strip (cell true) 2 (at_nodes 0 1) (fun i => match i with O => 0 | _ => 1 end) /\
  resolved strip (cell false) 2 (at_nodes 1 3) (fun _ => 2).
Proof.
  split; intros q _; unfold steepness, gradient; cbn; unfold width, at_nodes.
  - right. match goal with |- _ < sqrt ?e => replace e with 1 by field end. rewrite sqrt_1.
    apply Rmult_lt_reg_l with (10 ^ 14); [apply pow_lt; lra|]. cbn. lra.
  - left. match goal with |- sqrt ?e = _ /\ _ => replace e with 0 by field end. split; [apply sqrt_0|]. auto_derive; [exact I|ring].
Qed.
Example C144_jacobian_met : uniform (cell true) /\ differentiable (cell true) /\
  resolved strip (cell true) 2 (at_nodes 0 1) (fun i => match i with O => 0 | _ => 1 end) /\ resolved strip (cell false) 2 (at_nodes 1 3) (fun _ => 2) /\
  (forall o q, 0 < We (cell true) o q (at_nodes 0 1) /\ 0 < We (cell false) o q (at_nodes 1 3)).
Proof.
  split; [intros p p' x; split; reflexivity|]. split; [intros p x _; cbn; auto_derive; [exact I|ring]|].
  split; [apply strip_resolved|]. split; [apply strip_resolved|]. intros o q. cbn. unfold width, at_nodes. lra.
Qed.

(** The matrices evaluate the material's derivative with the point of the face where the vector uses the point of the element.
    Where the law differs between the two the matrix is not the derivative: here the law is 1 + p x at coordinate p. *)
Definition graded : side := {| nd := 1; sord := 0; pk := true; shp := fun _ _ _ => 1; dsh := fun _ _ _ a => match a with O => 1 | _ => 0 end;
  eip := fun _ _ _ => 1; nu := fun p x => 1 + p 0%nat * x; dnu := fun p x => p 0%nat; snn := 1; IJ := fun _ _ _ a k => if Nat.eqb a k then 1 else 0; We := fun _ _ _ => 1;
  IJRev := fun _ _ _ _ _ _ => 0; WeRev := fun _ _ _ _ _ _ => 0 |}.
Definition ends : face := {| dim := 2; np := fun _ => 1%nat; wt := fun _ _ => 1; fip := fun _ _ _ => 0; DgFace.fnn := 1;
  nor := fun _ _ _ k => match k with O => 1 | _ => 0 end; norRev := fun _ _ _ _ _ _ => 0 |}.
Theorem C144_graded_material_refuted : let X := fun _ _ : nat => 0 in let u := fun _ : nat => 1 in
  differentiable graded /\ resolved ends graded 0 X u /\
  ~ derivative_at 1 (bdr_vector ends graded (fun _ _ => 0) 1 1 X X) u u (mv 1 (bdr_grad ends graded (fun _ _ => 0) 1 1 X X u) u).
Proof.
  intros X u.
  assert (St : forall t, 0 < 1 + t -> fn ends 0 0 graded X (along u u t) = 1 + t).
  { intros t Ht. unfold fn, norm, dot, fl, gr, along, u. cbn. match goal with |- sqrt ?e = _ => replace e with ((1 + t) * (1 + t)) by ring end. apply sqrt_square. lra. }
  split; [intros p x _; cbn; auto_derive; [exact I|ring]|]. split.
  - intros q _. right. unfold steepness, gradient, u. cbn. match goal with |- _ < sqrt ?e => replace e with 1 by ring end. rewrite sqrt_1.
    apply Rmult_lt_reg_l with (10 ^ 14); [apply pow_lt; lra|]. cbn. lra.
  - intros H. specialize (H 0%nat ltac:(lia)).
    assert (D : is_derive (fun t => - ((1 + t) * (2 + t))) 0 (mv 1 (bdr_grad ends graded (fun _ _ => 0) 1 1 X X u) u 0%nat)).
    { apply (is_derive_ext_loc (fun t => bdr_vector ends graded (fun _ _ => 0) 1 1 X X (along u u t) 0%nat)); [|exact H].
      exists (mkposreal 1 Rlt_0_1). intros t Ht. assert (P : 0 < 1 + t). { unfold ball in Ht. cbn in Ht. unfold AbsRing_ball, abs, minus, plus, opp in Ht. cbn in Ht. rewrite Ropp_0, Rplus_0_r in Ht. destruct (Rabs_def2 _ _ Ht). lra. }
      unfold bdr_vector. change (bdr_order ends graded) with 0%nat. change (np ends 0) with 1%nat. cbn [rsum]. unfold mv_. rewrite (St t P).
      cbn. unfold dn, vl, sn, gr, nn_, n_, dot, along, u. cbn. field. }
    assert (E : mv 1 (bdr_grad ends graded (fun _ _ => 0) 1 1 X X u) u 0%nat = - 2).
    { assert (S0 : fn ends 0 0 graded X u = 1) by (unfold fn, norm, dot, fl, gr, u; cbn; match goal with |- sqrt ?e = _ => replace e with 1 by ring end; apply sqrt_1).
      unfold mv, bdr_grad, nd_. change (bdr_order ends graded) with 0%nat. change (np ends 0) with 1%nat. cbn [rsum]. unfold mv_. rewrite S0.
      destruct (Rlt_dec tiny (Rabs 1)) as [L|L].
      - cbn. unfold dn, vl, sn, gr, nn_, n_, fl, dot, u. cbn. field.
      - exfalso. apply L. rewrite Rabs_R1. unfold tiny. apply Rmult_lt_reg_l with (10 ^ 14); [apply pow_lt; lra|]. rewrite Rinv_r by (apply Rgt_not_eq, pow_lt; lra). cbn. lra. }
    rewrite E in D. assert (D2 : is_derive (fun t => - ((1 + t) * (2 + t))) 0 (- 3)) by (auto_derive; [exact I|ring]).
    assert (A := is_derive_unique _ _ _ D). assert (B := is_derive_unique _ _ _ D2). rewrite A in B. lra.
Qed.
Print Assumptions C144_graded_material_refuted.

(** C144: mesh sensitivities.  x holds all coordinates of the mesh; vd1, vd2 are the dofs of the two elements in it, fd those
    of the face.  What is returned for the two elements, paired with a motion V of the nodes, is the derivative of psi . R. *)
Lemma nodes_moved nn dofs x V t : nodes_of nn dofs (along x V t) = moved (nodes_of nn dofs x) (nodes_of nn dofs V) t.
Proof. reflexivity. Qed.
Lemma flat_nodes a nn dofs B V : (0 < nn)%nat -> length dofs = (a * nn)%nat ->
  rsum (length dofs) (fun i => flat nn B i * V (nth i dofs O)) = pairing a nn B (nodes_of nn dofs V).
Proof.
  intros Hn L. rewrite <- (flat_pair a nn B (nodes_of nn dofs V)) by exact Hn. rewrite L. apply rsum_ext. intros i Hi. f_equal. unfold flat, nodes_of. f_equal. f_equal.
  assert (DM := Nat.div_mod i nn ltac:(lia)). nia.
Qed.
Lemma inserted a nn dofs fn fd B BF V : (0 < nn)%nat -> (0 < fn)%nat -> length dofs = (a * nn)%nat -> length fd = (a * fn)%nat -> (forall d, In d fd -> In d dofs) ->
  rsum (length dofs) (fun i => insert dofs fd 0 (flat fn BF) (flat nn B) i * V (nth i dofs O)) = pairing a nn B (nodes_of nn dofs V) + pairing a fn BF (nodes_of fn fd V).
Proof. intros. rewrite insert_sum by assumption. f_equal; [now apply flat_nodes|]. cbn [Nat.add]. now apply flat_nodes. Qed.
Theorem C144_mesh_interior_partial : forall F S1 S2 mu alpha (vd1 vd2 fd : list nat) (x V : nat -> R) u psi,
  let o := int_order S1 S2 in
  let X1 := nodes_of (snn S1) vd1 in let X2 := nodes_of (snn S2) vd2 in let XF := nodes_of (fnn F) fd in
  dim F <> 1%nat -> side_geometry F S1 o (X1 x) -> side_geometry F S2 o (X2 x) -> face_geometry F o (XF x) ->
  differentiable S1 -> differentiable S2 -> resolved F S1 o (X1 x) u -> resolved F S2 o (X2 x) (lower S1 u) ->
  (0 < snn S1)%nat -> (0 < snn S2)%nat -> (0 < fnn F)%nat ->
  length vd1 = (dim F * snn S1)%nat -> length vd2 = (dim F * snn S2)%nat -> length fd = (dim F * fnn F)%nat -> (forall d, In d fd -> In d vd1) ->
  let bar := int_mesh F S1 S2 mu alpha vd1 fd (XF x) (X1 x) (X2 x) u psi in
  is_derive (fun t => let y := along x V t in dot (nd S1 + nd S2) psi (int_vector F S1 S2 mu alpha (XF y) (X1 y) (X2 y) u)) 0
    (rsum (length vd1) (fun i => fst bar i * V (nth i vd1 O)) + rsum (length vd2) (fun i => snd bar i * V (nth i vd2 O))).
Proof.
  intros F S1 S2 mu alpha vd1 vd2 fd x V u psi o X1 X2 XF Dm G1 G2 GF D1 D2 R1 R2 P1 P2 PF L1 L2 LF Hin bar.
  unfold bar, int_mesh. cbn [fst snd]. rewrite (inserted (dim F)) by assumption. rewrite (flat_nodes (dim F)) by assumption.
  apply (DV_ext (fun t => rsum (np F o) (fun q => alpha * (wt F o q * interior_penalty F S1 S2 mu o q (moved (XF x) (XF V) t) (moved (X1 x) (X1 V) t) (moved (X2 x) (X2 V) t) u psi)))).
  { intros t. cbv zeta. rewrite int_weak. unfold over_face. rewrite <- rsum_scal. reflexivity. }
  eapply DV_eq.
  - apply (DV_sum (np F o) (fun q t => alpha * (wt F o q * interior_penalty F S1 S2 mu o q (moved (XF x) (XF V) t) (moved (X1 x) (X1 V) t) (moved (X2 x) (X2 V) t) u psi))).
    intros q Hq. apply int_point_mesh; assumption.
  - cbv beta. rewrite !rsum_plus. unfold int_bar1, int_bar2, int_barF. rewrite !EmMeshProofs.pairing_sum. fold o X1 X2 XF. unfold o. ring.
Qed.
Print Assumptions C144_mesh_interior_partial.

Theorem C144_mesh_boundary_partial : forall F S g mu alpha (vd fd : list nat) (x V : nat -> R) u psi bar,
  let o := (2 * sord S)%nat in
  let X := nodes_of (snn S) vd in let XF := nodes_of (fnn F) fd in
  pk S = true -> side_geometry F S o (X x) -> face_geometry F o (XF x) -> differentiable S -> uniform S ->
  (0 < snn S)%nat -> (0 < fnn F)%nat -> length vd = (dim F * snn S)%nat -> length fd = (dim F * fnn F)%nat -> (forall d, In d fd -> In d vd) ->
  bdr_mesh F S g mu alpha vd fd (XF x) (X x) u psi = Some bar ->
  is_derive (fun t => let y := along x V t in dot (nd S) psi (bdr_vector F S g mu alpha (XF y) (X y) u)) 0
    (rsum (length vd) (fun i => bar i * V (nth i vd O))).
Proof.
  intros F S g mu alpha vd fd x V u psi bar o X XF Pk G GF D U P PF L LF Hin E.
  assert (Eo : bdr_order F S = bdr_mesh_order S) by (unfold bdr_order, bdr_mesh_order; now rewrite Pk).
  unfold bdr_mesh, bdr_mesh_bars in E. destruct (negb (Nat.eqb (dim F) 1) && forallb (flux_nonzero F S (X x) u) (seq 0 (np F (bdr_mesh_order S)))) eqn:C; [|discriminate].
  injection E as <-. apply andb_prop in C. destruct C as [_ C]. rewrite (inserted (dim F)) by assumption.
  apply (DV_ext (fun t => rsum (np F (bdr_mesh_order S)) (fun q => alpha * (wt F (bdr_mesh_order S) q * weak_dirichlet F S g mu (bdr_mesh_order S) q (moved (XF x) (XF V) t) (moved (X x) (X V) t) u psi)))).
  { intros t. cbv zeta. rewrite bdr_weak, Eo. unfold over_face. rewrite <- rsum_scal. reflexivity. }
  eapply DV_eq.
  - apply (DV_sum (np F (bdr_mesh_order S)) (fun q t => alpha * (wt F (bdr_mesh_order S) q * weak_dirichlet F S g mu (bdr_mesh_order S) q (moved (XF x) (XF V) t) (moved (X x) (X V) t) u psi))).
    intros q Hq. apply bdr_point_mesh; try assumption.
    rewrite forallb_forall in C. specialize (C q ltac:(apply in_seq; lia)). unfold flux_nonzero in C. rewrite fn_steepness in C.
    destruct (Req_EM_T (steepness F (bdr_mesh_order S) q S (X x) u) 0); [discriminate|assumption].
  - cbv beta. rewrite !rsum_plus. rewrite !EmMeshProofs.pairing_sum. fold X XF. ring.
Qed.
Print Assumptions C144_mesh_boundary_partial.
Lemma strip_geometry b o X : 0 < width X -> side_geometry strip (cell b) o X.
Proof.
  intros P q _. cbn. split; [exact P|].
  assert (Dw : forall V, is_derive (fun t => width (moved X V t)) 0 (width V)).
  { intros V. unfold width, moved. auto_derive; [exact I|ring]. }
  assert (W0 : forall V, width (moved X V 0) = width X) by (intros; unfold width, moved; ring). split.
  - intros V B. eapply DV_ext; [|eapply DV_eq].
    2:{ apply DV_plus; [apply (DV_scal (B 0%nat 0%nat)); apply (DV_div (fun _ => 1) (fun t => width (moved X V t))); [apply DV_const|apply Dw|rewrite W0; lra]|apply (DV_const (B 1%nat 1%nat))]. }
    + intros t. unfold pairing. cbn. unfold Rdiv. ring.
    + cbv beta. rewrite !W0. unfold pairing. cbn. unfold width in *. field. lra.
  - intros V c. eapply DV_eq; [apply DV_scal, Dw|]. unfold pairing. cbn. unfold width. ring.
Qed.
Example C144_mesh_met : dim strip <> 1%nat /\ side_geometry strip (cell true) 2 (nodes_of 2 [0; 1; 10; 11]%nat (fun d => INR d)) /\
  side_geometry strip (cell false) 2 (nodes_of 2 [1; 3; 11; 13]%nat (fun d => INR d)) /\ face_geometry strip 2 (nodes_of 1 [1; 11]%nat (fun d => INR d)) /\
  (exists bar, bdr_mesh strip (cell true) (fun _ _ => 0) 4 1 [0; 1; 10; 11]%nat [1; 11]%nat (nodes_of 1 [1; 11]%nat (fun d => INR d)) (nodes_of 2 [0; 1; 10; 11]%nat (fun d => INR d))
     (fun i => INR i) (fun i => INR i) = Some bar).
Proof.
  split; [cbn; lia|]. split; [apply strip_geometry; unfold width, nodes_of; cbn; lra|]. split; [apply strip_geometry; unfold width, nodes_of; cbn; lra|]. split.
  - intros q _ V b. cbn. eapply DV_eq; [apply DV_const|]. unfold pairing. cbn. ring.
  - eexists. unfold bdr_mesh, bdr_mesh_bars. cbn [dim strip Nat.eqb negb andb np bdr_mesh_order cell sord Nat.mul seq forallb]. unfold flux_nonzero.
    destruct (Req_EM_T _ 0) as [Z|Z]; [exfalso|reflexivity]. revert Z. rewrite fn_steepness. unfold steepness, gradient, width, nodes_of. cbn.
    match goal with |- sqrt ?e = 0 -> _ => replace e with 1 by (unfold width; cbn; field) end. rewrite sqrt_1. lra.
Qed.

(** The boundary term's mesh sensitivity divides by the norm of the gradient: one point where the gradient vanishes (a constant
    temperature, the usual start) makes it NaN; and on a segment mesh it reads memory never written. *)
Theorem C144_flat_state_refuted : forall F S g mu alpha vd fd XF X u psi q, (q < np F (2 * sord S))%nat ->
  (forall k, gradient F (2 * sord S) q S X u k = 0) \/ dim F = 1%nat -> bdr_mesh F S g mu alpha vd fd XF X u psi = None.
Proof.
  intros F S g mu alpha vd fd XF X u psi q Hq H. unfold bdr_mesh, bdr_mesh_bars.
  destruct (negb (Nat.eqb (dim F) 1) && forallb (flux_nonzero F S X u) (seq 0 (np F (bdr_mesh_order S)))) eqn:C; [|reflexivity]. exfalso.
  apply andb_prop in C. destruct C as [C1 C2]. destruct H as [H|H].
  - rewrite forallb_forall in C2. specialize (C2 q ltac:(apply in_seq; unfold bdr_mesh_order; lia)). unfold flux_nonzero in C2. rewrite fn_steepness in C2.
    destruct (Req_EM_T (steepness F (bdr_mesh_order S) q S X u) 0) as [Z|Z]; [discriminate|]. apply Z. unfold steepness.
    rewrite (rsum_ext _ _ (fun _ => 0)) by (intros k _; unfold bdr_mesh_order; rewrite H; ring). rewrite rsum_0. apply sqrt_0.
  - rewrite H in C1. discriminate.
Qed.
Print Assumptions C144_flat_state_refuted.
Example C144_flat_state_met : forall k, gradient strip 2 0 (cell true) (at_nodes 0 1) (fun _ => 5) k = 0.
Proof. intros [|k]; unfold gradient; cbn; ring. Qed.

(** On elements that are not of type Pk the boundary term's vector uses a rule of higher order than its mesh sensitivity, which
    then is the derivative of another quantity.  A curved face, x -> x + 2 x^3 / 3 + x^5 / 5, of a square element of degree 1
    whose solution meets the boundary value; its nodes scale the normal. *)
Definition px (o q : nat) : R := if (o <? 4)%nat then match q with O => 1 / 2 - sqrt 3 / 6 | _ => 1 / 2 + sqrt 3 / 6 end
  else match q with O => 1 / 2 - sqrt 15 / 10 | 1%nat => 1 / 2 | _ => 1 / 2 + sqrt 15 / 10 end.
Definition pw (o q : nat) : R := if (o <? 4)%nat then 1 / 2 else match q with 1%nat => 4 / 9 | _ => 5 / 18 end.
Definition speed (o q : nat) : R := (1 + px o q * px o q) * (1 + px o q * px o q).
Definition square : side := {| nd := 1; sord := 1; pk := false; shp := fun _ _ _ => 1; dsh := fun _ _ _ a => match a with O => 0 | _ => 1 end;
  eip := fun _ _ _ => 1; nu := fun _ _ => 1; dnu := fun _ _ => 0; snn := 1; IJ := fun _ _ _ a k => if Nat.eqb a k then 1 else 0; We := fun _ _ _ => 1;
  IJRev := fun _ _ _ _ _ _ => 0; WeRev := fun _ _ _ _ _ _ => 0 |}.
Definition curved : face := {| dim := 2; np := fun o => if (o <? 4)%nat then 2%nat else 3%nat; wt := pw; fip := fun _ _ _ => 0; DgFace.fnn := 1;
  nor := fun o q X k => match k with O => 0 | _ => X 0%nat 0%nat * speed o q end;
  norRev := fun o q _ b k j => match k, j with O, O => b 1%nat * speed o q | _, _ => 0 end |}.
Theorem C144_rule_refuted :
  let vd := [0; 1]%nat in let x := fun _ : nat => 1 in let V := fun d => match d with O => 1 | _ => 0 end in let one := fun _ : nat => 1 in
  side_geometry curved square 2 (nodes_of 1 vd x) /\ face_geometry curved 2 (nodes_of 1 vd x) /\
  is_derive (fun t => let y := along x V t in dot 1 one (bdr_vector curved square (fun _ _ => 1) 1 1 (nodes_of 1 vd y) (nodes_of 1 vd y) one)) 0 (- (28 / 15)) /\
  (exists bar, bdr_mesh curved square (fun _ _ => 1) 1 1 vd vd (nodes_of 1 vd x) (nodes_of 1 vd x) one one = Some bar /\
     rsum (length vd) (fun i => bar i * V (nth i vd O)) = - (67 / 36)).
Proof.
  intros vd x V one.
  assert (G2 : rsum 2 (fun q => pw 2 q * speed 2 q) = 67 / 36).
  { unfold pw, speed, px. cbn [Nat.ltb Nat.leb rsum]. set (s := sqrt 3). assert (Hs : s * s = 3) by (apply sqrt_sqrt; lra).
    match goal with |- ?l = _ => replace l with (25 / 16 + 7 / 72 * (s * s) + (s * s) * (s * s) / 1296) by field end. rewrite Hs. field. }
  assert (G4 : rsum 3 (fun q => pw 4 q * speed 4 q) = 28 / 15).
  { unfold pw, speed, px. cbn [Nat.ltb Nat.leb rsum]. set (s := sqrt 15). assert (Hs : s * s = 15) by (apply sqrt_sqrt; lra).
    match goal with |- ?l = _ => replace l with (25 / 16 + 5 / 9 * (7 / 200 * (s * s) + (s * s) * (s * s) / 10000)) by field end. rewrite Hs. field. }
  split; [|split; [|split]].
  - intros q _. split; [cbn; lra|]. split.
    + intros W B. cbn. eapply DV_eq; [apply DV_const|]. unfold pairing. cbn. ring.
    + intros W b. cbn. eapply DV_eq; [apply DV_const|]. unfold pairing. cbn. ring.
  - intros q _ W b. unfold pairing. cbn. unfold moved. auto_derive; [exact I|ring].
  - apply (DV_ext (fun t => - (1 + t * 1) * rsum 3 (fun q => pw 4 q * speed 4 q))).
    + intros t. cbv zeta. change (dot 1 one) with (dot (nd square) one). rewrite bdr_weak. unfold over_face. cbn [bdr_order pk square sord dim curved Nat.mul Nat.add np Nat.ltb Nat.leb wt]. unfold weak_dirichlet, material, slope, value, gradient. cbn. unfold nodes_of, along, one, x, V. cbn. ring.
    + rewrite G4. auto_derive; [exact I|ring].
  - eexists. split.
    + unfold bdr_mesh, bdr_mesh_bars. cbn [dim curved Nat.eqb negb andb np bdr_mesh_order square sord Nat.mul Nat.add Nat.ltb Nat.leb seq forallb]. unfold flux_nonzero.
      assert (N : forall o q, fn curved o q square (nodes_of 1 vd x) one = 1).
      { intros. rewrite fn_steepness. unfold steepness, gradient, one. cbn. match goal with |- sqrt ?e = _ => replace e with 1 by ring end. apply sqrt_1. }
      rewrite !N. destruct (Req_EM_T 1 0); [exfalso; lra|]. reflexivity.
    + rewrite (inserted 2) by (try reflexivity; try (cbn; lia); intros d Hd; exact Hd). rewrite <- G2.
      unfold pairing. cbn [rsum]. unfold b_node_bar, b_face_bar. cbn [norRev curved IJRev WeRev square]. unfold b_nor_bar, b_sn_bar, b_wq_bar, b_pd_bar, b_ud_bar, mv_, vl, gr, dot, nodes_of, one, V, n_.
      cbn. unfold vd. cbn. field.
Qed.
Print Assumptions C144_rule_refuted.
