(** Properties C40 and C41: surface extraction and point-to-surface distance. *)
From Coq Require Import Reals List ZArith Bool Lia Lra.
From Verif Require Import Num Vec Surface SurfaceProofs.
Import ListNotations.

(** C40: vertices and elements of the extracted mesh.  The surface vertices are exactly the volume vertices of the
    marked boundary elements, each once; the surface elements are exactly the marked boundary elements, in order, with
    their attribute, and each refers to (the copies of) its own vertices in its own order.  A boundary element is marked
    when entry number attribute (counting from 1) of the marker array is not zero. *)
Theorem C40_topology :
  forall marker bels nv, (forall b v, In b bels -> In v (b_verts b) -> (v < nv)%nat) ->
  (forall b, In b bels -> 1 <= b_attr b <= length marker)%nat ->
  let v2v := v2v_of marker bels nv in
  let verts := surf_verts v2v in
  let elems := surf_elems marker bels v2v in
  let chosen := filter (marked marker) bels in
  (forall b, In b chosen <-> In b bels /\ exists a f, b_attr b = S a /\ nth_error marker a = Some f /\ f <> 0%Z) /\
  NoDup verts /\
  (forall v, In v verts <-> exists b, In b chosen /\ In v (b_verts b)) /\
  length elems = length chosen /\
  (forall k b, nth_error chosen k = Some b -> exists vs : list nat,
     nth_error elems k = Some (b_attr b, map Z.of_nat vs) /\ map (nth_error verts) vs = map Some (b_verts b)) /\
  snd (flag_pass marker bels nv) = length chosen.
Proof.
  intros marker bels nv H HA. cbv zeta. destruct (surf_verts_spec marker bels nv) as [N I].
  split. { intros b. rewrite filter_In. apply and_iff_compat_l_if. intros Hb. apply marked_iff, HA, Hb. }
  split; [assumption|]. split; [|split; [|split]].
  - intros v. rewrite I. unfold used. split.
    + intros (_ & b & H1 & H2 & H3). exists b. rewrite filter_In. auto.
    + intros (b & H1 & H3). apply filter_In in H1. destruct H1 as [H1 H2]. split; [eapply H; eauto|eauto].
  - unfold surf_elems. now rewrite map_length.
  - intros k b Hk. unfold surf_elems. rewrite (map_nth_error _ _ _ Hk).
    assert (Hb : In b bels /\ marked marker b = true) by (apply filter_In; eapply nth_error_In; eassumption). destruct Hb as [Hb Hm].
    assert (G : forall l, (forall v, In v l -> In v (b_verts b)) -> exists vs, map (fun v => nth v (v2v_of marker bels nv) (-1)%Z) l = map Z.of_nat vs /\ map (nth_error (surf_verts (v2v_of marker bels nv))) vs = map Some l).
    { induction l as [|v l IH]; intros Hl; [exists []; auto|]. destruct IH as (vs & E1 & E2); [intros; apply Hl; now right|].
      assert (Hv : In v (b_verts b)) by (apply Hl; now left). destruct (v2v_spec marker bels nv v (H b v Hb Hv)) as (_ & U & _).
      destruct (U (ex_intro _ b (conj Hb (conj Hm Hv)))) as (kk & E3 & E4). exists (kk :: vs). simpl. rewrite E3, E1, E4, E2. auto. }
    destruct (G (b_verts b)) as (vs & E1 & E2); [auto|]. exists vs. rewrite E1. auto.
  - destruct (flag_spec marker bels nv) as (_ & C & _). exact C.
Qed.
Print Assumptions C40_topology.

(** Curved meshes: nodes are copied to the right surface elements exactly when the marked boundary elements come first;
    otherwise a surface element number out of range is used (undefined behaviour). *)
Theorem C40_nodes_partial :
  forall marker bels nv, prefix_marked marker bels ->
  copy_nodes marker (snd (flag_pass marker bels nv)) 0 bels = Some (map (fun k => (k, k)) (seq 0 (length (filter (marked marker) bels)))).
Proof.
  intros marker bels nv (a & b & -> & Ha & Hb). destruct (flag_spec marker (a ++ b) nv) as (_ & -> & _).
  assert (E : filter (marked marker) (a ++ b) = a).
  { rewrite filter_app. assert (filter (marked marker) a = a) as -> by (clear - Ha; induction a as [|x a IH]; simpl; [reflexivity|]; rewrite Ha by (now left); rewrite IH; [reflexivity|intros; apply Ha; now right]).
    assert (filter (marked marker) b = []) as -> by (clear - Hb; induction b as [|x b IH]; simpl; [reflexivity|]; rewrite Hb by (now left); apply IH; intros; apply Hb; now right). apply app_nil_r. }
  rewrite E. apply copy_prefix; auto.
Qed.
Print Assumptions C40_nodes_partial.

Theorem C40_nodes_refuted :
  forall marker bels nv, ~ prefix_marked marker bels -> copy_nodes marker (snd (flag_pass marker bels nv)) 0 bels = None.
Proof.
  intros marker bels nv H. destruct (flag_spec marker bels nv) as (_ & -> & _). apply (copy_gap marker bels); auto.
Qed.
Print Assumptions C40_nodes_refuted.

(** a square with boundary attributes 1..4; the sides 2 and 3 are extracted *)
Example C40_square : let bels := [{| b_attr := 1; b_verts := [0;1] |}; {| b_attr := 2; b_verts := [1;3] |}; {| b_attr := 3; b_verts := [3;2] |}; {| b_attr := 4; b_verts := [2;0] |}]%nat in
  let marker := [0; 1; 1; 0]%Z in
  surf_verts (v2v_of marker bels 4) = [1; 2; 3]%nat /\ surf_elems marker bels (v2v_of marker bels 4) = [(2%nat, [0; 2]%Z); (3%nat, [2; 1]%Z)] /\
  copy_nodes marker 2 0 bels = None.
Proof. repeat split. Qed.

Local Open Scope R_scope.

(** C41: a returned distance is the distance to a point of the element searched (any curved element), hence never
    smaller than the distance to the surface *)
Theorem C41_distance_to_a_point :
  forall lin_tol elems nearest elementForDof x r,
  calcDistance lin_tol elems nearest elementForDof x = Dist r ->
  exists xi, 0 <= xi <= 1 /\ r = norm 2 (vsub (t_X (elems (elementForDof (nearest x))) xi) x).
Proof. intros. unfold calcDistance, solveDistance in H. eapply newton_sound; [|eassumption]. lra. Qed.
Print Assumptions C41_distance_to_a_point.

(** on a straight element longer than the linear solver's threshold the search never fails and finds the smallest
    distance (its square up to 1e-26 / length^2, the effect of the gradient test) *)
Theorem C41_straight_element :
  forall lin_tol a e x, 0 <= lin_tol < dot 2 e e ->
  exists r, solveDistance lin_tol (segment a e) x = Dist r /\
  (exists s, 0 <= s <= 1 /\ r = norm 2 (vsub (fun i => a i + s * e i) x)) /\
  (forall s, 0 <= s <= 1 ->
     r * r <= norm 2 (vsub (fun i => a i + s * e i) x) * norm 2 (vsub (fun i => a i + s * e i) x) + 1 / 10 ^ 13 * (1 / 10 ^ 13) / dot 2 e e).
Proof.
  intros lt a e x H. destruct (segment_distance a e x lt H) as (r & E & M). exists r. split; [assumption|]. split; [|exact M].
  unfold solveDistance in E. destruct (newton_sound lt (segment a e) x 30 (1/2) false r ltac:(lra) E) as (s & Hs & Er). exists s. auto.
Qed.
Print Assumptions C41_straight_element.

(** Only one of the elements at the nearest node is searched.  On a straight curve of two unit segments, whichever element
    the middle node is assigned to, some point of the curve itself gets a distance of at least 2/5. *)
Theorem C41_minimum_refuted :
  forall lin_tol (nearest : vec -> nat) (elementForDof : nat -> nat), 0 <= lin_tol < 1 ->
  let node := fun k : nat => (fun i => if Nat.eqb i 0 then INR k else 0) : vec in
  let unit : vec := fun i => if Nat.eqb i 0 then 1 else 0 in
  let elems := fun k : nat => segment (node k) unit in
  (forall x k, (k <= 2)%nat -> norm 2 (vsub (node (nearest x)) x) <= norm 2 (vsub (node k) x)) ->
  (forall x, (nearest x <= 2)%nat) -> (elementForDof 1 = 0 \/ elementForDof 1 = 1)%nat ->
  exists x k s, (k <= 1)%nat /\ 0 <= s <= 1 /\ (forall i, (i < 2)%nat -> x i = t_X (elems k) s i) /\
  exists r, calcDistance lin_tol elems nearest elementForDof x = Dist r /\ 2/5 <= r.
Proof.
  intros lt nearest efd Hl node unit elems HN HR HE.
  assert (NV : forall k x0, norm 2 (vsub (node k) (fun i => if Nat.eqb i 0 then x0 else 0)) = Rabs (INR k - x0)).
  { intros k x0. unfold norm, dot, vsub, node. simpl. replace (0 + (INR k - x0) * (INR k - x0) + (0 - 0) * (0 - 0)) with (Rsqr (INR k - x0)) by (unfold Rsqr; ring). apply sqrt_Rsqr_abs. }
  assert (near : forall x0, 3/5 <= x0 <= 7/5 -> nearest (fun i => if Nat.eqb i 0 then x0 else 0) = 1%nat).
  { intros x0 Hx. set (x := fun i => if Nat.eqb i 0 then x0 else 0). pose proof (HN x 1%nat ltac:(lia)) as H1. pose proof (HR x) as H2.
    destruct (nearest x) as [|[|[|n]]]; [|reflexivity| |lia]; unfold x in H1; rewrite !NV in H1; simpl in H1;
      unfold Rabs in H1; destruct (Rcase_abs _), (Rcase_abs _); lra. }
  assert (Hu : dot 2 unit unit = 1) by (unfold dot, unit; simpl; ring).
  assert (D : forall k x0, (forall s, 0 <= s <= 1 -> 2/5 <= Rabs (INR k + s - x0)) -> exists r, solveDistance lt (elems k) (fun i => if Nat.eqb i 0 then x0 else 0) = Dist r /\ 2/5 <= r).
  { intros k x0 Hx. destruct (segment_distance (node k) unit (fun i => if Nat.eqb i 0 then x0 else 0) lt) as (r & E & _); [rewrite Hu; lra|].
    exists r. split; [exact E|]. unfold solveDistance in E. apply newton_sound in E; [|lra]. destruct E as (s & Hs & ->).
    match goal with |- _ <= ?n => replace n with (Rabs (INR k + s - x0)); [now apply Hx|] end.
    unfold norm, dot, vsub, segment, node, unit. simpl. rewrite <- sqrt_Rsqr_abs. f_equal. unfold Rsqr. ring. }
  destruct HE as [HE|HE].
  - exists (fun i => if Nat.eqb i 0 then 7/5 else 0), 1%nat, (2/5). split; [lia|]. split; [lra|]. split.
    + intros i Hi. unfold elems, segment, node, unit. simpl. destruct i as [|[|i]]; simpl; try lia; lra.
    + unfold calcDistance. rewrite near by lra. rewrite HE. apply D. intros s Hs. simpl. rewrite Rabs_left1; lra.
  - exists (fun i => if Nat.eqb i 0 then 3/5 else 0), 0%nat, (3/5). split; [lia|]. split; [lra|]. split.
    + intros i Hi. unfold elems, segment, node, unit. simpl. destruct i as [|[|i]]; simpl; try lia; lra.
    + unfold calcDistance. rewrite near by lra. rewrite HE. apply D. intros s Hs. simpl. rewrite Rabs_right; lra.
Qed.
Print Assumptions C41_minimum_refuted.

(** hypothesis witness for C41_straight_element with mfem's threshold 1e-9: a segment of length 5 *)
Example C41_example : 0 <= 1 / 10 ^ 9 < dot 2 (fun i => match i with 0%nat => 3 | _ => 4 end) (fun i => match i with 0%nat => 3 | _ => 4 end).
Proof. unfold dot. simpl. lra. Qed.
