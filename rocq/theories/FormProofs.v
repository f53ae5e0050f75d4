(** Lemmas about Form.v. *)
From Coq Require Import Reals Lra Lia List String Bool Arith.
From Coquelicot Require Import Coquelicot.
From Verif Require Import Vec Form FormSpec.
Import ListNotations.
Local Open Scope R_scope.

Lemma memb_in i l : memb i l = true <-> List.In i l.
Proof.
  unfold memb. rewrite existsb_exists. split.
  - intros [x [H E]]. apply Nat.eqb_eq in E. subst. exact H.
  - intros H. exists i. split; [exact H|apply Nat.eqb_refl].
Qed.
Lemma memb_out i l : memb i l = false <-> ~ List.In i l.
Proof. rewrite <- memb_in. destruct (memb i l); split; congruence. Qed.

Lemma dec_memb {A} i l (x y : A) : (if in_dec Nat.eq_dec i l then x else y) = if memb i l then x else y.
Proof.
  destruct (in_dec Nat.eq_dec i l) as [H|H].
  - apply memb_in in H. rewrite H. reflexivity.
  - apply memb_out in H. rewrite H. reflexivity.
Qed.

Lemma zero_at_in l v i : List.In i l -> zero_at l v i = 0.
Proof. intros H. unfold zero_at. apply memb_in in H. rewrite H. reflexivity. Qed.
Lemma zero_at_out l v i : ~ List.In i l -> zero_at l v i = v i.
Proof. intros H. unfold zero_at. apply memb_out in H. rewrite H. reflexivity. Qed.

Lemma is_derive_ext_R (f g : R -> R) x d : (forall t, f t = g t) -> is_derive f x d -> is_derive g x d.
Proof. intros H D. apply (is_derive_ext f g x d); [intros t; apply H|exact D]. Qed.

(** Rows of the two stored matrices *)
Lemma row_ess n l A v i : (i < n)%nat -> List.In i l -> mv n (elim_left l A) v i = v i.
Proof.
  intros Hi H. unfold mv. rewrite <- (rsum_delta n v i Hi). apply rsum_ext. intros j _.
  unfold elim_left. apply memb_in in H. rewrite H. cbn [orb].
  rewrite (Nat.eqb_sym i j). destruct (Nat.eqb j i); lra.
Qed.
Lemma row_ess_T n l A v i : (i < n)%nat -> List.In i l -> mvT n (elim_left l A) v i = v i.
Proof.
  intros Hi H. unfold mvT. rewrite <- (rsum_delta n v i Hi). apply rsum_ext. intros j _.
  unfold elim_left. apply memb_in in H. rewrite H, orb_true_r. destruct (Nat.eqb j i); lra.
Qed.
Lemma row_removed n l A v i : List.In i l -> mv n (elim_rows l (elim_removed l A)) v i = 0.
Proof.
  intros H. unfold mv. rewrite (rsum_ext n _ (fun _ => 0)); [apply rsum_0|]. intros j _.
  unfold elim_rows. apply memb_in in H. rewrite H. lra.
Qed.
Lemma row_free n l A v i : ~ List.In i l ->
  mv n (elim_left l A) (zero_at l v) i + mv n (elim_rows l (elim_removed l A)) v i = mv n A v i.
Proof.
  intros H. unfold mv. rewrite <- rsum_plus. apply rsum_ext. intros j _.
  unfold elim_rows, elim_removed, elim_left, zero_at. pose proof (proj2 (memb_out i l) H) as E. rewrite E. cbn [orb].
  destruct (memb j l) eqn:Ej; [|lra].
  destruct (Nat.eqb_spec i j) as [Eq|]; [|lra]. subst. apply memb_in in Ej. contradiction.
Qed.
Lemma row_free_noess n l A v i : ~ List.In i l -> zero_on l v -> mv n (elim_left l A) v i = mv n A v i.
Proof.
  intros H Z. unfold mv. apply rsum_ext. intros j _.
  unfold elim_left. pose proof (proj2 (memb_out i l) H) as E. rewrite E. cbn [orb].
  destruct (memb j l) eqn:Ej; [|reflexivity]. apply memb_in in Ej. rewrite (Z j Ej). lra.
Qed.

(** The product the code computes, in closed form *)
Definition jv (n : nat) (l : list nat) (A : mat) (v : vec) : vec :=
  fun i => mv n (elim_left l A) (zero_at l v) i + mv n (elim_rows l (elim_removed l A)) v i.
Definition vj (n : nat) (l : list nat) (A : mat) (r : vec) : vec :=
  fun i => mvT n (elim_left l A) (zero_at l r) i + mvT n (elim_rows l (elim_removed l A)) r i.

Lemma jv_ess n l A v i : (i < n)%nat -> List.In i l -> jv n l A v i = 0.
Proof. intros Hi H. unfold jv. rewrite row_ess, row_removed, zero_at_in by assumption. lra. Qed.
Lemma jv_free n l A v i : ~ List.In i l -> jv n l A v i = mv n A v i.
Proof. apply row_free. Qed.

Lemma vj_char n l A r j : (j < n)%nat -> vj n l A r j = mvT n A (zero_at l r) j.
Proof.
  intros Hj. unfold vj, mvT. rewrite <- rsum_plus. apply rsum_ext. intros i _.
  unfold elim_rows, elim_removed, elim_left, zero_at. destruct (memb i l) eqn:Ei; cbn [orb]; [lra|].
  destruct (memb j l) eqn:Ej; [|lra]. destruct (Nat.eqb_spec i j) as [Eq|]; [|lra]. subst. congruence.
Qed.
Lemma jv_char n l A v i : (i < n)%nat -> jv n l A v i = zero_at l (mv n A v) i.
Proof.
  intros Hi. destruct (in_dec Nat.eq_dec i l) as [H|H].
  - rewrite jv_ess, zero_at_in by assumption. reflexivity.
  - rewrite jv_free, zero_at_out by assumption. reflexivity.
Qed.
Lemma dot_zero_at n l u v : dot n u (zero_at l v) = dot n (zero_at l u) v.
Proof. unfold dot. apply rsum_ext. intros i _. unfold zero_at. destruct (memb i l); lra. Qed.
Lemma jv_vj n l A v r : dot n r (jv n l A v) = dot n (vj n l A r) v.
Proof.
  rewrite (dot_ext n r r _ (zero_at l (mv n A v)) (veq_refl n r) (fun i Hi => jv_char n l A v i Hi)).
  rewrite dot_zero_at, mv_adj.
  apply dot_ext; [|apply veq_refl]. intros j Hj. symmetry. apply vj_char; exact Hj.
Qed.

Section S.
Variables W In : Type.
Variable P : pieces W In.
Notation n := (size _ _ P).

(** evaluate is the specification *)
Lemma evaluate_spec i f u : state_of _ _ P i = Some u ->
  exists r f1, evaluate _ _ P i f = Done (r, f1)
    /\ world _ f1 = world _ f /\ ess _ f1 = ess _ f /\ jac _ f1 = jac _ f /\ jac_e _ f1 = jac_e _ f /\ jac_t _ f1 = jac_t _ f
    /\ forall k, r k = residual_spec (ess _ f) (bc_field _ _ P (world _ f)) (raw _ _ P (world _ f)) u k.
Proof.
  intros Hu. unfold evaluate. rewrite Hu. unfold residual_spec.
  destruct (ess _ f) as [|a l] eqn:El.
  - eexists _, f. split; [reflexivity|]. rewrite El. split; [reflexivity|]. split; [reflexivity|]. split; [reflexivity|]. split; [reflexivity|]. split; [reflexivity|].
    intros k. reflexivity.
  - destruct (bc_field _ _ P (world _ f)) as [g|].
    + eexists _, _. split; [reflexivity|]. split; [reflexivity|]. split; [reflexivity|]. split; [reflexivity|]. split; [reflexivity|]. split; [reflexivity|].
      intros k. rewrite dec_memb. unfold zero_at. destruct (memb k (a :: l)); reflexivity.
    + eexists _, f. split; [reflexivity|]. rewrite El. split; [reflexivity|]. split; [reflexivity|]. split; [reflexivity|]. split; [reflexivity|]. split; [reflexivity|].
      intros k. rewrite dec_memb. unfold zero_at. reflexivity.
Qed.

(** The derivative of the specified residual *)
Lemma residual_deriv l g F G u v : gradient_of n F G -> (g = None \/ zero_on l v) ->
  deriv_along n (residual_spec l g F) u v (jv n l (G u) v).
Proof.
  intros HG Hv i Hi. destruct (in_dec Nat.eq_dec i l) as [H|H].
  - rewrite jv_ess by assumption.
    apply (is_derive_ext_R (fun _ => residual_spec l g F u i)).
    + intros t. unfold residual_spec. destruct (in_dec Nat.eq_dec i l); [|contradiction].
      destruct g as [b|]; [|reflexivity]. destruct Hv as [Hv|Hv]; [discriminate|]. unfold axpy. rewrite (Hv i H). ring.
    + apply (is_derive_const (residual_spec l g F u i)).
  - rewrite jv_free by exact H. apply (is_derive_ext_R (fun t => F (axpy u t v) i)).
    + intros t. unfold residual_spec. destruct (in_dec Nat.eq_dec i l); [contradiction|reflexivity].
    + apply HG; exact Hi.
Qed.

(** Provenance of the stored matrices over histories *)
Record ghost := { gw : W; ge : list nat; ga : option (W * vec * list nat) }.
Definition gstep (c : call In) (g : ghost) : ghost :=
  match c with
  | CSetInputs i => Build_ghost (push _ _ P i (gw g)) (ge g) (ga g)
  | CSetOptions (Some l) => Build_ghost (gw g) l (ga g)
  | CLinearize i =>
      let w := push _ _ P i (gw g) in
      Build_ghost w (ge g)
        match ga g with
        | Some a => Some a
        | None => match state_of _ _ P i with Some u => Some (w, u, ge g) | None => None end
        end
  | CGetJacobian i =>
      match state_of _ _ P i with
      | Some u => Build_ghost (gw g) (ge g) (Some (gw g, u, ge g))
      | None => g
      end
  | CSolveAdjoint _ i _ _ => Build_ghost (push _ _ P i (gw g)) (ge g) (ga g)
  | _ => g
  end.
Fixpoint gruns (l : list (call In)) (g : ghost) : ghost :=
  match l with [] => g | c :: r => gruns r (gstep c g) end.

Definition left_of (a : W * vec * list nat) : mat :=
  let '(w, u, l) := a in elim_left l (grad _ _ P w u).
Definition removed_of (a : W * vec * list nat) : mat :=
  let '(w, u, l) := a in elim_rows l (elim_removed l (grad _ _ P w u)).
Definition matches (f : nform W) (g : ghost) : Prop :=
  world _ f = gw g /\ ess _ f = ge g
  /\ jac _ f = option_map left_of (ga g) /\ jac_e _ f = option_map removed_of (ga g)
  /\ (jac_t _ f = None \/ exists a, ga g = Some a /\ jac_t _ f = Some (transpose (left_of a))).

Lemma fresh_matches w : matches (fresh W w) (Build_ghost w [] None).
Proof. unfold matches, fresh; cbn. repeat split. left; reflexivity. Qed.

Lemma transpose_matches f g : matches f g ->
  forall T f1, getJacobianTranspose _ f = Done (T, f1) ->
  matches f1 g /\ exists a, ga g = Some a /\ T = transpose (left_of a) /\ jac_t _ f1 = Some T.
Proof.
  intros (H1 & H2 & H3 & H4 & H5) T f1. unfold getJacobianTranspose.
  destruct (jac_t _ f) as [T0|] eqn:Et.
  - intros E. injection E as <- <-. destruct H5 as [H5|(a & Ha & H5)]; [discriminate|]. injection H5 as ->.
    split; [unfold matches; rewrite Et; repeat split; try assumption; right; exists a; split; [exact Ha|reflexivity]|].
    exists a. rewrite Et. repeat split. exact Ha.
  - destruct (jac _ f) as [J|] eqn:EJ; [|discriminate]. intros E. injection E as <- <-.
    destruct (ga g) as [a|] eqn:Ea; [|discriminate]. cbn in H3. injection H3 as H3. subst J.
    split.
    + unfold matches. cbn. rewrite Ea. cbn. repeat split; try assumption. right. exists a. split; reflexivity.
    + exists a. repeat split.
Qed.

Lemma step_matches c f g : matches f g -> matches (after _ _ P c f) (gstep c g).
Proof.
  intros M. pose proof M as (H1 & H2 & H3 & H4 & H5).
  destruct c as [i|o|i|i|i| |b x|lin i b x|v r|w r b]; cbn [after gstep].
  - unfold matches, setInputs; cbn. rewrite H1. repeat split; assumption.
  - destruct o as [l|]; [|exact M]. unfold matches; cbn. repeat split; assumption.
  - destruct (state_of _ _ P i) as [u|] eqn:Eu.
    + destruct (evaluate_spec i f u Eu) as (r & f1 & E & A1 & A2 & A3 & A4 & A5 & _). rewrite E.
      unfold matches. rewrite A1, A2, A3, A4, A5. exact M.
    + unfold evaluate. rewrite Eu. exact M.
  - unfold linearize. cbv zeta. change (jac _ (setInputs _ _ P i f)) with (jac _ f).
    assert (MS : matches (setInputs _ _ P i f) (Build_ghost (push _ _ P i (gw g)) (ge g) (ga g))).
    { unfold matches, setInputs; cbn. rewrite H1. repeat split; assumption. }
    destruct (jac _ f) as [J|] eqn:EJ.
    + destruct (ga g) as [a|] eqn:Ea; [|discriminate].
      destruct (jac_t _ (setInputs _ _ P i f)) as [T|] eqn:Et; [exact MS|].
      destruct (getJacobianTranspose _ (setInputs _ _ P i f)) as [[T f1]|] eqn:EG.
      * apply (proj1 (transpose_matches _ _ MS T f1 EG)).
      * exact MS.
    + destruct (ga g) as [a|] eqn:Ea; [discriminate|]. unfold getJacobian.
      destruct (state_of _ _ P i) as [u|] eqn:Eu; [|exact MS]. cbn [jac_t setInputs world ess].
      unfold getJacobianTranspose; cbn [jac_t jac].
      unfold matches; cbn. rewrite H1, H2. repeat split. right. eexists. split; reflexivity.
  - unfold getJacobian. destruct (state_of _ _ P i) as [u|] eqn:Eu; [|exact M].
    unfold matches; cbn. rewrite H1, H2. repeat split. left; reflexivity.
  - destruct (getJacobianTranspose _ f) as [[T f1]|] eqn:EG; [|exact M].
    apply (proj1 (transpose_matches _ _ M T f1 EG)).
  - unfold setUpAdjointSystem. destruct (getJacobianTranspose _ f) as [[T f1]|] eqn:EG; [|exact M].
    pose proof (proj1 (transpose_matches _ _ M T f1 EG)) as M1.
    destruct (ess _ f1) as [|a l] eqn:Ee; [exact M1|].
    destruct M1 as (A1 & A2 & A3 & A4 & A5). unfold matches; cbn. rewrite <- Ee. repeat split; assumption.
  - assert (MS : matches (setInputs _ _ P i f) (Build_ghost (push _ _ P i (gw g)) (ge g) (ga g))).
    { unfold matches, setInputs; cbn. rewrite H1. repeat split; assumption. }
    unfold solveForAdjoint, setUpAdjointSystem.
    destruct (getJacobianTranspose _ (setInputs _ _ P i f)) as [[T f1]|] eqn:EG; [|exact MS].
    pose proof (proj1 (transpose_matches _ _ MS T f1 EG)) as M1.
    destruct (ess _ f1) as [|a l] eqn:Ee; [exact M1|].
    destruct M1 as (A1 & A2 & A3 & A4 & A5). unfold matches; cbn. rewrite <- Ee. repeat split; assumption.
  - unfold jvp_state. destruct (jac _ f) as [J|] eqn:EJ, (jac_e _ f) as [E|] eqn:EE; cbn;
      try (unfold matches; cbn; rewrite ?EJ, ?EE; repeat split; assumption).
  - unfold vjp. destruct (String.eqb w "state").
    + unfold vjp_state. destruct (jac _ f) as [J|] eqn:EJ, (jac_e _ f) as [E|] eqn:EE; cbn;
        try (unfold matches; cbn; rewrite ?EJ, ?EE; repeat split; assumption).
    + unfold vjp_field. destruct (sens _ _ P w) as [s|]; cbn; [|exact M].
      unfold matches; cbn. repeat split; assumption.
Qed.

Lemma runs_matches l : forall f g, matches f g -> matches (runs _ _ P l f) (gruns l g).
Proof. induction l as [|c l IH]; intros f g M; [exact M|]. cbn. apply IH, step_matches, M. Qed.

(** The products in closed form for a form that matches a ghost *)
Lemma jvp_matches f g w u l v r : matches f g -> ga g = Some (w, u, l) -> ge g = l ->
  exists d f1, jvp_state _ _ P v r f = Done (d, f1) /\ veq n d (vadd r (jv n l (grad _ _ P w u) v)).
Proof.
  intros (H1 & H2 & H3 & H4 & H5) Ea El. rewrite Ea in H3, H4. cbn in H3, H4.
  unfold jvp_state. rewrite H3, H4, H2, El. eexists _, _. split; [reflexivity|].
  intros i Hi. unfold vadd, jv. lra.
Qed.
Lemma vjp_matches f g w u l r b : matches f g -> ga g = Some (w, u, l) -> ge g = l ->
  exists d f1, vjp_state _ _ P r b f = Done (d, f1) /\ veq n d (vadd b (vj n l (grad _ _ P w u) r)).
Proof.
  intros (H1 & H2 & H3 & H4 & H5) Ea El. rewrite Ea in H3, H4. cbn in H3, H4.
  unfold vjp_state. rewrite H3, H4, H2, El. eexists _, _. split; [reflexivity|].
  intros i Hi. unfold vadd, vj. lra.
Qed.

(** The adjoint solve in closed form *)
Lemma adjoint_matches lin i b x f g w u l : matches f g -> ga g = Some (w, u, l) -> ge g = l ->
  let A := grad _ _ P w u in
  (forall T c y k, (k < n)%nat -> mv n T (lin T c y) k = c k) ->
  exists psi f1, solveForAdjoint _ _ P lin i b x f = Done (psi, f1)
    /\ world _ f1 = push _ _ P i (world _ f) /\ ess _ f1 = l
    /\ (forall k, (k < n)%nat -> List.In k l -> psi k = 0)
    /\ (forall k, (k < n)%nat -> ~ List.In k l -> mvT n A psi k = b k).
Proof.
  intros M Ea El A Hlin.
  assert (MS : matches (setInputs _ _ P i f) (Build_ghost (push _ _ P i (gw g)) (ge g) (ga g))).
  { destruct M as (H1 & H2 & H3 & H4 & H5). unfold matches, setInputs; cbn. rewrite H1. repeat split; assumption. }
  unfold solveForAdjoint, setUpAdjointSystem.
  destruct (getJacobianTranspose _ (setInputs _ _ P i f)) as [[T f1]|] eqn:EG.
  2:{ exfalso. unfold getJacobianTranspose in EG. destruct (jac_t _ _); [discriminate|].
      destruct MS as (_ & _ & H3 & _). cbn in H3. rewrite Ea in H3. cbn in H3. cbn in EG. rewrite H3 in EG. discriminate. }
  destruct (transpose_matches _ _ MS T f1 EG) as (M1 & a & Ha & HT & _). cbn in Ha. rewrite Ea in Ha. injection Ha as <-.
  cbn in HT. fold A in HT.
  assert (Ew : world _ f1 = push _ _ P i (world _ f)).
  { destruct M1 as (A1 & _). cbn in A1. rewrite A1. destruct M as (H1 & _). rewrite H1. reflexivity. }
  assert (Ee : ess _ f1 = l) by (destruct M1 as (_ & A2 & _); cbn in A2; rewrite A2; exact El).
  assert (Main : forall c y, (forall k, List.In k l -> c k = 0) -> (forall k, ~ List.In k l -> c k = b k) ->
    (forall k, (k < n)%nat -> List.In k l -> lin T c y k = 0) /\
    (forall k, (k < n)%nat -> ~ List.In k l -> mvT n A (lin T c y) k = b k)).
  { intros c y C0 C1.
    assert (Z : forall k, (k < n)%nat -> List.In k l -> lin T c y k = 0).
    { intros k Hk Hin. pose proof (Hlin T c y k Hk) as E. rewrite (C0 k Hin) in E. rewrite <- E.
      rewrite HT. symmetry. exact (row_ess_T n l A (lin (transpose (elim_left l A)) c y) k Hk Hin). }
    split; [exact Z|]. intros k Hk Hout. rewrite <- (C1 k Hout), <- (Hlin T c y k Hk).
    set (ps := lin T c y) in *. rewrite HT. unfold mv, mvT, transpose. apply rsum_ext. intros j Hj.
    unfold elim_left. pose proof (proj2 (memb_out k l) Hout) as Ek. rewrite Ek, orb_false_r.
    destruct (memb j l) eqn:Ej; [|reflexivity]. apply memb_in in Ej. rewrite (Z j Hj Ej). ring. }
  rewrite Ee. destruct l as [|q l'].
  - eexists _, f1. split; [reflexivity|]. split; [exact Ew|]. split; [exact Ee|].
    apply Main; [intros k []|reflexivity].
  - eexists _, _. split; [reflexivity|]. cbn. split; [exact Ew|]. split; [reflexivity|].
    apply Main; intros k Hk; [apply zero_at_in|apply zero_at_out]; exact Hk.
Qed.
End S.
