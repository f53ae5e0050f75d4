(** Lemmas about valid meshes, histories of warps and the warper's sensitivities. *)
From Coq Require Import Reals Lra Lia List String Bool Arith.
From Coquelicot Require Import Coquelicot.
From Verif Require Import Num Vec Deriv Form FormSpec FormProofs Warp WarpSpec WarpProofs WarpSolveProofs.
Import ListNotations.
Local Open Scope R_scope.

Lemma set_at_out l : forall vals v i, ~ List.In i l -> set_at l vals v i = v i.
Proof.
  induction l as [|k l IH]; intros vals v i H; [reflexivity|]. simpl. rewrite IH by (intros C; apply H; now right).
  destruct (Nat.eqb_spec i k) as [->|]; [|reflexivity]. exfalso. apply H. now left.
Qed.
Lemma set_at_nth l : forall vals v k, NoDup l -> (k < List.length l)%nat -> set_at l vals v (nth k l 0%nat) = vals k.
Proof.
  induction l as [|a l IH]; intros vals v k ND Hk; [simpl in Hk; lia|]. inversion ND; subst. destruct k; simpl.
  - rewrite set_at_out by auto. now rewrite Nat.eqb_refl.
  - simpl in Hk. now rewrite IH by (auto; lia).
Qed.
Lemma set_at_in l vals v i : NoDup l -> List.In i l -> exists k, (k < List.length l)%nat /\ nth k l 0%nat = i /\ set_at l vals v i = vals k.
Proof. intros ND Hi. destruct (In_nth l i 0%nat Hi) as [k [Hk E]]. exists k. repeat split; auto. rewrite <- E. now apply set_at_nth. Qed.

Section S.
Variable M : wmesh.
Notation D := (dim M).
Notation N := (n M).
Notation S := (surface_indices M).
Hypothesis SS : same_space M.

Lemma surf_nodup : NoDup S.
Proof. apply NoDup_filter, seq_NoDup. Qed.
Lemma surf_lt i : List.In i S -> (i < N)%nat.
Proof. intros H. apply filter_In in H. destruct H as [H _]. apply in_seq in H. lia. Qed.
Lemma det_ext d J J' : (1 <= d <= 3)%nat -> (forall a b, (a < d)%nat -> (b < d)%nat -> J a b = J' a b) -> det d J = det d J'.
Proof.
  intros Hd H. destruct d as [|[|[|[|?]]]]; try lia; cbv [det rsum cyc].
  - apply H; lia.
  - rewrite !H by lia. reflexivity.
  - rewrite !H by lia. reflexivity.
Qed.
Lemma wq_volume X m q : valid_mesh M X -> (m < ne M)%nat -> (q < nq (el M m))%nat -> wq M X (el M m) q = volume M X m q.
Proof.
  intros [HD _] Hm Hq. unfold wq, volume. f_equal. apply det_ext; auto. intros a b _ Hb. now apply Jac_map.
Qed.
Lemma valid_nondeg X : valid_mesh M X -> nondegenerate M X.
Proof.
  intros [HD H]. split; [assumption|]. intros m q Hm Hq. destruct (H m q Hm Hq) as [_ P].
  rewrite (det_ext D _ (map_grad X (el M m) q)); [lra|assumption|]. intros a b _ Hb. now apply Jac_map.
Qed.
Lemma valid_wq X : valid_mesh M X -> forall m q, (m < ne M)%nat -> (q < nq (el M m))%nat -> 0 <= wq M X (el M m) q.
Proof.
  intros V m q Hm Hq. rewrite wq_volume by auto. destruct V as [_ H]. destruct (H m q Hm Hq). unfold volume. apply Rmult_le_pos; lra.
Qed.
Lemma equil_volume X E u : valid_mesh M X -> free_zero M X E u -> in_equilibrium M X (volume M X) E u.
Proof.
  intros V H u' G G' H1 H2 H3.
  pose proof (equilibrium M SS X E u (valid_nondeg X V) (valid_wq X V) H u' G G' H1 H2 H3) as K.
  unfold elastic_energy in *.
  assert (forall F, rsum (ne M) (fun m => rsum (nq (el M m)) (fun q => volume M X m q * F m q)) = rsum (ne M) (fun m => rsum (nq (el M m)) (fun q => wq M X (el M m) q * F m q))) as Q.
  { intros F. apply rsum_ext; intros m Hm; apply rsum_ext; intros q Hq. now rewrite wq_volume. }
  rewrite (Q (fun m q => _ + _)), (Q (fun m q => 1 / 2 * rsum D (fun c => G' m q c c) ^ 2 + rsum D (fun c => rsum D (fun a => ((G' m q c a + G' m q a c) / 2) ^ 2)))). exact K.
Qed.

(** the form's state that solves and linearizations leave behind *)
Definition clean (X : coords) (E : list nat) (f : nform coords) : Prop :=
  world _ f = X /\ ess _ f = E /\
  (forall J, jac _ f = Some J -> J = sys M X E /\ jac_e _ f = Some (elim_rows E (elim_removed E (stiff M X (fun _ => 0))))) /\
  (forall T, jac_t _ f = Some T -> T = transpose (sys M X E) /\ exists J, jac _ f = Some J).
Lemma clean_construct X : clean X (match on_ess M with None => [] | Some b => dofs_of M b end) (construct M X).
Proof. unfold construct, clean. destruct (on_ess M); cbn; repeat split; intros; discriminate. Qed.
Lemma clean_jac X E f x J f1 : clean X E f -> getJacobian _ _ (warp_pieces M) (only_state x) f = Done (J, f1) -> J = sys M X E /\ clean X E f1.
Proof.
  intros [H1 [H2 [H3 H4]]] H. rewrite jac_state, H1, H2 in H. injection H as <- <-. split; [reflexivity|].
  unfold clean. cbn. split; [reflexivity|]. split; [reflexivity|]. split.
  - intros J E0. injection E0 as <-. auto.
  - intros; discriminate.
Qed.
Lemma clean_newton_loop lin goal X E : forall rem it x r f res, clean X E f -> newton_loop M lin goal rem it x r f = WOk res -> clean X E (nformr res).
Proof.
  induction rem as [|rem IH]; intros it x r f res C H; cbn [newton_loop] in H.
  - destruct (Rleb _ _); injection H as <-; exact C.
  - destruct (Rleb _ _); [injection H as <-; exact C|].
    destruct (getJacobian _ _ (warp_pieces M) (only_state x) f) as [[J f1]|] eqn:GJ; [|discriminate].
    cbn [of_outcome wbind] in H. destruct (clean_jac X E f x J f1 C GJ) as [_ C1].
    rewrite eval_state in H by auto. cbn [wbind] in H. now apply (IH _ _ _ _ _ C1) in H.
Qed.
Lemma clean_push X E f i : clean X E f -> in_mesh i = None -> clean X E (setInputs _ _ (warp_pieces M) i f).
Proof. intros [H1 H2] Hi. unfold clean, setInputs. cbn. rewrite Hi. auto. Qed.
Lemma clean_solve lin o i X E x f r : clean X E f -> in_mesh i = None -> solveForState M lin o i x f = WOk r -> clean X E (nformr r).
Proof.
  intros C Hi H. unfold solveForState, newton in H. rewrite eval_state in H by auto. cbn [wbind] in H.
  eapply clean_newton_loop; [|apply H]. now apply clean_push.
Qed.
Lemma solve_cases lin o i X E x f : clean X E f -> in_mesh i = None -> solves N lin (sys M X E) -> 0 <= abs_tol o ->
  exists r, solveForState M lin o i x f = WOk r /\ clean X E (nformr r) /\ solve_case M lin o x X E r.
Proof.
  intros C Hi L Ha. pose proof (clean_push X E f i C Hi) as [C1 [C2 _]].
  destruct (newton_case M SS lin o x (setInputs _ _ (warp_pieces M) i f)) as [r [H [_ [_ H3]]]]; [now rewrite C1, C2|assumption|].
  exists r. split; [exact H|]. split; [eapply clean_solve; eauto|]. now rewrite C1, C2 in H3.
Qed.

(** one warp by the OpenMDAO component, surface = all essential dofs *)
Lemma py_warp lin o X s vol f : clean X S f -> solves N lin (sys M X S) -> (0 < max_iter o)%nat -> abs_tol o = 0 -> rel_tol o < 1 ->
  exists v f1, py_solve M lin o s vol f = WOk (v, f1) /\ clean X S f1 /\ free_zero M X S v /\ (forall k, (k < ns M)%nat -> v (nth k S 0%nat) = s k).
Proof.
  intros C L Hm Ha Hr. unfold py_solve.
  destruct (solve_cases lin o (Build_winputs None None None) X S (set_at S s vol) f C eq_refl L) as [r [H [C1 K]]]; [lra|].
  rewrite H. cbn [wbind]. exists (nx r), (nformr r). split; [reflexivity|]. split; [assumption|].
  destruct (case_exact M SS lin o _ X S r L Hm Ha Hr K) as [F [Q _]]. split; [assumption|].
  intros k Hk. assert (List.In (nth k S 0%nat) S) as I by (apply nth_In; exact Hk).
  rewrite Q by (auto using surf_lt). apply set_at_nth; [apply surf_nodup|exact Hk].
Qed.
Lemma py_run lin o X : solves N lin (sys M X S) -> (0 < max_iter o)%nat -> abs_tol o = 0 -> rel_tol o < 1 ->
  forall l s vol f, clean X S f ->
  exists v f1, py_history M lin o (l ++ [s]) vol f = WOk (v, f1) /\ clean X S f1 /\ free_zero M X S v /\ (forall k, (k < ns M)%nat -> v (nth k S 0%nat) = s k).
Proof.
  intros L Hm Ha Hr. induction l as [|s0 l IH]; intros s vol f C; cbn [py_history app].
  - destruct (py_warp lin o X s vol f C L Hm Ha Hr) as [v [f1 [H [C1 [F Q]]]]]. rewrite H. cbn [wbind]. exists v, f1. auto.
  - destruct (py_warp lin o X s0 vol f C L Hm Ha Hr) as [v [f1 [H [C1 [F Q]]]]]. rewrite H. cbn [wbind]. now apply IH.
Qed.
Lemma surf_agree (u w s : vec) : (forall k, (k < ns M)%nat -> u (nth k S 0%nat) = s k) -> (forall k, (k < ns M)%nat -> w (nth k S 0%nat) = s k) ->
  forall i, List.In i S -> u i = w i.
Proof. intros H H' i Hi. destruct (In_nth S i 0%nat Hi) as [k [Hk <-]]. now rewrite H, H'. Qed.

(** the matrix of the linear systems is positive definite *)
Lemma sys_quad X E v : dot N v (mv N (sys M X E) v) =
  rsum N (fun i => if memb i E then v i * v i else 0) + form M X (zero_at E v) (zero_at E v).
Proof.
  rewrite <- (kvec_pair M SS). unfold dot. rewrite <- rsum_plus. apply rsum_ext. intros i Hi.
  destruct (memb i E) eqn:B.
  - apply memb_in in B. rewrite sys_ess by auto. rewrite (zero_at_in E v i B). ring.
  - apply memb_out in B. rewrite (zero_at_out E v i B). rewrite Rplus_0_l. f_equal.
    rewrite <- (sys_free M SS X E (zero_at E v) i Hi B); [|intros j Hj; now apply zero_at_in].
    unfold mv. apply rsum_ext. intros j Hj. unfold zero_at. destruct (memb j E) eqn:Bj; [|reflexivity].
    unfold sys, elim_left. rewrite Bj, orb_true_r. destruct (Nat.eqb_spec i j) as [->|]; [|ring].
    apply memb_in in Bj. contradiction.
Qed.
Lemma form_null X v w : valid_mesh M X -> form M X v v = 0 -> form M X w v = 0.
Proof.
  intros V H. assert (forall t, 0 <= form M X w w + 2 * t * form M X w v) as K.
  { intros t. pose proof (form_pos M X (fun j => w j + t * v j) (valid_wq X V)) as P.
    rewrite (form_lin_l M SS), !(form_lin_r M SS), H, (form_sym M X v w) in P. lra. }
  destruct (Req_dec (form M X w v) 0) as [|Ne]; [assumption|exfalso].
  specialize (K (- (form M X w w + 1) / (2 * form M X w v))).
  replace (2 * (- (form M X w w + 1) / (2 * form M X w v)) * form M X w v) with (- (form M X w w + 1)) in K by (field; assumption). lra.
Qed.
Lemma sys_pd lin X E v : valid_mesh M X -> solves N lin (sys M X E) -> (exists i, (i < N)%nat /\ v i <> 0) -> 0 < dot N v (mv N (sys M X E) v).
Proof.
  intros V L [i0 [Hi0 Hv]].
  assert (0 <= rsum N (fun i => if memb i E then v i * v i else 0)) as P1 by (apply rsum_nonneg; intros; destruct (memb _ _); [apply Rle_0_sqr|lra]).
  pose proof (form_pos M X (zero_at E v) (valid_wq X V)) as P2.
  destruct (Req_dec (dot N v (mv N (sys M X E) v)) 0) as [Z|Z]; [|rewrite sys_quad in *; lra].
  exfalso. apply Hv. revert i0 Hi0 Hv. rewrite sys_quad in Z.
  assert (form M X (zero_at E v) (zero_at E v) = 0) as Z2 by lra.
  assert (rsum N (fun i => if memb i E then v i * v i else 0) = 0) as Z1 by lra.
  assert (forall i, (i < N)%nat -> List.In i E -> v i = 0) as VE.
  { intros i Hi HE. pose proof (rsum_nonneg_zero N (fun i => if memb i E then v i * v i else 0)) as Q.
    specialize (Q ltac:(intros; cbv beta; destruct (memb _ _); [apply Rle_0_sqr|lra]) Z1 i Hi). cbv beta in Q.
    rewrite (proj2 (memb_in i E) HE) in Q. destruct (Rmult_integral _ _ Q); assumption. }
  intros i Hi _. revert i Hi. apply (sys_inj M lin X E v L).
  intros i Hi. destruct (in_dec Nat.eq_dec i E) as [I|I]; [rewrite sys_ess by auto; now apply VE|].
  assert (mv N (sys M X E) v i = mv N (sys M X E) (zero_at E v) i) as ->.
  { unfold mv. apply rsum_ext. intros j Hj. unfold zero_at. destruct (memb j E) eqn:B; [|reflexivity]. apply memb_in in B. now rewrite (VE j Hj B). }
  rewrite (sys_free M SS) by (auto; intros j Hj; now apply zero_at_in).
  pose proof (form_null X (zero_at E v) (fun j => if Nat.eqb j i then 1 else 0) V Z2) as K. rewrite <- (kvec_pair M SS) in K. unfold dot in K.
  rewrite (rsum_ext N _ (fun j => if Nat.eqb j i then kvec M X (zero_at E v) j else 0)) in K by (intros; destruct (Nat.eqb _ _); ring).
  rewrite <- K. symmetry. exact (rsum_delta N (fun j => kvec M X (zero_at E v) j) i Hi).
Qed.

(** residual with a given surface *)
Lemma calc_surf X E f u s : clean X E f -> w_calcResidual M (Build_winputs (Some u) (Some s) None) f =
  WOk (set_at S (fun k => u (nth k S 0%nat) - s k) (zero_at E (raw_res M X u)), setInputs _ _ (warp_pieces M) (Build_winputs (Some u) (Some s) None) f).
Proof.
  intros [H1 [H2 _]]. unfold w_calcResidual, w_evaluate. rewrite points_fine by auto. unfold evaluate. cbn. rewrite H2, H1. destruct E; reflexivity.
Qed.
Lemma range_ok : forallb (fun k => Nat.ltb k N) S = true.
Proof. apply forallb_forall. intros i Hi. apply Nat.ltb_lt. now apply surf_lt. Qed.
Lemma sum_at k (v : vec) : (k < ns M)%nat -> rsum (ns M) (fun k' => if Nat.eqb (nth k S 0%nat) (nth k' S 0%nat) then v k' else 0) = v k.
Proof.
  intros Hk. rewrite (rsum_ext (ns M) _ (fun k' => if Nat.eqb k' k then v k' else 0)); [exact (rsum_delta (ns M) v k Hk)|].
  intros k' Hk'. destruct (Nat.eqb_spec k' k) as [->|Ne]; [now rewrite Nat.eqb_refl|].
  destruct (Nat.eqb_spec (nth k S 0%nat) (nth k' S 0%nat)) as [Q|]; [|reflexivity].
  exfalso. apply Ne. symmetry. revert Q. apply (proj1 (NoDup_nth S 0%nat) surf_nodup); assumption.
Qed.
Lemma sum_out i (v : vec) : ~ List.In i S -> rsum (ns M) (fun k' => if Nat.eqb i (nth k' S 0%nat) then v k' else 0) = 0.
Proof.
  intros Hi. rewrite (rsum_ext (ns M) _ (fun _ => 0)); [apply rsum_0|]. intros k Hk. destruct (Nat.eqb_spec i (nth k S 0%nat)) as [->|]; [|reflexivity].
  exfalso. apply Hi. now apply nth_In.
Qed.

(** linearize and the adjoint solve *)
Lemma clean_linearize X E f i f1 : clean X E f -> in_mesh i = None -> w_linearize M i f = WOk f1 ->
  clean X E f1 /\ jac _ f1 = Some (sys M X E) /\ jac_e _ f1 = Some (elim_rows E (elim_removed E (stiff M X (fun _ => 0)))) /\ jac_t _ f1 = Some (transpose (sys M X E)).
Proof.
  intros C Hi H. unfold w_linearize, linearize in H.
  pose proof (clean_push X E f i C Hi) as C0. set (f0 := setInputs _ _ (warp_pieces M) i f) in *.
  assert (forall g J, clean X E g -> jac _ g = Some J ->
    of_outcome (match jac_t _ g with
      | None => match getJacobianTranspose _ g with Done (_, f3) => Done f3 | Thrown => Thrown end
      | Some _ => Done g end) = WOk f1 ->
    clean X E f1 /\ jac _ f1 = Some (sys M X E) /\ jac_e _ f1 = Some (elim_rows E (elim_removed E (stiff M X (fun _ => 0)))) /\ jac_t _ f1 = Some (transpose (sys M X E))) as K.
  { intros g J Cg HJ HK. pose proof Cg as [G1 [G2 [G3 G4]]]. destruct (G3 J HJ) as [-> JE]. destruct (jac_t _ g) as [T|] eqn:HT.
    - injection HK as <-. destruct (G4 T eq_refl) as [-> _]. split; [exact Cg|]. auto.
    - unfold getJacobianTranspose in HK. rewrite HT, HJ in HK. injection HK as <-. unfold clean. cbn.
      split; [|auto]. split; [assumption|]. split; [assumption|]. split.
      + intros J0 E0. injection E0 as <-. auto.
      + intros T0 E0. injection E0 as <-. split; [reflexivity|now exists (sys M X E)]. }
  destruct (jac _ f0) as [J|] eqn:HJ.
  - exact (K f0 J C0 HJ H).
  - destruct (getJacobian _ _ (warp_pieces M) i f0) as [[J f2]|] eqn:GJ; [|discriminate].
    assert (clean X E f2 /\ exists J, jac _ f2 = Some J) as [C2 [J2 HJ2]].
    { unfold getJacobian in GJ. destruct (state_of _ _ (warp_pieces M) i); [|discriminate]. destruct C0 as [A1 [A2 _]]. rewrite A1, A2 in GJ. injection GJ as <- <-.
      split; [|now eexists]. unfold clean. cbn. split; [reflexivity|]. split; [reflexivity|]. split.
      - intros J E0. injection E0 as <-. split; reflexivity.
      - intros; discriminate. }
    exact (K f2 J2 C2 HJ2 H).
Qed.

Lemma clean_same X E f g : clean X E f -> world _ g = world _ f -> ess _ g = ess _ f -> jac _ g = jac _ f -> jac_e _ g = jac_e _ f -> jac_t _ g = jac_t _ f -> clean X E g.
Proof. intros [H1 [H2 [H3 H4]]] A B C0 D0 E0. unfold clean. rewrite A, B, C0, D0, E0. auto. Qed.
Lemma clean_transpose X E f T f1 : clean X E f -> getJacobianTranspose _ f = Done (T, f1) -> clean X E f1 /\ T = transpose (sys M X E).
Proof.
  intros C H. pose proof C as [H1 [H2 [H3 H4]]]. unfold getJacobianTranspose in H. destruct (jac_t _ f) as [T0|] eqn:HT.
  - injection H as <- <-. split; [exact C|]. now destruct (H4 T0 eq_refl).
  - destruct (jac _ f) as [J|] eqn:HJ; [|discriminate]. injection H as <- <-. destruct (H3 J eq_refl) as [-> JE]. split; [|reflexivity].
    unfold clean. cbn. split; [assumption|]. split; [assumption|]. split.
    + intros J0 E0. injection E0 as <-. auto.
    + intros T0 E0. injection E0 as <-. split; [reflexivity|now exists (sys M X E)].
Qed.
Lemma clean_adjoint X E lin i b x f v f1 : clean X E f -> in_mesh i = None -> w_solveForAdjoint M lin i b x f = WOk (v, f1) ->
  clean X E f1 /\ v = lin (transpose (sys M X E)) (match E with [] => b | _ => zero_at E b end) (match E with [] => x | _ => zero_at E x end).
Proof.
  intros C Hi H. unfold w_solveForAdjoint, solveForAdjoint, setUpAdjointSystem in H.
  pose proof (clean_push X E f i C Hi) as C0. set (f0 := setInputs _ _ (warp_pieces M) i f) in *.
  destruct (getJacobianTranspose _ f0) as [[T g]|] eqn:GT; [|discriminate].
  destruct (clean_transpose X E f0 T g C0 GT) as [Cg ->]. pose proof Cg as [_ [G2 _]]. rewrite G2 in H.
  destruct E as [|e E']; cbn [of_outcome] in H; injection H as <- <-; (split; [|reflexivity]); [exact Cg|].
  eapply clean_same; [exact Cg|..]; try reflexivity. now rewrite G2.
Qed.
Lemma clean_calc X E i f v f1 : clean X E f -> in_mesh i = None -> w_calcResidual M i f = WOk (v, f1) -> clean X E f1.
Proof.
  intros C Hi H. unfold w_calcResidual, w_evaluate in H. rewrite points_fine in H by auto.
  pose proof (clean_push X E f i C Hi) as C0. set (f0 := setInputs _ _ (warp_pieces M) i f) in *.
  unfold evaluate in H. destruct (state_of _ _ (warp_pieces M) i); [|discriminate]. cbn [bc_field warp_pieces] in H.
  destruct (ess _ f0); cbn [of_outcome wbind] in H; destruct (in_surf i), (in_state i); injection H as <- <-; exact C0.
Qed.
Lemma clean_jvp X E wrt nw w nr r f v f1 : clean X E f -> w_jvp M wrt nw w nr r f = WOk (v, f1) -> clean X E f1.
Proof.
  intros C H. unfold w_jvp in H. destruct (String.eqb _ _).
  - destruct (_ && _); [|discriminate]. injection H as <- <-. exact C.
  - destruct (String.eqb _ _); [|injection H as <- <-; exact C]. unfold jvp_state in H. destruct (jac _ f) as [J|] eqn:HJ; [|discriminate].
    destruct (jac_e _ f) as [Je|] eqn:HE; [|discriminate]. injection H as <- <-. eapply clean_same; [exact C|..]; cbn; auto.
Qed.
Lemma clean_vjp X E wrt nw w nr r f v f1 : clean X E f -> w_vjp M wrt nr r nw w f = WOk (v, f1) -> clean X E f1.
Proof.
  intros C H. unfold w_vjp in H. destruct (String.eqb _ _).
  - destruct (_ && _); [|discriminate]. injection H as <- <-. exact C.
  - unfold vjp in H. destruct (String.eqb _ _).
    + unfold vjp_state in H. destruct (jac _ f) as [J|] eqn:HJ; [|discriminate].
      destruct (jac_e _ f) as [Je|] eqn:HE; [|discriminate]. injection H as <- <-. eapply clean_same; [exact C|..]; cbn; auto.
    + cbn in H. injection H as <- <-. exact C.
Qed.
Lemma session_clean X f : session M X f -> clean X (essential M) f.
Proof.
  induction 1.
  - apply clean_construct.
  - eapply clean_solve; eauto.
  - eapply clean_calc; eauto.
  - eapply clean_linearize; eauto.
  - eapply clean_jvp; eauto.
  - eapply clean_vjp; eauto.
  - eapply clean_adjoint; eauto.
Qed.
End S.
