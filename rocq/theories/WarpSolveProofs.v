(** Lemmas about the warper's Newton solve, affine surfaces and sensitivities. *)
From Coq Require Import Reals Lra Lia List String Bool Arith.
From Verif Require Import Num Vec Form FormSpec FormProofs Warp WarpSpec WarpProofs.
Import ListNotations.
Local Open Scope R_scope.

Section S.
Variable M : wmesh.
Notation D := (dim M).
Notation N := (n M).
Hypothesis SS : same_space M.

Lemma points_fine : points_ok M = true.
Proof.
  unfold points_ok. apply forallb_forall. intros m Hm. apply in_seq in Hm. apply Nat.leb_le.
  destruct SS as [_ H]. destruct (H m ltac:(lia)) as [_ [-> _]]. lia.
Qed.
Definition sys (X : coords) (E : list nat) : mat := elim_left E (stiff M X (fun _ => 0)).
Lemma eval_state x f : w_evaluate M (only_state x) f = WOk (zero_at (ess _ f) (raw_res M (world _ f) x), f).
Proof.
  unfold w_evaluate. rewrite points_fine. unfold evaluate. simpl. destruct f as [X E j je jt s]. simpl. destruct E; reflexivity.
Qed.
Lemma jac_state x f : getJacobian _ _ (warp_pieces M) (only_state x) f =
  Done (sys (world _ f) (ess _ f), Build_nform _ (world _ f) (ess _ f) (Some (sys (world _ f) (ess _ f)))
     (Some (elim_rows (ess _ f) (elim_removed (ess _ f) (stiff M (world _ f) (fun _ => 0))))) None (scratch _ f)).
Proof. reflexivity. Qed.

Lemma elmat_sym X e p p' : elmat M X e p p' = elmat M X e p' p.
Proof.
  unfold elmat. cbv zeta. apply rsum_ext. intros q _. rewrite (Nat.eqb_sym (p' / nd e)). 
  rewrite (rsum_ext D (fun a => gsh M X e q (p' mod nd e) a * gsh M X e q (p mod nd e) a) (fun a => gsh M X e q (p mod nd e) a * gsh M X e q (p' mod nd e) a)) by (intros; ring).
  destruct (Nat.eqb (p / nd e) (p' / nd e)); ring.
Qed.
Lemma stiff_sym X u i j : stiff M X u i j = stiff M X u j i.
Proof.
  unfold stiff. cbv zeta. apply rsum_ext; intros m _. rewrite rsum_swap. apply rsum_ext; intros p _. apply rsum_ext; intros p' _.
  rewrite elmat_sym. destruct (Nat.eqb i _), (Nat.eqb j _); reflexivity.
Qed.
Lemma elim_sym E A i j : (forall i j, A i j = A j i) -> elim_left E A i j = elim_left E A j i.
Proof. intros H. unfold elim_left. rewrite (Nat.eqb_sym j i), (orb_comm (memb j E)), (H j i). reflexivity. Qed.
Lemma sys_sym X E i j : sys X E i j = sys X E j i.
Proof. apply elim_sym. intros. apply stiff_sym. Qed.

Lemma sys_free X E v i : (i < N)%nat -> ~ List.In i E -> zero_on E v -> mv N (sys X E) v i = kvec M X v i.
Proof. intros Hi HE Hv. unfold sys. rewrite row_free_noess by auto. now apply stiff_mv. Qed.
Lemma sys_ess X E v i : (i < N)%nat -> List.In i E -> mv N (sys X E) v i = v i.
Proof. intros. unfold sys. now apply row_ess. Qed.

(** a solvable symmetric system has one solution *)
Lemma sys_inj lin X E v : solves N lin (sys X E) -> (forall i, (i < N)%nat -> mv N (sys X E) v i = 0) -> forall i, (i < N)%nat -> v i = 0.
Proof.
  intros L H. set (c := lin (sys X E) v).
  assert (dot N v v = 0) as Z.
  { transitivity (dot N v (mv N (sys X E) c)); [apply dot_ext; [intros i _; reflexivity|intros i Hi; symmetry; apply L; auto]|].
    rewrite mv_adj. unfold dot. rewrite (rsum_ext N _ (fun _ => 0)); [apply rsum_0|]. intros i Hi.
    replace (mvT N (sys X E) v i) with (mv N (sys X E) v i); [rewrite H by auto; ring|].
    unfold mv, mvT. apply rsum_ext. intros j _. now rewrite sys_sym. }
  intros i Hi. pose proof (rsum_nonneg_zero N (fun i => v i * v i) (fun i _ => Rle_0_sqr (v i)) Z i Hi) as K. cbv beta in K.
  destruct (Rmult_integral _ _ K); assumption.
Qed.
Definition free_zero (X : coords) (E : list nat) (u : vec) : Prop := forall i, (i < N)%nat -> ~ List.In i E -> raw_res M X u i = 0.
Lemma raw_diff X u u' i : raw_res M X u i - raw_res M X u' i = kvec M X (fun j => u j - u' j) i.
Proof.
  rewrite !(raw_kvec M SS).
  assert (kvec M X (fun j => u j - undeformed M X j) i = kvec M X (fun j => (u' j - undeformed M X j) + 1 * (u j - u' j)) i) as ->
    by (apply kvec_ext; [assumption|]; intros j _; ring).
  rewrite kvec_lin. ring.
Qed.
Lemma equil_unique lin X E u u' : solves N lin (sys X E) -> free_zero X E u -> free_zero X E u' ->
  (forall i, List.In i E -> u i = u' i) -> forall i, (i < N)%nat -> u i = u' i.
Proof.
  intros L H H' HE. assert (forall i, (i < N)%nat -> (fun j => u j - u' j) i = 0) as K.
  { apply (sys_inj lin X E); [assumption|]. intros i Hi. destruct (in_dec Nat.eq_dec i E) as [I|I].
    - rewrite sys_ess by auto. rewrite HE by auto. ring.
    - rewrite sys_free; auto; [|intros j Hj; rewrite HE by auto; ring]. rewrite <- raw_diff, H, H' by auto. ring. }
  intros i Hi. specialize (K i Hi). cbv beta in K. lra.
Qed.

(** one Newton step *)
Definition residual (X : coords) (E : list nat) (x : vec) : vec := zero_at E (raw_res M X x).
Definition stepped (lin : mat -> vec -> vec) (X : coords) (E : list nat) (x : vec) : vec :=
  axpy x (-1) (lin (sys X E) (residual X E x)).
Lemma step_surface lin X E x : solves N lin (sys X E) -> forall i, (i < N)%nat -> List.In i E -> stepped lin X E x i = x i.
Proof.
  intros L i Hi HE. unfold stepped, axpy. rewrite <- (sys_ess X E (lin (sys X E) (residual X E x)) i Hi HE), L by auto.
  unfold residual. rewrite zero_at_in by auto. ring.
Qed.
Lemma step_zero lin X E x : solves N lin (sys X E) -> free_zero X E (stepped lin X E x).
Proof.
  intros L i Hi HE. set (c := lin (sys X E) (residual X E x)).
  assert (raw_res M X (stepped lin X E x) i = raw_res M X x i - kvec M X c i) as ->.
  { pose proof (raw_diff X (stepped lin X E x) x i) as K.
    assert (kvec M X (fun j => stepped lin X E x j - x j) i = kvec M X (fun j => 0 + (-1) * c j) i) as K1.
    { apply kvec_ext; auto. intros j _. unfold stepped, axpy. fold c. ring. }
    rewrite K1, kvec_lin, (kvec_zero M SS X (fun _ => 0)) in K by auto. lra. }
  (* c vanishes on E only below N *)
  assert (kvec M X c i = kvec M X (zero_at E c) i) as ->.
  { apply kvec_ext; auto. intros j Hj. destruct (in_dec Nat.eq_dec j E) as [I|I].
    - rewrite (zero_at_in E c j I). rewrite <- (sys_ess X E c j Hj I). unfold c. rewrite L by auto. unfold residual. now rewrite zero_at_in.
    - now rewrite zero_at_out. }
  rewrite <- (sys_free X E (zero_at E c) i Hi HE); [|intros j Hj; now apply zero_at_in].
  assert (mv N (sys X E) (zero_at E c) i = mv N (sys X E) c i) as ->.
  { unfold mv. apply rsum_ext. intros j Hj. destruct (in_dec Nat.eq_dec j E) as [I|I].
    - rewrite (zero_at_in E c j I). rewrite <- (sys_ess X E c j Hj I). unfold c. rewrite L by auto. unfold residual. now rewrite zero_at_in.
    - now rewrite zero_at_out. }
  unfold c. rewrite L by auto. unfold residual. rewrite zero_at_out by auto. ring.
Qed.
Lemma residual_zero X E x : free_zero X E x -> forall i, (i < N)%nat -> residual X E x i = 0.
Proof.
  intros H i Hi. unfold residual. destruct (in_dec Nat.eq_dec i E) as [I|I]; [now rewrite zero_at_in|]. rewrite zero_at_out by auto. now apply H.
Qed.
Lemma norm_zero v : (forall i, (i < N)%nat -> v i = 0) -> norm N v = 0.
Proof. intros H. unfold norm, dot. rewrite (rsum_ext N _ (fun _ => 0)); [rewrite rsum_0; apply sqrt_0|]. intros i Hi. rewrite H by auto. ring. Qed.

Inductive solve_case (lin : mat -> vec -> vec) (o : nopts) (x : vec) (X : coords) (E : list nat) (r : nresult) : Prop :=
| stopped_at_once (_ : norm N (residual X E x) <= Rmax (rel_tol o * norm N (residual X E x)) (abs_tol o)) (_ : nx r = x) (_ : nconv r = true) (_ : niter r = 0%nat)
| no_iterations (_ : max_iter o = 0%nat) (_ : nx r = x) (_ : nconv r = false)
| one_step (_ : nx r = stepped lin X E x) (_ : nconv r = true) (_ : niter r = 1%nat).

Lemma newton_case lin o x f : solves N lin (sys (world _ f) (ess _ f)) -> 0 <= abs_tol o ->
  exists r, newton M lin o x f = WOk r /\ world _ (nformr r) = world _ f /\ ess _ (nformr r) = ess _ f /\
    solve_case lin o x (world _ f) (ess _ f) r.
Proof.
  intros L Ha. unfold newton. rewrite eval_state. simpl wbind. fold (residual (world _ f) (ess _ f) x).
  set (X := world _ f) in *. set (E := ess _ f) in *. set (r0 := residual X E x).
  set (goal := Rmax (rel_tol o * norm N r0) (abs_tol o)).
  assert (0 <= goal) as Hg by (unfold goal; eapply Rle_trans; [apply Ha|apply Rmax_r]).
  destruct (max_iter o) as [|k] eqn:Mx.
  - cbn [newton_loop]. destruct (Rleb_spec (norm N r0) goal).
    + eexists; split; [reflexivity|]. cbn. repeat split. apply stopped_at_once; auto.
    + eexists; split; [reflexivity|]. cbn. repeat split. apply no_iterations; auto.
  - cbn [newton_loop]. destruct (Rleb_spec (norm N r0) goal).
    + eexists; split; [reflexivity|]. cbn. repeat split. apply stopped_at_once; auto.
    + rewrite jac_state. cbn [of_outcome wbind]. fold X E. rewrite eval_state. cbn [wbind world ess].
      fold X E. change (axpy x (-1) (lin (sys X E) r0)) with (stepped lin X E x).
      assert (norm N (zero_at E (raw_res M X (stepped lin X E x))) <= goal) as Hs.
      { rewrite norm_zero; [assumption|]. apply residual_zero. now apply step_zero. }
      destruct k; cbn [newton_loop]; (destruct (Rleb_spec (norm N (zero_at E (raw_res M X (stepped lin X E x)))) goal) as [|C]; [|exfalso; lra]);
        (eexists; split; [reflexivity|]); cbn; repeat split; apply one_step; reflexivity.
Qed.
Lemma case_residual lin o x X E r : solves N lin (sys X E) -> (0 < max_iter o)%nat -> 0 <= abs_tol o -> solve_case lin o x X E r ->
  norm N (residual X E (nx r)) <= Rmax (rel_tol o * norm N (residual X E x)) (abs_tol o).
Proof.
  intros L Hm Ha [H -> _ _|H _ _ | -> _ _]; [assumption|lia|].
  rewrite norm_zero; [eapply Rle_trans; [apply Ha|apply Rmax_r]|]. apply residual_zero. now apply step_zero.
Qed.
Lemma norm0_free X E x : norm N (residual X E x) = 0 -> free_zero X E x.
Proof.
  intros H i Hi HE. pose proof (norm_0 N _ H i Hi) as K. unfold residual in K. now rewrite zero_at_out in K.
Qed.
Lemma case_exact lin o x X E r : solves N lin (sys X E) -> (0 < max_iter o)%nat -> abs_tol o = 0 -> rel_tol o < 1 -> solve_case lin o x X E r ->
  free_zero X E (nx r) /\ (forall i, (i < N)%nat -> List.In i E -> nx r i = x i) /\ nconv r = true /\ (niter r <= 1)%nat.
Proof.
  intros L Hm Ha Hr [H -> -> ->|H _ _ | -> -> ->]; [|lia|].
  - repeat split; auto. apply norm0_free. rewrite Ha in H. pose proof (norm_pos N (residual X E x)) as P.
    unfold Rmax in H. destruct (Rle_dec _ _); [lra|]. nra.
  - repeat split; auto; [now apply step_zero|now apply step_surface].
Qed.
Lemma case_surface lin o x X E r : solves N lin (sys X E) -> solve_case lin o x X E r -> forall i, (i < N)%nat -> List.In i E -> nx r i = x i.
Proof. intros L [_ -> _ _|_ -> _ | -> _ _]; auto. now apply step_surface. Qed.

(** affine displacements *)
Definition hatsum (X : coords) (i a : nat) : R :=
  rsum (ne M) (fun m => rsum (nq (el M m)) (fun q => wq M X (el M m) q * rsum (nd (el M m)) (fun k => if Nat.eqb i (node (el M m) k) then gsh M X (el M m) q k a else 0))).

Lemma affine_Gr X A b m q : nondegenerate M X -> partition_of_unity M -> (m < ne M)%nat -> (q < nq (el M m))%nat ->
  forall c a, (c < D)%nat -> (a < D)%nat ->
  Gr M X (el M m) q (fun p => affine M X A b (edof M (el M m) p) - undeformed M X (edof M (el M m) p)) c a = A c a - (if Nat.eqb c a then 1 else 0).
Proof.
  intros ND PU Hm Hq. set (e := el M m).
  apply (physical_unique M SS X m q (fun k c => rsum D (fun d => A c d * X k d) + b c - X k c)); auto.
  - pose proof (Gr_physical M SS X m q (fun j => affine M X A b j - undeformed M X j) ND Hm Hq) as K.
    intros c b' Hc Hb. etransitivity; [exact (K c b' Hc Hb)|]. apply rsum_ext. intros k _. unfold at_node, affine, undeformed.
    rewrite blk_div, blk_mod by exact Hc. ring.
  - intros c b' Hc Hb.
    rewrite (rsum_ext D _ (fun a => A c a * map_grad X e q a b' - (if Nat.eqb a c then map_grad X e q a b' else 0))).
    2:{ intros a _. rewrite (Nat.eqb_sym c a). fold e. destruct (Nat.eqb a c); ring. }
    rewrite rsum_minus, (rsum_delta D (fun a => map_grad X e q a b') c Hc). unfold map_grad.
    rewrite (rsum_ext D _ (fun a => rsum (nd e) (fun k => A c a * X (node e k) a * dsh e q k b'))).
    2:{ intros a _. rewrite <- rsum_scal. apply rsum_ext; intros; ring. }
    rewrite rsum_swap.
    rewrite (rsum_ext (nd (el M m)) (fun k => (rsum D (fun d => A c d * X (node (el M m) k) d) + b c - X (node (el M m) k) c) * dsh (el M m) q k b')
      (fun k => (rsum D (fun a => A c a * X (node e k) a * dsh e q k b') - X (node e k) c * dsh e q k b') + b c * dsh e q k b')).
    2:{ intros k _. rewrite rsum_scal_r. fold e. ring. }
    rewrite rsum_plus, rsum_minus, rsum_scal. fold e. pose proof (PU m q b' Hm Hq Hb) as PB. fold e in PB. rewrite PB. ring.
Qed.
Lemma affine_kvec X A b i c : nondegenerate M X -> partition_of_unity M -> (c < D)%nat ->
  kvec M X (fun j => affine M X A b j - undeformed M X j) (i * D + c)%nat =
  rsum D (fun a => A a a - 1) * hatsum X i c + rsum D (fun a => (A c a + A a c - if Nat.eqb c a then 2 else 0) * hatsum X i a).
Proof.
  intros ND PU Hc. unfold kvec, hatsum.
  set (T := rsum D (fun a => A a a - 1)). set (B := fun a => A c a + A a c - if Nat.eqb c a then 2 else 0).
  rewrite (rsum_ext (ne M) _ (fun m => rsum (nq (el M m)) (fun q => wq M X (el M m) q * rsum (nd (el M m)) (fun k =>
     if Nat.eqb i (node (el M m) k) then gsh M X (el M m) q k c * T + rsum D (fun a => B a * gsh M X (el M m) q k a) else 0)))).
  - rewrite <- rsum_scal, (rsum_ext D (fun a => B a * _) (fun a => rsum (ne M) (fun m => rsum (nq (el M m)) (fun q => wq M X (el M m) q * rsum (nd (el M m)) (fun k =>
       if Nat.eqb i (node (el M m) k) then B a * gsh M X (el M m) q k a else 0))))).
    2:{ intros a _. rewrite <- rsum_scal. apply rsum_ext; intros m _. rewrite <- rsum_scal. apply rsum_ext; intros q _.
        rewrite (rsum_ext (nd (el M m)) (fun k => if Nat.eqb i (node (el M m) k) then B a * gsh M X (el M m) q k a else 0) (fun k => B a * (if Nat.eqb i (node (el M m) k) then gsh M X (el M m) q k a else 0)))
          by (intros; destruct (Nat.eqb _ _); ring).
        rewrite rsum_scal. ring. }
    rewrite (rsum_swap D (ne M)), <- rsum_plus. apply rsum_ext; intros m _. rewrite (rsum_swap D), <- rsum_scal, <- rsum_plus. apply rsum_ext; intros q _.
    rewrite rsum_scal. rewrite (rsum_swap D). rewrite <- Rmult_assoc, (Rmult_comm T), Rmult_assoc, <- Rmult_plus_distr_l. f_equal.
    rewrite <- rsum_scal, <- rsum_plus. apply rsum_ext; intros k _. destruct (Nat.eqb _ _); [ring|]. rewrite rsum_0. ring.
  - intros m Hm. destruct SS as [_ S0]. destruct (S0 m Hm) as [H0 _].
    rewrite rsum_block.
    rewrite (rsum_ext D _ (fun c' => if Nat.eqb c' c then rsum (nd (el M m)) (fun k => if Nat.eqb i (node (el M m) k) then
        mv (nd (el M m) * D) (elmat M X (el M m)) (fun p' => affine M X A b (edof M (el M m) p') - undeformed M X (edof M (el M m) p')) (c' * nd (el M m) + k)%nat else 0) else 0)).
    + rewrite (rsum_delta D (fun c' => rsum (nd (el M m)) (fun k => if Nat.eqb i (node (el M m) k) then
        mv (nd (el M m) * D) (elmat M X (el M m)) (fun p' => affine M X A b (edof M (el M m) p') - undeformed M X (edof M (el M m) p')) (c' * nd (el M m) + k)%nat else 0)) c Hc).
      rewrite (rsum_ext (nd (el M m)) _ (fun k => rsum (nq (el M m)) (fun q => wq M X (el M m) q * (if Nat.eqb i (node (el M m) k) then gsh M X (el M m) q k c * T + rsum D (fun a => B a * gsh M X (el M m) q k a) else 0)))).
      * rewrite rsum_swap. apply rsum_ext; intros q _. now rewrite rsum_scal.
      * intros k Hk. destruct (Nat.eqb i _).
        2:{ rewrite (rsum_ext _ _ (fun _ => 0)); [now rewrite rsum_0|]. intros; ring. }
        rewrite elmat_mv by auto. apply rsum_ext; intros q Hq. f_equal.
        pose proof (affine_Gr X A b m q ND PU Hm Hq) as G.
        rewrite Rplus_assoc. f_equal.
        -- f_equal. unfold T. apply rsum_ext; intros a Ha. rewrite G by auto. now rewrite Nat.eqb_refl.
        -- rewrite <- rsum_plus. apply rsum_ext; intros a Ha. rewrite !G by auto. unfold B. rewrite (Nat.eqb_sym a c). destruct (Nat.eqb c a); ring.
    + intros c' Hc'. destruct (Nat.eqb_spec c' c) as [->|Ne].
      * apply rsum_ext. intros k Hk. unfold edof at 1, vdof. rewrite blk_mod, blk_div by auto.
        destruct (Nat.eqb_spec i (node (el M m) k)) as [->|Q]; [now rewrite Nat.eqb_refl|].
        destruct (Nat.eqb_spec (i * D + c) (node (el M m) k * D + c)) as [Q1|]; [|reflexivity]. exfalso. apply Q. nia.
      * rewrite (rsum_ext _ _ (fun _ => 0)); [apply rsum_0|]. intros k Hk. unfold edof at 1, vdof. rewrite blk_mod, blk_div by auto.
        destruct (Nat.eqb_spec (i * D + c) (node (el M m) k * D + c')) as [Q1|]; [|reflexivity]. exfalso.
        pose proof (f_equal (fun x => (x mod D)%nat) Q1) as Q2. cbv beta in Q2. rewrite !blk_mod in Q2 by auto. auto.
Qed.
Lemma index_split i : (i < N)%nat -> exists k c, (c < D)%nat /\ i = (k * D + c)%nat.
Proof.
  intros Hi. pose proof (pos_dim M SS). exists (i / D)%nat, (i mod D)%nat. split; [apply Nat.mod_upper_bound; lia|].
  rewrite (Nat.mul_comm (i / D)). apply Nat.div_mod. lia.
Qed.
Lemma affine_rigid X A b E : nondegenerate M X -> partition_of_unity M -> is_infinitesimal_rotation D A -> free_zero X E (affine M X A b).
Proof.
  intros ND PU HA i Hi _. destruct (index_split i Hi) as [k [c [Hc ->]]]. rewrite (raw_kvec M SS), affine_kvec by auto.
  rewrite (rsum_ext D (fun a => A a a - 1) (fun _ => 0)).
  2:{ intros a Ha. specialize (HA a a Ha Ha). rewrite Nat.eqb_refl in HA. lra. }
  rewrite rsum_0, (rsum_ext D _ (fun _ => 0)).
  - rewrite !rsum_0. ring.
  - intros a Ha. rewrite (HA c a Hc Ha). ring.
Qed.
Lemma hat_hatsum X i a : nondegenerate M X -> hat_integrates_to_zero M X (fun m q => wq M X (el M m) q) i -> (a < D)%nat -> hatsum X i a = 0.
Proof.
  intros ND H Ha.
  specialize (H (fun m q => Gr M X (el M m) q (fun p => (fun j => if Nat.eqb (j / D) i then 1 else 0) (edof M (el M m) p)))).
  rewrite <- (H ltac:(intros m q Hm Hq; pose proof (Gr_physical M SS X m q (fun j => if Nat.eqb (j / D) i then 1 else 0) ND Hm Hq) as K;
      intros c b Hc Hb; rewrite (K c b Hc Hb); apply rsum_ext; intros k _; unfold at_node; rewrite blk_div by exact Hc; reflexivity) a Ha).
  unfold hatsum. apply rsum_ext; intros m Hm. apply rsum_ext; intros q _. f_equal. unfold Gr. apply rsum_ext; intros k Hk.
  cbv beta. unfold edof, vdof. pose proof (pos_dim M SS). rewrite (blk_mod _ 0 k), (blk_div _ 0 k) by auto. rewrite blk_div by lia.
  rewrite (Nat.eqb_sym i). destruct (Nat.eqb _ _); ring.
Qed.
Lemma affine_free X A b E : nondegenerate M X -> partition_of_unity M ->
  (forall i, (i < N)%nat -> ~ List.In i E -> hat_integrates_to_zero M X (fun m q => wq M X (el M m) q) (i / D)%nat) ->
  free_zero X E (affine M X A b).
Proof.
  intros ND PU H i Hi HE. specialize (H i Hi HE). destruct (index_split i Hi) as [k [c [Hc ->]]]. rewrite blk_div in H by auto.
  rewrite (raw_kvec M SS), affine_kvec by auto. rewrite (hat_hatsum X k c ND H Hc), Rmult_0_r.
  rewrite (rsum_ext D _ (fun _ => 0)); [rewrite rsum_0; ring|]. intros a Ha. rewrite (hat_hatsum X k a ND H Ha). ring.
Qed.
End S.
