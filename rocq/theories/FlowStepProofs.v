From Coq Require Import Reals List ZArith Bool Lia Lra.
From Verif Require Import Num Vec Euler EulerSpec EulerProofs FluxProofs FlowStep.
Import ListNotations.
Local Open Scope R_scope.

(** the tolerance test in words *)
Definition converged (o : steady_opts) (r0 r : R) : Prop := r <= so_abstol o \/ r <= r0 * so_reltol o.
Lemma exit_spec o r0 r : steady_exit o r0 r = true <-> converged o r0 r.
Proof.
  unfold steady_exit, converged. destruct (Rleb_spec r (so_abstol o)).
  - tauto.
  - rewrite Rleb_true. split; [tauto|]. intros [H1|H1]; [lra|assumption].
Qed.

Section S.
Context {S : Type} (step : S -> R -> R -> S * R) (resnorm : S -> R) (o : steady_opts).
Notation loop := (steady_loop step resnorm o).

(** pseudo-time step wanted at residual r *)
Definition wanted (r0 r : R) : R := so_dt o * Rpower (r0 / r) (so_exp o).

Lemma ptc_R r0 r dt : ptc_step Rnum Rpower (so_dt o) (so_exp o) r0 r dt = Rmax (wanted r0 r) dt.
Proof. unfold ptc_step. rewrite nmax_R. reflexivity. Qed.

Lemma loop_dt n : forall r0 t dt s i p, nth_error (fst (loop n r0 t dt s)) i = Some p ->
  ps_dt p = fold_left Rmax (map (fun q => wanted r0 (resnorm (ps_before q))) (firstn (i + 1) (fst (loop n r0 t dt s)))) dt.
Proof.
  induction n as [|n IH]; intros r0 t dt s i p H; [destruct i; discriminate|]. cbn [steady_loop] in *. rewrite ptc_R in *.
  destruct (steady_exit _ _ _); cbn [fst] in *.
  - destruct i as [|[|i]]; try discriminate. injection H as <-. cbn. now rewrite Rmax_comm.
  - destruct i as [|i]; cbn [nth_error] in H.
    + injection H as <-. cbn. now rewrite Rmax_comm.
    + specialize (IH _ _ _ _ _ _ H). rewrite IH. cbn [Nat.add firstn map fold_left ps_before]. now rewrite Rmax_comm.
Qed.
Lemma loop_mono n : forall r0 t dt s i p q, nth_error (fst (loop n r0 t dt s)) i = Some p ->
  nth_error (fst (loop n r0 t dt s)) (i + 1) = Some q -> ps_dt p <= ps_dt q /\ ps_before q = ps_after p /\
  ~ converged o r0 (resnorm (ps_after p)).
Proof.
  induction n as [|n IH]; intros r0 t dt s i p q H1 H2; [destruct i; discriminate|]. cbn [steady_loop] in *. rewrite ptc_R in *.
  destruct (steady_exit _ _ _) eqn:E; cbn [fst] in *.
  - destruct i as [|[|i]]; cbn in *; discriminate.
  - destruct i as [|i]; cbn [nth_error Nat.add] in *.
    + injection H1 as <-. cbn. destruct n as [|n]; [discriminate|]. cbn [steady_loop] in H2. rewrite ptc_R in H2.
      destruct (steady_exit o r0 (resnorm (fst (step (fst _) _ _)))); cbn [fst nth_error] in H2; injection H2 as <-; cbn;
        (split; [apply Rmax_r|]; split; [reflexivity|]; intros C; apply exit_spec in C; congruence).
    + now apply (IH _ _ _ _ _ _ _ H1 H2).
Qed.
Lemma loop_end n : forall r0 t dt s, (0 < n)%nat ->
  exists p, nth_error (fst (loop n r0 t dt s)) (length (fst (loop n r0 t dt s)) - 1) = Some p /\ snd (loop n r0 t dt s) = ps_after p /\
    (length (fst (loop n r0 t dt s)) <= n)%nat /\ (0 < length (fst (loop n r0 t dt s)))%nat /\
    (length (fst (loop n r0 t dt s)) = n \/ converged o r0 (resnorm (ps_after p))).
Proof.
  induction n as [|n IH]; intros r0 t dt s H; [lia|]. cbn [steady_loop]. rewrite ptc_R.
  destruct (steady_exit _ _ _) eqn:E; cbn [fst snd].
  - eexists. split; [reflexivity|]. cbn. split; [reflexivity|]. split; [lia|]. split; [lia|]. right. now apply exit_spec.
  - destruct n as [|n].
    + eexists. split; [reflexivity|]. cbn. split; [reflexivity|]. split; [lia|]. split; [lia|]. now left.
    + match goal with |- context [loop (Datatypes.S n) r0 ?t' ?dt' ?s'] => destruct (IH r0 t' dt' s' ltac:(lia)) as (p & H1 & H2 & H3 & H4 & H5);
        set (L := loop (Datatypes.S n) r0 t' dt' s') in * end.
      exists p. cbn [length]. repeat split; try lia; try assumption.
      * replace (Datatypes.S (length (fst L)) - 1)%nat with (Datatypes.S (length (fst L) - 1)) by lia. cbn. assumption.
      * destruct H5; [left; lia|now right].
Qed.
Lemma loop_first n r0 t dt s : (0 < n)%nat -> exists p, nth_error (fst (loop n r0 t dt s)) 0 = Some p /\ ps_before p = s /\ ps_dt p = Rmax (wanted r0 (resnorm s)) dt.
Proof.
  intros H. destruct n as [|n]; [lia|]. cbn [steady_loop]. rewrite ptc_R. destruct (steady_exit _ _ _); cbn; eauto.
Qed.
Lemma loop_step n : forall r0 t dt s i p, nth_error (fst (loop n r0 t dt s)) i = Some p ->
  exists t', ps_after p = fst (step (ps_before p) t' (ps_dt p)).
Proof.
  induction n as [|n IH]; intros r0 t dt s i p H; [destruct i; discriminate|]. cbn [steady_loop] in *.
  destruct (steady_exit _ _ _); cbn [fst] in *.
  - destruct i as [|[|i]]; try discriminate. injection H as <-. cbn. eauto.
  - destruct i as [|i]; cbn [nth_error] in H; [injection H as <-; cbn; eauto|eauto].
Qed.
End S.
Lemma Rpower_1_l e : Rpower 1 e = 1.
Proof. unfold Rpower. rewrite ln_1, Rmult_0_r. apply exp_0. Qed.

(** CFL *)
Lemma cmin_min a b : cmin a b = Rmin a b.
Proof. unfold cmin. destruct (Rltb_spec b a); unfold Rmin; destruct (Rle_dec a b); lra. Qed.

Section CFL.
Context (d : nat) (entvar : bool) (cfl : R).
Definition pair_dt (e : elem) (i j : nat) : R :=
  let dxij := vsub (el_x e j) (el_x e i) in
  cfl * norm d dxij * norm d dxij / calcSpectralRadius d entvar dxij (el_u e i).
(** dt is the minimum of init and a family of numbers *)
Definition is_min (init : R) (P : R -> Prop) (m : R) : Prop :=
  m <= init /\ (forall x, P x -> m <= x) /\ (m = init \/ P m).
Lemma is_min_step init P m (Q : R -> Prop) m' : is_min init P m -> is_min m Q m' -> is_min init (fun x => P x \/ Q x) m'.
Proof.
  intros (A & B & C) (A' & B' & C'). split; [lra|]. split.
  - intros x [H|H]; [specialize (B x H); lra|auto].
  - destruct C' as [->|C']; [|auto]. destruct C; auto.
Qed.
Lemma is_min_ext init P Q m : (forall x, P x <-> Q x) -> is_min init P m -> is_min init Q m.
Proof. intros H (A & B & C). split; [assumption|]. split; [firstorder|]. destruct C; [auto|right; firstorder]. Qed.
Lemma cfl_j_min e i js : forall dt, is_min dt (fun x => exists j, In j js /\ j <> i /\ x = pair_dt e i j) (cfl_j d entvar cfl e i js dt).
Proof.
  induction js as [|j js IH]; intros dt; cbn [cfl_j]; cbv zeta.
  - split; [lra|]. split; [intros x (k & [] & _)|]. now left.
  - destruct (Nat.eqb_spec j i) as [->|H].
    + apply (is_min_ext _ (fun x => exists k, In k js /\ k <> i /\ x = pair_dt e i k)); [|apply IH].
      intros x. split; intros (k & H1 & H2 & H3); exists k; simpl in *; intuition congruence.
    + eapply is_min_ext; [|apply (is_min_step dt (fun x => x = pair_dt e i j) (Rmin dt (pair_dt e i j))); [|rewrite cmin_min; apply IH]].
      * intros x. cbn. split; [intros [->|(k & H1 & H2 & H3)]; eauto 6|].
        intros (k & [->|H1] & H2 & H3); [now left|right; eauto].
      * split; [apply Rmin_l|]. split; [intros x ->; apply Rmin_r|]. unfold Rmin; destruct (Rle_dec _ _); auto.
Qed.
Lemma fold_min {A} (f : R -> A -> R) (P : A -> R -> Prop) (l : list A) :
  (forall dt a, is_min dt (P a) (f dt a)) -> forall dt, is_min dt (fun x => exists a, In a l /\ P a x) (fold_left f l dt).
Proof.
  intros H. induction l as [|a l IH]; intros dt; cbn [fold_left].
  - split; [lra|]. split; [intros x (k & [] & _)|]. now left.
  - eapply is_min_ext; [|apply (is_min_step dt (P a) (f dt a)); [apply H|apply IH]].
    intros x. cbn. split; [intros [H1|(k & H1 & H2)]; eauto|]. intros (k & [->|H1] & H2); eauto.
Qed.
Lemma cfl_elem_min dt e : is_min dt (fun x => exists i j, (i < el_n e)%nat /\ (j < el_n e)%nat /\ j <> i /\ x = pair_dt e i j) (cfl_elem d entvar cfl dt e).
Proof.
  unfold cfl_elem. eapply is_min_ext; [|apply (fold_min (fun dt i => cfl_j d entvar cfl e i (seq 0 (el_n e)) dt) (fun i x => exists j, In j (seq 0 (el_n e)) /\ j <> i /\ x = pair_dt e i j))].
  - intros x. cbn. split.
    + intros (i & Hi & j & Hj & H). apply in_seq in Hi, Hj. exists i, j. intuition lia.
    + intros (i & j & Hi & Hj & H). exists i. rewrite in_seq. split; [lia|]. exists j. rewrite in_seq. intuition lia.
  - intros. apply cfl_j_min.
Qed.
Lemma min_fold l : forall m, is_min m (fun x => In x l) (fold_left Rmin l m).
Proof.
  intros m. eapply is_min_ext; [|apply (fold_min Rmin (fun a x => x = a))].
  - intros x. cbn. split; [intros (a & H & ->); assumption|eauto].
  - intros. split; [apply Rmin_l|]. split; [intros x ->; apply Rmin_r|]. unfold Rmin; destruct (Rle_dec _ _); auto.
Qed.
Lemma cfl_min r0 ranks : is_min (10 ^ 100)
  (fun x => exists es e i j, In es (r0 :: ranks) /\ In e es /\ (i < el_n e)%nat /\ (j < el_n e)%nat /\ j <> i /\ x = pair_dt e i j)
  (minCFLTimeStep d entvar cfl r0 ranks).
Proof.
  assert (K : forall es, is_min (10 ^ 100) (fun x => exists e, In e es /\ exists i j, (i < el_n e)%nat /\ (j < el_n e)%nat /\ j <> i /\ x = pair_dt e i j) (cfl_rank d entvar cfl es)).
  { intros es. unfold cfl_rank. apply (fold_min (cfl_elem d entvar cfl)). apply cfl_elem_min. }
  unfold minCFLTimeStep. destruct (min_fold (map (cfl_rank d entvar cfl) ranks) (cfl_rank d entvar cfl r0)) as (A & B & C).
  set (m := fold_left _ _ _) in *. split; [destruct (K r0) as (K1 & _); lra|]. split.
  - intros x (es & e & i & j & [<-|H] & H1 & H2).
    + destruct (K r0) as (_ & K2 & _). apply Rle_trans with (1 := A). apply K2. eauto.
    + destruct (K es) as (_ & K2 & _). apply Rle_trans with (cfl_rank d entvar cfl es); [apply B; now apply in_map|]. apply K2. eauto.
  - assert (D : exists es, In es (r0 :: ranks) /\ m = cfl_rank d entvar cfl es).
    { destruct C as [C|C]; [exists r0; simpl; auto|]. apply in_map_iff in C as (es & E & H). exists es. simpl; auto. }
    destruct D as (es & H & ->). destruct (K es) as (_ & _ & [K3|(e & K3 & i & j & K4)]); [now left|right]. exists es, e, i, j. tauto.
Qed.
End CFL.

(** one pair: the CFL condition *)
Lemma spectral_q d entvar dir u : calcSpectralRadius d entvar dir u = calcSpectralRadius d false dir (calcConservativeVars d entvar u).
Proof. unfold calcSpectralRadius. destruct entvar; reflexivity. Qed.
Lemma pair_pos d entvar cfl e i j : 0 < cfl -> physical d (calcConservativeVars d entvar (el_u e i)) ->
  0 < norm d (vsub (el_x e j) (el_x e i)) -> 0 < pair_dt d entvar cfl e i j.
Proof.
  intros Hc Hp Hn. unfold pair_dt. cbv zeta. rewrite spectral_q. apply Rdiv_lt_0_compat.
  - repeat apply Rmult_lt_0_compat; assumption.
  - apply spectral_pos; [assumption|]. unfold norm in Hn. destruct (Rle_lt_dec (dot d (vsub (el_x e j) (el_x e i)) (vsub (el_x e j) (el_x e i))) 0); [|assumption].
    rewrite sqrt_neg_0 in Hn by assumption. lra.
Qed.
Lemma pair_cfl d entvar cfl e i j rho u p dt : 0 < rho -> 0 < p -> is_state d (calcConservativeVars d entvar (el_u e i)) rho u p ->
  0 < norm d (vsub (el_x e j) (el_x e i)) ->
  dt <= pair_dt d entvar cfl e i j <->
  dt * (Rabs (dot d u (unit_of d (vsub (el_x e j) (el_x e i)))) + sound rho p) <= cfl * norm d (vsub (el_x e j) (el_x e i)).
Proof.
  intros Hr Hp Hs Hn. unfold pair_dt. cbv zeta. rewrite spectral_q, (spectral_prim _ _ _ rho u p Hr Hp Hs).
  set (v := vsub (el_x e j) (el_x e i)) in *. fold (norm d v). fold (sound rho p).
  assert (E : Rabs (dot d u (unit_of d v)) = Rabs (dot d u v) / norm d v).
  { assert (dot d u (unit_of d v) = dot d u v / norm d v) as ->.
    { unfold dot at 1 2. rewrite <- rsum_div. apply rsum_ext. intros k _. unfold unit_of. fold (norm d v). unfold Rdiv; ring. }
    unfold Rdiv. rewrite Rabs_mult, Rabs_inv, (Rabs_pos_eq (norm d v)) by lra. reflexivity. }
  rewrite E. assert (Hsd : 0 < sound rho p) by (apply sqrt_lt_R0; apply Rdiv_lt_0_compat; lra).
  set (l := Rabs (dot d u v) + sound rho p * norm d v).
  assert (Hl : 0 < l) by (unfold l; pose proof (Rabs_pos (dot d u v)); pose proof (Rmult_lt_0_compat _ _ Hsd Hn); lra).
  replace (Rabs (dot d u v) / norm d v + sound rho p) with (l / norm d v) by (unfold l; field; lra).
  split; intros H.
  - apply (Rmult_le_compat_r l) in H; [|lra].
    replace (cfl * norm d v * norm d v / l * l) with (cfl * norm d v * norm d v) in H by (field; lra).
    apply (Rmult_le_reg_r (norm d v)); [assumption|]. replace (dt * (l / norm d v) * norm d v) with (dt * l) by (field; lra). lra.
  - apply (Rmult_le_reg_r l); [assumption|].
    replace (cfl * norm d v * norm d v / l * l) with (cfl * norm d v * norm d v) by (field; lra).
    apply (Rmult_le_compat_r (norm d v)) in H; [|lra]. replace (dt * (l / norm d v) * norm d v) with (dt * l) in H by (field; lra). lra.
Qed.
