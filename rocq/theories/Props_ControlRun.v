(** C121, C122: runs of the flow-control solver. *)
From Coq Require Import Reals List ZArith Bool Ascii String Lia Lra Sorted.
From Verif Require Import Num TimeLoop ControlRun ControlRunSpec ControlRunProofs.
Import ListNotations.
Local Open Scope R_scope.

(** two outputs, or two samples of an ensemble, never share a file *)
Theorem C121_file_names : forall n k n' k', file_name n k = file_name n' k' -> n = n' /\ k = k'.
Proof. exact file_name_inj2. Qed.
Print Assumptions C121_file_names.

Section Props.
Context {St Fl : Type}.
Variable flow : St -> Fl.
Variable step : St -> R -> R -> option (St * R).
Variable full_output : string -> R -> St -> R.
Variable flow_output : string -> R -> Fl -> R.
Variable min_cfl : R -> Fl -> R.
Variable o : options.
Variable lo : log_opts.
Variable outs : list string.
Notation hist := (history flow full_output flow_output).
Notation run := (solve flow step full_output flow_output min_cfl o lo outs).
(** the step size in force: minCFLTimeStep with const-cfl, else the base class's *)
Notation dt := (fun t s => if c_const_cfl o then min_cfl (c_cfl o) (flow s) else calcStepSize (c_time o) t).
Lemma fresh_wf w : fresh w -> wf w.
Proof. intros [A B]. split; [exact B|]. intros n i H. rewrite A in H. discriminate. Qed.

(** ** C121: output histories *)
(** after a first run that finishes, the file of every output holds one line for each state visited, in order, the last included,
    whatever the file held before; the states are those the time marching visits from the initial one *)
Theorem C121_history : forall s w name t' s', c_each o = true -> c_steady o = false -> NoDup outs -> In name outs -> fresh w ->
  o_end (run 0%nat s w) = Finished t' s' ->
  exists l, trajectory step dt (t_initial (c_time o)) s l t' s' /\
    file_content (file_name name (c_sample o)) (o_world (run 0%nat s w)) = Some (hist name (l ++ [(t', s')])).
Proof.
  intros s w name t' s' HE HS ND HN HF. unfold solve. rewrite HS. intros HD.
  assert (L := initial_live o outs HE ND name HN w (fresh_wf w HF)). destruct HF as [HF _]. rewrite HF in L. specialize (L eq_refl).
  assert (M := march_live flow step full_output flow_output min_cfl o lo outs HE ND name HN (Z.to_nat (max_iter (c_time o))) 0%Z (t_initial (c_time o)) s _ (initialHook lo (flow s) []) [] L). cbv zeta in M.
  assert (T := march_traj flow step full_output flow_output min_cfl o lo outs HS (Z.to_nat (max_iter (c_time o))) 0%nat 0%Z (t_initial (c_time o)) s (each_initial o outs 0 w) (initialHook lo (flow s) []) []). cbv zeta in T.
  rewrite HD in M, T. destruct T as [l [P T]]. cbn [app] in P. exists l. split; [exact T|]. rewrite <- P. now apply dead_content in M.
Qed.
(** if a step throws, every file holds the lines of all states visited so far, the one the failed step started from included *)
Theorem C121_crash : forall s w name, c_each o = true -> c_steady o = false -> NoDup outs -> In name outs -> fresh w ->
  o_end (run 0%nat s w) = Threw ->
  exists l t1 s1, trajectory step dt (t_initial (c_time o)) s l t1 s1 /\ step s1 t1 (dt t1 s1) = None /\
    file_content (file_name name (c_sample o)) (o_world (run 0%nat s w)) = Some (hist name (l ++ [(t1, s1)])).
Proof.
  intros s w name HE HS ND HN HF. unfold solve. rewrite HS. intros HD.
  assert (L := initial_live o outs HE ND name HN w (fresh_wf w HF)). destruct HF as [HF _]. rewrite HF in L. specialize (L eq_refl).
  assert (M := march_live flow step full_output flow_output min_cfl o lo outs HE ND name HN (Z.to_nat (max_iter (c_time o))) 0%Z (t_initial (c_time o)) s _ (initialHook lo (flow s) []) [] L). cbv zeta in M.
  assert (T := march_traj flow step full_output flow_output min_cfl o lo outs HS (Z.to_nat (max_iter (c_time o))) 0%nat 0%Z (t_initial (c_time o)) s (each_initial o outs 0 w) (initialHook lo (flow s) []) []). cbv zeta in T.
  rewrite HD in M, T. destruct T as [l [P (l0 & t1 & s1 & -> & T & F)]]. cbn [app] in P. exists l0, t1, s1. split; [exact T|]. split; [exact F|]. rewrite <- P. now apply live_content in M.
Qed.
(** the times in a file increase strictly: no time is recorded twice *)
Lemma traj_sorted : (forall s t d s' t', step s t d = Some (s', t') -> t' = t + d) -> (forall t s, 0 < dt t s) ->
  forall t s l t' s', trajectory step dt t s l t' s' -> StronglySorted Rlt (map fst (l ++ [(t', s')])) /\ List.Forall (fun x => t <= x) (map fst (l ++ [(t', s')])).
Proof.
  intros Hs Hd t s l t' s' H. induction H as [t s|t s t1 s1 l t' s' E H IH]; cbn.
  - split; [repeat constructor|]. constructor; [apply Rle_refl|constructor].
  - destruct IH as [A B]. assert (T := Hs _ _ _ _ _ E). assert (D := Hd t s). cbv beta in T. split.
    + constructor; [exact A|]. eapply Forall_impl; [|exact B]. intros x Hx. cbn in Hx. lra.
    + constructor; [lra|]. eapply Forall_impl; [|exact B]. intros x Hx. cbn in Hx. lra.
Qed.
Theorem C121_times : forall s w name t' s' c, c_each o = true -> c_steady o = false -> NoDup outs -> In name outs -> fresh w ->
  (forall s t d s' t', step s t d = Some (s', t') -> t' = t + d) -> (forall t s, 0 < dt t s) ->
  o_end (run 0%nat s w) = Finished t' s' ->
  file_content (file_name name (c_sample o)) (o_world (run 0%nat s w)) = Some c -> StronglySorted Rlt (map fst c).
Proof.
  intros s w name t' s' c HE HS ND HN HF Ht Hd HD HC. destruct (C121_history s w name t' s' HE HS ND HN HF HD) as [l [T E]]. rewrite HC in E. injection E as ->.
  unfold history. rewrite map_map. cbn [line fst]. apply (traj_sorted Ht Hd _ _ _ _ _ T).
Qed.
(** files of other names are neither changed, created nor removed *)
Theorem C121_other_files : forall rank s w f, fresh w -> (forall n, In n outs -> f <> file_name n (c_sample o)) ->
  (forall i, gets f (w_dir w) = Some i -> getn i (w_data w) <> None) ->
  file_content f (o_world (run rank s w)) = file_content f w.
Proof.
  intros rank s w f [F1 F2] H HD. destruct (gets f (w_dir w)) as [i|] eqn:E.
  - specialize (HD i eq_refl). destruct (getn i (w_data w)) as [c|] eqn:Ec; [|congruence].
    assert (D : dead f c w). { exists i. repeat split; [exact E|exact Ec|rewrite F1; discriminate|now apply (F2 f)]. }
    rewrite (dead_content f c w D). apply dead_content. now apply run_dead.
  - unfold file_content. rewrite E. assert (A := run_absent flow step full_output flow_output min_cfl o lo outs rank s w f H E). unfold absent in A. now rewrite A.
Qed.
(** other ranks, and runs without each-timestep, touch no file *)
Theorem C121_rank : forall rank s w, rank <> 0%nat \/ c_each o = false -> o_world (run rank s w) = w.
Proof.
  intros rank s w H. assert (E : c_each o && Nat.eqb rank 0 = false) by (destruct H as [H| ->]; [apply Nat.eqb_neq in H; now rewrite H, andb_false_r|reflexivity]).
  unfold solve. destruct (c_steady o); [reflexivity|]. unfold each_initial. rewrite E.
  generalize (initialHook lo (flow s) []), (@nil (R * St)), 0%Z, (t_initial (c_time o)). revert s. induction (Z.to_nat (max_iter (c_time o))) as [|n IH]; intros s log acc ti t; cbn [march].
  - unfold each_terminal. now rewrite E.
  - destruct (step_size flow min_cfl o t s) as [d|]; [|reflexivity]. cbv zeta. unfold each_write. rewrite E. destruct (step s t d) as [[s' t']|]; [|reflexivity].
    destruct (iterationExit (c_time o) t' d); [cbn; unfold each_terminal; now rewrite E|apply IH].
Qed.
(** but a second run of the same solver erases the history of the first and records nothing: every file ends up empty *)
Theorem C121_second_run_refuted : forall s s2 w name, c_each o = true -> c_steady o = false -> NoDup outs -> In name outs -> fresh w ->
  file_content (file_name name (c_sample o)) (o_world (run 0%nat s2 (o_world (run 0%nat s w)))) = Some [].
Proof.
  intros s s2 w name HE HS ND HN HF.
  assert (W := run_wf flow step full_output flow_output min_cfl o lo outs 0 s w (fresh_wf w HF)).
  assert (H := run_has flow step full_output flow_output min_cfl o lo outs s w name HE HS ND HN).
  apply dead_content. unfold solve at 1. rewrite HS. apply (march_keep flow step full_output flow_output min_cfl o lo outs (dead (file_name name (c_sample o)) [])).
  - intros n l v _. apply dead_write.
  - intros n v _. apply dead_close.
  - now apply initial_dead.
Qed.

(** ** C122: construction and time loop *)
(** without const-cfl the run is the base class's time loop: same final time and state, and the logger gets the flow part of
    everything logged there *)
Definition flow_event (e : event St) : event Fl := Build_event (e_step e) (e_time e) (flow (e_state e)).
Theorem C122_time_loop : forall (tstep : St -> R -> R -> St * R) rank s w, c_steady o = false -> c_const_cfl o = false ->
  (forall s t d, step s t d = Some (tstep s t d)) ->
  let r := solveForState tstep (c_time o) lo s in
  o_end (run rank s w) = Finished (r_t r) (r_state r) /\ o_log (run rank s w) = map flow_event (r_log r).
Proof.
  intros tstep rank s w HS HC Hst. cbv zeta. unfold solve, solveForState. rewrite HS. cbn [r_t r_state r_log].
  assert (G : forall n ti t s w log log' acc acc', log = map flow_event log' ->
    let r := loop tstep (c_time o) lo n ti t s log' acc' in
    let m := march flow step full_output flow_output min_cfl o lo outs rank n ti t s w log acc in
    o_end m = Finished (r_t r) (r_state r) /\ o_log m = map flow_event (terminalHook lo (r_iter r) (r_t r) (r_state r) (r_log r))).
  { assert (TH : forall ti t s log log', log = map flow_event log' -> terminalHook lo ti t (flow s) log = map flow_event (terminalHook lo ti t s log')).
    { intros ti t s0 log log' ->. unfold terminalHook. destruct (final_state lo); [now rewrite map_app|reflexivity]. }
    induction n as [|n IH]; intros ti t s0 w0 log log' acc acc' HL; cbn [march loop].
    - cbn. split; [reflexivity|]. now apply TH.
    - unfold step_size. rewrite HS, HC. cbv zeta. rewrite Hst. destruct (tstep s0 t (calcStepSize (c_time o) t)) as [s' t'].
      assert (HI : iterationHook lo ti t (flow s0) log = map flow_event (iterationHook lo ti t s0 log')).
      { subst log. unfold iterationHook. destruct (each_timestep lo); [now rewrite map_app|reflexivity]. }
      destruct (iterationExit (c_time o) t' (calcStepSize (c_time o) t)).
      + cbn [o_end o_log r_t r_state r_iter r_log]. split; [reflexivity|]. now apply TH.
      + apply IH. exact HI. }
  apply G. unfold initialHook. destruct (initial_state lo); reflexivity.
Qed.
(** steady problems are refused before any file is touched *)
Theorem C122_steady : forall rank s w, c_steady o = true -> o_end (run rank s w) = Threw /\ o_world (run rank s w) = w.
Proof. intros rank s w H. unfold solve. rewrite H. split; reflexivity. Qed.
(** the solver can be built exactly for consistent options *)
Theorem C122_construct : forall dim entvar smesh reads, construct dim entvar o smesh reads = Made <->
  exists e d bc, extension (c_mesh_file o) = Some e /\ (smesh = Some d \/ smesh = None /\ e = "mesh"%string /\ reads = Some d) /\ d = dim /\
    c_entropy_state o = entvar /\ (entvar = true -> c_steady o = true) /\ c_control_bcs o = Some bc /\ bc = c_entropy_bdr o.
Proof.
  intros dim entvar smesh reads. unfold construct, construct_mesh. split.
  - destruct (extension (c_mesh_file o)) as [e|]; [|discriminate]. 
    assert (G : forall d, (if negb (d =? dim)%Z then DimMismatch else if negb (Bool.eqb (c_entropy_state o) entvar) then EntvarMismatch else if entvar && negb (c_steady o) then EntvarUnsteady
      else match c_control_bcs o with Some bc => if zlist_eqb bc (c_entropy_bdr o) then Made else MarkersDiffer | None => NoControlBC end) = Made ->
      d = dim /\ c_entropy_state o = entvar /\ (entvar = true -> c_steady o = true) /\ exists bc, c_control_bcs o = Some bc /\ bc = c_entropy_bdr o).
    { intros d. destruct (Z.eqb_spec d dim) as [->|]; [|discriminate]. cbn [negb]. destruct (Bool.eqb (c_entropy_state o) entvar) eqn:E; [|discriminate]. apply Bool.eqb_prop in E. cbn [negb].
      destruct (entvar && negb (c_steady o)) eqn:S1; [discriminate|]. destruct (c_control_bcs o) as [bc|]; [|discriminate]. unfold zlist_eqb. destruct (list_eq_dec Z.eq_dec bc (c_entropy_bdr o)); [|discriminate].
      intros _. split; [reflexivity|]. split; [exact E|]. split; [intros ->; destruct (c_steady o); [reflexivity|discriminate S1]|]. exists bc. split; [reflexivity|assumption]. }
    destruct smesh as [d|].
    + intros H. apply G in H. destruct H as (A & B & C & bc & D & E). exists e, d, bc. auto 10.
    + destruct (String.eqb_spec e "mesh") as [->|]; [|discriminate]. destruct reads as [d|]; [|discriminate]. intros H. apply G in H. destruct H as (A & B & C & bc & D & E). exists "mesh"%string, d, bc. auto 10.
  - intros (e & d & bc & E & M & -> & S1 & S2 & B1 & B2). rewrite E. assert (M' : (match smesh with Some d => (Made, d) | None => if String.eqb e "mesh" then match reads with Some d => (Made, d) | None => (NullMesh, 0%Z) end else (NullMesh, 0%Z) end) = (Made, dim)).
    { destruct M as [->|(-> & -> & ->)]; reflexivity. }
    rewrite M'. rewrite Z.eqb_refl. cbn [negb]. rewrite S1, Bool.eqb_reflx. cbn [negb]. replace (entvar && negb (c_steady o)) with false by (destruct entvar; [rewrite S2 by reflexivity; reflexivity|reflexivity]).
    rewrite B1, B2. unfold zlist_eqb. destruct (list_eq_dec Z.eq_dec (c_entropy_bdr o) (c_entropy_bdr o)); [reflexivity|contradiction].
Qed.
(** with entropy variables as states it can be built only for steady problems, which it then refuses to solve: no such run exists *)
Theorem C122_entvar_refuted : forall dim smesh reads rank s w, construct dim true o smesh reads = Made -> o_end (run rank s w) = Threw.
Proof.
  intros dim smesh reads rank s w H. apply C122_construct in H. destruct H as (e & d & bc & _ & _ & _ & _ & S1 & _). unfold solve. rewrite S1 by reflexivity. reflexivity.
Qed.
End Props.
Print Assumptions C121_history.
Print Assumptions C121_crash.
Print Assumptions C121_times.
Print Assumptions C121_other_files.
Print Assumptions C121_rank.
Print Assumptions C121_second_run_refuted.
Print Assumptions C122_time_loop.
Print Assumptions C122_steady.
Print Assumptions C122_construct.
Print Assumptions C122_entvar_refuted.
(** different outputs have different files *)
Theorem C121_distinct : forall a b n, file_name a n = file_name b n -> a = b.
Proof. exact file_name_inj. Qed.
Print Assumptions C121_distinct.
(** a serial mesh does not help when the name of the mesh file has no dot; and a file of another kind is a null dereference *)
Theorem C122_mesh_refuted : forall file d reads, extension file = None -> construct_mesh file (Some d) reads = (NoExtension, 0%Z).
Proof. intros file d reads H. unfold construct_mesh. now rewrite H. Qed.
Print Assumptions C122_mesh_refuted.
Theorem C122_null_refuted : forall file e reads, extension file = Some e -> e <> "mesh"%string -> construct_mesh file None reads = (NullMesh, 0%Z).
Proof. intros file e reads H N. unfold construct_mesh. rewrite H. destruct (String.eqb_spec e "mesh"); [contradiction|reflexivity]. Qed.
Print Assumptions C122_null_refuted.
(** the extension is what follows the last dot *)
Theorem C122_extension : forall s e, extension s = Some e <-> (exists p, s = (p ++ String "."%char e)%string) /\ (forall a b, e <> (a ++ String "."%char b)%string).
Proof.
  assert (N : forall s, extension s = None <-> forall a b, s <> (a ++ String "."%char b)%string).
  { induction s as [|c s IH]; cbn.
    - split; [intros _ [|x a] b H; discriminate|reflexivity].
    - destruct (extension s) as [x|] eqn:E.
      + split; [discriminate|]. intros H. exfalso.
        assert (K : ~ (forall a b, s <> (a ++ String "."%char b)%string)) by (intros K; apply IH in K; discriminate). apply K. intros a b ->. apply (H (String c a) b). reflexivity.
      + destruct (Ascii.eqb_spec c "."%char) as [->|Nc].
        * split; [discriminate|]. intros H. exfalso. apply (H EmptyString s). reflexivity.
        * split; [|reflexivity]. intros _ [|y a] b H; cbn in H; injection H as H1 H2; [contradiction|]. apply (proj1 IH eq_refl a b H2). }
  induction s as [|c s IH]; intros e; cbn.
  - split; [discriminate|]. intros [[[|x p] H] _]; discriminate.
  - destruct (extension s) as [x|] eqn:E.
    + split.
      * intros H. injection H as ->. destruct (proj1 (IH e) eq_refl) as [[p ->] K]. split; [exists (String c p); reflexivity|exact K].
      * intros [[[|y p] H] K]; cbn in H; injection H as H1 H2.
        -- subst s. assert (Q : extension e = None) by (now apply N). congruence.
        -- apply (proj2 (IH e)). split; [now exists p|exact K].
    + destruct (Ascii.eqb_spec c "."%char) as [->|Nc].
      * split; [intros H; injection H as ->; split; [exists EmptyString; reflexivity|now apply N]|].
        intros [[[|y p] H] K]; cbn in H; injection H as H2; [congruence|]. exfalso. apply (proj1 (N s) E p e). assumption.
      * split; [discriminate|]. intros [[[|y p] H] K]; cbn in H; injection H as H1 H2; [contradiction|]. exfalso. apply (proj1 (N s) E p e). assumption.
Qed.
Print Assumptions C122_extension.
(** const-cfl disregards t-final: with exact-t-final the run still ends beyond it *)
Theorem C122_cfl_refuted : exists (o : options) (step : unit -> R -> R -> option (unit * R)) (cfl : R -> unit -> R) w, exact_t_final (c_time o) = true /\ fresh w /\
  match o_end (solve (fun s : unit => s) step (fun _ _ _ => 0) (fun _ _ _ => 0) cfl o {| initial_state := false; each_timestep := false; final_state := false |} [] 0 tt w) with
  | Finished t _ => t_final (c_time o) < t | Threw => False end.
Proof.
  exists {| c_time := {| t_initial := 0; t_final := 1; dt_opt := 1; max_iter := 1; exact_t_final := true |}; c_steady := false; c_const_cfl := true; c_cfl := 1; c_each := false; c_sample := 0;
    c_entropy_state := false; c_mesh_file := ""; c_control_bcs := None; c_entropy_bdr := [] |}.
  exists (fun s t d => Some (s, t + d)), (fun _ _ => 5), {| w_dir := []; w_data := []; w_next := 0; w_streams := [] |}. split; [reflexivity|]. split; [split; [reflexivity|discriminate]|].
  unfold solve. cbn [c_steady c_time max_iter Z.to_nat Pos.to_nat Pos.iter_op Init.Nat.add march]. cbn [march]. unfold step_size. cbn [c_steady c_const_cfl c_time t_initial t_final].
  change (Pos.to_nat 1) with 1%nat. cbn [march]. unfold step_size. cbn [c_steady c_const_cfl c_cfl c_time t_initial t_final].
  destruct (iterationExit _ _ _); cbn [o_end march]; lra.
Qed.
Print Assumptions C122_cfl_refuted.
(** setState with a pair: the control function sees the control state on rank 0 only; the rest is the flow function's true dofs *)
Theorem C122_set_pair : forall rank nc control_func flow_true state i,
  (nc <= i -> set_pair rank nc control_func flow_true state i = flow_true (i - nc))%nat /\
  ((i < nc)%nat -> set_pair rank nc control_func flow_true state i = if Nat.eqb rank 0 then control_func state i else state i).
Proof. intros. unfold set_pair. destruct (Nat.ltb_spec i nc); split; intros; try lia; destruct (Nat.eqb rank 0); reflexivity. Qed.
Print Assumptions C122_set_pair.
(** a run of two steps, on a directory with an old file of the same name *)
Definition demo_opts : options := {| c_time := {| t_initial := 0; t_final := 2; dt_opt := 1; max_iter := 5; exact_t_final := true |}; c_steady := false; c_const_cfl := false; c_cfl := 1;
  c_each := true; c_sample := 7; c_entropy_state := false; c_mesh_file := "box.mesh"; c_control_bcs := Some [1%Z]; c_entropy_bdr := [1%Z] |}.
Definition demo_world : world := {| w_dir := [("entropy-7.txt"%string, 0%nat)]; w_data := [(0%nat, [(5, 5)])]; w_next := 1; w_streams := [] |}.
Example C121_demo : fresh demo_world /\ file_name "entropy" 7 = "entropy-7.txt"%string /\ construct 2 false demo_opts None (Some 2%Z) = Made /\
  exists t s, o_end (solve (fun s : R => s) (fun s t d => Some (s + d, t + d)) (fun _ _ s => s) (fun _ _ s => s) (fun _ _ => 1) demo_opts
    {| initial_state := true; each_timestep := false; final_state := true |} ["entropy"%string] 0 0 demo_world) = Finished t s.
Proof.
  repeat split.
  - intros f i H. cbn in H. destruct (String.eqb f "entropy-7.txt"); [injection H as <-; cbn; lia|discriminate].
  - destruct (C122_time_loop (fun s : R => s) (fun s t d => Some (s + d, t + d)) (fun _ _ s => s) (fun _ _ s => s) (fun _ _ => 1) demo_opts
      {| initial_state := true; each_timestep := false; final_state := true |} ["entropy"%string] (fun s t d => (s + d, t + d)) 0%nat 0 demo_world eq_refl eq_refl ltac:(reflexivity)) as [A _].
    eexists _, _. exact A.
Qed.
