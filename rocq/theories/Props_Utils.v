(** Properties C39 (boundary markers), C42 (PUMI life cycle), C43 (pseudo-transient steps), C44 (reconstruction),
    C54 (mesh-file dispatch), C55 (constant-CFL step). *)
From Coq Require Import Reals List String Ascii ZArith Bool Lia Lra Floats.
From Verif Require Import Num Vec BdrArray BdrArrayProofs Pumi PumiProofs Euler EulerSpec FlowStep FlowStepProofs
  OrthoPolySpec Interp InterpProofs.
Import ListNotations.

(** C39: a list of attribute numbers in 1..n (any order, repetitions) gives the array with 1 exactly at the listed
    attributes, 0 elsewhere; whatever the array held before *)
Theorem C39_attribute_list :
  forall (attrs arr : list Z), (forall a, In a attrs -> 1 <= a <= Z.of_nat (List.length arr))%Z ->
  exists out, getMFEMBoundaryArray (JArr (map EInt attrs)) arr = Ret out /\ List.length out = List.length arr /\
  forall a, (1 <= a <= Z.of_nat (List.length arr))%Z ->
    (In a attrs -> nth (Z.to_nat (a - 1)) out (-1)%Z = 1%Z) /\ (~ In a attrs -> nth (Z.to_nat (a - 1)) out (-1)%Z = 0%Z).
Proof.
  intros attrs arr H. unfold getMFEMBoundaryArray. rewrite get_ints_ok.
  destruct (attr_spec attrs (assign 0 arr)) as (out & E & L & M); [now rewrite assign_length|]. rewrite E, assign_length in *.
  exists out. split; [reflexivity|]. split; [assumption|]. intros a Ha. unfold marks in M. rewrite L in M. rewrite (M a Ha).
  destruct (in_dec Z.eq_dec a attrs); tauto.
Qed.
Print Assumptions C39_attribute_list.

(** an attribute outside 1..n is an out-of-range write, wherever it stands in the list *)
Theorem C39_out_of_range :
  forall (attrs arr : list Z) a, In a attrs -> ~ (1 <= a <= Z.of_nat (List.length arr))%Z ->
  getMFEMBoundaryArray (JArr (map EInt attrs)) arr = UB.
Proof.
  intros attrs arr a H1 H2. unfold getMFEMBoundaryArray. rewrite get_ints_ok, (attr_ub attrs (assign 0 arr) a); [reflexivity|assumption|now rewrite assign_length].
Qed.
Print Assumptions C39_out_of_range.

(** strings and other values; a refused value leaves the array zeroed *)
Theorem C39_other_values :
  forall arr : list Z,
  getMFEMBoundaryArray (JStr "all") arr = Ret (repeat 1%Z (List.length arr)) /\
  getMFEMBoundaryArray (JStr "none") arr = Ret (repeat 0%Z (List.length arr)) /\
  (forall s, s <> "all"%string -> s <> "none"%string -> getMFEMBoundaryArray (JStr s) arr = ThrowMISO (repeat 0%Z (List.length arr))) /\
  getMFEMBoundaryArray JOther arr = ThrowMISO (repeat 0%Z (List.length arr)) /\
  (forall l, In EBad l -> getMFEMBoundaryArray (JArr l) arr = ThrowType (repeat 0%Z (List.length arr))).
Proof.
  intros arr. assert (A : forall v a, assign v a = repeat v (List.length a)) by (intros v a; induction a; simpl; unfold assign in *; simpl; congruence).
  unfold getMFEMBoundaryArray. rewrite !assign_assign, !A. repeat split.
  - intros s H1 H2. destruct (String.eqb_spec s "all"); [contradiction|]. destruct (String.eqb_spec s "none"); [contradiction|reflexivity].
  - intros l H. now rewrite get_ints_bad.
Qed.
Print Assumptions C39_other_values.

Example C39_example : getMFEMBoundaryArray (JArr [EInt 4; EInt 2; EInt 4]%Z) [7; 7; 7; 7]%Z = Ret [0; 1; 0; 1]%Z.
Proof. reflexivity. Qed.

(** C42: nobody else touches the library.  After any legal history the library is initialised exactly when a mesh
    object is alive, and MISO's calls strictly alternate Init, Free, Init, Free, ... *)
Theorem C42_own_library :
  forall es, valid 0 es -> no_external es ->
  (pcu (run es st0) = true <-> (1 <= live (run es st0))%nat) /\ alternating Init (calls (run es st0)).
Proof.
  intros es V X. destruct (inv_run es st0 inv0 X V) as (_ & _ & U & A & _). split; [|assumption]. rewrite U.
  destruct (live (run es st0)); simpl; split; intros; try lia; try discriminate; reflexivity.
Qed.
Print Assumptions C42_own_library.

(** somebody else initialised the library first and keeps it: MISO neither initialises nor finalises it *)
Theorem C42_borrowed_library :
  forall es, valid 0 es -> no_external es ->
  calls (run (ExtInit :: es) st0) = [] /\ pcu (run (ExtInit :: es) st0) = true.
Proof.
  intros es V X. assert (I : inv_ext (step st0 ExtInit)) by (repeat split; simpl; auto).
  destruct (inv_ext_run es (step st0 ExtInit) I X V) as (_ & _ & U & C & _). auto.
Qed.
Print Assumptions C42_borrowed_library.

(** ... but the memory of that is never cleared: if the other user finalises the library while no mesh exists, the
    next mesh is created with the library not initialised *)
Theorem C42_later_use_refuted :
  exists es, valid 0 es /\ live (run es st0) = 1%nat /\ pcu (run es st0) = false /\ calls (run es st0) = [].
Proof. exists [ExtInit; Ctor; Dtor; ExtFree; Ctor]. simpl. repeat split; lia. Qed.
Print Assumptions C42_later_use_refuted.

(** constructMesh never uses an uninitialised library (own library, any previous history that did not), while calling
    constructPumiMesh first does *)
Theorem C42_construct_mesh :
  forall es file smesh, valid 0 es -> no_external es -> bad_use (run es st0) = false ->
  let s := run (constructMesh_events file smesh) (run es st0) in
  bad_use s = false /\ (live s = live (run es st0) \/ live s = S (live (run es st0))).
Proof.
  intros es file smesh V X B. cbv zeta. pose proof (inv_run es st0 inv0 X V) as I. set (s := run es st0) in *.
  destruct I as (C & P & U & A & N).
  assert (G : forall evs, no_external evs -> valid (live s) evs -> (forall a b, evs = a ++ Use :: b -> (1 <= live (run a s))%nat) -> bad_use (run evs s) = false).
  { intros evs H1 H2 H3. apply bad_run_gen; auto. repeat split; auto. }
  unfold constructMesh_events. destruct (mesh_source file smesh); simpl; split; auto;
  try (rewrite B, U; unfold ctor; simpl; rewrite P, C; destruct (live s); reflexivity).
Qed.
Print Assumptions C42_construct_mesh.

Theorem C42_construct_pumi_mesh_refuted : bad_use (run constructPumiMesh_events st0) = true.
Proof. reflexivity. Qed.
Print Assumptions C42_construct_pumi_mesh_refuted.

Example C42_example : valid 0 [Ctor; MoveCtor; Dtor; Ctor; MoveAssign; Dtor; Dtor; Ctor] /\
  calls (run [Ctor; MoveCtor; Dtor; Ctor; MoveAssign; Dtor; Dtor; Ctor] st0) = [Init; Free; Init].
Proof. simpl. repeat split; lia. Qed.

(** C54: where constructMesh takes the mesh from.  The extension is what follows the last dot. *)
Theorem C54_extension :
  forall file, (mesh_ext file = None <-> ~ has_dot file) /\
  (forall e, mesh_ext file = Some e <-> exists p, file = append p (String "."%char e) /\ ~ has_dot e).
Proof. intros file. split; [apply mesh_ext_none|intros; apply mesh_ext_some]. Qed.
Print Assumptions C54_extension.

Theorem C54_dispatch :
  forall p e smesh, ~ has_dot e ->
  mesh_source (append p (String "."%char e)) smesh =
    (if smesh then GivenMesh else if String.eqb e "mesh" then NativeFile
     else if String.eqb e "smb" then PumiFile else if String.eqb e "ugrid" then PumiFile else Unrecognized).
Proof.
  intros p e smesh H. unfold mesh_source. rewrite (proj2 (mesh_ext_some _ e)) by eauto.
  destruct smesh, (String.eqb e "mesh"), (String.eqb e "smb"), (String.eqb e "ugrid"); reflexivity.
Qed.
Print Assumptions C54_dispatch.

(** a mesh object handed over in memory is refused when the file option has no dot, although no file is read *)
Theorem C54_given_mesh_needs_dot : forall file, ~ has_dot file -> mesh_source file true = NoExtension.
Proof. intros file H. unfold mesh_source. apply mesh_ext_none in H. now rewrite H. Qed.
Print Assumptions C54_given_mesh_needs_dot.

Example C54_example : mesh_source "grids/v1.2/box.smb" false = PumiFile /\ mesh_source "grids/v1.2/box" false = Unrecognized.
Proof. split; reflexivity. Qed.

Local Open Scope R_scope.

(** C43: steady mode.  [passes]: for each pass the step size, the state before and the state after.  Residual norms of
    visited states enter through [resnorm]; the first one must be positive (see the refutation below). *)
Theorem C43_step_sizes :
  forall (S : Type) (step : S -> R -> R -> S * R) (resnorm : S -> R) (o : steady_opts) t0 s0,
  0 < resnorm s0 -> 0 <= so_dt o -> (0 < so_max_iter o)%nat ->
  let passes := fst (solveSteadyPTC step resnorm o t0 s0) in
  (* the first step is dt, from the initial state *)
  (exists p, nth_error passes 0 = Some p /\ ps_before p = s0 /\ ps_dt p = so_dt o) /\
  (* steps never shrink, and each pass starts where the previous one ended *)
  (forall i p q, nth_error passes i = Some p -> nth_error passes (i + 1) = Some q ->
     ps_dt p <= ps_dt q /\ ps_before q = ps_after p) /\
  (* each step is the largest of dt (|R0| / |R|)^exponent over the states visited so far *)
  (forall i p, nth_error passes i = Some p ->
     ps_dt p = fold_left Rmax (map (fun q => so_dt o * Rpower (resnorm s0 / resnorm (ps_before q)) (so_exp o)) (firstn (i + 1) passes)) 0) /\
  (* each pass is one step of the time marcher *)
  (forall i p, nth_error passes i = Some p -> exists t, ps_after p = fst (step (ps_before p) t (ps_dt p))).
Proof.
  intros S step resnorm o t0 s0 H0 Hd Hn. cbv zeta. unfold solveSteadyPTC. repeat split.
  - destruct (loop_first step resnorm o (so_max_iter o) (resnorm s0) t0 0 s0 Hn) as (p & E & B & D). exists p. repeat split; try assumption.
    rewrite D. unfold wanted. replace (resnorm s0 / resnorm s0) with 1 by (field; lra). rewrite Rpower_1_l, Rmult_1_r. now apply Rmax_left.
  - destruct (loop_mono step resnorm o (so_max_iter o) (resnorm s0) t0 0 s0 i p q H H1) as (A & _); assumption.
  - destruct (loop_mono step resnorm o (so_max_iter o) (resnorm s0) t0 0 s0 i p q H H1) as (_ & A & _); assumption.
  - apply loop_dt.
  - apply loop_step.
Qed.
Print Assumptions C43_step_sizes.

(** iteration stops exactly at the first pass that meets a tolerance, or after max-iter passes *)
Theorem C43_stopping :
  forall (S : Type) (step : S -> R -> R -> S * R) (resnorm : S -> R) (o : steady_opts) t0 s0,
  (0 < so_max_iter o)%nat ->
  let met s := resnorm s <= so_abstol o \/ resnorm s <= resnorm s0 * so_reltol o in
  let '(passes, final) := solveSteadyPTC step resnorm o t0 s0 in
  (1 <= List.length passes <= so_max_iter o)%nat /\
  (exists p, nth_error passes (List.length passes - 1) = Some p /\ final = ps_after p) /\
  (forall i p, nth_error passes i = Some p -> (i + 1 < List.length passes)%nat -> ~ met (ps_after p)) /\
  (List.length passes = so_max_iter o \/ met final).
Proof.
  intros S step resnorm o t0 s0 Hn met. unfold solveSteadyPTC.
  destruct (loop_end step resnorm o (so_max_iter o) (resnorm s0) t0 0 s0 Hn) as (p & A & B & C & D & E).
  pose proof (loop_mono step resnorm o (so_max_iter o) (resnorm s0) t0 0 s0) as M.
  destruct (steady_loop step resnorm o (so_max_iter o) (resnorm s0) t0 0 s0) as [ps fin]. cbn [fst snd] in *.
  split; [lia|]. split; [eauto|]. split.
  - intros i q Hq Hi. destruct (nth_error ps (i + 1)) as [q'|] eqn:Q; [|apply nth_error_None in Q; lia].
    destruct (M i q q' Hq Q) as (_ & _ & N). exact N.
  - destruct E; [now left|right]. rewrite B. assumption.
Qed.
Print Assumptions C43_stopping.

(** Started on a state whose residual is exactly zero the claim fails in binary64: 0/0 is NaN and std::max(NaN, 0)
    keeps the NaN, so the first pseudo-time step is NaN, whatever pow does on ordinary arguments. *)
Theorem C43_converged_start_refuted :
  forall pow : float -> float -> float, (forall e, pow PrimFloat.nan e = PrimFloat.nan) -> forall exponent,
  PrimFloat.is_nan (ptc_step Fnum pow (nlit Fnum 1 10) exponent 0%float 0%float 0%float) = true.
Proof.
  intros pow H e. unfold ptc_step, nmax. cbn [Fnum ndiv nmul nltb T].
  replace (PrimFloat.div 0 0)%float with PrimFloat.nan by reflexivity. rewrite H. reflexivity.
Qed.
Print Assumptions C43_converged_start_refuted.

(** witness: residual halves each pass, exponent 1 *)
Example C43_example : let o := {| so_dt := 1; so_exp := 1; so_abstol := 0; so_reltol := 3/10; so_max_iter := 10 |} in
  List.length (fst (solveSteadyPTC (fun (s : R) t dt => (s / 2, t + dt)) (fun s => s) o 0 1)) = 2%nat.
Proof.
  intros o.
  assert (E1 : steady_exit o 1 (1/2) = false).
  { apply not_true_is_false. intros H. apply exit_spec in H. unfold converged, o in H. cbn [so_abstol so_reltol] in H. destruct H as [H|H]; lra. }
  assert (E2 : steady_exit o 1 (1/2/2) = true).
  { apply exit_spec. right. unfold o. cbn [so_reltol]. lra. }
  assert (G : forall n t dt, List.length (fst (steady_loop (fun (s : R) t dt => (s / 2, t + dt)) (fun s => s) o (Datatypes.S (Datatypes.S n)) 1 t dt 1)) = 2%nat).
  { intros n t dt. cbn [steady_loop fst snd]. rewrite E1. cbn [fst snd]. rewrite E2. reflexivity. }
  exact (G 8%nat 0 0).
Qed.

(** C44, buildInterpolation (dimensions 1 and 2): row i of the operator solves the system handed to LAPACK exactly when
    the row reproduces every polynomial of total degree <= degree at quadrature point i *)
Theorem C44_minimal_interpolation :
  forall dim degree m n x_center x_quad i w r, interp_rows dim degree = Ok m ->
  (forall j, (j < n)%nat -> interp_column dim degree x_center x_quad i j = Ok (fun row => r row j)) ->
  ((forall row, (row < m)%nat -> rsum n (fun j => r row j * w j) = interp_rhs row) <->
   (forall f, poly3 degree f -> rsum n (fun j => w j * at_pt dim f x_center j) = at_pt dim f x_quad i)).
Proof. exact interp_reproduces. Qed.
Print Assumptions C44_minimal_interpolation.

(** buildLSInterpolation (dimensions 1 to 3): if dgels returned a least-squares solution and the centres determine the
    coefficients (full column rank), the operator reproduces every polynomial of total degree <= degree at every
    quadrature point.  The centres' Vandermonde matrix is overwritten completely ([V0] arbitrary). *)
Theorem C44_least_squares_interpolation :
  forall dim degree nb ne x_center x_quad V0 coeff f j, ls_num_basis dim degree = Ok nb ->
  let V := fun i => ls_vandermonde dim degree x_center (V0 i) i in
  is_least_squares ne nb V coeff -> full_rank ne nb V -> poly3 degree f ->
  rsum ne (fun i => ls_interp dim degree x_center x_quad coeff j i * at_pt dim f x_center i) = at_pt dim f x_quad j.
Proof. intros. eapply ls_reproduces; eassumption. Qed.
Print Assumptions C44_least_squares_interpolation.

(** the columns are all monomials of total degree <= degree, each exactly once *)
Theorem C44_columns :
  forall dim degree nb x_center V0 i, ls_num_basis dim degree = Ok nb ->
  exists es, NoDup es /\ List.length es = nb /\
  (forall a b c, In (a, b, c) es <-> (a + b + c <= degree /\ (dim < 2 -> b = 0) /\ (dim < 3 -> c = 0))%nat) /\
  forall col, (col < nb)%nat -> exists a b c, nth_error es col = Some (a, b, c) /\
    ls_vandermonde dim degree x_center V0 i col =
      (pt dim x_center 0 i - pt dim x_center 0 0) ^ a * (pt dim x_center 1 i - pt dim x_center 1 0) ^ b * (pt dim x_center 2 i - pt dim x_center 2 0) ^ c.
Proof.
  intros dim degree nb x V0 i H. assert (Hd : (1 <= dim <= 3)%nat) by (destruct dim as [|[|[|[|]]]]; simpl in H; try discriminate; lia).
  exists (exps dim degree). pose proof (exps_length dim degree nb H) as L. split; [apply exps_nodup|]. split; [assumption|]. split.
  - intros a b c. rewrite exps_complete by assumption. reflexivity.
  - intros col Hc. destruct (nth_error (exps dim degree) col) as [[[a b] c]|] eqn:E; [|apply nth_error_None in E; lia].
    exists a, b, c. split; [reflexivity|]. rewrite (ls_V dim degree x V0 i col (0,0,0)%nat Hd) by lia.
    rewrite (nth_error_nth _ _ _ E). reflexivity.
Qed.
Print Assumptions C44_columns.

Theorem C44_dimensions :
  (forall degree, interp_rows 3 degree = Throws) /\ (forall dim degree, (4 <= dim)%nat -> ls_num_basis dim degree = Throws).
Proof. split; [reflexivity|]. intros [|[|[|[|dim]]]] degree H; try lia; reflexivity. Qed.
Print Assumptions C44_dimensions.

(** hypothesis witness: two centres 0 and 1, degree 1; dgels solves exactly *)
Example C44_example : let x := fun (_ i : nat) => INR i in
  let V := fun i => ls_vandermonde 1 1 x (fun _ => 9) i in
  let coeff := fun k i : nat => match k, i with 0%nat, 0%nat => 1 | 0%nat, _ => 0 | 1%nat, 0%nat => -1 | _, _ => 1 end in
  ls_num_basis 1 1 = Ok 2%nat /\ is_least_squares 2 2 V coeff /\ full_rank 2 2 V.
Proof.
  cbv zeta. split; [reflexivity|]. split.
  - intros i Hi c. assert (E : sqnorm 2 (ls_residual 2 (fun i => ls_vandermonde 1 1 (fun _ i0 : nat => INR i0) (fun _ => 9) i)
      (fun col => (fun k i : nat => match k, i with 0%nat, 0%nat => 1 | 0%nat, _ => 0 | 1%nat, 0%nat => -1 | _, _ => 1 end) col i) i) = 0).
    { unfold sqnorm, ls_residual, ls_vandermonde, for_upto, upd. destruct i as [|[|i]]; [| |lia]; simpl; ring. }
    rewrite E. unfold sqnorm. simpl. nra.
  - intros a H k Hk. pose proof (H 0%nat ltac:(lia)) as H0. pose proof (H 1%nat ltac:(lia)) as H1.
    unfold ls_vandermonde, for_upto, upd in H0, H1. simpl in H0, H1. destruct k as [|[|k]]; [| |lia]; lra.
Qed.

(** C55: the constant-CFL step.  For every pair of distinct nodes of every element on every rank the step satisfies
    dt (|u.n| + a) <= cfl |xj - xi|, it is positive, and it is the largest such step (capped at 1e100). *)
Theorem C55_cfl_condition :
  forall d entvar cfl (r0 : list elem) (ranks : list (list elem)), 0 < cfl ->
  (forall es e i j, In es (r0 :: ranks) -> In e es -> (i < el_n e)%nat -> (j < el_n e)%nat -> j <> i ->
     physical d (calcConservativeVars d entvar (el_u e i)) /\ 0 < norm d (vsub (el_x e j) (el_x e i))) ->
  let dt := minCFLTimeStep d entvar cfl r0 ranks in
  let admissible t := t <= 10 ^ 100 /\
    forall es e i j, In es (r0 :: ranks) -> In e es -> (i < el_n e)%nat -> (j < el_n e)%nat -> j <> i ->
    forall rho u p, 0 < rho -> 0 < p -> is_state d (calcConservativeVars d entvar (el_u e i)) rho u p ->
      t * (Rabs (dot d u (unit_of d (vsub (el_x e j) (el_x e i)))) + sound rho p) <= cfl * norm d (vsub (el_x e j) (el_x e i)) in
  0 < dt /\ admissible dt /\ (forall t, admissible t -> t <= dt).
Proof.
  intros d entvar cfl r0 ranks Hc H. cbv zeta. destruct (cfl_min d entvar cfl r0 ranks) as (A & B & C). split; [|split].
  - destruct C as [->|(es & e & i & j & H1 & H2 & H3 & H4 & H5 & ->)]; [apply pow_lt; lra|].
    destruct (H es e i j H1 H2 H3 H4 H5). now apply pair_pos.
  - split; [assumption|]. intros es e i j H1 H2 H3 H4 H5 rho u p Hr Hp Hs. destruct (H es e i j H1 H2 H3 H4 H5).
    apply (pair_cfl d entvar cfl e i j rho u p); auto. apply B. exists es, e, i, j. tauto.
  - intros t [T1 T2]. destruct C as [->|(es & e & i & j & H1 & H2 & H3 & H4 & H5 & ->)]; [assumption|].
    destruct (H es e i j H1 H2 H3 H4 H5) as [(rho & u & p & Hr & Hp & Hs) Hn].
    apply (pair_cfl d entvar cfl e i j rho u p t Hr Hp Hs Hn). now apply (T2 es e i j).
Qed.
Print Assumptions C55_cfl_condition.

(** witness: one linear element of unit length, gas at rest *)
Example C55_example : let e := {| el_n := 2; el_x := fun i _ => INR i; el_u := fun _ k => match k with 0%nat => 1 | 1%nat => 0 | _ => 5/2 end |} in
  forall i j, (i < 2)%nat -> (j < 2)%nat -> j <> i -> physical 1 (calcConservativeVars 1 false (el_u e i)) /\ 0 < norm 1 (vsub (el_x e j) (el_x e i)).
Proof.
  cbv zeta. intros i j Hi Hj Hij. split.
  - exists 1, (fun _ => 0), 1. split; [lra|]. split; [lra|]. unfold is_state. cbn. repeat split; try lra.
    intros k Hk. destruct k; [lra|lia].
  - unfold norm. apply sqrt_lt_R0. unfold dot, vsub. simpl. destruct i as [|[|i]], j as [|[|j]]; try lia; simpl; lra.
Qed.
