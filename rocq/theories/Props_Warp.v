(** C100-C105: the mesh warper. *)
From Coq Require Import Reals Lra Lia List String Bool Arith.
From Coquelicot Require Import Coquelicot.
From Verif Require Import Num Vec Deriv Form FormSpec FormProofs Warp WarpSpec WarpProofs WarpSolveProofs WarpSensProofs.
Import ListNotations.
Local Open Scope R_scope.

(** the linear solver is exact on the matrix that the warper's residual hands out *)
Definition exact_on (M : wmesh) (lin : mat -> vec -> vec) (f : nform coords) : Prop :=
  forall x J f1, getJacobian _ _ (warp_pieces M) (only_state x) f = Done (J, f1) -> solves (n M) lin J.
Lemma exact_sys M X E lin f : clean M X E f -> exact_on M lin f -> solves (n M) lin (sys M X E).
Proof. intros C H. destruct C as [C1 [C2 _]]. specialize (H (fun _ => 0) _ _ (jac_state M (fun _ => 0) f)). now rewrite C1, C2 in H. Qed.

(** ** A concrete warper: the square (-1,1)^2 cut into four triangles by its centre.  Node 0 is the centre. *)
Definition tri (a b c : nat) : elem :=
  let ds := fun (_ k d : nat) => match k, d with O, _ => -1 | 1%nat, O => 1 | 2%nat, 1%nat => 1 | _, _ => 0 end in
  let nodes := fun k => match k with O => a | 1%nat => b | _ => c end in
  {| nd := 3; node := nodes; dsh := ds; mnd := 3; mnode := nodes; mdsh := ds; nq := 1; ipw := fun _ => 1 / 2 |}.
Definition pin : wmesh := {| dim := 2; nn := 5; ne := 4;
  el := fun m => match m with O => tri 0 1 2 | 1%nat => tri 0 2 3 | 2%nat => tri 0 3 4 | _ => tri 0 4 1 end;
  mord := byVDIM; mnn := 5; on_bdr := fun k => negb (Nat.eqb k 0); on_ess := Some (fun k => negb (Nat.eqb k 0)) |}.
Definition pinX : coords := fun k c => match k, c with
  | 1%nat, O => -1 | 1%nat, _ => -1 | 2%nat, O => 1 | 2%nat, _ => -1 | 3%nat, _ => 1 | 4%nat, O => -1 | 4%nat, _ => 1 | _, _ => 0 end.
Definition pin_lin (J : mat) (r : vec) : vec := fun i => if Nat.ltb i 2 then r i / 8 else r i.
Lemma pin_same : same_space pin.
Proof.
  split; [simpl; lia|]. intros m Hm. simpl in Hm. destruct m as [|[|[|[|?]]]]; try lia; simpl; repeat split; try lia;
    destruct k as [|[|[|?]]]; simpl; lia.
Qed.
Lemma pin_valid : valid_mesh pin pinX.
Proof.
  split; [simpl; lia|]. intros m q Hm Hq. simpl in Hm. destruct m as [|[|[|[|?]]]]; try lia; simpl in Hq; (split; [simpl; lra|]);
    cbv [det map_grad pin el tri dsh node nd dim rsum pinX]; lra.
Qed.
Lemma pin_pou : partition_of_unity pin.
Proof.
  intros m q b Hm Hq Hb. simpl in Hm, Hb. destruct m as [|[|[|[|?]]]]; try lia; destruct b as [|[|?]]; try lia; cbv [pin el tri dsh nd rsum]; lra.
Qed.
Lemma pin_surface : surface_indices pin = [2;3;4;5;6;7;8;9]%nat. Proof. reflexivity. Qed.
Lemma pin_gsh m k c : (m < 4)%nat -> (k < 3)%nat -> (c < 2)%nat -> gsh pin pinX (el pin m) 0 k c =
  match m, k, c with
  | O, O, O => 0 | O, O, _ => 1 | 1%nat, O, O => -1 | 1%nat, O, _ => 0 | 2%nat, O, O => 0 | 2%nat, O, _ => -1 | _, O, O => 1 | _, O, _ => 0
  | _, _, _ => gsh pin pinX (el pin m) 0 k c end.
Proof.
  intros Hm Hk Hc. destruct m as [|[|[|[|?]]]]; try lia; destruct k as [|[|[|?]]]; try lia; destruct c as [|[|?]]; try lia; try reflexivity;
    cbv [gsh Jinv Jac adj det pin el tri dsh mdsh mnode mnd dim rsum pinX]; field.
Qed.
Lemma pin_wq m : (m < 4)%nat -> wq pin pinX (el pin m) 0 = 1.
Proof. intros Hm. destruct m as [|[|[|[|?]]]]; try lia; cbv [wq Jac det pin el tri mdsh mnode mnd dim rsum pinX ipw]; lra. Qed.
Lemma pin_exact f : session pin pinX f -> exact_on pin pin_lin f.
Proof.
  intros H x J f1 HJ. pose proof (session_clean pin pin_same pinX f H) as C.
  destruct (clean_jac pin pinX _ f x J f1 C HJ) as [-> _]. change (essential pin) with (surface_indices pin). rewrite pin_surface.
  intros r i Hi. change (n pin) with 10%nat in *.
  destruct (in_dec Nat.eq_dec i [2;3;4;5;6;7;8;9]%nat) as [I|I].
  - rewrite (sys_ess pin pinX [2;3;4;5;6;7;8;9]%nat _ i Hi I). unfold pin_lin. destruct (Nat.ltb_spec i 2); [|reflexivity].
    simpl in I. lia.
  - assert (i = 0 \/ i = 1)%nat as I2 by (simpl in I; lia).
    assert (forall a b, (a < 2)%nat -> (b < 2)%nat -> sys pin pinX [2;3;4;5;6;7;8;9]%nat a b = if Nat.eqb a b then 8 else 0) as K.
    { intros a b Ha Hb. unfold sys, elim_left.
      assert (memb a [2;3;4;5;6;7;8;9]%nat = false) as -> by (destruct a as [|[|?]]; try lia; reflexivity).
      assert (memb b [2;3;4;5;6;7;8;9]%nat = false) as -> by (destruct b as [|[|?]]; try lia; reflexivity).
      cbn [orb].
      assert (forall m, (m < 4)%nat -> rsum 6 (fun p => rsum 6 (fun p' => if Nat.eqb a (edof pin (el pin m) p) then if Nat.eqb b (edof pin (el pin m) p') then elmat pin pinX (el pin m) p p' else 0 else 0)) =
         elmat pin pinX (el pin m) (3 * a)%nat (3 * b)%nat) as Q.
      { intros m Hm. destruct m as [|[|[|[|?]]]]; try lia; destruct a as [|[|?]]; try lia; destruct b as [|[|?]]; try lia; cbv [rsum edof vdof Nat.eqb Nat.modulo Nat.divmod Nat.div fst snd Nat.sub Nat.mul Nat.add el pin tri nd node dim nn]; ring. }
      change (rsum 4 (fun m => rsum 6 (fun p => rsum 6 (fun p' => if Nat.eqb a (edof pin (el pin m) p) then if Nat.eqb b (edof pin (el pin m) p') then elmat pin pinX (el pin m) p p' else 0 else 0))) = if Nat.eqb a b then 8 else 0).
      rewrite (rsum_ext 4 _ (fun m => elmat pin pinX (el pin m) (3 * a)%nat (3 * b)%nat)) by (intros; now apply Q).
      assert (forall m, (m < 4)%nat -> elmat pin pinX (el pin m) (3 * a)%nat (3 * b)%nat = 2 * (gsh pin pinX (el pin m) 0 0 a * gsh pin pinX (el pin m) 0 0 b)
         + if Nat.eqb a b then gsh pin pinX (el pin m) 0 0 0 * gsh pin pinX (el pin m) 0 0 0 + gsh pin pinX (el pin m) 0 0 1 * gsh pin pinX (el pin m) 0 0 1 else 0) as Q2.
      { intros m Hm. unfold elmat. cbv zeta. assert (nd (el pin m) = 3%nat) as -> by (destruct m as [|[|[|[|?]]]]; try lia; reflexivity).
        assert (nq (el pin m) = 1%nat) as -> by (destruct m as [|[|[|[|?]]]]; try lia; reflexivity).
        assert (((3 * a) mod 3 = 0 /\ (3 * a) / 3 = a /\ (3 * b) mod 3 = 0 /\ (3 * b) / 3 = b)%nat) as [-> [-> [-> ->]]]
          by (destruct a as [|[|?]]; try lia; destruct b as [|[|?]]; try lia; repeat split).
        cbn [rsum]. change (dim pin) with 2%nat. cbn [rsum]. rewrite pin_wq by auto. unfold lambda_c, mu_c. destruct (Nat.eqb a b); ring. }
      rewrite (rsum_ext 4 _ _ Q2). cbn [rsum].
      destruct a as [|[|?]]; try lia; destruct b as [|[|?]]; try lia; cbn [Nat.eqb]; rewrite !pin_gsh by lia; ring. }
    unfold mv. change 10%nat with (2 + 8)%nat. rewrite rsum_app.
    rewrite (rsum_ext 8 _ (fun _ => 0)).
    2:{ intros j Hj. unfold sys, elim_left. assert (memb (2 + j) [2;3;4;5;6;7;8;9]%nat = true) as -> by (apply memb_in; simpl; lia).
        rewrite orb_true_r. destruct (Nat.eqb_spec i (2 + j)); [lia|ring]. }
    rewrite rsum_0. cbn [rsum]. rewrite !K by lia. unfold pin_lin. destruct I2 as [-> | ->]; cbn [Nat.eqb Nat.ltb Nat.leb]; field.
Qed.

(** ** C100: solving for the state *)
Theorem C100_solve : forall M X lin o i x f, same_space M -> valid_mesh M X -> session M X f -> in_mesh i = None ->
  exact_on M lin f -> (0 < max_iter o)%nat -> abs_tol o = 0 -> rel_tol o < 1 ->
  exists r, solveForState M lin o i x f = WOk r /\ nconv r = true /\ (niter r <= 1)%nat /\
    (forall j, List.In j (essential M) -> nx r j = x j) /\
    in_equilibrium M X (volume M X) (essential M) (nx r).
Proof.
  intros M X lin o i x f SS V Hs Hi L Hm Ha Hr. pose proof (session_clean M SS X f Hs) as C. pose proof (exact_sys M X _ lin f C L) as L1.
  destruct (solve_cases M SS lin o i X (essential M) x f C Hi L1) as [r [H [_ K]]]; [lra|].
  destruct (case_exact M SS lin o x X _ r L1 Hm Ha Hr K) as [F [Q [Cv It]]]. exists r. repeat split; auto.
  - intros j Hj. apply Q; [|assumption]. unfold essential in Hj. destruct (on_ess M); [|contradiction]. apply filter_In in Hj. destruct Hj as [Hj _].
    apply in_seq in Hj. lia.
  - now apply equil_volume.
Qed.
Print Assumptions C100_solve.

(** with any tolerances: the surface is kept exactly and the residual meets the requested tolerance *)
Theorem C100_tolerance : forall M X lin o i x f, same_space M -> session M X f -> in_mesh i = None ->
  exact_on M lin f -> (0 < max_iter o)%nat -> 0 <= abs_tol o ->
  exists r r0 rn f0 fn, solveForState M lin o i x f = WOk r /\ nconv r = true /\
    (forall j, List.In j (essential M) -> nx r j = x j) /\
    w_calcResidual M (only_state x) f = WOk (r0, f0) /\ w_calcResidual M (only_state (nx r)) (nformr r) = WOk (rn, fn) /\
    norm (n M) rn <= Rmax (rel_tol o * norm (n M) r0) (abs_tol o).
Proof.
  intros M X lin o i x f SS Hs Hi L Hm Ha. pose proof (session_clean M SS X f Hs) as C. pose proof (exact_sys M X _ lin f C L) as L1.
  destruct (solve_cases M SS lin o i X (essential M) x f C Hi L1 Ha) as [r [H [C1 K]]].
  exists r. do 4 eexists. split; [exact H|]. split; [destruct K; auto; lia|].
  split.
  { intros j Hj. apply (case_surface M lin o x X _ r L1 K); [|assumption]. unfold essential in Hj. destruct (on_ess M); [|contradiction].
    apply filter_In in Hj. destruct Hj as [Hj _]. apply in_seq in Hj. lia. }
  unfold w_calcResidual. rewrite !eval_state by auto. split; [reflexivity|]. split; [reflexivity|].
  destruct C as [A1 [A2 _]]. destruct C1 as [B1 [B2 _]]. cbn. rewrite A1, A2, B1, B2. exact (case_residual M SS lin o x X _ r L1 Hm Ha K).
Qed.
Print Assumptions C100_tolerance.

Definition tight : nopts := Build_nopts (1 / 10) 0 3.
(** the centre of the square follows when one corner is pulled: a warp that is not the identity *)
Example C100_witness : exists r, solveForState pin pin_lin tight (Build_winputs None None None) (fun i => if Nat.eqb i 9 then 3 else undeformed pin pinX i) (construct pin pinX) = WOk r /\
  nx r 9%nat = 3 /\ nx r 2%nat = -1 /\ nconv r = true.
Proof.
  destruct (C100_solve pin pinX pin_lin tight (Build_winputs None None None) (fun i => if Nat.eqb i 9 then 3 else undeformed pin pinX i) (construct pin pinX))
    as [r [H [Cv [_ [Q _]]]]]; try reflexivity; try (simpl; lra); try (simpl; lia).
  - exact pin_same.
  - exact pin_valid.
  - apply s_start.
  - apply pin_exact, s_start.
  - exists r. split; [exact H|]. rewrite !Q by (cbn; tauto). split; [reflexivity|]. split; [reflexivity|exact Cv].
Qed.

(** the surface passed to solveForState as "surf_mesh_coords" is ignored: the residual with the same inputs does not vanish *)
Theorem C100_surface_input_refuted : exists (s x : vec) r rn fn,
  let i := Build_winputs None (Some s) None in
  solveForState pin pin_lin tight i x (construct pin pinX) = WOk r /\ nconv r = true /\
  w_calcResidual pin (Build_winputs (Some (nx r)) (Some s) None) (nformr r) = WOk (rn, fn) /\ rn 2%nat <> 0.
Proof.
  set (x := undeformed pin pinX). set (s := fun k : nat => get_at (surface_indices pin) x k + 1).
  destruct (C100_solve pin pinX pin_lin tight (Build_winputs None (Some s) None) x (construct pin pinX))
    as [r [H [Cv [_ [Q _]]]]]; try reflexivity; try (simpl; lra); try (simpl; lia);
    [exact pin_same|exact pin_valid|apply s_start|apply pin_exact, s_start|].
  pose proof (clean_solve pin pin_same pin_lin tight (Build_winputs None (Some s) None) pinX (essential pin) x (construct pin pinX) r (clean_construct pin pinX) eq_refl H) as C.
  exists s, x, r. do 2 eexists. cbv zeta. split; [exact H|]. split; [exact Cv|]. split; [now apply (calc_surf pin pin_same pinX (essential pin))|].
  intros Z.
  assert (nx r (nth 0 (surface_indices pin) 0%nat) - s 0%nat = 0) as K.
  { rewrite <- Z. symmetry.
    exact (set_at_nth (surface_indices pin) (fun k => nx r (nth k (surface_indices pin) 0%nat) - s k) (zero_at (essential pin) (raw_res pin pinX (nx r))) 0
      (surf_nodup pin) ltac:(rewrite pin_surface; simpl; lia)). }
  unfold s, get_at in K. rewrite pin_surface in K. cbn [nth] in K. rewrite Q in K by (cbn; tauto). lra.
Qed.
Print Assumptions C100_surface_input_refuted.

(** ** C101: the result depends on the surface only *)
Theorem C101_history : forall M X lin lin' o o' (l l' : list vec) (s vol vol' : vec) f f', same_space M -> valid_mesh M X ->
  essential M = surface_indices M -> session M X f -> session M X f' -> exact_on M lin f -> exact_on M lin' f' ->
  (0 < max_iter o)%nat -> abs_tol o = 0 -> rel_tol o < 1 -> (0 < max_iter o')%nat -> abs_tol o' = 0 -> rel_tol o' < 1 ->
  exists v v' g g', py_history M lin o (l ++ [s]) vol f = WOk (v, g) /\ py_history M lin' o' (l' ++ [s]) vol' f' = WOk (v', g') /\
    (forall i, (i < n M)%nat -> v i = v' i) /\ (forall k, (k < ns M)%nat -> v (nth k (surface_indices M) 0%nat) = s k).
Proof.
  intros M X lin lin' o o' l l' s vol vol' f f' SS V ES Hs Hs' L L' A1 A2 A3 B1 B2 B3.
  pose proof (session_clean M SS X f Hs) as C. pose proof (session_clean M SS X f' Hs') as C'.
  pose proof (exact_sys M X _ lin f C L) as E1. pose proof (exact_sys M X _ lin' f' C' L') as E1'. rewrite ES in *.
  destruct (py_run M SS lin o X E1 A1 A2 A3 l s vol f C) as [v [g [H [_ [F Q]]]]].
  destruct (py_run M SS lin' o' X E1' B1 B2 B3 l' s vol' f' C') as [v' [g' [H' [_ [F' Q']]]]].
  exists v, v', g, g'. split; [exact H|]. split; [exact H'|]. split; [|exact Q].
  apply (equil_unique M SS lin X (surface_indices M)); auto. now apply (surf_agree M v v' s).
Qed.
Print Assumptions C101_history.
Example C101_history_witness : exists v v' g g', py_history pin pin_lin tight ([fun _ => 7; fun k => INR k] ++ [fun _ => 1]) (vol_coords pin pinX) (construct pin pinX) = WOk (v, g) /\
  py_history pin pin_lin tight ([] ++ [fun _ => 1]) (vol_coords pin pinX) (construct pin pinX) = WOk (v', g') /\ v 0%nat = v' 0%nat.
Proof.
  destruct (C101_history pin pinX pin_lin pin_lin tight tight [fun _ => 7; fun k => INR k] [] (fun _ => 1) (vol_coords pin pinX) (vol_coords pin pinX) (construct pin pinX) (construct pin pinX))
    as [v [v' [g [g' [H [H' [Q _]]]]]]]; try reflexivity; try (simpl; lra); try (simpl; lia);
    try exact pin_same; try exact pin_valid; try apply s_start; try (apply pin_exact, s_start).
  exists v, v', g, g'. split; [exact H|]. split; [exact H'|]. apply Q. apply Nat.ltb_lt; reflexivity.
Qed.

(** a surface moved by a translation and an infinitesimal rotation carries the whole mesh with it; in particular the
    undeformed surface gives back the undeformed mesh *)
Theorem C101_rigid : forall M X lin o A b (vol : vec) f, same_space M -> valid_mesh M X -> partition_of_unity M ->
  essential M = surface_indices M -> session M X f -> exact_on M lin f -> (0 < max_iter o)%nat -> abs_tol o = 0 -> rel_tol o < 1 ->
  is_infinitesimal_rotation (dim M) A ->
  exists v g, py_solve M lin o (fun k => affine M X A b (nth k (surface_indices M) 0%nat)) vol f = WOk (v, g) /\
    forall i, (i < n M)%nat -> v i = affine M X A b i.
Proof.
  intros M X lin o A b vol f SS V PU ES Hs L A1 A2 A3 HA.
  pose proof (session_clean M SS X f Hs) as C. pose proof (exact_sys M X _ lin f C L) as E1. rewrite ES in *.
  destruct (py_warp M SS lin o X (fun k => affine M X A b (nth k (surface_indices M) 0%nat)) vol f C E1 A1 A2 A3) as [v [g [H [_ [F Q]]]]].
  exists v, g. split; [exact H|]. apply (equil_unique M SS lin X (surface_indices M)); auto.
  - apply affine_rigid; auto. now apply valid_nondeg.
  - apply (surf_agree M v (affine M X A b) (fun k => affine M X A b (nth k (surface_indices M) 0%nat))); auto.
Qed.
Print Assumptions C101_rigid.
Theorem C101_undeformed : forall M X lin o (vol : vec) f, same_space M -> valid_mesh M X -> partition_of_unity M ->
  essential M = surface_indices M -> session M X f -> exact_on M lin f -> (0 < max_iter o)%nat -> abs_tol o = 0 -> rel_tol o < 1 ->
  exists v g, py_solve M lin o (fun k => undeformed M X (nth k (surface_indices M) 0%nat)) vol f = WOk (v, g) /\
    forall i, (i < n M)%nat -> v i = undeformed M X i.
Proof.
  intros M X lin o vol f SS V PU ES Hs L A1 A2 A3.
  assert (forall i, affine M X (fun c a => if Nat.eqb a c then 1 else 0) (fun _ => 0) i = undeformed M X i) as K.
  { intros i. unfold affine, undeformed. pose proof (pos_dim M SS).
    rewrite (rsum_ext (dim M) _ (fun d => if Nat.eqb d (i mod dim M) then X (i / dim M)%nat d else 0)) by (intros; destruct (Nat.eqb _ _); ring).
    rewrite (rsum_delta (dim M) (fun d => X (i / dim M)%nat d)) by (apply Nat.mod_upper_bound; lia). ring. }
  pose proof (session_clean M SS X f Hs) as C. pose proof (exact_sys M X _ lin f C L) as E1. rewrite ES in *.
  destruct (py_warp M SS lin o X (fun k => undeformed M X (nth k (surface_indices M) 0%nat)) vol f C E1 A1 A2 A3) as [v [g [H [_ [F Q]]]]].
  exists v, g. split; [exact H|]. intros i Hi. rewrite <- (K i). revert i Hi. apply (equil_unique M SS lin X (surface_indices M)); auto.
  - apply affine_rigid; auto; [now apply valid_nondeg|]. intros c a _ _. rewrite (Nat.eqb_sym a c). destruct (Nat.eqb c a); ring.
  - intros i Hi. rewrite K. destruct (In_nth _ i 0%nat Hi) as [k [Hk <-]]. now apply Q.
Qed.
Print Assumptions C101_undeformed.
(** every affine map is reproduced where the discrete divergence theorem holds at the interior nodes *)
Theorem C101_affine_partial : forall M X lin o A b (vol : vec) f, same_space M -> valid_mesh M X -> partition_of_unity M ->
  essential M = surface_indices M -> session M X f -> exact_on M lin f -> (0 < max_iter o)%nat -> abs_tol o = 0 -> rel_tol o < 1 ->
  (forall i, (i < n M)%nat -> ~ List.In i (surface_indices M) -> hat_integrates_to_zero M X (volume M X) (i / dim M)) ->
  exists v g, py_solve M lin o (fun k => affine M X A b (nth k (surface_indices M) 0%nat)) vol f = WOk (v, g) /\
    forall i, (i < n M)%nat -> v i = affine M X A b i.
Proof.
  intros M X lin o A b vol f SS V PU ES Hs L A1 A2 A3 HA.
  pose proof (session_clean M SS X f Hs) as C. pose proof (exact_sys M X _ lin f C L) as E1. rewrite ES in *.
  destruct (py_warp M SS lin o X (fun k => affine M X A b (nth k (surface_indices M) 0%nat)) vol f C E1 A1 A2 A3) as [v [g [H [_ [F Q]]]]].
  exists v, g. split; [exact H|]. apply (equil_unique M SS lin X (surface_indices M)); auto.
  - apply affine_free; auto; [now apply valid_nondeg|]. intros i Hi Hn G HG a Ha. rewrite <- (HA i Hi Hn G HG a Ha).
    apply rsum_ext; intros m Hm; apply rsum_ext; intros q Hq. now rewrite wq_volume.
  - apply (surf_agree M v (affine M X A b) (fun k => affine M X A b (nth k (surface_indices M) 0%nat))); auto.
Qed.
Print Assumptions C101_affine_partial.
Example C101_rigid_witness : exists v g, py_solve pin pin_lin tight (fun k => affine pin pinX (fun c a => match c, a with O, O => 1 | O, _ => -2 | _, O => 2 | _, _ => 1 end) (fun c => INR c + 3) (nth k (surface_indices pin) 0%nat))
   (fun _ => 0) (construct pin pinX) = WOk (v, g) /\ v 0%nat = 3 /\ v 1%nat = 4 /\ v 2%nat = 4.
Proof.
  destruct (C101_rigid pin pinX pin_lin tight (fun c a => match c, a with O, O => 1 | O, _ => -2 | _, O => 2 | _, _ => 1 end) (fun c => INR c + 3) (fun _ => 0) (construct pin pinX))
    as [v [g [H Q]]]; try reflexivity; try (simpl; lra); try (simpl; lia);
    [exact pin_same|exact pin_valid|exact pin_pou|apply s_start|apply pin_exact, s_start| |].
  - intros c a Hc Ha. simpl in Hc, Ha. destruct c as [|[|?]]; try lia; destruct a as [|[|?]]; try lia; simpl; ring.
  - exists v, g. split; [exact H|]. rewrite !Q by (apply Nat.ltb_lt; reflexivity). unfold affine. cbn. split; [|split]; ring.
Qed.
(** the four-triangle mesh meets the hypothesis of the affine theorem *)
Example C101_affine_witness : forall i, (i < n pin)%nat -> ~ List.In i (surface_indices pin) -> hat_integrates_to_zero pin pinX (volume pin pinX) (i / dim pin).
Proof.
  intros i Hi Hn. change (n pin) with 10%nat in Hi. rewrite pin_surface in Hn. assert (i = 0 \/ i = 1)%nat as I by (simpl in Hn; lia).
  assert ((i / dim pin = 0)%nat) as -> by (destruct I as [-> | ->]; reflexivity).
  intros G HG a Ha.
  assert (forall m, (m < 4)%nat -> forall c a, (c < 2)%nat -> (a < 2)%nat -> G m 0%nat c a = gsh pin pinX (el pin m) 0 0 a) as K.
  { intros m Hm. apply (physical_unique pin pin_same pinX m 0 (fun k _ => if Nat.eqb k 0 then 1 else 0)); auto.
    - apply (valid_nondeg pin pin_same), pin_valid.
    - destruct m as [|[|[|[|?]]]]; try lia; simpl; lia.
    - apply HG; [exact Hm|]. destruct m as [|[|[|[|?]]]]; try lia; simpl; lia.
    - pose proof (Gr_physical pin pin_same pinX m 0 (fun j => if Nat.eqb (j / 2) 0 then 1 else 0) (valid_nondeg pin pin_same pinX pin_valid) Hm) as P.
      specialize (P ltac:(destruct m as [|[|[|[|?]]]]; try lia; simpl; lia)).
      intros c b Hc Hb. etransitivity; [|etransitivity; [exact (P c b Hc Hb)|]].
      + apply rsum_ext. intros a' Ha'. f_equal. unfold Gr.
        assert (nd (el pin m) = 3%nat) as -> by (destruct m as [|[|[|[|?]]]]; try lia; reflexivity). cbn [rsum].
        assert (forall k, (k < 3)%nat -> (edof pin (el pin m) (c * 3 + k) / 2 = node (el pin m) k)%nat) as ED.
        { intros k Hk. unfold edof, vdof. assert (nd (el pin m) = 3%nat) as -> by (destruct m as [|[|[|[|?]]]]; try lia; reflexivity).
          rewrite (blk_mod 3 c k), (blk_div 3 c k) by lia. change (dim pin) with 2%nat in *. rewrite blk_div by auto. reflexivity. }
        rewrite !ED by lia. destruct m as [|[|[|[|?]]]]; try lia; simpl node; cbn [Nat.eqb]; ring.
      + apply rsum_ext. intros k Hk. unfold at_node. change (dim pin) with 2%nat in *. now rewrite blk_div. }
  change (ne pin) with 4%nat. cbn [rsum].
  change (nq (el pin 0)) with 1%nat. change (nq (el pin 1)) with 1%nat. change (nq (el pin 2)) with 1%nat. change (nq (el pin 3)) with 1%nat. cbn [rsum].
  change (dim pin) with 2%nat in Ha. rewrite !K by lia. rewrite <- !(wq_volume pin pin_same) by (try exact pin_valid; simpl; lia). rewrite !pin_wq by lia.
  destruct a as [|[|?]]; try lia; rewrite !pin_gsh by lia; ring.
Qed.

(** ** C102: partial derivatives with respect to the surface *)
Theorem C102_forward : forall M X f (u s v res_dot : vec), same_space M -> session M X f ->
  exists (Rt : R -> vec) (g : R -> nform coords) out,
    (forall t : R, w_calcResidual M (Build_winputs (Some u) (Some (fun k => s k + t * v k)) None) f = WOk (Rt t, g t)) /\
    w_jvp M "surf_mesh_coords" (ns M) v (n M) res_dot f = WOk (out, f) /\
    forall i, (i < n M)%nat -> is_derive (fun t : R => Rt t i) 0 (out i - res_dot i).
Proof.
  intros M X f u s v res_dot SS Hs. pose proof (session_clean M SS X f Hs) as C.
  do 3 eexists. split; [intros t; now apply (calc_surf M SS X (essential M))|].
  split; [unfold w_jvp; cbn [String.eqb Ascii.eqb Bool.eqb]; rewrite Nat.leb_refl, range_ok; reflexivity|].
  intros i Hi. cbv beta. destruct (in_dec Nat.eq_dec i (surface_indices M)) as [I|I].
  - destruct (In_nth _ i 0%nat I) as [k [Hk <-]].
    apply (is_derive_ext_R (fun t : R => u (nth k (surface_indices M) 0%nat) - (s k + t * v k))).
    { intros t. symmetry. now apply set_at_nth; [apply surf_nodup|]. }
    rewrite (sum_at M k v Hk). auto_derive; [exact Logic.I|ring].
  - apply (is_derive_ext_R (fun t : R => zero_at (essential M) (raw_res M X u) i)).
    { intros t. symmetry. now apply set_at_out. }
    rewrite (sum_out M i v I). replace (res_dot i - 0 - res_dot i) with 0 by ring. apply DV_const.
Qed.
Print Assumptions C102_forward.
Theorem C102_reverse : forall M X f (v r res_dot wrt_bar : vec), same_space M -> session M X f ->
  exists out back, w_jvp M "surf_mesh_coords" (ns M) v (n M) res_dot f = WOk (out, f) /\
    w_vjp M "surf_mesh_coords" (n M) r (ns M) wrt_bar f = WOk (back, f) /\
    dot (ns M) (fun k => back k - wrt_bar k) v = dot (n M) r (fun i => out i - res_dot i).
Proof.
  intros M X f v r res_dot wrt_bar SS Hs. do 2 eexists.
  split; [unfold w_jvp; cbn [String.eqb Ascii.eqb Bool.eqb]; rewrite Nat.leb_refl, range_ok; reflexivity|].
  split; [unfold w_vjp; cbn [String.eqb Ascii.eqb Bool.eqb]; rewrite Nat.leb_refl, range_ok; reflexivity|].
  unfold dot.
  rewrite (rsum_ext (n M) _ (fun i => rsum (ns M) (fun k => if Nat.eqb i (nth k (surface_indices M) 0%nat) then - (r i * v k) else 0))).
  - rewrite rsum_swap. apply rsum_ext. intros k Hk. destruct (Nat.ltb_spec k (ns M)); [|lia].
    assert (nth k (surface_indices M) 0%nat < n M)%nat as Hl by (apply surf_lt, nth_In; exact Hk).
    etransitivity; [|symmetry; exact (rsum_delta (n M) (fun i => - (r i * v k)) _ Hl)]. ring.
  - intros i Hi. transitivity (- r i * rsum (ns M) (fun k => if Nat.eqb i (nth k (surface_indices M) 0%nat) then v k else 0)); [ring|].
    rewrite <- rsum_scal. apply rsum_ext. intros k _. destruct (Nat.eqb _ _); ring.
Qed.
Print Assumptions C102_reverse.
Example C102_witness : session pin pinX (construct pin pinX) /\ same_space pin /\ ns pin = 8%nat.
Proof. split; [apply s_start|]. split; [exact pin_same|reflexivity]. Qed.
(** with respect to the state: right on free rows; on the surface the residual is state - surface, its derivative is not there *)
Theorem C102_state_partial : forall M X f f1 i (u s v res_dot : vec), same_space M -> session M X f -> in_mesh i = None ->
  w_linearize M i f = WOk f1 ->
  exists (Rt : R -> vec) (g : R -> nform coords) out f2,
    (forall t : R, w_calcResidual M (Build_winputs (Some (fun j => u j + t * v j)) (Some s) None) f1 = WOk (Rt t, g t)) /\
    w_jvp M "state" (n M) v (n M) res_dot f1 = WOk (out, f2) /\
    forall j, (j < n M)%nat -> ~ List.In j (essential M) -> ~ List.In j (surface_indices M) -> is_derive (fun t : R => Rt t j) 0 (out j - res_dot j).
Proof.
  intros M X f f1 i u s v res_dot SS Hs Hi HL. pose proof (session_clean M SS X f Hs) as C.
  destruct (clean_linearize M X _ f i f1 C Hi HL) as [C1 [HJ [HE HT]]]. pose proof C1 as [W1 [W2 _]].
  do 4 eexists. split; [intros t; now apply (calc_surf M SS X (essential M))|].
  split; [unfold w_jvp; cbn [String.eqb Ascii.eqb Bool.eqb]; unfold jvp_state; rewrite HJ, HE; reflexivity|].
  intros j Hj HE1 HS. cbv beta. rewrite W2.
  apply (is_derive_ext_R (fun t : R => raw_res M X u j + t * kvec M X v j)).
  { intros t. rewrite set_at_out by auto. rewrite zero_at_out by auto. pose proof (raw_diff M SS X (fun k => u k + t * v k) u j) as K.
    cbv beta in K. assert (kvec M X (fun k => u k + t * v k - u k) j = kvec M X (fun k => 0 + t * v k) j) as K1 by (apply (kvec_ext M SS); intros k _; ring).
    rewrite K1, kvec_lin, (kvec_zero M SS X (fun _ => 0)) in K by auto. lra. }
  match goal with |- is_derive _ _ ?d => replace d with (kvec M X v j) end.
  - auto_derive; [exact Logic.I|ring].
  - change (kvec M X v j = res_dot j + mv (n M) (sys M X (essential M)) (zero_at (essential M) v) j
       + mv (n M) (elim_rows (essential M) (elim_removed (essential M) (stiff M X (fun _ => 0)))) v j - res_dot j).
    rewrite <- (stiff_mv M SS X (fun _ => 0) v j Hj). pose proof (jv_free (n M) (essential M) (stiff M X (fun _ => 0)) v j HE1) as K.
    unfold jv in K. unfold sys. rewrite <- K. ring.
Qed.
Print Assumptions C102_state_partial.
Theorem C102_state_surface_refuted : exists f1 (Rt : R -> vec) (g : R -> nform coords) out f2 (u s v : vec),
  w_linearize pin (only_state u) (construct pin pinX) = WOk f1 /\
  (forall t : R, w_calcResidual pin (Build_winputs (Some (fun j => u j + t * v j)) (Some s) None) f1 = WOk (Rt t, g t)) /\
  w_jvp pin "state" (n pin) v (n pin) (fun _ => 0) f1 = WOk (out, f2) /\
  is_derive (fun t : R => Rt t 2%nat) 0 1 /\ out 2%nat = 0.
Proof.
  set (u := undeformed pin pinX). set (v := fun _ : nat => 1).
  assert (exists f1, w_linearize pin (only_state u) (construct pin pinX) = WOk f1) as [f1 HL] by (eexists; reflexivity).
  pose proof (session_clean pin pin_same pinX _ (s_start pin pinX)) as C.
  destruct (clean_linearize pin pinX _ _ (only_state u) f1 C eq_refl HL) as [C1 [HJ [HE HT]]]. pose proof C1 as [W1 [W2 _]].
  exists f1. do 4 eexists. exists u, (fun _ => 0), v. split; [exact HL|].
  split; [intros t; now apply (calc_surf pin pin_same pinX (essential pin))|].
  split; [unfold w_jvp; cbn [String.eqb Ascii.eqb Bool.eqb]; unfold jvp_state; rewrite HJ, HE; reflexivity|].
  split.
  - apply (is_derive_ext_R (fun t : R => u 2%nat + t * 1 - 0)).
    { intros t. symmetry. exact (set_at_nth (surface_indices pin) (fun k => u (nth k (surface_indices pin) 0%nat) + t * 1 - 0) _ 0 (surf_nodup pin) ltac:(rewrite pin_surface; simpl; lia)). }
    auto_derive; [exact Logic.I|ring].
  - cbv beta. rewrite W2.
    change (0 + mv (n pin) (sys pin pinX (essential pin)) (zero_at (essential pin) v) 2%nat
       + mv (n pin) (elim_rows (essential pin) (elim_removed (essential pin) (stiff pin pinX (fun _ => 0)))) v 2%nat = 0).
    rewrite (sys_ess pin pinX) by (try (apply Nat.ltb_lt; reflexivity); cbn; tauto). rewrite row_removed by (cbn; tauto). rewrite zero_at_in by (cbn; tauto). ring.
Qed.
Print Assumptions C102_state_surface_refuted.

(** ** C103: total derivative of a function of the warped mesh with respect to the surface *)
(** the adjoint solver solves the system that it is handed *)
Definition exact_adjoint_on (M : wmesh) (alin : mat -> vec -> vec -> vec) (f : nform coords) : Prop :=
  forall b x T b' x' f1, setUpAdjointSystem _ b x f = Done (T, b', x', f1) ->
    forall i, (i < n M)%nat -> mv (n M) T (alin T b' x') i = b' i.
Lemma adjoint_facts M X f alin i sb x0 : same_space M -> clean M X (surface_indices M) f -> in_mesh i = None -> jac_t _ f = Some (transpose (sys M X (surface_indices M))) ->
  exact_adjoint_on M alin f ->
  exists psi f2, w_solveForAdjoint M alin i sb x0 f = WOk (psi, f2) /\ clean M X (surface_indices M) f2 /\
    jac _ f2 = jac _ f /\ jac_e _ f2 = jac_e _ f /\
    (forall j, (j < n M)%nat -> mv (n M) (sys M X (surface_indices M)) psi j = zero_at (surface_indices M) sb j) /\
    (forall j, List.In j (surface_indices M) -> psi j = 0).
Proof.
  intros SS C Hi HT L. pose proof C as [W1 [W2 _]]. set (E := surface_indices M) in *.
  unfold w_solveForAdjoint, solveForAdjoint.
  assert (exists b x f2, setUpAdjointSystem _ sb x0 (setInputs _ _ (warp_pieces M) i f) = Done (transpose (sys M X E), b, x, f2) /\
    (exists f3, setUpAdjointSystem _ sb x0 f = Done (transpose (sys M X E), b, x, f3)) /\ jac _ f2 = jac _ f /\ jac_e _ f2 = jac_e _ f /\
    (forall j, b j = zero_at E sb j)) as [b [x [f2 [H1 [[f3 H2] [H3 [H4 H5]]]]]]].
  { unfold setUpAdjointSystem, getJacobianTranspose, setInputs. cbn [jac_t ess jac jac_e world scratch]. rewrite HT. cbn [ess jac jac_e world scratch]. rewrite W2.
    destruct E as [|e E'] eqn:HE; do 3 eexists; (split; [reflexivity|]); (split; [eexists; reflexivity|]); (split; [reflexivity|]); split; try reflexivity. }
  rewrite H1. cbn [of_outcome]. do 2 eexists. split; [reflexivity|].
  assert (w_solveForAdjoint M alin i sb x0 f = WOk (alin (transpose (sys M X E)) b x, f2)) as HA by (unfold w_solveForAdjoint, solveForAdjoint; now rewrite H1).
  split; [exact (proj1 (clean_adjoint M X E alin i sb x0 f _ _ C Hi HA))|]. split; [exact H3|]. split; [exact H4|].
  assert (forall j, (j < n M)%nat -> mv (n M) (sys M X E) (alin (transpose (sys M X E)) b x) j = zero_at E sb j) as K.
  { intros j Hj. rewrite <- H5, <- (L _ _ _ _ _ _ H2 j Hj). unfold mv, transpose. apply rsum_ext. intros j' _. now rewrite (sys_sym M). }
  split; [exact K|]. intros j Hj. assert (j < n M)%nat as Hj' by now apply surf_lt. specialize (K j Hj'). rewrite (sys_ess M X) in K by auto.
  rewrite K. now apply zero_at_in.
Qed.
(** what the warper's own product with the adjoint gives: nothing, whatever the function of the mesh *)
Theorem C103_adjoint_product : forall M X f f1 i alin (state_bar x0 wrt_bar : vec), same_space M -> session M X f -> essential M = surface_indices M ->
  in_mesh i = None -> w_linearize M i f = WOk f1 -> exact_adjoint_on M alin f1 ->
  exists psi f2 out, w_solveForAdjoint M alin i state_bar x0 f1 = WOk (psi, f2) /\
    w_vjp M "surf_mesh_coords" (n M) psi (ns M) wrt_bar f2 = WOk (out, f2) /\ forall k, (k < ns M)%nat -> out k = wrt_bar k.
Proof.
  intros M X f f1 i alin sb x0 wb SS Hs HE Hi HL L. pose proof (session_clean M SS X f Hs) as C. rewrite HE in C.
  destruct (clean_linearize M X _ f i f1 C Hi HL) as [C1 [HJ [HJE HT]]].
  destruct (adjoint_facts M X f1 alin i sb x0 SS C1 Hi HT L) as [psi [f2 [H [_ [_ [_ [_ Z]]]]]]].
  exists psi, f2. eexists. split; [exact H|].
  split; [unfold w_vjp; cbn [String.eqb Ascii.eqb Bool.eqb]; rewrite Nat.leb_refl, range_ok; reflexivity|].
  intros k Hk. cbv beta. destruct (Nat.ltb_spec k (ns M)); [|lia]. rewrite Z by (now apply nth_In). ring.
Qed.
Print Assumptions C103_adjoint_product.
(** the total derivative can be recovered from the adjoint by a product with respect to "state" *)
Theorem C103_total : forall M X lin o f f0 f1 i alin (s v vol state_bar x0 : vec), same_space M -> session M X f -> session M X f0 -> essential M = surface_indices M ->
  exact_on M lin f -> (0 < max_iter o)%nat -> abs_tol o = 0 -> rel_tol o < 1 ->
  in_mesh i = None -> w_linearize M i f0 = WOk f1 -> exact_adjoint_on M alin f1 ->
  exists (U : R -> vec) (g : R -> nform coords) psi f2 back f3,
    (forall t : R, py_solve M lin o (fun k => s k + t * v k) vol f = WOk (U t, g t)) /\
    w_solveForAdjoint M alin i state_bar x0 f1 = WOk (psi, f2) /\
    w_vjp M "state" (n M) psi (n M) (fun _ => 0) f2 = WOk (back, f3) /\
    forall t0 : R, is_derive (fun t : R => dot (n M) state_bar (U t)) t0
      (rsum (ns M) (fun k => v k * (state_bar (nth k (surface_indices M) 0%nat) - back (nth k (surface_indices M) 0%nat)))).
Proof.
  intros M X lin o f f0 f1 i alin s v vol sb x0 SS Hs Hs0 HE L A1 A2 A3 Hi HL LA.
  pose proof (session_clean M SS X f Hs) as C. pose proof (exact_sys M X _ lin f C L) as E1. rewrite HE in C, E1.
  pose proof (session_clean M SS X f0 Hs0) as C0. rewrite HE in C0.
  destruct (clean_linearize M X _ f0 i f1 C0 Hi HL) as [C1 [HJ [HJE HT]]].
  destruct (adjoint_facts M X f1 alin i sb x0 SS C1 Hi HT LA) as [psi [f2 [HA [C2 [J2 [JE2 [HP HZ]]]]]]].
  assert (forall t : R, exists vg, py_solve M lin o (fun k => s k + t * v k) vol f = WOk vg /\ free_zero M X (surface_indices M) (fst vg) /\
     (forall k, (k < ns M)%nat -> fst vg (nth k (surface_indices M) 0%nat) = s k + t * v k)) as W.
  { intros t. destruct (py_warp M SS lin o X (fun k => s k + t * v k) vol f C E1 A1 A2 A3) as [w [g [H [_ [F Q]]]]]. exists (w, g). auto. }
  assert (forall t : R, py_solve M lin o (fun k => s k + t * v k) vol f =
     WOk (match py_solve M lin o (fun k => s k + t * v k) vol f with WOk vg => vg | _ => (fun _ => 0, f) end)) as WU.
  { intros t. destruct (W t) as [vg [-> _]]. reflexivity. }
  set (UG := fun t : R => match py_solve M lin o (fun k => s k + t * v k) vol f with WOk vg => vg | _ => (fun _ => 0, f) end) in *.
  assert (forall t : R, free_zero M X (surface_indices M) (fst (UG t)) /\ (forall k, (k < ns M)%nat -> fst (UG t) (nth k (surface_indices M) 0%nat) = s k + t * v k)) as WF.
  { intros t. destruct (W t) as [vg [H K]]. unfold UG. rewrite H. exact K. }
  exists (fun t => fst (UG t)), (fun t => snd (UG t)), psi, f2.
  do 2 eexists. split; [intros t; rewrite WU; fold (UG t); now destruct (UG t)|]. split; [exact HA|].
  pose proof C2 as [V1 [V2 _]].
  split; [unfold w_vjp, vjp; cbn [String.eqb Ascii.eqb Bool.eqb]; unfold vjp_state; rewrite J2, JE2, HJ, HJE; reflexivity|].
  set (w := fun j => fst (UG 1) j - fst (UG 0) j).
  assert (forall t : R, forall j, (j < n M)%nat -> fst (UG t) j = fst (UG 0) j + t * w j) as AFF.
  { intros t. apply (equil_unique M SS lin X (surface_indices M)); auto; [apply WF| |].
    - intros j Hj Hn. pose proof (raw_diff M SS X (fun j => fst (UG 0) j + t * w j) (fst (UG 0)) j) as K. cbv beta in K.
      assert (kvec M X (fun k => fst (UG 0) k + t * w k - fst (UG 0) k) j = kvec M X (fun k => 0 + t * w k) j) as K1 by (apply (kvec_ext M SS); intros k _; ring).
      rewrite K1, kvec_lin, (kvec_zero M SS X (fun _ => 0)) in K by auto.
      pose proof (raw_diff M SS X (fst (UG 1)) (fst (UG 0)) j) as K2. fold w in K2.
      rewrite (proj1 (WF 1) j Hj Hn), (proj1 (WF 0) j Hj Hn) in K2. rewrite (proj1 (WF 0) j Hj Hn) in K. rewrite <- K2 in K. lra.
    - intros j Hj. destruct (In_nth _ j 0%nat Hj) as [k [Hk <-]]. unfold w. rewrite !(proj2 (WF _)) by exact Hk. ring. }
  assert (forall k, (k < ns M)%nat -> w (nth k (surface_indices M) 0%nat) = v k) as WS by (intros k Hk; unfold w; rewrite !(proj2 (WF _)) by exact Hk; ring).
  assert (forall j, (j < n M)%nat -> ~ List.In j (surface_indices M) -> kvec M X w j = 0) as WK.
  { intros j Hj Hn. pose proof (raw_diff M SS X (fst (UG 1)) (fst (UG 0)) j) as K2. fold w in K2. rewrite <- K2, (proj1 (WF 1) j Hj Hn), (proj1 (WF 0) j Hj Hn). ring. }
  set (S := surface_indices M) in *.
  assert (forall j, (j < n M)%nat -> 0 + mvT (n M) (sys M X S) (zero_at (ess _ f2) psi) j + mvT (n M) (elim_rows S (elim_removed S (stiff M X (fun _ => 0)))) psi j = kvec M X psi j) as BK.
  { intros j Hj. rewrite V2. pose proof (vj_char (n M) S (stiff M X (fun _ => 0)) psi j Hj) as K. unfold vj in K. unfold sys.
    transitivity (mvT (n M) (stiff M X (fun _ => 0)) (zero_at S psi) j); [rewrite <- K; ring|].
    rewrite <- (stiff_mv M SS X (fun _ => 0) psi j Hj). unfold mv, mvT. apply rsum_ext. intros j' Hj'. rewrite (stiff_sym M X (fun _ => 0) j' j). f_equal.
    unfold zero_at. destruct (memb j' S) eqn:B; [|reflexivity]. apply memb_in in B. symmetry. now apply HZ. }
  assert (dot (n M) sb w = rsum (ns M) (fun k => v k * (sb (nth k S 0%nat) - kvec M X psi (nth k S 0%nat)))) as TOT.
  { assert (dot (n M) (kvec M X psi) w = 0) as Z0.
    { transitivity (dot (n M) psi (kvec M X w)).
      - rewrite (kvec_pair M SS). rewrite dot_comm, (kvec_pair M SS). apply form_sym.
      - unfold dot. rewrite (rsum_ext (n M) _ (fun _ => 0)); [apply rsum_0|]. intros j Hj. destruct (in_dec Nat.eq_dec j S) as [I|I]; [rewrite HZ by auto; ring|rewrite WK by auto; ring]. }
    transitivity (dot (n M) (fun j => sb j - kvec M X psi j) w); [|].
    - transitivity (dot (n M) sb w - dot (n M) (kvec M X psi) w); [rewrite Z0; ring|]. unfold dot. rewrite <- rsum_minus. apply rsum_ext; intros; ring.
    - unfold dot. transitivity (rsum (n M) (fun j => rsum (ns M) (fun k => if Nat.eqb j (nth k S 0%nat) then v k * (sb j - kvec M X psi j) else 0))).
      + apply rsum_ext. intros j Hj. destruct (in_dec Nat.eq_dec j S) as [I|I].
        * destruct (In_nth _ j 0%nat I) as [k [Hk <-]]. rewrite (WS k Hk). pose proof (sum_at M k (fun k' => v k' * (sb (nth k S 0%nat) - kvec M X psi (nth k S 0%nat))) Hk) as SA. cbv beta in SA. fold S in SA. rewrite SA. ring.
        * pose proof (sum_out M j (fun k' => v k' * (sb j - kvec M X psi j)) I) as SA. cbv beta in SA. fold S in SA. rewrite SA.
          pose proof (HP j Hj) as K. rewrite (sys_free M SS X S psi j Hj I) in K by (intros m Hm; now apply HZ). rewrite zero_at_out in K by auto. rewrite K. ring.
      + rewrite rsum_swap. apply rsum_ext. intros k Hk.
        assert (nth k S 0%nat < n M)%nat as Hl by (apply surf_lt, nth_In; exact Hk).
        exact (rsum_delta (n M) (fun j => v k * (sb j - kvec M X psi j)) _ Hl). }
  intros t0.
  apply (is_derive_ext_R (fun t : R => dot (n M) sb (fst (UG 0)) + t * dot (n M) sb w)).
  { intros t. symmetry. unfold dot. rewrite <- rsum_scal, <- rsum_plus. apply rsum_ext. intros j Hj. rewrite AFF by auto. ring. }
  match goal with |- is_derive _ _ ?d => replace d with (dot (n M) sb w) end.
  - auto_derive; [exact Logic.I|ring].
  - rewrite TOT. apply rsum_ext. intros k Hk. cbv beta. rewrite BK by (apply surf_lt, nth_In; exact Hk). reflexivity.
Qed.
Print Assumptions C103_total.
Lemma pin_adjoint i f f1 : session pin pinX f -> in_mesh i = None -> w_linearize pin i f = WOk f1 -> exact_adjoint_on pin (fun T b _ => pin_lin T b) f1.
Proof.
  intros Hs Hi HL b x T b' x' f3 H j Hj. pose proof (session_clean pin pin_same pinX f Hs) as C.
  destruct (clean_linearize pin pinX _ f i f1 C Hi HL) as [C1 [HJ [HJE HT]]].
  assert (T = transpose (sys pin pinX (essential pin))) as ->.
  { unfold setUpAdjointSystem, getJacobianTranspose in H. rewrite HT in H. destruct (ess _ f1); congruence. }
  pose proof (exact_sys pin pinX _ pin_lin f C (pin_exact f Hs)) as K. specialize (K b' j Hj). rewrite <- K.
  unfold mv, transpose, pin_lin. apply rsum_ext. intros j' _. now rewrite (sys_sym pin).
Qed.
(** moving the first surface coordinate moves it by the same amount; the product with the adjoint says the derivative is zero *)
Theorem C103_surface_product_refuted : exists (U : R -> vec) (g : R -> nform coords) f1 psi f2 out (state_bar : vec),
  (forall t : R, py_solve pin pin_lin tight (fun k => surf_coords pin pinX k + t * (if Nat.eqb k 0 then 1 else 0)) (vol_coords pin pinX) (construct pin pinX) = WOk (U t, g t)) /\
  w_linearize pin (only_state (U 0)) (construct pin pinX) = WOk f1 /\
  w_solveForAdjoint pin (fun T b _ => pin_lin T b) (only_state (U 0)) state_bar (fun _ => 0) f1 = WOk (psi, f2) /\
  w_vjp pin "surf_mesh_coords" (n pin) psi (ns pin) (fun _ => 0) f2 = WOk (out, f2) /\
  is_derive (fun t : R => dot (n pin) state_bar (U t)) 0 1 /\ out 0%nat = 0.
Proof.
  set (sb := fun j => if Nat.eqb j 2 then 1 else 0).
  pose proof (session_clean pin pin_same pinX _ (s_start pin pinX)) as C. pose proof (exact_sys pin pinX _ pin_lin _ C (pin_exact _ (s_start pin pinX))) as E1.
  change (essential pin) with (surface_indices pin) in C, E1.
  assert (forall t : R, exists vg, py_solve pin pin_lin tight (fun k => surf_coords pin pinX k + t * (if Nat.eqb k 0 then 1 else 0)) (vol_coords pin pinX) (construct pin pinX) = WOk vg /\
     fst vg 2%nat = -1 + t) as W.
  { intros t. destruct (py_warp pin pin_same pin_lin tight pinX (fun k => surf_coords pin pinX k + t * (if Nat.eqb k 0 then 1 else 0)) (vol_coords pin pinX) _ C E1) as [w [g [H [_ [_ Q]]]]];
      try (simpl; lia); try (simpl; lra); try reflexivity. exists (w, g). split; [exact H|]. specialize (Q 0%nat ltac:(apply Nat.ltb_lt; reflexivity)).
    change (nth 0 (surface_indices pin) 0%nat) with 2%nat in Q. cbn [fst]. rewrite Q. cbn. ring. }
  set (UG := fun t : R => match py_solve pin pin_lin tight (fun k => surf_coords pin pinX k + t * (if Nat.eqb k 0 then 1 else 0)) (vol_coords pin pinX) (construct pin pinX) with WOk vg => vg | _ => (fun _ => 0, construct pin pinX) end).
  exists (fun t => fst (UG t)), (fun t => snd (UG t)).
  assert (exists f1, w_linearize pin (only_state (fst (UG 0))) (construct pin pinX) = WOk f1) as [f1 HL] by (eexists; reflexivity).
  destruct (C103_adjoint_product pin pinX _ f1 (only_state (fst (UG 0))) (fun T b _ => pin_lin T b) sb (fun _ => 0) (fun _ => 0) pin_same (s_start pin pinX) eq_refl eq_refl HL
     (pin_adjoint (only_state (fst (UG 0))) _ _ (s_start pin pinX) eq_refl HL)) as [psi [f2 [out [H1 [H2 H3]]]]].
  exists f1, psi, f2, out, sb. split.
  { intros t. unfold UG. destruct (W t) as [vg [-> _]]. now destruct vg. }
  split; [exact HL|]. split; [exact H1|]. split; [exact H2|]. split; [|apply H3; apply Nat.ltb_lt; reflexivity].
  apply (is_derive_ext_R (fun t : R => -1 + t)).
  { intros t. symmetry. transitivity (fst (UG t) 2%nat).
    - unfold dot, sb. transitivity (rsum (n pin) (fun j => if Nat.eqb j 2 then fst (UG t) j else 0)); [apply rsum_ext; intros j _; destruct (Nat.eqb j 2); ring|].
      apply (rsum_delta (n pin) (fst (UG t)) 2). apply Nat.ltb_lt; reflexivity.
    - unfold UG. destruct (W t) as [vg [-> K]]. exact K. }
  auto_derive; [exact Logic.I|ring].
Qed.
Print Assumptions C103_surface_product_refuted.

(** ** C104: the matrix handed to the linear solver *)
Theorem C104_symmetric : forall M X f x J f1, same_space M -> session M X f ->
  getJacobian _ _ (warp_pieces M) (only_state x) f = Done (J, f1) ->
  (forall i j, J i j = J j i) /\ (forall i, (i < n M)%nat -> List.In i (essential M) -> forall v, mv (n M) J v i = v i).
Proof.
  intros M X f x J f1 SS Hs HJ. pose proof (session_clean M SS X f Hs) as C. destruct (clean_jac M X _ f x J f1 C HJ) as [-> _].
  split; [apply sys_sym|]. intros i Hi HE v. now apply sys_ess.
Qed.
Print Assumptions C104_symmetric.
Theorem C104_positive_definite : forall M X f x J f1 lin v, same_space M -> valid_mesh M X -> session M X f ->
  getJacobian _ _ (warp_pieces M) (only_state x) f = Done (J, f1) -> solves (n M) lin J ->
  (exists i, (i < n M)%nat /\ v i <> 0) -> 0 < dot (n M) v (mv (n M) J v).
Proof.
  intros M X f x J f1 lin v SS V Hs HJ L Hv. pose proof (session_clean M SS X f Hs) as C. destruct (clean_jac M X _ f x J f1 C HJ) as [-> _].
  now apply (sys_pd M SS lin).
Qed.
Print Assumptions C104_positive_definite.
Example C104_witness : exists J f1, getJacobian _ _ (warp_pieces pin) (only_state (undeformed pin pinX)) (construct pin pinX) = Done (J, f1) /\ solves (n pin) pin_lin J /\
  0 < dot (n pin) (fun i => INR i) (mv (n pin) J (fun i => INR i)).
Proof.
  do 2 eexists. split; [reflexivity|]. split; [eapply (pin_exact _ (s_start pin pinX)); reflexivity|].
  eapply (C104_positive_definite pin pinX (construct pin pinX) (undeformed pin pinX) _ _ pin_lin); [exact pin_same|exact pin_valid|apply s_start|reflexivity| |].
  - eapply (pin_exact _ (s_start pin pinX)); reflexivity.
  - exists 1%nat. split; [apply Nat.ltb_lt; reflexivity|]. simpl. lra.
Qed.

(** ** C105: initial coordinates, degrees, and the OpenMDAO component's reverse mode *)
Theorem C105_initial : forall M X, (0 < dim M)%nat -> mord M = byVDIM ->
  (forall i, vol_coords M X i = undeformed M X i) /\
  (forall k, (k < ns M)%nat -> surf_coords M X k = X (nth k (surface_indices M) 0 / dim M)%nat (nth k (surface_indices M) 0 mod dim M)%nat) /\
  (forall i, List.In i (surface_indices M) <-> (i < n M)%nat /\ on_bdr M (i / dim M)%nat = true) /\ NoDup (surface_indices M).
Proof.
  intros M X HD HM. split; [intros i; unfold vol_coords, coords_vec; now rewrite HM|].
  split; [intros k Hk; unfold surf_coords, get_at, vol_coords, coords_vec; now rewrite HM|].
  split; [|apply surf_nodup]. intros i. unfold surface_indices, dofs_of. rewrite filter_In, in_seq. split; intros [A B]; split; auto; lia.
Qed.
Print Assumptions C105_initial.
Definition pinN : wmesh := {| dim := 2; nn := 5; ne := 4; el := el pin; mord := byNODES; mnn := 5; on_bdr := on_bdr pin; on_ess := on_ess pin |}.
(** the mesh's own nodal field is stored node by node: the surface coordinates handed to the user are other numbers *)
Theorem C105_by_nodes_refuted : same_space pinN /\ valid_mesh pinN pinX /\
  surf_coords pinN pinX 0%nat = 1 /\ undeformed pinN pinX (nth 0 (surface_indices pinN) 0%nat) = -1.
Proof.
  split; [exact pin_same|]. split; [exact pin_valid|]. split; reflexivity.
Qed.
Print Assumptions C105_by_nodes_refuted.
(** a state of higher degree than the mesh: every evaluation with a state reads past the element's points *)
Theorem C105_degree : forall M m i f, (m < ne M)%nat -> (mnd (el M m) < nd (el M m))%nat -> w_calcResidual M i f = WUB /\
  forall lin o x, solveForState M lin o i x f = WUB.
Proof.
  intros M m i f Hm Hd. assert (points_ok M = false) as K.
  { unfold points_ok. destruct (forallb _ _) eqn:B; [|reflexivity]. rewrite forallb_forall in B. specialize (B m ltac:(apply in_seq; lia)).
    apply Nat.leb_le in B. lia. }
  split; [unfold w_calcResidual, w_evaluate; now rewrite K|]. intros lin o x. unfold solveForState, newton, w_evaluate. rewrite K. reflexivity.
Qed.
Print Assumptions C105_degree.
Definition curved : wmesh := {| dim := 2; nn := 6; ne := 1;
  el := fun _ => {| nd := 6; node := fun k => k; dsh := fun _ _ _ => 0; mnd := 3; mnode := fun k => k; mdsh := dsh (tri 0 1 2); nq := 1; ipw := fun _ => 1 / 2 |};
  mord := byVDIM; mnn := 3; on_bdr := fun _ => true; on_ess := None |}.
Example C105_degree_witness : (0 < ne curved)%nat /\ (mnd (el curved 0%nat) < nd (el curved 0%nat))%nat. Proof. simpl; lia. Qed.
(** the component's reverse-mode product with respect to the surface: out of range as soon as a surface dof is numbered beyond the number of surface dofs *)
Theorem C105_python_reverse : forall M d_residuals d_inputs f, (exists i, List.In i (surface_indices M) /\ (ns M <= i)%nat) ->
  py_apply_linear_rev_surf M d_residuals d_inputs f = WUB.
Proof.
  intros M r d f [i [Hi Hn]]. unfold py_apply_linear_rev_surf, w_jvp. cbn [String.eqb Ascii.eqb Bool.eqb].
  destruct (forallb _ _) eqn:B; [|now rewrite andb_false_r]. rewrite forallb_forall in B. specialize (B i Hi). apply Nat.ltb_lt in B. lia.
Qed.
Print Assumptions C105_python_reverse.
(** whenever there is an unknown to solve for and its number is not after all surface dofs *)
Theorem C105_python_reverse_refuted : forall r d f, py_apply_linear_rev_surf pin r d f = WUB /\
  exists back, w_vjp pin "surf_mesh_coords" (n pin) r (ns pin) d f = WOk (back, f).
Proof.
  intros r d f. split; [reflexivity|]. eexists. reflexivity.
Qed.
Print Assumptions C105_python_reverse_refuted.
