(** C149: a linear thermal or two-dimensional magnetostatic problem given by options on a discontinuous basis has one solution. *)
From Coq Require Import Reals List String Bool ZArith Lra Lia FunctionalExtensionality.
From Coquelicot Require Import Coquelicot.
From Verif Require Import Vec Inputs Options EmInteg EmIntegSpec Thermal ThermalSpec DgFace DgFaceSpec FlowOptions.
From Verif Require Import ThermalOptions ThermalOptionsSpec ThermalOptionsProofs JacOptions JacOptionsSpec EnergyOptionsSpec EnergyOptionsProofs PenaltyOptionsSpec PenaltyOptionsProofs.
From Verif Require Form Props_DgFace Props_ThermalOptions Props_JacOptions Props_EnergyOptions.
Import ListNotations.
Local Open Scope R_scope.
Local Open Scope string_scope.

(** C149: with mu above the constant of the trace inequality the matrix is positive: it controls the heat dissipated in the
    elements, the jumps between them, the distance to held values and the heat transferred. *)
Theorem C149_definite : forall p N nattr M o c theta u v, fits N nattr M -> built p nattr o c -> discontinuous o = true -> one_interface p o M ->
  smooth_materials M -> linear_materials M -> straight_channels o M -> passive o M -> 0 < mu_of p o -> penalised theta p o M ->
  theta * dissipation M v + mu_of p o / 2 * jumps p o M v + transfers p o M v <= dot N v (mv N (formMatrix M c u) v).
Proof.
  intros p N nattr M o c theta u v F B D S Sm L St Ps Hm Pe. assert (A := Props_EnergyOptions.built_accepted _ _ _ _ B).
  destruct (Props_JacOptions.C147_linear N nattr M o c F A Sm L St) as (_ & K & _ & Af).
  eapply Rle_trans; [exact (coercive p N nattr M o c F B D S L Ps Hm theta v Pe)|]. right. unfold dot. rewrite <- rsum_minus. apply rsum_ext. intros i _.
  assert (E := Af (fun _ => 0) v i). cbv beta in E. assert (Ev : (fun j => 0 + v j) = v) by (apply functional_extensionality; intros; ring). rewrite Ev in E. rewrite E.
  replace (mv N (formMatrix M c (fun _ => 0)) v i) with (mv N (formMatrix M c u) v i) by (apply rsum_ext; intros j _; now rewrite (K u (fun _ => 0))). ring.
Qed.
Print Assumptions C149_definite.

(** C149: stability: solutions for two loads with the same held values. *)
Theorem C149_stability : forall p N nattr M o c theta ess l1 l2 u1 u2, fits N nattr M -> built p nattr o c -> discontinuous o = true -> one_interface p o M ->
  smooth_materials M -> linear_materials M -> straight_channels o M -> passive o M -> 0 < mu_of p o -> penalised theta p o M -> same_held N ess u1 u2 ->
  (forall i, (i < N)%nat -> residualVector M c ess l1 u1 i = 0) -> (forall i, (i < N)%nat -> residualVector M c ess l2 u2 i = 0) ->
  theta * dissipation M (vsub u1 u2) + mu_of p o / 2 * jumps p o M (vsub u1 u2) + transfers p o M (vsub u1 u2) <= dot N (vsub u1 u2) (vsub l1 l2).
Proof.
  intros p N nattr M o c theta ess l1 l2 u1 u2 F B D S Sm L St Ps Hm Pe Sh R1 R2. assert (A := Props_EnergyOptions.built_accepted _ _ _ _ B).
  destruct (Props_JacOptions.C147_linear N nattr M o c F A Sm L St) as (_ & _ & _ & Af).
  eapply Rle_trans; [exact (C149_definite p N nattr M o c theta u2 (vsub u1 u2) F B D S Sm L St Ps Hm Pe)|]. right.
  apply (Props_EnergyOptions.free_dot N ess); [intros i Hi He; unfold vsub; rewrite (Sh i Hi He); ring|]. intros i Hi E.
  assert (E1 := Af u2 (vsub u1 u2) i). assert (Ev : (fun j => u2 j + vsub u1 u2 j) = u1) by (apply functional_extensionality; intros; unfold vsub; ring). rewrite Ev in E1.
  rewrite (Props_EnergyOptions.solved_free N M c ess l1 u1 i R1 Hi E), (Props_EnergyOptions.solved_free N M c ess l2 u2 i R2 Hi E) in E1. unfold vsub at 2. lra.
Qed.
Print Assumptions C149_stability.

(** C149: from every field one Newton step, whose system has exactly one solution, gives the one solution. *)
Lemma null_vector p N nattr M o c theta v ess u : fits N nattr M -> built p nattr o c -> discontinuous o = true -> one_interface p o M ->
  smooth_materials M -> linear_materials M -> straight_channels o M -> passive o M -> 0 < mu_of p o -> 0 < theta -> penalised theta p o M -> pinned N ess p o M ->
  veq N (mv N (jacobian M c ess u) v) (fun _ => 0) -> veq N v (fun _ => 0).
Proof.
  intros F B D S Sm L St Ps Hm Ht Pe Pi E.
  assert (Z : forall i, (i < N)%nat -> In i ess -> v i = 0).
  { intros i Hi Hi2. apply Props_JacOptions.memb_in in Hi2. rewrite <- (E i Hi).
    unfold mv, jacobian, Form.elim_left. rewrite (rsum_ext N _ (fun j => if Nat.eqb j i then v j else 0)).
    2:{ intros j _. rewrite Hi2. cbn [orb]. rewrite (Nat.eqb_sym i). destruct (Nat.eqb j i); ring. }
    now rewrite (rsum_delta N v). }
  assert (X0 : dot N v (mv N (formMatrix M c u) v) = dot N v (fun _ => 0)).
  { apply (Props_EnergyOptions.free_dot N ess _ _ _ Z). intros i Hi He. rewrite <- (E i Hi). unfold mv, jacobian, Form.elim_left. apply rsum_ext. intros j Hj. rewrite He. cbn [orb].
    destruct (Form.memb j ess) eqn:E2; [|reflexivity]. rewrite (Z j Hj) by (now apply Props_JacOptions.memb_in). ring. }
  assert (Dz : dot N v (fun _ => 0) = 0) by (unfold dot; rewrite (rsum_ext N _ (fun _ => 0)); [apply rsum_0|intros; ring]). rewrite Dz in X0.
  assert (H := C149_definite p N nattr M o c theta u v F B D S Sm L St Ps Hm Pe). rewrite X0 in H.
  assert (P1 := dissipation_pos N nattr M o F Ps v). assert (P2 := jumps_pos p M o Ps v). assert (P3 := transfers_pos p M o Ps v).
  assert (Q1 : 0 <= theta * dissipation M v) by (apply Rmult_le_pos; lra). assert (Q2 : 0 <= mu_of p o / 2 * jumps p o M v) by (apply Rmult_le_pos; lra).
  apply Pi.
  - intros i Hi He. exact (Z i Hi He).
  - apply (Rmult_eq_reg_l theta); lra.
  - apply (Rmult_eq_reg_l (mu_of p o / 2)); lra.
  - lra.
Qed.
Theorem C149_solution : forall p N nattr M o c theta ess load u, fits N nattr M -> built p nattr o c -> discontinuous o = true -> one_interface p o M ->
  smooth_materials M -> linear_materials M -> straight_channels o M -> passive o M -> 0 < mu_of p o -> 0 < theta -> penalised theta p o M -> pinned N ess p o M ->
  exists d, veq N (mv N (jacobian M c ess u) d) (vscal (-1) (residualVector M c ess load u)) /\
    (forall d', veq N (mv N (jacobian M c ess u) d') (vscal (-1) (residualVector M c ess load u)) -> veq N d' d) /\
    let s := fun i => u i + d i in
    same_held N ess s u /\ (forall i, (i < N)%nat -> residualVector M c ess load s i = 0) /\
    forall w, same_held N ess w u -> (forall i, (i < N)%nat -> residualVector M c ess load w i = 0) -> veq N w s.
Proof.
  intros p N nattr M o c theta ess load u F B D S Sm L St Ps Hm Ht Pe Pi. assert (A := Props_EnergyOptions.built_accepted _ _ _ _ B).
  assert (Nv := fun v => null_vector p N nattr M o c theta v ess u F B D S Sm L St Ps Hm Ht Pe Pi).
  assert (Uq : forall d d', veq N (mv N (jacobian M c ess u) d') (mv N (jacobian M c ess u) d) -> veq N d' d).
  { intros d d' E. assert (Z := Nv (vsub d' d)). assert (Z2 : veq N (vsub d' d) (fun _ => 0)); [|intros i Hi; specialize (Z2 i Hi); unfold vsub in Z2; lra].
    apply Z. intros i Hi. specialize (E i Hi). unfold mv in *. rewrite (rsum_ext N _ (fun j => jacobian M c ess u i j * d' j - jacobian M c ess u i j * d j)) by (intros; unfold vsub; ring).
    rewrite rsum_minus. lra. }
  destruct (injective_onto N (jacobian M c ess u) Nv (vscal (-1) (residualVector M c ess load u))) as (d & Hd). exists d. split; [exact Hd|].
  split; [intros d' Hd'; apply Uq; intros i Hi; now rewrite Hd, Hd'|]. intros s.
  assert (Rs := Props_JacOptions.C147_one_step N nattr M o c ess load u d F A Sm L St Hd).
  assert (Hh : same_held N ess s u) by (intros i Hi He; exact (proj2 (Rs i Hi) He)). split; [exact Hh|]. split; [intros i Hi; exact (proj1 (Rs i Hi))|].
  intros w Hw Rw. set (x := vsub w s). assert (Z : veq N x (fun _ => 0)); [|intros i Hi; specialize (Z i Hi); unfold x, vsub in Z; lra].
  assert (Sh : same_held N ess w s) by (intros i Hi He; rewrite (Hw i Hi He); symmetry; now apply Hh).
  assert (H := C149_stability p N nattr M o c theta ess load load w s F B D S Sm L St Ps Hm Pe Sh Rw (fun i Hi => proj1 (Rs i Hi))).
  assert (Z0 : dot N (vsub w s) (vsub load load) = 0) by (unfold dot; rewrite (rsum_ext N _ (fun _ => 0)); [apply rsum_0|intros; unfold vsub; ring]). rewrite Z0 in H. fold x in H.
  assert (P1 := dissipation_pos N nattr M o F Ps x). assert (P2 := jumps_pos p M o Ps x). assert (P3 := transfers_pos p M o Ps x).
  assert (Q1 : 0 <= theta * dissipation M x) by (apply Rmult_le_pos; lra). assert (Q2 : 0 <= mu_of p o / 2 * jumps p o M x) by (apply Rmult_le_pos; lra).
  apply Pi; [intros i Hi He; unfold x, vsub; rewrite (Sh i Hi He); ring|apply (Rmult_eq_reg_l theta); lra|apply (Rmult_eq_reg_l (mu_of p o / 2)); lra|lra].
Qed.
Print Assumptions C149_solution.

(** non-vacuity: the rod of C145 (two elements of widths 1 and 2) *)
Import Props_DgFace Props_ThermalOptions.
Lemma sq_steep F r q S X u : steepness F r q S X u * steepness F r q S X u = rsum (dim F) (fun k => gradient F r q S X u k * gradient F r q S X u k).
Proof. unfold steepness. apply sqrt_sqrt. apply rsum_nonneg. intros; apply Rle_0_sqr. Qed.
Lemma rod_dissipation v : dissipation rod v = (v 1%nat - v 0%nat) * (v 1%nat - v 0%nat) + (v 3%nat - v 2%nat) * (v 3%nat - v 2%nat) / 2.
Proof. unfold dissipation, conduction, egrad. cbn. field. Qed.
Lemma rod_one v : total (fun f => one_sided f v) (outer rod) = dissipation rod v.
Proof. rewrite rod_dissipation. unfold one_sided, over_face, point_energy. cbn [total outer rod]. rewrite ?sq_steep. cbn. unfold material, gradient, local. rewrite ?sq_steep. unfold gradient. cbn. unfold width, at_nodes. cbn. field. Qed.
Lemma rod_right v : one_sided (nth 1 (outer rod) (mface 2 (outside true) true true (at_nodes 1 3) (at_nodes 1 3) (fun i => (2 + i mod 2)%nat))) v = (v 3%nat - v 2%nat) * (v 3%nat - v 2%nat) / 2.
Proof. unfold one_sided, over_face, point_energy. cbn [nth outer rod]. rewrite ?sq_steep. cbn. unfold material, gradient, local. rewrite ?sq_steep. unfold gradient. cbn. unfold width, at_nodes. cbn. field. Qed.
Lemma rod_two v : total (fun f => two_sided f v) (inner rod) = dissipation rod v.
Proof. rewrite rod_dissipation. unfold two_sided, over_face, point_energy. cbn [total inner rod]. cbn. unfold material, gradient, local, lower. rewrite ?sq_steep. unfold gradient. cbn. unfold width, at_nodes. cbn. field. Qed.
Lemma rod_passive o : (let c := get (get o "bcs") "convection" in 0 <= num c "h" 1) ->
  (forall x, In x (members (get (get o "interfaces") "thermal_contact_resistance") ++ members (get (get o "interfaces") "convection")) -> 0 <= num (snd x) "h" 0) -> passive o rod.
Proof.
  intros H1 H2. destruct rod_fits as (_ & _ & Pm). split; [|split; [|split; [|exact H2]]].
  - intros e q [<-|[<-|[]]] _; cbn; split; intros; lra.
  - intros f Hf. destruct (Pm f Hf) as (A1 & A2 & _ & A4). split; [exact A1|split; [exact A2|exact A4]].
  - intros f _. cbv zeta. intros _. exact H1.
Qed.
(** the magnetic field of a plate held at both ends, on a discontinuous basis of degree 1 with the penalty this gives, 8 *)
Definition plate : opts := JObj [("space-dis", JObj [("basis-type", JLeaf (LStr "DG")); ("degree", JLeaf (LInt 1))]); ("bcs", JObj [("essential", JLeaf (LInts [1; 2]%Z))])].
Definition plate_terms : config := [(OnDomain, Diffusion); (OnInterior, Sipg ((1 + 1) ^ 3) 1); (OnBoundary [1; 1; 0]%Z, Weak ((1 + 1) ^ 3))].
Lemma plate_built : built Magnetism 3 plate plate_terms /\ mu_of Magnetism plate = 8.
Proof.
  assert (Pe : penalty 3 plate = Ok ((1 + 1) ^ 3)) by (unfold penalty; cbn; destruct (Rlt_dec (-1) 0); [reflexivity|exfalso; lra]). split.
  - cbn [built]. unfold magnetConfig, interiorTerm, weakTerm. rewrite Pe. reflexivity.
  - unfold mu_of, penalty_of. cbn. destruct (Rlt_dec (-1) 0); [ring|exfalso; lra].
Qed.
Lemma plate_penalised : penalised (1 / 2) Magnetism plate rod.
Proof.
  intros v. rewrite (proj2 plate_built). assert (E1 : total (fun f => INR (held 2 plate f) * (2 / 8 * one_sided f v)) (outer rod) = 2 / 8 * dissipation rod v).
  { rewrite <- rod_one. rewrite <- sums_scal. apply sums_ext. intros f [<-|[<-|[]]]; cbn [held]; unfold held; cbn; ring. }
  assert (E2 : total (fun f => if coupled Magnetism plate f then / 8 * two_sided f v else 0) (inner rod) = / 8 * dissipation rod v) by (cbn [coupled]; rewrite sums_scal, rod_two; reflexivity).
  rewrite E1, E2, rod_dissipation. assert (H := Rle_0_sqr (v 1%nat - v 0%nat)). assert (H2 := Rle_0_sqr (v 3%nat - v 2%nat)). unfold Rsqr in *. lra.
Qed.
Lemma rod_level v : dissipation rod v = 0 -> v 1%nat = v 0%nat /\ v 3%nat = v 2%nat.
Proof.
  rewrite rod_dissipation. intros E. assert (H1 : 0 <= (v 1%nat - v 0%nat) * (v 1%nat - v 0%nat)) by apply Rle_0_sqr. assert (H2 : 0 <= (v 3%nat - v 2%nat) * (v 3%nat - v 2%nat)) by apply Rle_0_sqr.
  assert (Q1 : v 1%nat - v 0%nat = 0) by (apply Rsqr_0_uniq; unfold Rsqr; lra). assert (Q2 : v 3%nat - v 2%nat = 0) by (apply Rsqr_0_uniq; unfold Rsqr; lra). lra.
Qed.
Lemma sum_zero a b x y : 0 < a -> 0 < b -> a * (x * x) + b * (y * y) = 0 -> x = 0 /\ y = 0.
Proof.
  intros Ha Hb E. assert (H1 : 0 <= x * x) by apply Rle_0_sqr. assert (H2 : 0 <= y * y) by apply Rle_0_sqr.
  assert (A := Rmult_le_pos a _ (Rlt_le _ _ Ha) H1). assert (C := Rmult_le_pos b _ (Rlt_le _ _ Hb) H2).
  split; apply Rsqr_0_uniq; unfold Rsqr; [apply (Rmult_eq_reg_l a)|apply (Rmult_eq_reg_l b)]; lra.
Qed.
Lemma plate_pinned : pinned 4 [] Magnetism plate rod.
Proof.
  intros v _ E J _. destruct (rod_level v E) as [E1 E2].
  assert (J2 : jumps Magnetism plate rod v = (v 0%nat * v 0%nat + (v 3%nat * v 3%nat) / 2) + 3 / 4 * ((v 1%nat - v 2%nat) * (v 1%nat - v 2%nat))).
  { unfold jumps, held, face_square, face_jump, jump, over_face, material, area2, value, local, lower. cbn. unfold width, at_nodes. cbn. field. }
  rewrite J2 in J. assert (H := Rle_0_sqr (v 1%nat - v 2%nat)). unfold Rsqr in H.
  assert (H1 : 0 <= v 0%nat * v 0%nat) by apply Rle_0_sqr. assert (H3 : 0 <= v 3%nat * v 3%nat) by apply Rle_0_sqr.
  destruct (sum_zero 1 (1 / 2) (v 0%nat) (v 3%nat)) as [Z0 Z3]; [lra|lra|lra|]. intros i Hi. destruct i as [|[|[|[|i]]]]; [lra|lra|lra|lra|lia].
Qed.
Example C149_solution_met : forall load, exists u, (forall i, (i < 4)%nat -> residualVector rod plate_terms [] load u i = 0) /\
  forall w, (forall i, (i < 4)%nat -> residualVector rod plate_terms [] load w i = 0) -> veq 4 w u.
Proof.
  intros load. destruct Props_JacOptions.rod_materials as (Sm & L & _).
  destruct (C149_solution Magnetism 4 3 rod plate plate_terms (1 / 2) [] load (fun _ => 0) (proj1 rod_fits) (proj1 plate_built)) as (d & _ & _ & _ & Hr & Hu).
  - reflexivity.
  - exact I.
  - exact Sm.
  - exact L.
  - intros f [<-|[]] _. reflexivity.
  - apply rod_passive; cbn; [lra|intros x []].
  - rewrite (proj2 plate_built). lra.
  - lra.
  - exact plate_penalised.
  - exact plate_pinned.
  - eexists. split; [exact Hr|]. intros w Hw. apply Hu; [|exact Hw]. intros i _ [].
Qed.
(** the temperature of the rod of C145: convection on the left, a contact in the middle, 0 held weakly on the right *)
Lemma rod_penalised : penalised (1 / 2) Heat rod_options rod.
Proof.
  intros v. assert (Mu : mu_of Heat rod_options = 4) by exact (proj1 (proj2 (proj2 C145_equations_met))). rewrite Mu.
  assert (E1 : total (fun f => INR (held 2 rod_options f) * (2 / 4 * one_sided f v)) (outer rod) = 2 / 4 * ((v 3%nat - v 2%nat) * (v 3%nat - v 2%nat) / 2)).
  { rewrite <- rod_right. cbn [total outer rod nth]. unfold held. cbn. ring. }
  assert (E2 : total (fun f => if coupled Heat rod_options f then / 4 * two_sided f v else 0) (inner rod) = 0) by (cbn; ring).
  rewrite E1, E2, rod_dissipation. assert (H := Rle_0_sqr (v 1%nat - v 0%nat)). unfold Rsqr in *. lra.
Qed.
Lemma rod_pinned : pinned 4 [] Heat rod_options rod.
Proof.
  intros v _ E J T. destruct (rod_level v E) as [E1 E2].
  assert (T2 : transfers Heat rod_options rod v = 2 * (v 0%nat * v 0%nat) + 5 * ((v 1%nat - v 2%nat) * (v 1%nat - v 2%nat))) by (unfold transfers, to_fluid, through_interface, integral, T1, T2, local; cbn; ring).
  rewrite T2 in T. destruct (sum_zero 2 5 _ _ ltac:(lra) ltac:(lra) T) as [Z0 Z1]. intros i Hi. destruct i as [|[|[|[|i]]]]; [lra|lra|lra|lra|lia].
Qed.
Example C149_definite_met : forall v u, let c := match thermalConfig 3 rod_options with Ok c => c | _ => [] end in
  1 / 2 * dissipation rod v + 2 * jumps Heat rod_options rod v + transfers Heat rod_options rod v <= dot 4 v (mv 4 (formMatrix rod c u) v) /\
  exists d, veq 4 (mv 4 (jacobian rod c [] u) d) (vscal (-1) (residualVector rod c [] (fun i => INR i) u)).
Proof.
  intros v u. cbv zeta. destruct C145_equations_met as (O & D & Mu & S & E), Props_JacOptions.rod_materials as (Sm & L & St). rewrite E.
  assert (Ps : passive rod_options rod) by (apply rod_passive; cbn; [lra|intros x [<-|[]]; cbn; lra]).
  assert (M4 : mu_of Heat rod_options = 4) by exact Mu. split.
  - assert (H := C149_definite Heat 4 3 rod rod_options _ (1 / 2) u v (proj1 rod_fits) (conj O E) D S Sm L St Ps ltac:(rewrite M4; lra) rod_penalised). rewrite M4 in H. lra.
  - destruct (C149_solution Heat 4 3 rod rod_options _ (1 / 2) [] (fun i => INR i) u (proj1 rod_fits) (conj O E) D S Sm L St Ps ltac:(rewrite M4; lra) ltac:(lra) rod_penalised rod_pinned) as (d & Hd & _).
    now exists d.
Qed.

(** Nothing checks the number mu of the options: with mu = 0 (which is not replaced by the default) the problem with all values
    0 is accepted and its matrix is not positive. *)
Definition unpenalised : opts := JObj [("space-dis", JObj [("basis-type", JLeaf (LStr "DG")); ("degree", JLeaf (LInt 1)); ("sipg-penalty", JLeaf (LReal 0))]); ("bcs", JObj [("essential", JLeaf (LInts [1; 2]%Z))])].
Theorem C149_small_penalty_refuted : forall p, exists c, built p 3 unpenalised c /\ mu_of p unpenalised = 0 /\ passive unpenalised rod /\ smooth_materials rod /\ linear_materials rod /\
  exists v, dot 4 v (mv 4 (formMatrix rod c (fun _ => 0)) v) < 0.
Proof.
  intros p. destruct Props_JacOptions.rod_materials as (Sm & L & _).
  assert (Pe : forall k, penalty k unpenalised = Ok 0) by (intros k; unfold penalty; cbn; destruct (Rlt_dec 0 0); [exfalso; lra|reflexivity]).
  assert (Mu : forall k, penalty_of k unpenalised = 0) by (intros k; unfold penalty_of; cbn; destruct (Rlt_dec 0 0); [exfalso; lra|reflexivity]).
  assert (B : exists c, built p 3 unpenalised c).
  { destruct p; cbn [built]; eexists; [split; [constructor|]|]; [unfold thermalConfig, interiorTerm, weakTerm; rewrite Pe; reflexivity|unfold magnetConfig, interiorTerm, weakTerm; rewrite Pe; reflexivity]. }
  destruct B as (c & B). exists c. split; [exact B|]. split; [unfold mu_of; apply Mu|]. split; [apply rod_passive; cbn; [lra|intros x []]|]. split; [exact Sm|]. split; [exact L|].
  set (v := fun i => match i with O => -1 | _ => 0 end). exists v.
  assert (St : straight_channels unpenalised rod) by (intros f [<-|[]] _; reflexivity).
  assert (S : one_interface p unpenalised rod) by (destruct p; [intros f [<-|[]]; cbn; lia|exact I]).
  destruct (Props_JacOptions.C147_linear 4 3 rod unpenalised c (proj1 rod_fits) (Props_EnergyOptions.built_accepted _ _ _ _ B) Sm L St) as (_ & _ & _ & Af).
  assert (Ev : dot 4 v (mv 4 (formMatrix rod c (fun _ => 0)) v) = dot 4 v (formVector rod c v) - dot 4 v (formVector rod c (fun _ => 0))).
  { unfold dot. rewrite <- rsum_minus. apply rsum_ext. intros i _. assert (E := Af (fun _ => 0) v i). cbv beta in E.
    assert (Ev : (fun j => 0 + v j) = v) by (apply functional_extensionality; intros; ring). rewrite Ev in E. rewrite E. ring. }
  rewrite Ev, !(dg_pair p 4 3 rod unpenalised c _ v (proj1 rod_fits) B eq_refl S).
  match goal with |- ?l < 0 => replace l with (-1) end; [lra|]. unfold on_inner, on_outer, mu_of.
  destruct p; cbn; unfold on_boundary, strong_or_weak; rewrite ?Mu; cbn;
    unfold conduction, prescribed, coupling, over_face, interior_penalty, weak_dirichlet, material, slope, value, gradient, area2, egrad, lower, local, v; cbn; unfold width, at_nodes; cbn; field.
Qed.
Print Assumptions C149_small_penalty_refuted.
