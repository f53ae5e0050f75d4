(** C148: a thermal or two-dimensional magnetostatic problem given by options is the minimisation of an energy, and has one
    solution. *)
From Coq Require Import Reals List String Bool ZArith Lra Lia FunctionalExtensionality.
From Coquelicot Require Import Coquelicot.
From Verif Require Import Vec Deriv Inputs Options EmInteg EmIntegSpec Thermal ThermalSpec DgFace FlowOptions.
From Verif Require Import ThermalOptions ThermalOptionsSpec ThermalOptionsProofs FormSpec JacOptions JacOptionsSpec JacOptionsProofs EnergyOptionsSpec EnergyOptionsProofs EnergyExistProofs.
From Verif Require Form Props_JacOptions.
Import ListNotations.
Local Open Scope R_scope.
Local Open Scope string_scope.

(** C148: the residual's form is the gradient of the energy. *)
Theorem C148_energy : forall p N nattr M o c E u v, fits N nattr M -> built p nattr o c -> plain_problem o M -> integrates_laws M E ->
  is_derive (fun t => energy p o M E (along u v t)) 0 (dot N v (formVector M c u)).
Proof. intros p N nattr M o c E u v F B P HE. exact (energy_derive p N nattr M o c E u v F B P HE). Qed.
Print Assumptions C148_energy.

(** C148: stability: solutions for two loads with the same held values. *)
Lemma free_dot N ess x r s : (forall i, (i < N)%nat -> In i ess -> x i = 0) -> (forall i, (i < N)%nat -> Form.memb i ess = false -> r i = s i) -> dot N x r = dot N x s.
Proof.
  intros Z H. apply rsum_ext. intros i Hi. destruct (Form.memb i ess) eqn:E; [|now rewrite H].
  apply Props_JacOptions.memb_in in E. rewrite (Z i Hi E). ring.
Qed.
Lemma solved_free N M c ess load u i : (forall i, (i < N)%nat -> residualVector M c ess load u i = 0) -> (i < N)%nat -> Form.memb i ess = false -> formVector M c u i = load i.
Proof. intros H Hi E. specialize (H i Hi). unfold residualVector, Form.zero_at in H. rewrite E in H. lra. Qed.
Theorem C148_stability : forall p N nattr M o c k0 ess l1 l2 u1 u2, fits N nattr M -> built p nattr o c -> plain_problem o M -> monotone_laws k0 o M ->
  same_held N ess u1 u2 -> (forall i, (i < N)%nat -> residualVector M c ess l1 u1 i = 0) -> (forall i, (i < N)%nat -> residualVector M c ess l2 u2 i = 0) ->
  k0 * gradient_energy M (vsub u1 u2) <= dot N (vsub u1 u2) (vsub l1 l2).
Proof.
  intros p N nattr M o c k0 ess l1 l2 u1 u2 F B P Mo S R1 R2. assert (H := plain_monotone p N nattr M o c k0 u1 u2 F B P Mo).
  assert (Z : forall i, (i < N)%nat -> In i ess -> vsub u1 u2 i = 0) by (intros i Hi He; unfold vsub; rewrite (S i Hi He); ring).
  rewrite (free_dot N ess _ _ l1 Z) in H by (intros i Hi E; exact (solved_free N M c ess l1 u1 i R1 Hi E)).
  rewrite (free_dot N ess _ (formVector M c u2) l2 Z) in H by (intros i Hi E; exact (solved_free N M c ess l2 u2 i R2 Hi E)).
  eapply Rle_trans; [exact H|]. right. unfold dot. rewrite <- rsum_minus. apply rsum_ext. intros; unfold vsub; ring.
Qed.
Print Assumptions C148_stability.
(** C148: at most one solution. *)
Theorem C148_unique : forall p N nattr M o c k0 ess load u1 u2, fits N nattr M -> built p nattr o c -> plain_problem o M -> 0 < k0 -> monotone_laws k0 o M ->
  anchored N ess M -> same_held N ess u1 u2 ->
  (forall i, (i < N)%nat -> residualVector M c ess load u1 i = 0) -> (forall i, (i < N)%nat -> residualVector M c ess load u2 i = 0) -> veq N u1 u2.
Proof.
  intros p N nattr M o c k0 ess load u1 u2 F B P K0 Mo An S R1 R2.
  assert (H := C148_stability p N nattr M o c k0 ess load load u1 u2 F B P Mo S R1 R2).
  assert (Z0 : dot N (vsub u1 u2) (vsub load load) = 0) by (unfold dot; rewrite (rsum_ext N _ (fun _ => 0)); [apply rsum_0|intros; unfold vsub; ring]). rewrite Z0 in H.
  assert (En : 0 <= gradient_energy M (vsub u1 u2)).
  { destruct F as (_ & HW & _), Mo as (M1 & _). apply Props_JacOptions.total_nonneg. intros e He. apply rsum_nonneg. intros q Hq. apply Rmult_le_pos; [apply Rmult_le_pos; [now apply M1|left; now apply HW]|].
    apply rsum_nonneg. intros; apply Rle_0_sqr. }
  assert (E0 : gradient_energy M (vsub u1 u2) = 0) by nra.
  assert (Z : same_held N ess (vsub u1 u2) (fun _ => 0)) by (intros i Hi He; unfold vsub; rewrite (S i Hi He); ring).
  intros i Hi. assert (X := An _ Z E0 i Hi). unfold vsub in X. lra.
Qed.
Print Assumptions C148_unique.

(** C148: a solution has less energy (less the work of the load) than every other field with the same held values, by at least
    k0 / 2 of the squared gradient of the difference. *)
Lemma energy_scale M t v : gradient_energy M (fun i => t * v i) = t * t * gradient_energy M v.
Proof.
  unfold gradient_energy. rewrite <- sums_scal. apply sums_ext. intros e _. rewrite <- rsum_scal. apply rsum_ext. intros q _.
  rewrite (rsum_ext _ _ (fun k => t * t * (field_gradient e q v k * field_gradient e q v k))); [rewrite rsum_scal; ring|]. intros k _.
  assert (G : field_gradient e q (fun i => t * v i) k = t * field_gradient e q v k); [|rewrite G; ring].
  unfold field_gradient, egrad. rewrite (rsum_ext _ _ (fun i => t * (v (el_glob e i) * el_C e q i k))) by (intros; ring). rewrite rsum_scal. unfold Rdiv. ring.
Qed.
Theorem C148_minimum : forall p N nattr M o c E k0 ess load u w, fits N nattr M -> built p nattr o c -> plain_problem o M -> monotone_laws k0 o M ->
  integrates_laws M E -> same_held N ess u w -> (forall i, (i < N)%nat -> residualVector M c ess load u i = 0) ->
  energy p o M E u - dot N load u + k0 / 2 * gradient_energy M (vsub w u) <= energy p o M E w - dot N load w.
Proof.
  intros p N nattr M o c E k0 ess load u w F B P Mo HE S R1. set (d := vsub w u).
  set (G := gradient_energy M d). set (f0 := dot N d (formVector M c u)).
  set (g := fun t => energy p o M E (along u d t) - (t * f0 + k0 / 2 * (t * t) * G)).
  set (g' := fun t => dot N d (formVector M c (along u d t)) - (f0 + k0 * t * G)).
  assert (D : forall t, is_derive g t (g' t)).
  { intros t. apply (DV_minus (fun t => energy p o M E (along u d t)) (fun t => t * f0 + k0 / 2 * (t * t) * G)); [|auto_derive; [exact I|field]].
    apply (is_derive_ext (fun s => energy p o M E (along (along u d t) d (s - t)))); [intros s; rewrite <- Props_JacOptions.along_shift; do 2 f_equal; ring|].
    rewrite <- (Rmult_1_l (dot N d _)). apply (is_derive_comp (fun s => energy p o M E (along (along u d t) d s)) (fun s => s - t)).
    - replace (t - t) with 0 by ring. exact (C148_energy p N nattr M o c E (along u d t) d F B P HE).
    - auto_derive; [exact I|ring]. }
  destruct (MVT_gen g 0 1 g') as (x & Hx & E1).
  - intros t _. apply D.
  - intros t _. apply continuity_pt_filterlim. exact (DV_continuous g t (g' t) (D t)).
  - rewrite Rmin_left, Rmax_right in Hx by lra.
    assert (Pos : 0 <= g' x).
    { assert (H := plain_monotone p N nattr M o c k0 (along u d x) u F B P Mo).
      assert (Ev : vsub (along u d x) u = fun i => x * d i) by (apply functional_extensionality; intros; unfold vsub, along; ring). rewrite Ev, energy_scale in H. fold G in H.
      assert (Ds : forall r, dot N (fun i => x * d i) r = x * dot N d r) by (intros r; unfold dot; rewrite <- rsum_scal; apply rsum_ext; intros; ring). rewrite !Ds in H. fold f0 in H.
      unfold g'. destruct (Req_EM_T x 0) as [->|N0].
      - assert (E0 : along u d 0 = u) by (apply functional_extensionality; intros; unfold along; ring). rewrite E0. fold f0. lra.
      - apply Rmult_le_reg_l with x; lra. }
    assert (E00 : along u d 0 = u) by (apply functional_extensionality; intros; unfold along; ring). assert (E11 : along u d 1 = w) by (apply functional_extensionality; intros; unfold along, d, vsub; ring).
    unfold g in E1. rewrite E00, E11 in E1.
    assert (W : f0 = dot N load w - dot N load u).
    { unfold f0. rewrite (free_dot N ess d _ load).
      - unfold dot. rewrite <- rsum_minus. apply rsum_ext. intros; unfold d, vsub; ring.
      - intros i Hi He. unfold d, vsub. rewrite (S i Hi He). ring.
      - intros i Hi He. exact (solved_free N M c ess load u i R1 Hi He). }
    fold d G. lra.
Qed.
Print Assumptions C148_minimum.

(** C148: Newton's linear systems have exactly one solution, and the energy less the work of the load falls along it by at least
    k0 times its squared gradient. *)
Lemma built_accepted p nattr o c : built p nattr o c -> Props_JacOptions.accepted nattr o c.
Proof. destruct p; intros H; [left|right]; exact H. Qed.
Theorem C148_newton : forall p N nattr M o c E k0 ess load u, fits N nattr M -> built p nattr o c -> plain_problem o M -> 0 < k0 -> dissipative k0 o M ->
  integrates_laws M E -> anchored N ess M ->
  exists d, veq N (mv N (jacobian M c ess u) d) (vscal (-1) (residualVector M c ess load u)) /\ same_held N ess (fun i => u i + d i) u /\
    (forall d', veq N (mv N (jacobian M c ess u) d') (vscal (-1) (residualVector M c ess load u)) -> veq N d' d) /\
    exists s, is_derive (fun t => energy p o M E (along u d t) - dot N load (along u d t)) 0 s /\ s <= - (k0 * gradient_energy M d).
Proof.
  intros p N nattr M o c E k0 ess load u F B P K0 D HE An. assert (A := built_accepted _ _ _ _ B).
  assert (Uq := fun d d' => Props_JacOptions.C147_step_unique N nattr M o c ess u d d' k0 F A P K0 D An).
  destruct (injective_onto N (jacobian M c ess u)) with (b := vscal (-1) (residualVector M c ess load u)) as (d & Hd).
  { intros x Hx. apply (Uq x (fun _ => 0)). intros i Hi. rewrite Hx by exact Hi. unfold mv. rewrite (rsum_ext N _ (fun _ => 0)); [now rewrite rsum_0|intros; ring]. }
  assert (Z : forall i, (i < N)%nat -> In i ess -> d i = 0).
  { intros i Hi Hm. apply Props_JacOptions.memb_in in Hm. specialize (Hd i Hi). unfold vscal, residualVector, Form.zero_at in Hd. rewrite Hm in Hd. replace (d i) with (mv N (jacobian M c ess u) d i); [rewrite Hd; ring|].
    unfold mv, jacobian, Form.elim_left. rewrite (rsum_ext N _ (fun j => if Nat.eqb j i then d j else 0)).
    2:{ intros j _. rewrite Hm. cbn [orb]. rewrite (Nat.eqb_sym i). destruct (Nat.eqb j i); ring. }
    now rewrite (rsum_delta N d). }
  exists d. split; [exact Hd|]. split; [intros i Hi He; rewrite (Z i Hi He); ring|]. split.
  - intros d' Hd'. apply Uq. intros i Hi. now rewrite Hd, Hd'.
  - exists (dot N d (formVector M c u) - dot N load d). split.
    + apply (DV_minus (fun t => energy p o M E (along u d t)) (fun t => dot N load (along u d t))); [exact (C148_energy p N nattr M o c E u d F B P HE)|].
      unfold dot. apply (DV_sum N (fun i t => load i * along u d t i)). intros i _. unfold along. auto_derive; [exact I|ring].
    + assert (Dn := Props_JacOptions.C147_definite N nattr M o c u d k0 F A P (Rlt_le _ _ K0) D).
      assert (Ee : dot N d (mv N (formMatrix M c u) d) = dot N load d - dot N d (formVector M c u)).
      { rewrite (free_dot N ess d _ (vsub load (formVector M c u)) Z).
        - unfold dot. rewrite <- rsum_minus. apply rsum_ext. intros; unfold vsub; ring.
        - intros i Hi He. specialize (Hd i Hi). unfold vscal, residualVector, Form.zero_at in Hd. rewrite He in Hd. unfold vsub.
          replace (mv N (formMatrix M c u) d i) with (mv N (jacobian M c ess u) d i); [rewrite Hd; ring|].
          unfold mv, jacobian, Form.elim_left. apply rsum_ext. intros j Hj. rewrite He. cbn [orb]. destruct (Form.memb j ess) eqn:E2; [|reflexivity]. rewrite (Z j Hj) by (now apply Props_JacOptions.memb_in). ring. }
      lra.
Qed.
Print Assumptions C148_newton.

(** C148: with laws that do not depend on the field there is a solution for all held values and loads (and by C148_unique one). *)
Theorem C148_solution : forall p N nattr M o c k0 ess load held, fits N nattr M -> built p nattr o c -> plain_problem o M -> 0 < k0 -> dissipative k0 o M ->
  smooth_materials M -> linear_materials M -> anchored N ess M ->
  exists u, same_held N ess u held /\ (forall i, (i < N)%nat -> residualVector M c ess load u i = 0) /\
    forall w, same_held N ess w held -> (forall i, (i < N)%nat -> residualVector M c ess load w i = 0) -> veq N w u.
Proof.
  intros p N nattr M o c k0 ess load held F B P K0 D Sm L An. assert (A := built_accepted _ _ _ _ B).
  assert (St : straight_channels o M).
  { intros f Hf N0. exfalso. apply N0. destruct P as (_ & _ & P2). specialize (P2 f Hf). unfold separations in P2. destruct (channels o f); [reflexivity|cbn in P2; lia]. }
  assert (HE : integrates_laws M (fun e q b => el_nu e q 0 * (b * b) / 2)).
  { intros e q b He Hq Hb. rewrite (proj1 L e q b 0 He Hq). auto_derive; [exact I|field]. }
  destruct (C148_newton p N nattr M o c _ k0 ess load held F B P K0 D HE An) as (d & Hd & Hh & _).
  exists (fun i => held i + d i). split; [exact Hh|].
  assert (Rs := Props_JacOptions.C147_one_step N nattr M o c ess load held d F A Sm L St Hd). split; [intros i Hi; exact (proj1 (Rs i Hi))|].
  assert (Mo : monotone_laws k0 o M).
  { destruct D as (D1 & D2 & D3). split; [|split; [exact D2|exact D3]]. intros e q He Hq. destruct (D1 e q He Hq) as [Pw K]. split; [exact Pw|]. split; [intros b Hb; exact (proj1 (K b Hb))|].
    intros a b Hab. rewrite (proj1 L e q b 0 He Hq), (proj1 L e q a 0 He Hq). destruct (K 0 (Rle_refl 0)) as [K1 _]. nra. }
  intros w Hw Rw. apply (C148_unique p N nattr M o c k0 ess load w _ F B P K0 Mo An); [|exact Rw|intros i Hi; exact (proj1 (Rs i Hi))].
  intros i Hi He. rewrite (Hw i Hi He). symmetry. exact (Hh i Hi He).
Qed.
Print Assumptions C148_solution.

(** C148: with monotone laws whose flux grows at most L times the gradient there is a solution for all held values and loads;
    it is the only one, and has the least energy less work of the load. *)
Theorem C148_existence : forall p N nattr M o c k0 L ess load held, fits N nattr M -> built p nattr o c -> plain_problem o M -> 0 < k0 -> monotone_laws k0 o M ->
  bounded_laws L M -> anchored N ess M ->
  exists u, same_held N ess u held /\ (forall i, (i < N)%nat -> residualVector M c ess load u i = 0) /\ (forall w, same_held N ess w held -> (forall i, (i < N)%nat -> residualVector M c ess load w i = 0) -> veq N w u) /\
    forall E w, integrates_laws M E -> same_held N ess w held -> energy p o M E u - dot N load u + k0 / 2 * gradient_energy M (vsub w u) <= energy p o M E w - dot N load w.
Proof.
  intros p N nattr M o c k0 L ess load held F B P K0 Mo HL An.
  destruct (plain_solvable p N nattr M o c k0 L F B P Mo K0 HL ess load held An) as (u & Hh & Hr). exists u. split; [exact Hh|]. split; [exact Hr|]. split.
  - intros w Hw Rw. apply (C148_unique p N nattr M o c k0 ess load w u F B P K0 Mo An); [|exact Rw|exact Hr]. intros i Hi He. rewrite (Hw i Hi He). symmetry. exact (Hh i Hi He).
  - intros E w HE Hw. apply (C148_minimum p N nattr M o c E k0 ess load u w F B P Mo HE); [|exact Hr]. intros i Hi He. rewrite (Hh i Hi He). symmetry. exact (Hw i Hi He).
Qed.
Print Assumptions C148_existence.

(** non-vacuity: the rod of two elements of Props_JacOptions that conducts better the steeper its temperature (1 + b), its left
    end held and its right end cooled *)
Definition rod_terms : config := [(OnDomain, Diffusion); (OnBoundary [0; 1]%Z, Exchange (ConvectionBC 2 1 1))].
Definition stored (_ : telem) (_ : nat) (b : R) : R := b * b / 2 + b * b * b / 3.
Lemma rod_anchored M : elems M = elems Props_JacOptions.saturable \/ elems M = [Props_ThermalOptions.piece 1 0; Props_ThermalOptions.piece 2 1] -> anchored 3 [0%nat] M.
Proof.
  intros HM v Z E. assert (V0 : v 0%nat = 0) by (apply Z; [lia|now left]).
  assert (E1 : (v 1%nat - v 0%nat) * (v 1%nat - v 0%nat) + / 2 * ((v 2%nat - v 1%nat) * (v 2%nat - v 1%nat)) = 0).
  { rewrite <- E. unfold gradient_energy. destruct HM as [-> | ->]; unfold field_gradient, egrad; cbn; field. }
  assert (H1 : 0 <= (v 1%nat - v 0%nat) * (v 1%nat - v 0%nat)) by apply Rle_0_sqr. assert (H2 : 0 <= (v 2%nat - v 1%nat) * (v 2%nat - v 1%nat)) by apply Rle_0_sqr.
  assert (Q1 : v 1%nat - v 0%nat = 0) by (apply Rsqr_0_uniq; unfold Rsqr; lra). assert (Q2 : v 2%nat - v 1%nat = 0) by (apply Rsqr_0_uniq; unfold Rsqr; lra).
  intros i Hi. destruct i as [|[|[|i]]]; [lra|lra|lra|lia].
Qed.
Lemma rod_laws : built Heat 2 Props_JacOptions.saturable_options rod_terms /\ monotone_laws 1 Props_JacOptions.saturable_options Props_JacOptions.saturable /\
  integrates_laws Props_JacOptions.saturable stored /\ anchored 3 [0%nat] Props_JacOptions.saturable.
Proof.
  destruct Props_JacOptions.saturable_ok as (_ & _ & A & _ & D & _). split; [|split; [|split]].
  - split; [constructor|reflexivity].
  - destruct D as (_ & D2 & D3). split; [|split; [exact D2|exact D3]]. intros e q He _.
    assert (E : el_nu e = fun _ b => 1 + b) by (destruct He as [<-|[<-|[]]]; reflexivity). assert (E3 : el_pw e = fun _ => 1) by (destruct He as [<-|[<-|[]]]; reflexivity).
    rewrite E, E3. split; [lra|split; [intros; lra|intros; nra]].
  - intros e q b He _ _. assert (E : el_nu e = fun _ b => 1 + b) by (destruct He as [<-|[<-|[]]]; reflexivity). rewrite E. unfold stored. auto_derive; [exact I|field].
  - apply rod_anchored. now left.
Qed.
Example C148_energy_met : forall load u,
  (forall v, is_derive (fun t => energy Heat Props_JacOptions.saturable_options Props_JacOptions.saturable stored (along u v t)) 0 (dot 3 v (formVector Props_JacOptions.saturable rod_terms u))) /\
  (forall w, same_held 3 [0%nat] u w -> (forall i, (i < 3)%nat -> residualVector Props_JacOptions.saturable rod_terms [0%nat] load u i = 0) ->
    (forall i, (i < 3)%nat -> residualVector Props_JacOptions.saturable rod_terms [0%nat] load w i = 0) -> veq 3 u w) /\
  exists d, veq 3 (mv 3 (jacobian Props_JacOptions.saturable rod_terms [0%nat] u) d) (vscal (-1) (residualVector Props_JacOptions.saturable rod_terms [0%nat] load u)).
Proof.
  intros load u. destruct rod_laws as (B & Mo & HE & An), Props_JacOptions.saturable_ok as (F & _ & _ & P & D & _). split; [|split].
  - intros v. exact (C148_energy Heat 3 2 _ _ _ _ u v F B P HE).
  - intros w S R1 R2. exact (C148_unique Heat 3 2 _ _ _ 1 [0%nat] load u w F B P Rlt_0_1 Mo An S R1 R2).
  - destruct (C148_newton Heat 3 2 _ _ _ _ 1 [0%nat] load u F B P Rlt_0_1 D HE An) as (d & Hd & _). now exists d.
Qed.
(** a field that solves: heated through its cooled end it has slope 1 in both elements *)
Example C148_minimum_met : let u := fun i => match i with 2%nat => 3 | k => INR k end in
  let load := formVector Props_JacOptions.saturable rod_terms u in
  (forall i, (i < 3)%nat -> residualVector Props_JacOptions.saturable rod_terms [0%nat] load u i = 0) /\
  forall w, w 0%nat = 0 -> energy Heat Props_JacOptions.saturable_options Props_JacOptions.saturable stored u - dot 3 load u <=
    energy Heat Props_JacOptions.saturable_options Props_JacOptions.saturable stored w - dot 3 load w.
Proof.
  intros u load. destruct rod_laws as (B & Mo & HE & An), Props_JacOptions.saturable_ok as (F & _ & _ & P & _ & _).
  assert (R1 : forall i, (i < 3)%nat -> residualVector Props_JacOptions.saturable rod_terms [0%nat] load u i = 0).
  { intros i _. unfold residualVector, Form.zero_at. destruct (Form.memb i [0%nat]); [ring|]. unfold load. ring. }
  split; [exact R1|]. intros w W0.
  assert (S : same_held 3 [0%nat] u w) by (intros i _ [<-|[]]; rewrite W0; unfold u; cbn; reflexivity).
  assert (H := C148_minimum Heat 3 2 _ _ _ _ 1 [0%nat] load u w F B P Mo HE S R1).
  assert (G : 0 <= gradient_energy Props_JacOptions.saturable (vsub w u)); [|lra].
  apply Props_JacOptions.total_nonneg. intros e He. apply rsum_nonneg. intros q Hq. destruct F as (_ & HW & _), Mo as (M1 & _). apply Rmult_le_pos; [apply Rmult_le_pos; [now apply M1|left; now apply HW]|].
  apply rsum_nonneg. intros; apply Rle_0_sqr.
Qed.
(** the same rod with the constant conductivity 1 has one temperature for every load and every held value *)
Definition even_rod : tmesh := {| elems := [Props_ThermalOptions.piece 1 0; Props_ThermalOptions.piece 2 1]; inner := []; outer := outer Props_JacOptions.saturable |}.
Example C148_solution_met : forall load held, exists u, u 0%nat = held 0%nat /\ forall i, (i < 3)%nat -> residualVector even_rod rod_terms [0%nat] load u i = 0.
Proof.
  intros load held. destruct rod_laws as (B & _ & _ & _), Props_JacOptions.saturable_ok as (F & S & _ & P & D & _).
  assert (F' : fits 3 2 even_rod).
  { destruct F as (F1 & F2 & F3 & F4 & F5 & F6). split; [|split; [|split; [exact F3|split; [exact F4|split; [exact F5|exact F6]]]]].
    - intros e i [<-|[<-|[]]]; cbn; lia.
    - intros e q [<-|[<-|[]]]; cbn; lra. }
  assert (K : forall e, In e (elems even_rod) -> el_nu e = (fun _ _ => 1) /\ el_dnu e = (fun _ _ => 0) /\ el_pw e = fun _ => 1) by (intros e [<-|[<-|[]]]; split; [|split| |split]; reflexivity).
  destruct (C148_solution Heat 3 2 even_rod Props_JacOptions.saturable_options rod_terms 1 [0%nat] load held F' B) as (u & Hu & Hr & _).
  - destruct P as (P1 & P2 & P3). split; [exact P1|split; [exact P2|exact P3]].
  - exact Rlt_0_1.
  - destruct D as (_ & D2 & D3). split; [|split; [exact D2|exact D3]]. intros e q He _. destruct (K e He) as (-> & -> & ->). split; [lra|]. intros; split; lra.
  - destruct S as (_ & S2). split; [|exact S2]. intros e q He _. destruct (K e He) as (-> & -> & _). split; [intros b _; apply (DV_const 1)|apply continuous_const].
  - split; [intros e q x y He _; now rewrite (proj1 (K e He))|]. intros f Hf.
    assert (X : exists r1 r2, tf_s1 f = Props_ThermalOptions.plain r1 /\ tf_s2 f = Props_ThermalOptions.plain r2) by (destruct Hf as [<-|[<-|[]]]; do 2 eexists; split; reflexivity).
    destruct X as (r1 & r2 & -> & ->). split; apply Props_JacOptions.plain_law.
  - apply rod_anchored. now right.
  - exists u. split; [apply Hu; [lia|now left]|exact Hr].
Qed.
(** a rod that conducts better the steeper its temperature, but never more than 3: its conductivity is 1 + b / (1 + b) *)
Definition limited (w : R) (first : nat) : telem := {| el_n := 2; el_dim := 2; el_nq := 1; el_pw := fun _ => 1; el_W := fun _ => w;
  el_C := fun _ i k => match k, i with O, O => -1 | O, _ => 1 | _, _ => 0 end; el_nu := fun _ b => 1 + b / (1 + b); el_dnu := fun _ b => / ((1 + b) * (1 + b)); el_glob := fun i => (first + i)%nat |}.
Definition limited_rod : tmesh := {| elems := [limited 1 0; limited 2 1]; inner := []; outer := outer Props_JacOptions.saturable |}.
Lemma limited_law a b : 0 <= a <= b -> 1 * (b - a) <= (1 + b / (1 + b)) * b - (1 + a / (1 + a)) * a <= 3 * (b - a).
Proof.
  intros H. assert (E : (1 + b / (1 + b)) * b - (1 + a / (1 + a)) * a = (b - a) + (b - a) * ((a + b + a * b) / ((1 + a) * (1 + b)))) by (field; lra).
  rewrite E. assert (P : 0 < (1 + a) * (1 + b)) by (apply Rmult_lt_0_compat; lra).
  assert (Q : 0 <= (a + b + a * b) / ((1 + a) * (1 + b)) <= 1).
  { split; [apply Rmult_le_pos; [nra|left; now apply Rinv_0_lt_compat]|]. apply (Rmult_le_reg_r ((1 + a) * (1 + b))); [exact P|]. unfold Rdiv. rewrite Rmult_assoc, Rinv_l by lra. nra. }
  nra.
Qed.
Example C148_existence_met : forall load held, exists u, u 0%nat = held 0%nat /\ forall i, (i < 3)%nat -> residualVector limited_rod rod_terms [0%nat] load u i = 0.
Proof.
  intros load held. destruct rod_laws as (B & _ & _ & _), Props_JacOptions.saturable_ok as (F & _ & _ & P & D & _).
  assert (F' : fits 3 2 limited_rod).
  { destruct F as (F1 & F2 & F3 & F4 & F5 & F6). split; [|split; [|split; [exact F3|split; [exact F4|split; [exact F5|exact F6]]]]].
    - intros e i [<-|[<-|[]]]; cbn; lia.
    - intros e q [<-|[<-|[]]]; cbn; lra. }
  assert (K : forall e, In e (elems limited_rod) -> el_nu e = (fun _ b => 1 + b / (1 + b)) /\ el_pw e = fun _ => 1) by (intros e [<-|[<-|[]]]; split; reflexivity).
  assert (Q : forall b, 0 <= b -> 0 <= b / (1 + b) <= 1).
  { intros b Hb. split; [apply Rmult_le_pos; [exact Hb|left; apply Rinv_0_lt_compat; lra]|]. apply (Rmult_le_reg_r (1 + b)); [lra|]. unfold Rdiv. rewrite Rmult_assoc, Rinv_l by lra. lra. }
  destruct (C148_existence Heat 3 2 limited_rod Props_JacOptions.saturable_options rod_terms 1 3 [0%nat] load held F' B) as (u & Hu & Hr & _).
  - destruct P as (P1 & P2 & P3). split; [exact P1|split; [exact P2|exact P3]].
  - exact Rlt_0_1.
  - destruct D as (_ & D2 & D3). split; [|split; [exact D2|exact D3]]. intros e q He _. destruct (K e He) as (-> & ->). split; [lra|]. split.
    + intros b Hb. destruct (Q b Hb). lra.
    + intros a b Hab. apply limited_law. exact Hab.
  - intros e q He _ a b Hab. destruct (K e He) as (-> & _). destruct (Q a (proj1 Hab)). split; [lra|]. apply limited_law. exact Hab.
  - intros v Z E. assert (V0 : v 0%nat = 0) by (apply Z; [lia|now left]).
    assert (E1 : (v 1%nat - v 0%nat) * (v 1%nat - v 0%nat) + / 2 * ((v 2%nat - v 1%nat) * (v 2%nat - v 1%nat)) = 0) by (rewrite <- E; unfold gradient_energy, field_gradient, egrad; cbn; field).
    assert (H1 : 0 <= (v 1%nat - v 0%nat) * (v 1%nat - v 0%nat)) by apply Rle_0_sqr. assert (H2 : 0 <= (v 2%nat - v 1%nat) * (v 2%nat - v 1%nat)) by apply Rle_0_sqr.
    assert (Q1 : v 1%nat - v 0%nat = 0) by (apply Rsqr_0_uniq; unfold Rsqr; lra). assert (Q2 : v 2%nat - v 1%nat = 0) by (apply Rsqr_0_uniq; unfold Rsqr; lra).
    intros i Hi. destruct i as [|[|[|i]]]; [lra|lra|lra|lia].
  - exists u. split; [apply Hu; [lia|now left]|exact Hr].
Qed.
