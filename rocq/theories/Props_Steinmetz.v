(** C151: core losses by the Steinmetz equation. *)
From Coq Require Import Reals String List Bool Arith Lia Lra.
From Coquelicot Require Import Coquelicot.
From Verif Require Import Vec Deriv EmInteg EmIntegSpec EmMeshProofs IsoGeom SbpSpec SbpMeshProofs CommonFun CommonFunSpec CommonFunProofs
  Loss LossSpec LossProofs Outputs Steinmetz SteinmetzProofs Props_CommonFun Props_Loss.
Import ListNotations.
Local Open Scope R_scope.
Local Open Scope string_scope.

(** a constant coefficient; its EvalRevDiff adds nothing *)
Definition constant (c : R) : pcoef := {| p_val := fun _ _ _ => c; p_rev := fun _ _ _ _ _ _ => 0 |}.
Lemma constant_ok c : coef_ok 2 (constant c) one_tri.
Proof.
  intros e q _ _ X V b. cbn [constant p_val p_rev]. apply (DV_eq _ 0 0); [exact (DV_const _ 0)|]. unfold pairing.
  rewrite (rsum_ext 2 _ (fun _ => 0)); [now rewrite rsum_0|]. intros k _. rewrite (rsum_ext _ _ (fun _ => 0)); [now rewrite rsum_0|intros; ring].
Qed.
(** density 1, k_s 2, exponents 1 and 2 on the reference triangle *)
Definition iron (name : string) : steinmetz := new_steinmetz (constant 1) (constant 2) (constant 1) (constant 2) name one_tri.
(** one more scalar among the inputs *)
Definition with_input (I : scalars) (k : string) (x : R) : scalars := fun k' => if String.eqb k' k then Some x else I k'.
Definition no_inputs : scalars := fun _ => None.
Lemma with_same I k x old : value_from (with_input I k x) k old = x.
Proof. unfold value_from, with_input. now rewrite String.eqb_refl. Qed.
Lemma with_other I k x k' old : String.eqb k' k = false -> value_from (with_input I k x) k' old = value_from I k' old.
Proof. intros H. unfold value_from, with_input. now rewrite H. Qed.

(** C151: the loss is the integral of rho k_s f^alpha B^beta with the frequency and the peak flux density last given as
    inputs; without peak flux there is none. *)
Theorem C151_value : forall I s X f b, 0 < f -> I "frequency" = Some f -> I (flux_key (st_name s)) = Some b ->
  (0 < b -> st_energy (st_set I s) X = integral (measured (fun e q => let P := place e X in
     p_val (st_rho s) e q P * p_val (st_ks s) e q P * Rpower f (p_val (st_alpha s) e q P) * Rpower b (p_val (st_beta s) e q P)) (st_elems s) X)) /\
  (b = 0 -> (forall e q, In e (st_elems s) -> (q < e_nq e)%nat -> 0 < p_val (st_beta s) e q (place e X)) -> st_energy (st_set I s) X = 0).
Proof.
  intros I s X f b F EF EB. split.
  - intros B. rewrite st_value. cbn [st_set st_elems st_freq st_flux]. unfold value_from. rewrite EF, EB. unfold integral. rewrite !(measured_sum (fun g w => g * w)).
    apply lsum_ext; intros e _. apply rsum_ext; intros q _. unfold st_dens. cbn [st_rho st_ks st_alpha st_beta st_set]. cbv zeta. now rewrite !cpow_pos.
  - intros -> N. rewrite st_value. cbn [st_set st_elems st_freq st_flux]. unfold value_from. rewrite EF, EB. unfold integral. rewrite (measured_sum (fun g w => g * w)).
    rewrite (lsum_ext _ (fun _ => 0 * 0)); [rewrite lsum_scal; ring|]. intros e He. rewrite (rsum_ext _ _ (fun _ => 0)); [rewrite rsum_0; ring|].
    intros q Hq. unfold st_dens. cbn [st_rho st_ks st_alpha st_beta st_set]. rewrite (cpow_zero _ (N e q He Hq)). ring.
Qed.
Print Assumptions C151_value.
Definition stator_inputs : scalars := with_input (with_input no_inputs "frequency" 3) "max_flux_magnitude:stator" 2.
Lemma Rpower_2 x : 0 < x -> Rpower x 2 = x ^ 2.
Proof. intros H. exact (Rpower_pow 2 x H). Qed.
Lemma iron_dens name (g : elem -> nat -> R) c : (forall e q, g e q = c) -> integral (measured g (st_elems (iron name)) ref_tri) = c * (1 / 2).
Proof.
  intros H. rewrite <- one_tri_volume, <- (measured_measure g). unfold integral, measure.
  rewrite (measured_sum (fun _ w => w)), (measured_sum (fun g w => g * w)). change (st_elems (iron name)) with one_tri.
  rewrite <- lsum_scal. apply lsum_ext; intros e _. rewrite <- rsum_scal. apply rsum_ext; intros q _. now rewrite H.
Qed.
Example C151_value_nonvacuous : st_energy (st_set stator_inputs (iron "stator")) ref_tri = 12 /\ st_energy (st_set stator_inputs (iron "")) ref_tri = 3.
Proof.
  split.
  - destruct (C151_value stator_inputs (iron "stator") ref_tri 3 2 ltac:(lra) eq_refl eq_refl) as [H _]. rewrite H by lra.
    cbn [iron new_steinmetz st_rho st_ks st_alpha st_beta constant p_val]. cbv zeta.
    change (st_elems _) with (st_elems (iron "stator")). rewrite (iron_dens _ _ 24); [lra|]. intros e q. rewrite Rpower_1, Rpower_2 by lra. lra.
  - rewrite st_value. cbn [st_set st_freq st_flux]. change (value_from stator_inputs "frequency" (st_freq (iron ""))) with 3.
    change (value_from stator_inputs (flux_key (st_name (iron ""))) (st_flux (iron ""))) with 1.
    change (st_elems _) with (st_elems (iron "")). rewrite (iron_dens _ _ 6); [lra|]. intros e q. unfold st_dens. cbn. rewrite !cpow_pos by lra. rewrite Rpower_1, Rpower_2 by lra. lra.
Qed.

(** C151: the products of a functional of integrators of one name with respect to the frequency and that name's peak flux are
    the derivatives of its output. *)
Theorem C151_scalars : forall l name I X f b out_bar, (forall s, In s l -> st_name s = name) -> 0 < f -> 0 < b ->
  let J := with_input (with_input I "frequency" f) (flux_key name) b in
  forall wrt x, (wrt = "frequency" /\ x = f) \/ (wrt = flux_key name /\ x = b) ->
  exists d, is_derive (fun y => st_output (map (st_set (with_input J wrt y)) l) X) x d /\
    st_vjp (map (st_set J) l) X out_bar wrt = Some (d * out_bar).
Proof.
  intros l name I X f b out_bar HN F B J wrt x K.
  assert (NE : String.eqb (flux_key name) "frequency" = false) by (unfold flux_key; destruct (String.eqb name ""); reflexivity).
  assert (NE' : String.eqb "frequency" (flux_key name) = false) by (rewrite String.eqb_sym; exact NE).
  assert (BC : before_colon (flux_key name) = "max_flux_magnitude") by (unfold flux_key; destruct (String.eqb name ""); reflexivity).
  assert (JF : J "frequency" = Some f) by (unfold J, with_input; rewrite NE', String.eqb_refl; reflexivity).
  assert (JB : J (flux_key name) = Some b) by (unfold J, with_input; rewrite String.eqb_refl; reflexivity).
  destruct K as [[-> ->]|[-> ->]].
  - exists (lsum (fun s => st_freq_sens s X) (map (st_set J) l)). split; [|reflexivity]. rewrite lsum_map.
    apply (DV_ext (fun y => lsum (fun s => integral (measured (st_dens s y b X) (st_elems s) X)) l)).
    { intros y. unfold st_output. rewrite lsum_map. apply lsum_ext; intros s Hs. rewrite st_value. cbn [st_set st_freq st_flux st_elems]. rewrite (HN s Hs).
      rewrite with_same, (with_other J "frequency" y _ _ NE). unfold value_from. rewrite JB. reflexivity. }
    apply (lsum_derive (fun s y => integral (measured (st_dens s y b X) (st_elems s) X))). intros s Hs.
    refine (DV_eq _ _ _ _ (st_freq_ok s X f b F) _). f_equal. unfold st_set. rewrite (HN s Hs). unfold value_from. rewrite JF, JB. reflexivity.
  - exists (lsum (fun s => st_flux_sens s X) (map (st_set J) l)). split; [|unfold st_vjp; rewrite BC; reflexivity]. rewrite lsum_map.
    apply (DV_ext (fun y => lsum (fun s => integral (measured (st_dens s f y X) (st_elems s) X)) l)).
    { intros y. unfold st_output. rewrite lsum_map. apply lsum_ext; intros s Hs. rewrite st_value. cbn [st_set st_freq st_flux st_elems]. rewrite (HN s Hs).
      rewrite with_same, (with_other J (flux_key name) y _ _ NE'). unfold value_from. rewrite JF. reflexivity. }
    apply (lsum_derive (fun s y => integral (measured (st_dens s f y X) (st_elems s) X))). intros s Hs.
    refine (DV_eq _ _ _ _ (st_flux_ok s X f b B) _). f_equal. unfold st_set. rewrite (HN s Hs). unfold value_from. rewrite JF, JB. reflexivity.
Qed.
Print Assumptions C151_scalars.
Lemma iron_freq : st_freq_sens (st_set stator_inputs (iron "stator")) ref_tri = 4.
Proof.
  transitivity (integral (measured (fun _ _ => 8) (st_elems (iron "stator")) ref_tri)); [|rewrite (iron_dens _ _ 8) by reflexivity; lra].
  unfold integral. rewrite (measured_sum (fun g w => g * w)). unfold st_freq_sens, quad_total. apply lsum_ext; intros e _. apply rsum_ext; intros q _. cbn. 
  rewrite !cpow_pos by lra. rewrite Rpower_2 by lra. replace (1 - 1) with 0 by lra. rewrite Rpower_O by lra. unfold nodes_of. ring.
Qed.
Lemma iron_flux name : st_flux_sens (st_set (with_input stator_inputs (flux_key name) 2) (iron name)) ref_tri = 12.
Proof.
  transitivity (integral (measured (fun _ _ => 24) (st_elems (iron name)) ref_tri)); [|rewrite (iron_dens _ _ 24) by reflexivity; lra].
  unfold integral. rewrite (measured_sum (fun g w => g * w)). unfold st_flux_sens, quad_total. apply lsum_ext; intros e _. apply rsum_ext; intros q _.
  cbn [st_set iron new_steinmetz st_rho st_ks st_alpha st_beta st_freq st_flux st_name constant p_val]. cbv zeta.
  assert (A : value_from (with_input stator_inputs (flux_key name) 2) "frequency" 1 = 3).
  { unfold value_from. unfold with_input at 1. replace (String.eqb "frequency" (flux_key name)) with false by (unfold flux_key; destruct (String.eqb name ""); reflexivity). reflexivity. }
  assert (B : value_from (with_input stator_inputs (flux_key name) 2) (flux_key name) 1 = 2) by (unfold value_from, with_input; now rewrite String.eqb_refl).
  rewrite A, B, !cpow_pos by lra. replace (2 - 1) with 1 by lra. rewrite !Rpower_1 by lra. unfold nodes_of. ring.
Qed.
Example C151_scalars_nonvacuous : st_vjp (map (st_set stator_inputs) [iron "stator"]) ref_tri 1 "frequency" = Some 4.
Proof. unfold st_vjp, st_scalar, lsum. cbn [before_colon Ascii.eqb Bool.eqb String.eqb map fold_right]. rewrite iron_freq. f_equal. lra. Qed.

(** C151 is false of a functional with integrators of two names: the product with respect to one name's peak flux includes the
    sensitivity of the other's. *)
Theorem C151_two_names_refuted :
  ~ (forall l name I X f b out_bar, 0 < f -> 0 < b ->
       let J := with_input (with_input I "frequency" f) (flux_key name) b in
       exists d, is_derive (fun y => st_output (map (st_set (with_input J (flux_key name) y)) l) X) b d /\
         st_vjp (map (st_set J) l) X out_bar (flux_key name) = Some (d * out_bar)).
Proof.
  intros K. set (I := with_input (with_input no_inputs "frequency" 3) "max_flux_magnitude:rotor" 2).
  destruct (K [iron "stator"; iron "rotor"] "stator" I ref_tri 3 2 1 ltac:(lra) ltac:(lra)) as (d & D & E). clear K.
  set (J := with_input (with_input I "frequency" 3) (flux_key "stator") 2) in *.
  destruct (C151_scalars [iron "stator"] "stator" I ref_tri 3 2 1 ltac:(intros s [<-|[]]; reflexivity) ltac:(lra) ltac:(lra) (flux_key "stator") 2 (or_intror (conj eq_refl eq_refl))) as (d1 & D1 & E1).
  fold J in D1, E1.
  assert (d = d1).
  { apply (DV_unique (fun y => st_output (map (st_set (with_input J (flux_key "stator") y)) [iron "stator"; iron "rotor"]) ref_tri) 2); [exact D|].
    apply (DV_ext (fun y => st_output (map (st_set (with_input J (flux_key "stator") y)) [iron "stator"]) ref_tri + st_energy (st_set I (iron "rotor")) ref_tri)).
    - intros y. unfold st_output, lsum. cbn [map fold_right]. change (st_set (with_input J (flux_key "stator") y) (iron "rotor")) with (st_set I (iron "rotor")). ring.
    - refine (DV_eq _ _ _ _ (DV_plus _ _ _ _ _ D1 (DV_const _ _)) _). ring. }
  subst d1. unfold st_vjp, st_scalar, lsum in E, E1.
  change (before_colon (flux_key "stator")) with "max_flux_magnitude" in E, E1. cbn [Ascii.eqb Bool.eqb String.eqb map fold_right] in E, E1.
  change (st_set J (iron "rotor")) with (st_set (with_input stator_inputs (flux_key "rotor") 2) (iron "rotor")) in E.
  rewrite iron_flux in E. injection E as E. injection E1 as E1. lra.
Qed.
Print Assumptions C151_two_names_refuted.

(** C151: the product with respect to the frequency is the derivative whatever the names; and what the product with respect
    to a peak flux is for several names: the sum of the derivatives with respect to every integrator's own flux. *)
Theorem C151_frequency : forall l I X f out_bar, 0 < f -> I "frequency" = Some f ->
  exists d, is_derive (fun y => st_output (map (st_set (with_input I "frequency" y)) l) X) f d /\
    st_vjp (map (st_set I) l) X out_bar "frequency" = Some (d * out_bar).
Proof.
  intros l I X f out_bar F E.
  assert (NE : forall n, String.eqb (flux_key n) "frequency" = false) by (intros n; unfold flux_key; destruct (String.eqb n ""); reflexivity).
  exists (lsum (fun s => st_freq_sens s X) (map (st_set I) l)). split; [|reflexivity]. rewrite lsum_map.
  apply (DV_ext (fun y => lsum (fun s => integral (measured (st_dens s y (value_from I (flux_key (st_name s)) (st_flux s)) X) (st_elems s) X)) l)).
  { intros y. unfold st_output. rewrite lsum_map. apply lsum_ext; intros s Hs. rewrite st_value. cbn [st_set st_freq st_flux st_elems].
    rewrite with_same, (with_other I "frequency" y _ _ (NE (st_name s))). reflexivity. }
  apply (lsum_derive (fun s y => integral (measured (st_dens s y (value_from I (flux_key (st_name s)) (st_flux s)) X) (st_elems s) X))). intros s Hs.
  refine (DV_eq _ _ _ _ (st_freq_ok s X f _ F) _). f_equal. unfold st_set. unfold value_from at 2. rewrite E. reflexivity.
Qed.
Print Assumptions C151_frequency.
Theorem C151_flux_shared : forall l I X out_bar name, (forall s, In s l -> exists b, 0 < b /\ I (flux_key (st_name s)) = Some b) ->
  exists d : steinmetz -> R,
    (forall s b, In s l -> I (flux_key (st_name s)) = Some b ->
       is_derive (fun y => st_energy (st_set (with_input I (flux_key (st_name s)) y) s) X) b (d s)) /\
    st_vjp (map (st_set I) l) X out_bar (flux_key name) = Some (lsum d l * out_bar).
Proof.
  intros l I X out_bar name H.
  assert (NE : forall n, String.eqb "frequency" (flux_key n) = false) by (intros n; unfold flux_key; destruct (String.eqb n ""); reflexivity).
  assert (BC : before_colon (flux_key name) = "max_flux_magnitude") by (unfold flux_key; destruct (String.eqb name ""); reflexivity).
  exists (fun s => st_flux_sens (st_set I s) X). split.
  - intros s b Hs E. destruct (H s Hs) as (b' & P & E'). rewrite E in E'. injection E' as <-.
    apply (DV_ext (fun y => integral (measured (st_dens s (value_from I "frequency" (st_freq s)) y X) (st_elems s) X))).
    { intros y. rewrite st_value. cbn [st_set st_freq st_flux st_elems]. rewrite with_same, (with_other I _ y _ _ (NE (st_name s))). reflexivity. }
    refine (DV_eq _ _ _ _ (st_flux_ok s X _ b P) _). f_equal. unfold st_set. unfold value_from at 3. rewrite E. reflexivity.
  - unfold st_vjp. rewrite BC. unfold st_scalar. cbn [String.eqb Ascii.eqb Bool.eqb]. rewrite lsum_map. reflexivity.
Qed.
Print Assumptions C151_flux_shared.
Example C151_flux_shared_nonvacuous : let I := with_input stator_inputs "max_flux_magnitude:rotor" 2 in
  (forall s, In s [iron "stator"; iron "rotor"] -> exists b, 0 < b /\ I (flux_key (st_name s)) = Some b) /\ I "frequency" = Some 3.
Proof. split; [|reflexivity]. intros s [<-|[<-|[]]]; exists 2; (split; [lra|reflexivity]). Qed.

(** C151: the product with respect to the mesh, for coefficients that vary with position. *)
Theorem C151_mesh : forall l X V sdim NN out_bar wrt_bar,
  (forall s, In s l -> nodes_ok sdim NN (st_elems s) /\ 0 < st_freq s /\ 0 < st_flux s /\
     coef_ok sdim (st_rho s) (st_elems s) /\ coef_ok sdim (st_ks s) (st_elems s) /\ coef_ok sdim (st_alpha s) (st_elems s) /\ coef_ok sdim (st_beta s) (st_elems s)) ->
  exists d, is_derive (fun t => st_output l (moved X V t)) 0 d /\
    pairing sdim NN (st_mesh_vjp l X out_bar wrt_bar) V = pairing sdim NN wrt_bar V + out_bar * d.
Proof.
  intros l X V sdim NN out_bar wrt_bar H. exists (lsum (fun s => pairing sdim NN (st_mesh_sens s X) V) l). split.
  - apply (lsum_derive (fun s t => st_energy s (moved X V t))). intros s Hs. destruct (H s Hs) as (A & F & B & R1 & R2 & R3 & R4). now apply st_mesh_ok.
  - unfold st_mesh_vjp. rewrite pairing_plus. f_equal. clear H. 
    induction l as [|s l IH].
    + unfold lsum. cbn [fold_right]. unfold pairing. rewrite (rsum_ext sdim _ (fun _ => 0)); [rewrite rsum_0; ring|].
      intros k _. rewrite (rsum_ext _ _ (fun _ => 0)); [now rewrite rsum_0|intros; ring].
    + unfold lsum in *. cbn [fold_right]. rewrite (pairing_ext sdim NN _ (fun k J => out_bar * st_mesh_sens s X k J + out_bar * fold_right (fun a acc => st_mesh_sens a X k J + acc) 0 l)) by (intros; ring).
      rewrite pairing_plus, IH. rewrite Rmult_plus_distr_l. f_equal.
      rewrite (pairing_ext sdim NN _ (fun k J => st_mesh_sens s X k J * out_bar)) by (intros; ring). rewrite pairing_scal_r. ring.
Qed.
Print Assumptions C151_mesh.
Example C151_mesh_nonvacuous : let s := st_set stator_inputs (iron "stator") in nodes_ok 2 3 (st_elems s) /\ 0 < st_freq s /\ 0 < st_flux s /\
  coef_ok 2 (st_rho s) (st_elems s) /\ coef_ok 2 (st_beta s) (st_elems s).
Proof.
  split; [exact one_tri_nodes|]. split; [change (0 < 3); lra|]. split; [change (0 < 2); lra|]. split; apply constant_ok.
Qed.

(** C151: with nonnegative coefficients and positively oriented elements the loss is not negative and does not decrease when
    frequency or peak flux grow; for a uniform frequency exponent it scales with that power of the frequency. *)
Definition nonneg_steel (s : steinmetz) (X : mat) : Prop := forall e q, In e (st_elems s) -> (q < e_nq e)%nat ->
  0 <= p_val (st_rho s) e q (place e X) /\ 0 <= p_val (st_ks s) e q (place e X) /\ 0 <= p_val (st_alpha s) e q (place e X) /\
  0 <= p_val (st_beta s) e q (place e X) /\ 0 <= e_pw e q * e_W e q (place e X).
Theorem C151_growth : forall I I' s X f f' b b', nonneg_steel s X -> 0 <= f <= f' -> 0 <= b <= b' ->
  I "frequency" = Some f -> I (flux_key (st_name s)) = Some b -> I' "frequency" = Some f' -> I' (flux_key (st_name s)) = Some b' ->
  0 <= st_energy (st_set I s) X <= st_energy (st_set I' s) X.
Proof.
  intros I I' s X f f' b b' H F B E1 E2 E3 E4. rewrite !st_value. cbn [st_set st_elems st_freq st_flux]. unfold value_from. rewrite E1, E2, E3, E4.
  unfold integral. rewrite !(measured_sum (fun g w => g * w)).
  assert (G : forall e q, In e (st_elems s) -> (q < e_nq e)%nat ->
    0 <= st_dens (st_set I s) f b X e q * (e_pw e q * e_W e q (nodes_of e X)) <= st_dens (st_set I' s) f' b' X e q * (e_pw e q * e_W e q (nodes_of e X))).
  { intros e q He Hq. destruct (H e q He Hq) as (Hr & Hk & Ha & Hb & Hw). change (place e X) with (nodes_of e X) in *. unfold st_dens. cbn [st_set st_rho st_ks st_alpha st_beta].
    change (place e X) with (nodes_of e X).
    assert (Hc : 0 <= p_val (st_rho s) e q (nodes_of e X) * p_val (st_ks s) e q (nodes_of e X)) by now apply Rmult_le_pos.
    set (c := p_val (st_rho s) e q (nodes_of e X) * p_val (st_ks s) e q (nodes_of e X)) in *.
    assert (M1 := cpow_mono f f' _ F Ha). assert (M2 := cpow_mono b b' _ B Hb). assert (N1 := cpow_nonneg f (p_val (st_alpha s) e q (nodes_of e X))).
    assert (N2 := cpow_nonneg b (p_val (st_beta s) e q (nodes_of e X))).
    split; [apply Rmult_le_pos; [|exact Hw]; apply Rmult_le_pos; [|exact N2]; now apply Rmult_le_pos|].
    apply Rmult_le_compat_r; [exact Hw|]. apply Rmult_le_compat; [now apply Rmult_le_pos|exact N2| |exact M2]. now apply Rmult_le_compat_l. }
  split.
  - rewrite <- (Rmult_0_l (lsum (fun _ => 0) (st_elems s))), <- lsum_scal. apply lsum_le. intros e He. rewrite Rmult_0_l. rewrite <- (rsum_0 (e_nq e)). apply rsum_le. intros q Hq. apply (G e q He Hq).
  - apply lsum_le. intros e He. apply rsum_le. intros q Hq. apply (G e q He Hq).
Qed.
Print Assumptions C151_growth.
Theorem C151_scaling : forall I I' s X f b c a, 0 < c -> 0 < f ->
  (forall e q, In e (st_elems s) -> (q < e_nq e)%nat -> p_val (st_alpha s) e q (place e X) = a) ->
  I "frequency" = Some f -> I (flux_key (st_name s)) = Some b -> I' "frequency" = Some (c * f) -> I' (flux_key (st_name s)) = Some b ->
  st_energy (st_set I' s) X = Rpower c a * st_energy (st_set I s) X.
Proof.
  intros I I' s X f b c a Hc Hf H E1 E2 E3 E4. rewrite !st_value. cbn [st_set st_elems st_freq st_flux]. unfold value_from. rewrite E1, E2, E3, E4.
  unfold integral. rewrite !(measured_sum (fun g w => g * w)). rewrite <- lsum_scal. apply lsum_ext; intros e He. rewrite <- rsum_scal. apply rsum_ext; intros q Hq.
  unfold st_dens. cbn [st_set st_rho st_ks st_alpha st_beta]. rewrite (H e q He Hq), cpow_mult, (cpow_pos c) by assumption. ring.
Qed.
Print Assumptions C151_scaling.
Example C151_growth_nonvacuous : nonneg_steel (iron "stator") ref_tri /\
  (forall e q, In e (st_elems (iron "stator")) -> (q < e_nq e)%nat -> p_val (st_alpha (iron "stator")) e q (place e ref_tri) = 1).
Proof.
  split; [|reflexivity]. intros e q [<-|[]] _. cbn [iron new_steinmetz st_rho st_ks st_alpha st_beta constant p_val]. do 4 (split; [lra|]).
  unfold tri. cbn [e_pw e_W]. unfold wt2, det2, iso_jac, tri_dN, place, ref_tri. cbn. lra.
Qed.

(** C151: integrated over the temperature space, the heat source is the loss (same elements and rule). *)
Theorem C151_heat : forall TF s X N, field_numbered TF N (st_elems s) -> partition_of_unity TF (st_elems s) ->
  dot N (st_load TF s X) (fun _ => 1) = st_energy s X.
Proof. intros. now apply st_load_total. Qed.
Print Assumptions C151_heat.
Example C151_heat_nonvacuous : dot 3 (st_load tri3 (st_set stator_inputs (iron "stator")) ref_tri) (fun _ => 1) = 12.
Proof. rewrite (C151_heat tri3 (st_set stator_inputs (iron "stator")) ref_tri 3 tri3_numbered tri3_unity). exact (proj1 C151_value_nonvacuous). Qed.

(** C151: every other name is refused (std::out_of_range). *)
Theorem C151_unknown : forall l X out_bar wrt, before_colon wrt <> "frequency" -> before_colon wrt <> "max_flux_magnitude" -> st_vjp l X out_bar wrt = None.
Proof.
  intros l X o wrt H1 H2. unfold st_vjp, st_scalar. apply String.eqb_neq in H1, H2. now rewrite H1, H2.
Qed.
Print Assumptions C151_unknown.
Example C151_unknown_nonvacuous : st_vjp [iron "stator"] ref_tri 1 "stack_length" = None /\ st_vjp [iron ""] ref_tri 1 "state" = None.
Proof. split; apply C151_unknown; discriminate. Qed.
