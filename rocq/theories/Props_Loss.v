(** C81 - C85: winding and core losses, heat sources. *)
From Coq Require Import Reals String List Bool Lia Lra FunctionalExtensionality.
From Coquelicot Require Import Coquelicot.
From Verif Require Import Vec Deriv EmInteg EmIntegSpec EmMeshProofs IsoGeom SbpSpec SbpMeshProofs CommonFun CommonFunSpec CommonFunProofs
  Loss LossSpec LossProofs Props_CommonFun.
Import ListNotations.
Local Open Scope R_scope.
Local Open Scope string_scope.

(** a linear triangle with the one-point rule, conductivity 2 + temperature, all parameters 1 *)
Definition tri3 : ffield := {| f_ndof := fun _ => 3%nat; f_dof := fun _ i => i; f_shape := fun _ _ _ => 1 / 3 |}.
Definition sigma2 : scoef := {| c_val := fun _ _ _ t => 2 + t; c_dT := fun _ _ _ _ => 1; c_rev := fun _ _ _ _ _ _ _ => 0 |}.
Definition one_tri : list elem := [tri (fun j => j)].
Definition ones : params := fun _ => 1.
Definition zeros : vec := fun _ => 0.
Lemma one_tri_nodes : nodes_ok 2 3 one_tri.
Proof. intros e [<-|[]]. cbn [tri e_nn e_node e_nq e_W e_WRev]. split; [auto|]. intros q _. apply wt2_ok. Qed.
Lemma tri3_numbered : field_numbered tri3 3 one_tri. Proof. intros e i [<-|[]] H. exact H. Qed.
Lemma tri3_unity : partition_of_unity tri3 one_tri. Proof. intros e q [<-|[]] _. cbn. lra. Qed.
Lemma sigma2_temp : temp_derivative sigma2.
Proof. intros e q Y t. cbn. apply (DV_eq _ t (0 + 1)); [|ring]. apply DV_plus; [apply DV_const|apply DV_id]. Qed.
Lemma sigma2_nodes : node_derivative 2 sigma2 one_tri.
Proof.
  intros e q t _ _ X V b. cbn [sigma2 c_val c_rev]. apply (DV_eq _ 0 0); [exact (DV_const _ 0)|]. unfold pairing.
  rewrite (rsum_ext 2 _ (fun _ => 0)); [now rewrite rsum_0|]. intros k _. rewrite (rsum_ext _ _ (fun _ => 0)); [now rewrite rsum_0|intros; ring].
Qed.
Lemma sigma2_conducting : conducting sigma2 tri3 one_tri ref_tri zeros.
Proof. intros e q [<-|[]] _. unfold at_point, zeros. cbn. lra. Qed.
Lemma one_tri_volume : volume_of one_tri ref_tri = 1 / 2.
Proof. exact (proj2 C78_volume_nonvacuous). Qed.

(** C81: the reported DC loss is sqrt 2 I^2 R with R the length times the mean resistivity over the cross section of the
    strands in hand, the mean taken over the winding. *)
Theorem C81_value : forall S TF P (A B : list elem) X T, volume_of B X = volume_of A X -> volume_of A X <> 0 ->
  let resistivity := mean (measured (fun e q => / c_val S e q (place e X) (at_point TF e q T)) A X) in
  dc_output S TF P A B X T =
    sqrt 2 * P "rms_current" ^ 2 * (P "wire_length" * resistivity / (P "strands_in_hand" * (PI * P "strand_radius" ^ 2))).
Proof.
  intros S TF P A B X T E N res. unfold res, mean. rewrite measured_measure. fold (integral (measured (fun e q => / c_val S e q (place e X) (at_point TF e q T)) A X)).
  rewrite <- dc_rho_measured. unfold dc_output, dc_value, dc_loss, dc_R, strand_area. rewrite E. unfold Rdiv. rewrite !Rinv_mult. ring.
Qed.
Print Assumptions C81_value.
Example C81_value_nonvacuous : volume_of one_tri ref_tri <> 0 /\ dc_output sigma2 tri3 ones one_tri one_tri ref_tri zeros = sqrt 2 / (2 * PI).
Proof.
  assert (V : volume_of one_tri ref_tri <> 0) by (rewrite one_tri_volume; lra). split; [exact V|].
  rewrite (C81_value sigma2 tri3 ones one_tri one_tri ref_tri zeros eq_refl V). unfold mean. rewrite measured_measure, one_tri_volume.
  fold (integral (measured (fun e q => / c_val sigma2 e q (place e ref_tri) (at_point tri3 e q zeros)) one_tri ref_tri)). unfold integral. rewrite (measured_sum (fun g w => g * w)).
  unfold lsum, one_tri. cbn [fold_right tri e_nq e_pw e_W rsum]. unfold wt2, det2, iso_jac, tri_dN, nodes_of, ref_tri, at_point, sigma2, tri3, zeros, ones. cbn. field. apply PI_neq0.
Qed.

(** C81: for every parameter named in full, the forward product is the derivative and the reverse product its multiple. *)
Theorem C81_scalars : forall P rho vol wrt d, full_name dc_names wrt -> vol <> 0 -> P "strand_radius" <> 0 -> P "strands_in_hand" <> 0 ->
  is_derive (fun t => dc_value (nudged P wrt d t) rho vol) 0 (dc_jvp P rho vol wrt d) /\
  forall bar, dc_vjp P rho vol wrt bar = bar * dc_jvp P rho vol wrt 1.
Proof. intros P rho vol wrt d H N R0 S0. split; [now apply dc_scalar|]. intros bar. apply dc_reverse. Qed.
Print Assumptions C81_scalars.
Example C81_scalars_nonvacuous : full_name dc_names "rms_current" /\ full_name dc_names "stack_length" /\ ones "strand_radius" <> 0 /\
  dc_jvp ones 1 1 "rms_current" 1 = 2 * sqrt 2 / PI.
Proof.
  split; [intros n H E; cbn in H; repeat destruct H as [<-|H]; try discriminate E; [reflexivity|elim H]|].
  split; [intros n H E; cbn in H; repeat destruct H as [<-|H]; try discriminate E; elim H|].
  split; [unfold ones; lra|]. unfold dc_jvp. cbn. unfold dc_R, strand_area, ones. field. apply PI_neq0.
Qed.

(** C81 is false of names that merely begin with a parameter's name: the output does not depend on such an input, the product is not 0. *)
Theorem C81_prefix_refuted :
  ~ (forall P rho vol wrt d, vol <> 0 -> P "strand_radius" <> 0 -> P "strands_in_hand" <> 0 ->
       is_derive (fun t => dc_value (nudged P wrt d t) rho vol) 0 (dc_jvp P rho vol wrt d)).
Proof.
  intros K. assert (H := K ones 1 1 "rms_current:1" 1 ltac:(lra) ltac:(unfold ones; lra) ltac:(unfold ones; lra)).
  assert (Z : is_derive (fun t => dc_value (nudged ones "rms_current:1" 1 t) 1 1) 0 0).
  { apply (DV_ext (fun _ => dc_value ones 1 1)); [|exact (DV_const _ 0)]. intros t. reflexivity. }
  assert (E := DV_unique _ _ _ _ H Z). unfold dc_jvp in E. cbn in E. unfold dc_R, strand_area, ones in E.
  assert (P := PI_RGT_0). assert (Q : 0 < sqrt 2) by (apply sqrt_lt_R0; lra). assert (0 < / PI) by now apply Rinv_0_lt_compat.
  replace (1 / 1 * (2 * 1 * (1 * 1 / (PI * 1 ^ 2 * 1)) * sqrt 2 * 1)) with (2 * sqrt 2 * / PI) in E by (field; lra).
  assert (0 < 2 * sqrt 2 * / PI) by (apply Rmult_lt_0_compat; lra). lra.
Qed.
Print Assumptions C81_prefix_refuted.

(** C81: products with respect to the mesh and the temperature. *)
Theorem C81_mesh : forall sdim NN S TF P (A B : list elem) X V T bar wrt_bar,
  nodes_ok sdim NN A -> nodes_ok sdim NN B -> node_derivative sdim S A -> conducting S TF A X T ->
  volume_of B X <> 0 -> P "strand_radius" <> 0 -> P "strands_in_hand" <> 0 ->
  is_derive (fun t => dc_output S TF P A B (moved X V t) T) 0 (dc_mesh_jvp sdim NN S TF P A B X T V) /\
  pairing sdim NN (dc_mesh_vjp S TF P A B X T bar wrt_bar) V = pairing sdim NN wrt_bar V + bar * dc_mesh_jvp sdim NN S TF P A B X T V.
Proof. intros. split; [now apply dc_output_mesh|apply dc_mesh_reverse]. Qed.
Print Assumptions C81_mesh.
Theorem C81_temperature : forall N S TF P (A B : list elem) X T v bar wrt_bar,
  field_numbered TF N A -> temp_derivative S -> conducting S TF A X T ->
  volume_of B X <> 0 -> P "strand_radius" <> 0 -> P "strands_in_hand" <> 0 ->
  is_derive (fun t => dc_output S TF P A B X (along T v t)) 0 (dc_temp_jvp N S TF P A B X T v) /\
  dot N (dc_temp_vjp S TF P A B X T bar wrt_bar) v = dot N wrt_bar v + bar * dc_temp_jvp N S TF P A B X T v.
Proof. intros. split; [now apply dc_output_temp|apply dc_temp_reverse]. Qed.
Print Assumptions C81_temperature.
Example C81_fields_nonvacuous : nodes_ok 2 3 one_tri /\ node_derivative 2 sigma2 one_tri /\ temp_derivative sigma2 /\ field_numbered tri3 3 one_tri /\
  conducting sigma2 tri3 one_tri ref_tri zeros /\ volume_of one_tri ref_tri <> 0 /\
  dc_temp_jvp 3 sigma2 tri3 ones one_tri one_tri ref_tri zeros (fun _ => 1) = - sqrt 2 / (4 * PI).
Proof.
  split; [exact one_tri_nodes|]. split; [exact sigma2_nodes|]. split; [exact sigma2_temp|]. split; [exact tri3_numbered|]. split; [exact sigma2_conducting|].
  split; [rewrite one_tri_volume; lra|]. unfold dc_temp_jvp, dc_jvp_temp. rewrite one_tri_volume. unfold dc_rho_temp. rewrite dof_dot by exact tri3_numbered.
  unfold lsum, one_tri. cbn [fold_right tri e_nq e_pw e_W rsum]. cbv zeta. unfold strand_area, fvalue, gather, dot, wt2, det2, iso_jac, tri_dN, nodes_of, ref_tri, sigma2, tri3, zeros, ones. cbn. field. apply PI_neq0.
Qed.

(** C82: the reported AC loss: number of conductors times stack length times pi r^4 (2 pi f)^2 / 8 times the mean of
    conductivity times squared peak flux. *)
Theorem C82_value : forall S BF TF P (A B : list elem) X b T, volume_of B X = volume_of A X ->
  ac_output S BF TF P A B X b T = (2 * P "strands_in_hand" * P "num_turns" * P "num_slots") * P "stack_length" *
    (PI * P "strand_radius" ^ 4 * (2 * PI * P "frequency") ^ 2 / 8) *
    mean (measured (fun e q => c_val S e q (place e X) (at_point TF e q T) * at_point BF e q b ^ 2) A X).
Proof.
  intros S BF TF P A B X b T E. unfold mean. rewrite measured_measure.
  fold (integral (measured (fun e q => c_val S e q (place e X) (at_point TF e q T) * at_point BF e q b ^ 2) A X)). rewrite <- ac_sb2_measured.
  unfold ac_output, ac_value, ac_num, ac_strand. rewrite E. unfold Rdiv. ring.
Qed.
Print Assumptions C82_value.
Example C82_value_nonvacuous : ac_output sigma2 tri3 tri3 ones one_tri one_tri ref_tri (fun _ => 1) zeros = 2 * PI ^ 3.
Proof.
  rewrite C82_value by reflexivity. unfold mean. rewrite measured_measure, one_tri_volume.
  fold (integral (measured (fun e q => c_val sigma2 e q (place e ref_tri) (at_point tri3 e q zeros) * at_point tri3 e q (fun _ => 1) ^ 2) one_tri ref_tri)).
  unfold integral. rewrite (measured_sum (fun g w => g * w)).
  unfold lsum, one_tri. cbn [fold_right tri e_nq e_pw e_W rsum]. unfold wt2, det2, iso_jac, tri_dN, nodes_of, ref_tri, at_point, sigma2, tri3, zeros, ones. cbn. field.
Qed.

(** C82: for every parameter named in full, the reverse product is the multiple of the derivative, and so is the forward
    product unless the parameter is the frequency. *)
Theorem C82_scalars_partial : forall P sb2 vol wrt d, full_name ac_names wrt -> vol <> 0 -> exists D,
  is_derive (fun t => ac_value (nudged P wrt d t) sb2 vol) 0 (D * d) /\
  (forall bar, ac_vjp P sb2 vol wrt bar = bar * D) /\ (wrt <> "frequency" -> ac_jvp P sb2 vol wrt d = D * d).
Proof.
  intros P sb2 vol wrt d H N. exists (ac_vjp P sb2 vol wrt 1). split; [now apply ac_scalar|]. split; [intros; apply ac_reverse|].
  intros F. apply ac_forward. destruct (prefix "frequency" wrt) eqn:E; [|reflexivity]. elim F. apply H; [cbn; tauto|exact E].
Qed.
Print Assumptions C82_scalars_partial.
Example C82_scalars_nonvacuous : full_name ac_names "num_turns" /\ full_name ac_names "frequency" /\ ac_vjp ones 1 1 "num_turns" 1 = PI ^ 3.
Proof.
  split; [intros n H E; cbn in H; repeat destruct H as [<-|H]; try discriminate E; [reflexivity|elim H]|].
  split; [intros n H E; cbn in H; repeat destruct H as [<-|H]; try discriminate E; [reflexivity|elim H]|].
  unfold ac_vjp. cbn. unfold ac_strand, ones. field.
Qed.

(** C82 is false of the forward product with respect to the frequency: it is the derivative divided by the strand radius. *)
Theorem C82_frequency_forward_refuted :
  (forall P sb2 vol d, vol <> 0 -> is_derive (fun t => ac_value (nudged P "frequency" d t) sb2 vol) 0 (ac_jvp P sb2 vol "frequency" d * P "strand_radius")) /\
  ~ (forall P sb2 vol d, vol <> 0 -> is_derive (fun t => ac_value (nudged P "frequency" d t) sb2 vol) 0 (ac_jvp P sb2 vol "frequency" d)).
Proof.
  assert (F : full_name ac_names "frequency") by exact (proj1 (proj2 C82_scalars_nonvacuous)).
  assert (G : forall P sb2 vol d, vol <> 0 -> is_derive (fun t => ac_value (nudged P "frequency" d t) sb2 vol) 0 (ac_jvp P sb2 vol "frequency" d * P "strand_radius")).
  { intros P sb2 vol d N. rewrite ac_forward_freq. now apply ac_scalar. }
  split; [exact G|]. intros K. set (P := upd ones "strand_radius" 2).
  assert (E := DV_unique _ _ _ _ (G P 1 1 1 ltac:(lra)) (K P 1 1 1 ltac:(lra))). unfold ac_jvp in E. cbn in E. unfold ac_num, P, upd, ones in E. cbn in E.
  assert (Q := pow_lt PI 3 PI_RGT_0). cbn in Q. lra.
Qed.
Print Assumptions C82_frequency_forward_refuted.

(** C82: products with respect to the mesh, the peak flux and the temperature. *)
Theorem C82_fields : forall sdim N NN S BF TF P (A B : list elem) X V b T v bar wrt_bar wrt_bar', volume_of B X <> 0 ->
  (nodes_ok sdim NN A -> nodes_ok sdim NN B -> node_derivative sdim S A ->
     is_derive (fun t => ac_output S BF TF P A B (moved X V t) b T) 0 (ac_mesh_jvp sdim NN S BF TF P A B X b T V) /\
     pairing sdim NN (ac_mesh_vjp S BF TF P A B X b T bar wrt_bar) V = pairing sdim NN wrt_bar V + bar * ac_mesh_jvp sdim NN S BF TF P A B X b T V) /\
  (field_numbered BF N A ->
     is_derive (fun t => ac_output S BF TF P A B X (along b v t) T) 0 (ac_flux_jvp N S BF TF P A B X b T v) /\
     dot N (ac_flux_vjp S BF TF P A B X b T bar wrt_bar') v = dot N wrt_bar' v + bar * ac_flux_jvp N S BF TF P A B X b T v) /\
  (field_numbered TF N A -> temp_derivative S ->
     is_derive (fun t => ac_output S BF TF P A B X b (along T v t)) 0 (ac_temp_jvp N S BF TF P A B X b T v) /\
     dot N (ac_temp_vjp S BF TF P A B X b T bar wrt_bar') v = dot N wrt_bar' v + bar * ac_temp_jvp N S BF TF P A B X b T v).
Proof.
  intros sdim N NN S BF TF P A B X V b T v bar wb wb' HV. split; [|split].
  - intros HA HB HS. split; [now apply ac_output_mesh|apply ac_mesh_reverse].
  - intros HA. split; [now apply ac_output_flux|apply ac_flux_reverse].
  - intros HA HS. split; [now apply ac_output_temp|apply ac_temp_reverse].
Qed.
Print Assumptions C82_fields.
Example C82_fields_nonvacuous : nodes_ok 2 3 one_tri /\ node_derivative 2 sigma2 one_tri /\ field_numbered tri3 3 one_tri /\ temp_derivative sigma2 /\ volume_of one_tri ref_tri <> 0 /\
  ac_flux_jvp 3 sigma2 tri3 tri3 ones one_tri one_tri ref_tri (fun _ => 1) zeros (fun _ => 1) = 4 * PI ^ 3.
Proof.
  split; [exact one_tri_nodes|]. split; [exact sigma2_nodes|]. split; [exact tri3_numbered|]. split; [exact sigma2_temp|].
  split; [rewrite one_tri_volume; lra|]. unfold ac_flux_jvp, ac_jvp_field. rewrite one_tri_volume. unfold ac_sb2_flux. rewrite dof_dot by exact tri3_numbered.
  unfold lsum, one_tri. cbn [fold_right tri e_nq e_pw e_W rsum]. cbv zeta. unfold ac_num, ac_strand_dot, fvalue, gather, dot, wt2, det2, iso_jac, tri_dN, nodes_of, ref_tri, sigma2, tri3, zeros, ones. cbn. field.
Qed.

(** the heat sources the theorems below speak of, with what they need *)
Inductive heat_source (BF TF : ffield) (P : params) (M : list elem) (X : mat) (b T : vec) : density_fun -> Prop :=
| DCSource S : temp_derivative S -> node_independent S -> conducting S TF M X T -> P "strand_radius" <> 0 -> P "strands_in_hand" <> 0 ->
    P "winding_volume" <> 0 -> P "stack_length" <> 0 -> heat_source BF TF P M X b T (dc_density S)
| ACSource S : temp_derivative S -> node_independent S -> P "winding_volume" <> 0 -> heat_source BF TF P M X b T (ac_density S)
| CoreSource rho kh ke : three_state_derivatives kh -> three_state_derivatives ke -> heat_source BF TF P M X b T (core_density rho kh ke).
Lemma heat_source_ok BF TF P M X b T D : heat_source BF TF P M X b T D ->
  densities_ok BF TF D P M X b T /\ (forall P e q Y Y' b t, d_loss D P e q Y b t = d_loss D P e q Y' b t).
Proof.
  intros [S HS HN HC R0 S0 V0 L0|S HS HN V0|rho kh ke Hh He].
  - split; [intros e q I Hq; apply dc_density_ok; auto; exact (HC e q I Hq)|]. intros P' e q Y Y' b' t. cbn [d_loss dc_density]. unfold dcd_R. now rewrite (HN e q Y Y' t).
  - split; [intros e q I Hq; now apply ac_density_ok|]. intros P' e q Y Y' b' t. cbn [d_loss ac_density]. now rewrite (HN e q Y Y' t).
  - split; [intros e q I Hq; now apply core_density_ok|]. reflexivity.
Qed.

(** C83: the reverse products of a heat source with respect to a parameter of any name, the peak flux and the temperature
    are the derivatives of <psi, load>. *)
Theorem C83_reverse : forall BF TF D P (M : list elem) X b T psi v N NB, heat_source BF TF P M X b T D -> field_numbered TF N M ->
  (forall wrt, is_derive (fun x => dot N (dist_load BF TF D (upd P wrt x) M X b T) psi) (P wrt) (dist_scalar BF TF D P wrt M X b T psi)) /\
  (field_numbered BF NB M -> is_derive (fun t => dot N (dist_load BF TF D P M X (along b v t) T) psi) 0 (dot NB (dist_flux BF TF D P M X b T psi) v)) /\
  is_derive (fun t => dot N (dist_load BF TF D P M X b (along T v t)) psi) 0 (dot N (dist_temp BF TF D P M X b T psi) v).
Proof.
  intros BF TF D P M X b T psi v N NB HD HN. destruct (heat_source_ok _ _ _ _ _ _ _ _ HD) as [OK _].
  split; [intros wrt; now apply dist_scalar_ok|]. split; [intros HB; now apply dist_flux_ok|now apply dist_temp_ok].
Qed.
Print Assumptions C83_reverse.

(** C83: with respect to the mesh, including the winding volume, when the stored volume is that of the mesh. *)
Theorem C83_mesh_partial : forall BF TF D P (A B : list elem) X V b T psi wrt_bar sdim N NN,
  nodes_ok sdim NN A -> nodes_ok sdim NN B -> field_numbered TF N A -> heat_source BF TF P A X b T D -> P "winding_volume" = volume_of B X ->
  exists d, is_derive (fun t => dot N (dist_load BF TF D (upd P "winding_volume" (volume_of B (moved X V t))) A (moved X V t) b T) psi) 0 d /\
    pairing sdim NN (dist_mesh_vjp BF TF D A B {| ds_P := P; ds_X := X; ds_b := b; ds_T := T |} psi wrt_bar) V = pairing sdim NN wrt_bar V + d.
Proof. intros. destruct (heat_source_ok _ _ _ _ _ _ _ _ H2) as [OK HY]. now apply dist_mesh_vjp_ok. Qed.
Print Assumptions C83_mesh_partial.

(** C83: and the stored volume is that of the mesh after every evaluation whose inputs do not set it. *)
Lemma put_scal_other l P k : ~ In k (map fst l) -> put_scal l P k = P k.
Proof.
  revert P. induction l as [|[k' x] l IH]; intros P H; [reflexivity|]. cbn [put_scal fold_left fst snd]. change (put_scal l (upd P k' x) k = P k).
  rewrite IH by (intros I; apply H; now right). apply upd_other. intros E. apply H. left. now symmetry.
Qed.
Theorem C83_volume_fresh_partial : forall BF TF D (A B : list elem) ins st, ~ In "winding_volume" (map fst (di_scal ins)) ->
  let st' := fst (dist_calc BF TF D A B ins st) in
  ds_P st' "winding_volume" = volume_of B (ds_X st') /\ snd (dist_calc BF TF D A B ins st) = dist_load BF TF D (ds_P st') A (ds_X st') (ds_b st') (ds_T st').
Proof.
  intros BF TF D A B ins st H. cbn. split; [|reflexivity]. rewrite put_scal_other by exact H. rewrite upd_same. now destruct (di_X ins).
Qed.
Print Assumptions C83_volume_fresh_partial.
Definition const2 : scoef := {| c_val := fun _ _ _ _ => 2; c_dT := fun _ _ _ _ => 0; c_rev := fun _ _ _ _ _ _ _ => 0 |}.
Lemma const2_source P M X b T : P "strand_radius" <> 0 -> P "strands_in_hand" <> 0 -> P "winding_volume" <> 0 -> P "stack_length" <> 0 ->
  heat_source tri3 tri3 P M X b T (dc_density const2).
Proof. intros. constructor; auto; [intros e q Y t; exact (DV_const _ t)|intros e q Y Y' t; reflexivity|intros e q _ _; cbn; lra]. Qed.
Example C83_reverse_nonvacuous : heat_source tri3 tri3 ones one_tri ref_tri zeros zeros (dc_density const2) /\ field_numbered tri3 3 one_tri /\
  dist_scalar tri3 tri3 (dc_density const2) ones "rms_current" one_tri ref_tri zeros zeros (fun _ => 1) = sqrt 2 / (2 * PI).
Proof.
  split; [apply const2_source; unfold ones; lra|]. split; [exact tri3_numbered|].
  unfold dist_scalar, quad_total, lsum, one_tri. cbn [fold_right tri e_nq e_pw e_W rsum d_scalar dc_density String.eqb Ascii.eqb Bool.eqb]. cbv zeta.
  unfold dcd_R, strand_area, fvalue, gather, dot, wt2, det2, iso_jac, tri_dN, nodes_of, ref_tri, const2, tri3, zeros, ones. cbn. field. apply PI_neq0.
Qed.
Definition halves : params := upd ones "winding_volume" (1 / 2).
Example C83_mesh_nonvacuous : nodes_ok 2 3 one_tri /\ field_numbered tri3 3 one_tri /\ heat_source tri3 tri3 halves one_tri ref_tri zeros zeros (dc_density const2) /\
  halves "winding_volume" = volume_of one_tri ref_tri.
Proof.
  split; [exact one_tri_nodes|]. split; [exact tri3_numbered|]. split; [apply const2_source; unfold halves, upd, ones; cbn; lra|].
  rewrite one_tri_volume. reflexivity.
Qed.
Example C83_volume_fresh_nonvacuous : ~ In "winding_volume" (map fst [("rms_current", 3)]). Proof. cbn. intros [E|[]]. discriminate E. Qed.

(** C83 is false of an object whose mesh is set without an evaluation: the stored volume is that of the former mesh. *)
Definition big_tri : mat := fun k j => 2 * ref_tri k j.
Definition stale : dist_state :=
  dist_set_inputs {| di_scal := []; di_X := Some big_tri; di_b := None; di_T := None |}
    (fst (dist_calc tri3 tri3 (dc_density const2) one_tri one_tri {| di_scal := []; di_X := Some ref_tri; di_b := None; di_T := None |}
       {| ds_P := ones; ds_X := ref_tri; ds_b := zeros; ds_T := zeros |})).
Lemma big_volume : volume_of one_tri big_tri = 2.
Proof. unfold volume_of. rewrite C78_volume by (constructor; [apply tri_triangle|constructor]). unfold lsum, one_tri. cbn [fold_right tri e_node]. unfold signed_area, big_tri, ref_tri. cbn. field. Qed.
Theorem C83_stale_mesh_refuted :
  ~ (forall BF TF D (A B : list elem) ins1 ins2 st V psi wrt_bar sdim N NN,
       let s := dist_set_inputs ins2 (fst (dist_calc BF TF D A B ins1 st)) in
       nodes_ok sdim NN A -> nodes_ok sdim NN B -> field_numbered TF N A -> heat_source BF TF (ds_P s) A (ds_X s) (ds_b s) (ds_T s) D ->
       exists d, is_derive (fun t => dot N (dist_load BF TF D (upd (ds_P s) "winding_volume" (volume_of B (moved (ds_X s) V t))) A (moved (ds_X s) V t) (ds_b s) (ds_T s)) psi) 0 d /\
         pairing sdim NN (dist_mesh_vjp BF TF D A B s psi wrt_bar) V = pairing sdim NN wrt_bar V + d).
Proof.
  intros K.
  specialize (K tri3 tri3 (dc_density const2) one_tri one_tri {| di_scal := []; di_X := Some ref_tri; di_b := None; di_T := None |}
    {| di_scal := []; di_X := Some big_tri; di_b := None; di_T := None |} {| ds_P := ones; ds_X := ref_tri; ds_b := zeros; ds_T := zeros |}
    ref_tri (fun _ => 1) (fun _ _ => 0) 2%nat 3%nat 3%nat). fold stale in K. cbv zeta in K.
  assert (EP : ds_P stale = halves) by (unfold stale, dist_set_inputs, dist_calc; cbn [fst ds_P di_scal di_X di_b di_T put_scal fold_left take]; now rewrite one_tri_volume).
  assert (ES : stale = {| ds_P := halves; ds_X := big_tri; ds_b := zeros; ds_T := zeros |}) by (rewrite <- EP; reflexivity).
  rewrite ES in K. cbn [ds_P ds_X ds_b ds_T] in K.
  destruct (K one_tri_nodes one_tri_nodes tri3_numbered ltac:(apply const2_source; unfold halves, upd, ones; cbn; lra)) as (d & Dd & E).
  assert (W : forall t, e_W (tri (fun j => j)) 0 (nodes_of (tri (fun j => j)) (moved big_tri ref_tri t)) = (2 + t) ^ 2).
  { intros t. unfold nodes_of, moved, big_tri, ref_tri, tri, wt2, det2, iso_jac, tri_dN. cbn. ring. }
  assert (VV : forall t, volume_of one_tri (moved big_tri ref_tri t) = (2 + t) ^ 2 / 2).
  { intros t. unfold volume_of, total, lsum, one_tri. cbn [fold_right]. unfold vol_energy. change (e_nq (tri (fun j => j))) with 1%nat. cbn [rsum]. rewrite W. cbn. field. }
  assert (Z : d = 0).
  { apply (DV_unique _ _ _ _ Dd). apply (is_derive_ext_loc (fun _ => sqrt 2 / (2 * PI))); [|exact (DV_const _ 0)].
    exists (mkposreal 1 Rlt_0_1). intros t Ht. apply Rabs_def2 in Ht. unfold minus, plus, opp in Ht. cbn in Ht.
    rewrite load_pair by exact tri3_numbered. unfold lsum. unfold one_tri at 2. cbn [fold_right]. change (e_nq (tri (fun j => j))) with 1%nat. cbn [rsum]. rewrite W.
    cbn [d_loss dc_density]. unfold dcd_R, strand_area. rewrite VV. unfold upd, halves, ones, const2. cbn. unfold fvalue, gather, dot, tri3. cbn. field. assert (PN := PI_neq0). destruct Ht as [H1 H2]. split; [|exact PN]. clear - H2. assert (G : - (1) < t) by (rewrite <- (Rplus_0_r t), <- Ropp_0; exact H2). intros Z. lra. }
  rewrite Z, Rplus_0_r in E. revert E. unfold dist_mesh_vjp. cbn [ds_P ds_X ds_b ds_T]. cbv zeta. rewrite !pairing_plus.
  set (vb := dist_scalar _ _ _ _ _ _ _ _ _ _).
  assert (EV : vb = - (4 * sqrt 2 / PI)).
  { unfold vb, dist_scalar, quad_total, lsum, one_tri. cbn [fold_right]. change (e_nq (tri (fun j => j))) with 1%nat. cbn [rsum].
    assert (W0 := W 0). rewrite moved_0' in W0. rewrite W0. cbn [d_scalar dc_density String.eqb Ascii.eqb Bool.eqb]. cbv zeta.
    unfold dcd_R, strand_area, halves, upd, ones, const2, fvalue, gather, dot, tri3. cbn. field. apply PI_neq0. }
  rewrite (pairing_ext 2 3 (fun k J => vb * volume_mesh one_tri big_tri k J) (fun k J => volume_mesh one_tri big_tri k J * vb)) by (intros; ring). rewrite pairing_scal_r.
  assert (EW : pairing 2 3 (volume_mesh one_tri big_tri) ref_tri = 2).
  { apply (DV_unique _ _ _ _ (volume_derive 2 3 one_tri big_tri ref_tri one_tri_nodes)). apply (DV_ext (fun t => (2 + t) ^ 2 / 2)); [intros; now rewrite VV|]. auto_derive; [exact I|field]. }
  rewrite EW, EV. unfold dist_mesh. rewrite node_pair by (intros e He; apply (one_tri_nodes e He)). unfold lsum, one_tri. cbn [fold_right]. change (e_nq (tri (fun j => j))) with 1%nat. cbn [rsum].
  unfold dcd_R, strand_area, halves, upd, ones, const2, fvalue, gather, dot, tri3, pairing, wt2_rev, to_nodes, adj2, iso_jac, nodes_of, tri, ref_tri, big_tri, tri_dN. cbn. unfold dcd_R, strand_area. cbn.
  intros E. assert (P := PI_RGT_0). assert (Q : 0 < sqrt 2) by (apply sqrt_lt_R0; lra). assert (0 < sqrt 2 * / PI) by (apply Rmult_lt_0_compat; [exact Q|now apply Rinv_0_lt_compat]).
  match type of E with ?l = ?r => replace l with (- 6 * (sqrt 2 * / PI)) in E by (field; lra) end. lra.
Qed.
Print Assumptions C83_stale_mesh_refuted.

(** C83 is false of the forward product: nothing is added to the result, while the load changes with the current. *)
Theorem C83_forward_refuted :
  ~ (forall BF TF D P (M : list elem) X b T psi N wrt d0, heat_source BF TF P M X b T D -> field_numbered TF N M ->
       exists d, is_derive (fun x => dot N (dist_load BF TF D (upd P wrt x) M X b T) psi) (P wrt) d /\ dot N (dist_jvp d0) psi = dot N d0 psi + d).
Proof.
  intros K. destruct C83_reverse_nonvacuous as (HS & HN & V).
  destruct (K tri3 tri3 (dc_density const2) ones one_tri ref_tri zeros zeros (fun _ => 1) 3%nat "rms_current" zeros HS HN) as (d & Dd & E).
  assert (E' := DV_unique _ _ _ _ Dd (proj1 (C83_reverse tri3 tri3 (dc_density const2) ones one_tri ref_tri zeros zeros (fun _ => 1) zeros 3 3 HS HN) "rms_current")).
  rewrite V in E'. unfold dist_jvp in E. assert (Z : d = 0) by lra. rewrite Z in E'.
  assert (P := PI_RGT_0). assert (Q : 0 < sqrt 2) by (apply sqrt_lt_R0; lra).
  assert (0 < sqrt 2 / (2 * PI)) by (apply Rdiv_lt_0_compat; lra). lra.
Qed.
Print Assumptions C83_forward_refuted.

(** C83: the entries of the load sum up to the loss per unit length: the DC and AC loss outputs divided by the stack length,
    and the core loss. *)
Theorem C83_total : forall S rho kh ke BF TF P (Adc Aac Acore Bdc Bac : list elem) X b T N,
  field_numbered TF N Adc -> field_numbered TF N Aac -> field_numbered TF N Acore ->
  partition_of_unity TF Adc -> partition_of_unity TF Aac -> partition_of_unity TF Acore -> P "stack_length" <> 0 ->
  rsum N (heat_load S rho kh ke BF TF P Adc Aac Acore Bdc Bac X b T) =
    dc_output S TF P Adc Bdc X T / P "stack_length" + ac_output S BF TF P Aac Bac X b T / P "stack_length" +
    core_value rho kh ke BF TF (P "frequency") Acore X b T.
Proof.
  intros S rho kh ke BF TF P Adc Aac Acore Bdc Bac X b T N H1 H2 H3 U1 U2 U3 L0.
  assert (G : forall w, rsum N w = dot N w (fun _ => 1)) by (intros; unfold dot; apply rsum_ext; intros; ring).
  unfold heat_load. rewrite !rsum_plus, !G, !load_total by assumption. f_equal; [f_equal|].
  - unfold integral. rewrite (measured_sum (fun g w => g * w)). unfold dc_output, dc_value, dc_loss, dc_R, dc_rho, quad_total.
    rewrite (lsum_ext _ (fun e => sqrt 2 * P "rms_current" ^ 2 * P "wire_length" / (strand_area P * P "strands_in_hand") / volume_of Bdc X / P "stack_length" *
        rsum (e_nq e) (fun q => e_pw e q * e_W e q (nodes_of e X) / c_val S e q (nodes_of e X) (fvalue TF e q T)))).
    + rewrite lsum_scal. unfold Rdiv. ring.
    + intros e _. rewrite <- rsum_scal. apply rsum_ext. intros q _. cbn [d_loss dc_density]. unfold dcd_R, strand_area, upd. cbn [String.eqb Ascii.eqb Bool.eqb].
      unfold Rdiv. rewrite !Rinv_mult. ring.
  - unfold integral. rewrite (measured_sum (fun g w => g * w)). unfold ac_output, ac_value, ac_strand, ac_num, ac_sb2, quad_total.
    rewrite (lsum_ext _ (fun e => PI * P "strand_radius" ^ 4 * (2 * PI * P "frequency") ^ 2 / 8 * (2 * P "strands_in_hand" * P "num_turns" * P "num_slots") / volume_of Bac X *
        rsum (e_nq e) (fun q => c_val S e q (nodes_of e X) (fvalue TF e q T) * fvalue BF e q b ^ 2 * (e_pw e q * e_W e q (nodes_of e X))))).
    + rewrite lsum_scal. set (s := lsum _ Aac). unfold Rdiv. rewrite <- (Rmult_1_r (PI * P "strand_radius" ^ 4)) at 1. rewrite <- (Rinv_r (P "stack_length") L0). ring.
    + intros e _. rewrite <- rsum_scal. apply rsum_ext. intros q _. cbn [d_loss ac_density]. unfold upd. cbn [String.eqb Ascii.eqb Bool.eqb]. unfold Rdiv. ring.
  - unfold integral. rewrite (measured_sum (fun g w => g * w)). unfold core_value, quad_total. apply lsum_ext; intros e _. apply rsum_ext; intros q _. now rewrite core_is_density.
Qed.
Print Assumptions C83_total.
Example C83_total_nonvacuous : field_numbered tri3 3 one_tri /\ partition_of_unity tri3 one_tri /\ ones "stack_length" <> 0.
Proof. split; [exact tri3_numbered|]. split; [exact tri3_unity|unfold ones; lra]. Qed.

(** C84: the core loss is the integral of rho (k_h f B^2 + k_e f^2 B^2), and its sensitivities with respect to frequency, peak
    flux, temperature and mesh are derivatives. *)
Theorem C84_core_loss : forall rho kh ke BF TF f (M : list elem) X b T,
  core_value rho kh ke BF TF f M X b T = integral (measured (fun e q => let B := at_point BF e q b in let t := at_point TF e q T in
     rho e * (t_val kh e t f B * f * B ^ 2 + t_val ke e t f B * f ^ 2 * B ^ 2)) M X) /\
  (three_state_derivatives kh -> three_state_derivatives ke ->
   is_derive (fun x => core_value rho kh ke BF TF x M X b T) f (core_freq rho kh ke BF TF f M X b T) /\
   (forall N v, field_numbered BF N M -> is_derive (fun t => core_value rho kh ke BF TF f M X (along b v t) T) 0 (dot N (core_flux rho kh ke BF TF f M X b T) v)) /\
   (forall N v, field_numbered TF N M -> is_derive (fun t => core_value rho kh ke BF TF f M X b (along T v t)) 0 (dot N (core_temp rho kh ke BF TF f M X b T) v)) /\
   (forall sdim NN V, nodes_ok sdim NN M -> is_derive (fun t => core_value rho kh ke BF TF f M (moved X V t) b T) 0 (pairing sdim NN (core_mesh rho kh ke BF TF f M X b T) V))).
Proof.
  intros rho kh ke BF TF f M X b T. split.
  - unfold integral. rewrite (measured_sum (fun g w => g * w)). reflexivity.
  - intros Hh He. split; [now apply core_freq_ok|]. split; [intros; now apply core_flux_ok|]. split; [intros; now apply core_temp_ok|]. intros; now apply core_mesh_ok.
Qed.
Print Assumptions C84_core_loss.
(** k = 1 + t f B *)
Definition cubic : tcoef := {| t_val := fun _ t f b => 1 + t * f * b; t_d1 := fun _ t f b => f * b; t_d2 := fun _ t f b => t * b; t_d3 := fun _ t f b => t * f |}.
Example C84_nonvacuous : three_state_derivatives cubic /\ field_numbered tri3 3 one_tri /\ nodes_ok 2 3 one_tri /\
  core_value (fun _ => 1) cubic cubic tri3 tri3 2 one_tri ref_tri (fun _ => 1) zeros = 3.
Proof.
  split; [intros e t f b; cbn; split; [|split]; auto_derive; auto; ring|]. split; [exact tri3_numbered|]. split; [exact one_tri_nodes|].
  unfold core_value, quad_total, lsum, one_tri. cbn [fold_right]. change (e_nq (tri (fun j => j))) with 1%nat. cbn [rsum].
  unfold core_loss, cubic, fvalue, gather, dot, tri3, tri, wt2, det2, iso_jac, tri_dN, nodes_of, ref_tri, zeros. cbn. lra.
Qed.

(** C85: with a one-point rule on every element the demagnetisation output is minus the integral of the constraint. *)
Theorem C85_one_point_partial : forall c (M : list elem) X, (forall e, In e M -> e_nq e = 1%nat) -> demag_value c M X = - integral (measured c M X).
Proof.
  intros c M X H. unfold integral. rewrite (measured_sum (fun g w => g * w)). unfold demag_value.
  replace (- lsum (fun e => rsum (e_nq e) (fun q => c e q * (e_pw e q * e_W e q (nodes_of e X)))) M)
    with (lsum (fun e => -1 * rsum (e_nq e) (fun q => c e q * (e_pw e q * e_W e q (nodes_of e X)))) M) by (rewrite lsum_scal; ring).
  apply lsum_ext. intros e He. unfold demag_energy. rewrite (H e He). cbn [demag_loop rsum]. ring.
Qed.
Print Assumptions C85_one_point_partial.
Example C85_one_point_nonvacuous : (forall e, In e one_tri -> e_nq e = 1%nat) /\ demag_value (fun _ _ => 3) one_tri ref_tri = - (3 / 2).
Proof.
  split; [intros e [<-|[]]; reflexivity|]. unfold demag_value, lsum, one_tri. cbn [fold_right]. unfold demag_energy. cbn [tri e_nq demag_loop e_pw e_W].
  unfold wt2, det2, iso_jac, tri_dN, nodes_of, ref_tri. cbn. field.
Qed.
(** C85 is false of rules with more points: the sign alternates from point to point, the last point counting negative, so two
    equal contributions cancel. *)
Theorem C85_alternating_refuted :
  (forall c e X, demag_energy c e X = rsum (e_nq e) (fun q => (-1) ^ (e_nq e - q) * (c e q * (e_pw e q * e_W e q X)))) /\
  ~ (forall c (M : list elem) X, demag_value c M X = - integral (measured c M X)).
Proof.
  split.
  - intros c e X. unfold demag_energy. rewrite demag_loop_sum. rewrite Rmult_0_r, Rplus_0_l. reflexivity.
  - intros K. set (e2 := {| e_nq := 2; e_pw := fun _ => 1 / 2; e_ndof := 0; e_dof := fun i => i; e_shape := fun _ _ => 0; e_nn := 0; e_node := fun j => j; e_W := fun _ _ => 1; e_WRev := fun _ _ _ _ _ => 0 |}).
    assert (E := K (fun _ _ => 1) [e2] ref_tri). unfold integral in E. rewrite (measured_sum (fun g w => g * w)) in E.
    unfold demag_value, demag_energy, lsum, e2 in E. cbn in E. lra.
Qed.
Print Assumptions C85_alternating_refuted.
