From Coq Require Import Reals Lra Lia List Bool String FunctionalExtensionality.
From Coquelicot Require Import Coquelicot.
From Verif Require Import Vec Deriv EmIntegSpec EmInteg EmIntegProofs EmMeshProofs SbpSpec SbpMeshProofs CommonFun CommonFunSpec CommonFunProofs Loss LossSpec.
Import ListNotations.
Local Open Scope R_scope.
Local Open Scope string_scope.

(** * framework *)
Lemma fvalue_at F e q u : fvalue F e q u = at_point F e q u. Proof. reflexivity. Qed.
Lemma fvalue_along F e q u v t : fvalue F e q (along u v t) = fvalue F e q u + t * fvalue F e q v.
Proof. unfold fvalue, dot, gather, along. rewrite <- rsum_scal, <- rsum_plus. apply rsum_ext; intros; ring. Qed.
Lemma fvalue_derive F e q u v : is_derive (fun t => fvalue F e q (along u v t)) 0 (fvalue F e q v).
Proof. exact (shape_derive (f_ndof F e) (f_shape F e q) (gather (f_ndof F e) (f_dof F e) u) (gather (f_ndof F e) (f_dof F e) v)). Qed.
Lemma along_0 u v : along u v 0 = u. Proof. apply functional_extensionality; intros i; unfold along; ring. Qed.

Lemma dof_dot F N c M v : field_numbered F N M -> dot N (dof_assembled F c M) v = lsum (fun e => rsum (e_nq e) (fun q => c e q * fvalue F e q v)) M.
Proof.
  intros H. unfold dot, dof_assembled.
  rewrite (rsum_ext N _ (fun J => lsum (fun e => scatter_to (f_ndof F e) (f_dof F e) (fun i => rsum (e_nq e) (fun q => c e q * f_shape F e q i)) J * v J) M))
    by (intros; now rewrite lsum_scal_r).
  rewrite <- lsum_rsum. apply lsum_ext. intros e He. rewrite scatter_dot by (intros i Hi; exact (H e i He Hi)).
  exact (grad_dot (f_ndof F e) (e_nq e) (c e) (f_shape F e) (gather (f_ndof F e) (f_dof F e) v)).
Qed.
Lemma node_pair m M V sdim NN : (forall e, In e M -> forall j, (j < e_nn e)%nat -> (e_node e j < NN)%nat) ->
  pairing sdim NN (node_assembled m M) V = lsum (fun e => rsum (e_nq e) (fun q => pairing sdim (e_nn e) (m e q) (nodes_of e V))) M.
Proof.
  intros H. unfold pairing, node_assembled.
  rewrite (rsum_ext sdim _ (fun k => lsum (fun e => rsum (e_nn e) (fun j => rsum (e_nq e) (fun q => m e q k j) * V k (e_node e j))) M)).
  - rewrite <- lsum_rsum. apply lsum_ext. intros e _. exact (pairing_sum sdim (e_nn e) (e_nq e) (m e) (nodes_of e V)).
  - intros k _.
    rewrite (rsum_ext NN _ (fun J => lsum (fun e => scatter_to (e_nn e) (e_node e) (fun j => rsum (e_nq e) (fun q => m e q k j)) J * V k J) M))
      by (intros; now rewrite lsum_scal_r).
    rewrite <- lsum_rsum. apply lsum_ext. intros e He. now rewrite (scatter_dot NN (e_nn e) (e_node e) _ (V k)) by (apply H; exact He).
Qed.
Lemma points_derive M (val : elem -> nat -> R -> R) (d : elem -> nat -> R) x :
  (forall e q, In e M -> (q < e_nq e)%nat -> is_derive (val e q) x (d e q)) ->
  is_derive (fun t => lsum (fun e => rsum (e_nq e) (fun q => val e q t)) M) x (lsum (fun e => rsum (e_nq e) (d e)) M).
Proof.
  intros H. apply (lsum_derive (fun e t => rsum (e_nq e) (fun q => val e q t))). intros e He.
  apply (DV_sum (e_nq e) (fun q t => val e q t)). intros q Hq. now apply H.
Qed.
Lemma quad_mesh_derive sdim NN M X V val m : (forall e, In e M -> forall j, (j < e_nn e)%nat -> (e_node e j < NN)%nat) ->
  (forall e q, In e M -> (q < e_nq e)%nat -> is_derive (fun t => val e q (moved (nodes_of e X) (nodes_of e V) t)) 0 (pairing sdim (e_nn e) (m e q) (nodes_of e V))) ->
  is_derive (fun t => quad_total val M (moved X V t)) 0 (pairing sdim NN (node_assembled m M) V).
Proof. intros H D. rewrite node_pair by exact H. exact (points_derive M (fun e q t => val e q (moved (nodes_of e X) (nodes_of e V) t)) _ 0 D). Qed.
Lemma quad_field_derive F N M (val : elem -> nat -> R -> R) c u v : field_numbered F N M ->
  (forall e q, In e M -> (q < e_nq e)%nat -> is_derive (val e q) (fvalue F e q u) (c e q)) ->
  is_derive (fun t => lsum (fun e => rsum (e_nq e) (fun q => val e q (fvalue F e q (along u v t)))) M) 0 (dot N (dof_assembled F c M) v).
Proof.
  intros H D. rewrite dof_dot by exact H.
  apply (points_derive M (fun e q t => val e q (fvalue F e q (along u v t))) (fun e q => c e q * fvalue F e q v)). intros e q He Hq.
  apply (DV_comp (val e q) (fun t => fvalue F e q (along u v t))); [|apply fvalue_derive]. rewrite along_0. now apply D.
Qed.
Lemma measured_sum (G : R -> R -> R) g M X : lsum (fun p => G (fst p) (snd p)) (measured g M X) =
  lsum (fun e => rsum (e_nq e) (fun q => G (g e q) (e_pw e q * e_W e q (nodes_of e X)))) M.
Proof. unfold measured. rewrite lsum_flat_map. apply lsum_ext. intros e _. rewrite lsum_map, lsum_seq. reflexivity. Qed.
Lemma measured_measure g M X : measure (measured g M X) = volume_of M X.
Proof. unfold measure. rewrite (measured_sum (fun _ w => w)). unfold volume_of, total, vol_energy. apply lsum_ext; intros e _. reflexivity. Qed.
Lemma volume_derive sdim NN B X V : nodes_ok sdim NN B -> is_derive (fun t => volume_of B (moved X V t)) 0 (pairing sdim NN (volume_mesh B X) V).
Proof.
  intros H. apply total_mesh_derive; [intros e He; apply (H e He)|]. intros e X0 V0 u0 He.
  apply vol_mesh_derive; [apply (H e He)|discriminate|]. intros v rev E. discriminate E.
Qed.

(** * DC *)
Section DC.
Variables (S : scoef) (TF : ffield).
Lemma dc_rho_mesh_ok sdim NN M X V T : nodes_ok sdim NN M -> node_derivative sdim S M -> conducting S TF M X T ->
  is_derive (fun t => dc_rho S TF M (moved X V t) T) 0 (pairing sdim NN (dc_rho_mesh S TF M X T) V).
Proof.
  intros H HS HC. apply quad_mesh_derive; [intros e He; apply (H e He)|]. intros e q He Hq. cbv zeta.
  destruct (rev_scalar_entries sdim (e_nn e) _ _ (nodes_of e X) (nodes_of e V) (proj2 (H e He) q Hq)) as (dW & DW & PW).
  destruct (rev_scalar_entries sdim (e_nn e) _ _ (nodes_of e X) (nodes_of e V) (HS e q (fvalue TF e q T) He Hq)) as (ds & Ds & Ps).
  rewrite pairing_plus, PW. specialize (Ps (-1 * (e_pw e q * e_W e q (nodes_of e X)) / c_val S e q (nodes_of e X) (fvalue TF e q T) ^ 2)).
  cbv beta in Ps. rewrite Ps. specialize (HC e q He Hq).
  change (c_val S e q (nodes_of e X) (fvalue TF e q T) <> 0) in HC.
  assert (HC' : c_val S e q (moved (nodes_of e X) (nodes_of e V) 0) (fvalue TF e q T) <> 0) by now rewrite moved_0'.
  apply (DV_eq _ 0 _ _ (DV_div (fun t => e_pw e q * e_W e q (moved (nodes_of e X) (nodes_of e V) t)) _ 0 _ _ (DV_scal (e_pw e q) _ 0 _ DW) Ds HC')).
  rewrite !moved_0'. field. exact HC.
Qed.
Lemma dc_rho_temp_ok N M X T v : field_numbered TF N M -> temp_derivative S -> conducting S TF M X T ->
  is_derive (fun t => dc_rho S TF M X (along T v t)) 0 (dot N (dc_rho_temp S TF M X T) v).
Proof.
  intros H HS HC. apply (quad_field_derive TF N M (fun e q t => e_pw e q * e_W e q (nodes_of e X) / c_val S e q (nodes_of e X) t)); [exact H|].
  intros e q He Hq. cbv zeta. specialize (HC e q He Hq). change (c_val S e q (nodes_of e X) (fvalue TF e q T) <> 0) in HC.
  apply (DV_eq _ _ _ _ (DV_div (fun _ => e_pw e q * e_W e q (nodes_of e X)) (c_val S e q (nodes_of e X)) (fvalue TF e q T) 0 _ (DV_const _ _) (HS e q _ _) HC)).
  field. exact HC.
Qed.
End DC.

Lemma dc_value_path P (rho vol : R -> R) (drho dvol : R) : is_derive rho 0 drho -> is_derive vol 0 dvol -> vol 0 <> 0 ->
  P "strand_radius" <> 0 -> P "strands_in_hand" <> 0 ->
  is_derive (fun t => dc_value P (rho t) (vol t)) 0 (dc_jvp_mesh P (rho 0) (vol 0) drho dvol).
Proof.
  intros A B N R0 S0. assert (PN := PI_neq0). set (C := P "rms_current" ^ 2 * sqrt 2 * P "wire_length" / (PI * P "strand_radius" ^ 2 * P "strands_in_hand")).
  apply (DV_ext (fun t => C * rho t / vol t)).
  - intros t. unfold dc_value, dc_loss, dc_R, strand_area, C, Rdiv. ring.
  - apply (DV_eq _ 0 ((C * drho * vol 0 - C * rho 0 * dvol) / (vol 0 * vol 0))); [apply (DV_div (fun t => C * rho t) vol 0 (C * drho) dvol); [now apply DV_scal|exact B|exact N]|].
    unfold dc_jvp_mesh, dc_loss, dc_R, strand_area, C. field. repeat split; assumption.
Qed.
Lemma prefix_refl s : prefix s s = true. Proof. induction s as [|a s IH]; [reflexivity|]. cbn. destruct (Ascii.ascii_dec a a); [exact IH|congruence]. Qed.
Lemma not_prefix n wrt : prefix n wrt = false -> wrt <> n. Proof. intros H E. subst. now rewrite prefix_refl in H. Qed.
Lemma nudged_other P wrt d t k : wrt <> k -> nudged P wrt d t k = P k.
Proof. intros H. unfold nudged. destruct (String.eqb_spec k wrt); [congruence|reflexivity]. Qed.

Ltac known H wrt :=
  match goal with |- context [prefix ?n wrt] =>
    destruct (prefix n wrt) eqn:?HP; [assert (wrt = n) by (apply H; [cbn; tauto|assumption]); subst wrt|] end.
Ltac freeze P := repeat match goal with |- context [P ?n] => let x := fresh "x" in set (x := P n) in *; clearbody x end.
Ltac nz := repeat first [assumption | exact I | split; [|] | apply Rmult_integral_contrapositive_currified | apply pow_nonzero | lra].
Lemma dc_scalar P rho vol wrt d : full_name dc_names wrt -> vol <> 0 -> P "strand_radius" <> 0 -> P "strands_in_hand" <> 0 ->
  is_derive (fun t => dc_value (nudged P wrt d t) rho vol) 0 (dc_jvp P rho vol wrt d).
Proof.
  intros H N R0 S0. assert (PN := PI_neq0). unfold dc_jvp. set (r2 := sqrt 2).
  known H wrt; [|known H wrt; [|known H wrt; [|known H wrt]]].
  5: { apply (DV_ext (fun _ => dc_value P rho vol)); [|exact (DV_const _ 0)]. intros t. unfold dc_value, dc_loss, dc_R, strand_area.
       now rewrite !nudged_other by (now apply not_prefix). }
  all: unfold dc_value, dc_loss, dc_R, strand_area, nudged; fold r2; cbn [String.eqb Ascii.eqb Bool.eqb]; cbv zeta; clearbody r2; clear - N R0 S0 PN; freeze P.
  all: auto_derive; [rewrite ?Rmult_0_l, ?Rplus_0_r; nz|rewrite ?Rmult_0_l, ?Rplus_0_r; field; repeat split; assumption].
Qed.
Lemma dc_reverse P rho vol wrt bar : dc_vjp P rho vol wrt bar = bar * dc_jvp P rho vol wrt 1.
Proof.
  unfold dc_vjp, dc_jvp. destruct (prefix "wire_length" wrt), (prefix "rms_current" wrt), (prefix "strand_radius" wrt), (prefix "strands_in_hand" wrt);
    cbv zeta; unfold Rdiv; ring.
Qed.
Lemma dc_output_mesh S TF P A B X V T sdim NN : nodes_ok sdim NN A -> nodes_ok sdim NN B -> node_derivative sdim S A -> conducting S TF A X T ->
  volume_of B X <> 0 -> P "strand_radius" <> 0 -> P "strands_in_hand" <> 0 ->
  is_derive (fun t => dc_output S TF P A B (moved X V t) T) 0 (dc_mesh_jvp sdim NN S TF P A B X T V).
Proof.
  intros HA HB HS HC HV R0 S0. unfold dc_output, dc_mesh_jvp.
  assert (K := dc_value_path P (fun t => dc_rho S TF A (moved X V t) T) (fun t => volume_of B (moved X V t)) _ _
    (dc_rho_mesh_ok S TF sdim NN A X V T HA HS HC) (volume_derive sdim NN B X V HB)).
  cbv beta in K. rewrite moved_0' in K. exact (K HV R0 S0).
Qed.
Lemma dc_output_temp S TF P A B X T v N : field_numbered TF N A -> temp_derivative S -> conducting S TF A X T ->
  volume_of B X <> 0 -> P "strand_radius" <> 0 -> P "strands_in_hand" <> 0 ->
  is_derive (fun t => dc_output S TF P A B X (along T v t)) 0 (dc_temp_jvp N S TF P A B X T v).
Proof.
  intros HA HS HC HV R0 S0. unfold dc_output, dc_temp_jvp.
  assert (K := dc_value_path P (fun t => dc_rho S TF A X (along T v t)) (fun _ => volume_of B X) _ 0
    (dc_rho_temp_ok S TF N A X T v HA HS HC) (DV_const _ 0) HV R0 S0).
  cbv beta in K. rewrite along_0 in K. apply (DV_eq _ 0 _ _ K). unfold dc_jvp_mesh, dc_jvp_temp, Rdiv. ring.
Qed.
Lemma dc_mesh_reverse S TF P A B X T bar wb V sdim NN :
  pairing sdim NN (dc_mesh_vjp S TF P A B X T bar wb) V = pairing sdim NN wb V + bar * dc_mesh_jvp sdim NN S TF P A B X T V.
Proof.
  unfold dc_mesh_vjp, dc_mesh_jvp. cbv zeta. rewrite !pairing_plus.
  set (rho := dc_rho S TF A X T). set (vol := volume_of B X).
  rewrite (pairing_ext sdim NN (fun k J => dc_vol_bar P rho vol bar * volume_mesh B X k J) (fun k J => volume_mesh B X k J * dc_vol_bar P rho vol bar)) by (intros; ring).
  rewrite (pairing_ext sdim NN (fun k J => dc_rho_bar P vol bar * dc_rho_mesh S TF A X T k J) (fun k J => dc_rho_mesh S TF A X T k J * dc_rho_bar P vol bar)) by (intros; ring).
  rewrite !pairing_scal_r. unfold pairing.
  set (dr := rsum sdim (fun k => rsum NN (fun J => dc_rho_mesh S TF A X T k J * V k J))). set (dv := rsum sdim (fun k => rsum NN (fun J => volume_mesh B X k J * V k J))).
  unfold dc_jvp_mesh, dc_vol_bar, dc_rho_bar, Rdiv. ring.
Qed.
Lemma dot_plus_l n a b v : dot n (fun i => a i + b i) v = dot n a v + dot n b v.
Proof. unfold dot. rewrite <- rsum_plus. apply rsum_ext; intros; ring. Qed.
Lemma dot_scal_l n c a v : dot n (fun i => c * a i) v = c * dot n a v.
Proof. unfold dot. rewrite <- rsum_scal. apply rsum_ext; intros; ring. Qed.
Lemma dc_temp_reverse S TF P A B X T bar wb v N :
  dot N (dc_temp_vjp S TF P A B X T bar wb) v = dot N wb v + bar * dc_temp_jvp N S TF P A B X T v.
Proof.
  unfold dc_temp_vjp, dc_temp_jvp. cbv zeta. rewrite dot_plus_l, dot_scal_l. unfold dc_jvp_temp, dc_rho_bar, Rdiv. ring.
Qed.
Lemma dc_rho_measured S TF A X T : dc_rho S TF A X T = integral (measured (fun e q => / c_val S e q (place e X) (at_point TF e q T)) A X).
Proof.
  unfold integral. rewrite (measured_sum (fun g w => g * w)). unfold dc_rho, quad_total. apply lsum_ext; intros e _. apply rsum_ext; intros q _.
  change (e_pw e q * e_W e q (nodes_of e X) * / c_val S e q (place e X) (at_point TF e q T) = / c_val S e q (place e X) (at_point TF e q T) * (e_pw e q * e_W e q (nodes_of e X))). ring.
Qed.

(** * AC *)
Section AC.
Variables (S : scoef) (BF TF : ffield).
Lemma ac_mesh_ok sdim NN M X V b T : nodes_ok sdim NN M -> node_derivative sdim S M ->
  is_derive (fun t => ac_sb2 S BF TF M (moved X V t) b T) 0 (pairing sdim NN (ac_sb2_mesh S BF TF M X b T) V).
Proof.
  intros H HS. apply quad_mesh_derive; [intros e He; apply (H e He)|]. intros e q He Hq. cbv zeta.
  destruct (rev_scalar_entries sdim (e_nn e) _ _ (nodes_of e X) (nodes_of e V) (proj2 (H e He) q Hq)) as (dW & DW & PW).
  destruct (rev_scalar_entries sdim (e_nn e) _ _ (nodes_of e X) (nodes_of e V) (HS e q (fvalue TF e q T) He Hq)) as (ds & Ds & Ps).
  rewrite pairing_plus, PW. specialize (Ps (1 * (e_pw e q * e_W e q (nodes_of e X)) * fvalue BF e q b ^ 2)). cbv beta in Ps. rewrite Ps.
  apply (DV_eq _ 0 _ _ (DV_mult _ (fun t => e_pw e q * e_W e q (moved (nodes_of e X) (nodes_of e V) t)) 0 _ _ (DV_scal_r (fvalue BF e q b ^ 2) _ 0 _ Ds) (DV_scal (e_pw e q) _ 0 _ DW))).
  rewrite !moved_0'. ring.
Qed.
Lemma ac_flux_ok N M X b T v : field_numbered BF N M ->
  is_derive (fun t => ac_sb2 S BF TF M X (along b v t) T) 0 (dot N (ac_sb2_flux S BF TF M X b T) v).
Proof.
  intros H. apply (quad_field_derive BF N M (fun e q x => c_val S e q (nodes_of e X) (fvalue TF e q T) * x ^ 2 * (e_pw e q * e_W e q (nodes_of e X)))); [exact H|].
  intros e q He Hq. cbv zeta. auto_derive; [exact I|]. ring.
Qed.
Lemma ac_temp_ok N M X b T v : field_numbered TF N M -> temp_derivative S ->
  is_derive (fun t => ac_sb2 S BF TF M X b (along T v t)) 0 (dot N (ac_sb2_temp S BF TF M X b T) v).
Proof.
  intros H HS. apply (quad_field_derive TF N M (fun e q x => c_val S e q (nodes_of e X) x * fvalue BF e q b ^ 2 * (e_pw e q * e_W e q (nodes_of e X)))); [exact H|].
  intros e q He Hq. cbv zeta. apply (DV_eq _ _ (c_dT S e q (nodes_of e X) (fvalue TF e q T) * fvalue BF e q b ^ 2 * (e_pw e q * e_W e q (nodes_of e X)))); [|ring].
  apply DV_scal_r, DV_scal_r, HS.
Qed.
End AC.
Lemma ac_value_path P (sb2 vol : R -> R) (dsb dvol : R) : is_derive sb2 0 dsb -> is_derive vol 0 dvol -> vol 0 <> 0 ->
  is_derive (fun t => ac_value P (sb2 t) (vol t)) 0 (ac_jvp_mesh P (sb2 0) (vol 0) dsb dvol).
Proof.
  intros A B N. set (C := ac_num P * (P "stack_length" * PI * P "strand_radius" ^ 4 * (2 * PI * P "frequency") ^ 2 / 8)).
  apply (DV_ext (fun t => C * sb2 t / vol t)).
  - intros t. unfold ac_value, ac_strand, C, Rdiv. ring.
  - apply (DV_eq _ 0 ((C * dsb * vol 0 - C * sb2 0 * dvol) / (vol 0 * vol 0))); [apply (DV_div (fun t => C * sb2 t) vol 0 (C * dsb) dvol); [now apply DV_scal|exact B|exact N]|].
    unfold ac_jvp_mesh, ac_strand, ac_strand_dot, C. field. exact N.
Qed.
Definition ac_slope (P : params) (sb2 vol : R) (wrt : string) : R := ac_vjp P sb2 vol wrt 1.
Lemma ac_scalar P sb2 vol wrt d : full_name ac_names wrt -> vol <> 0 ->
  is_derive (fun t => ac_value (nudged P wrt d t) sb2 vol) 0 (ac_vjp P sb2 vol wrt 1 * d).
Proof.
  intros H N. unfold ac_vjp.
  known H wrt; [|known H wrt; [|known H wrt; [|known H wrt; [|known H wrt; [|known H wrt]]]]].
  7: { cbv zeta. apply (DV_eq _ 0 0); [|ring]. apply (DV_ext (fun _ => ac_value P sb2 vol)); [|exact (DV_const _ 0)]. intros t. unfold ac_value, ac_num, ac_strand.
       now rewrite !nudged_other by (now apply not_prefix). }
  all: unfold ac_value, ac_num, ac_strand, nudged; cbn [String.eqb Ascii.eqb Bool.eqb]; cbv zeta; clear - N; freeze P.
  all: auto_derive; [nz|rewrite ?Rmult_0_l, ?Rplus_0_r; field; exact N].
Qed.
Lemma ac_reverse P sb2 vol wrt bar : ac_vjp P sb2 vol wrt bar = bar * ac_vjp P sb2 vol wrt 1.
Proof.
  unfold ac_vjp. destruct (prefix "strand_radius" wrt), (prefix "frequency" wrt), (prefix "stack_length" wrt), (prefix "strands_in_hand" wrt), (prefix "num_turns" wrt), (prefix "num_slots" wrt);
    cbv zeta; unfold Rdiv; ring.
Qed.
Lemma ac_forward P sb2 vol wrt d : prefix "frequency" wrt = false -> ac_jvp P sb2 vol wrt d = ac_vjp P sb2 vol wrt 1 * d.
Proof.
  intros E. unfold ac_jvp, ac_vjp. rewrite E. destruct (prefix "strand_radius" wrt), (prefix "stack_length" wrt), (prefix "strands_in_hand" wrt), (prefix "num_turns" wrt), (prefix "num_slots" wrt);
    cbv zeta; unfold ac_num, Rdiv; ring.
Qed.
Lemma ac_forward_freq P sb2 vol d : ac_jvp P sb2 vol "frequency" d * P "strand_radius" = ac_vjp P sb2 vol "frequency" 1 * d.
Proof. cbn [ac_jvp ac_vjp prefix]. unfold ac_jvp, ac_vjp. cbn. unfold ac_num, Rdiv. ring. Qed.
Lemma ac_output_mesh S BF TF P A B X V b T sdim NN : nodes_ok sdim NN A -> nodes_ok sdim NN B -> node_derivative sdim S A -> volume_of B X <> 0 ->
  is_derive (fun t => ac_output S BF TF P A B (moved X V t) b T) 0 (ac_mesh_jvp sdim NN S BF TF P A B X b T V).
Proof.
  intros HA HB HS HV. unfold ac_output, ac_mesh_jvp.
  assert (K := ac_value_path P (fun t => ac_sb2 S BF TF A (moved X V t) b T) (fun t => volume_of B (moved X V t)) _ _
    (ac_mesh_ok S BF TF sdim NN A X V b T HA HS) (volume_derive sdim NN B X V HB)).
  cbv beta in K. rewrite moved_0' in K. exact (K HV).
Qed.
Lemma ac_output_flux S BF TF P A B X b T v N : field_numbered BF N A -> volume_of B X <> 0 ->
  is_derive (fun t => ac_output S BF TF P A B X (along b v t) T) 0 (ac_flux_jvp N S BF TF P A B X b T v).
Proof.
  intros HA HV. unfold ac_output, ac_flux_jvp.
  assert (K := ac_value_path P (fun t => ac_sb2 S BF TF A X (along b v t) T) (fun _ => volume_of B X) _ 0 (ac_flux_ok S BF TF N A X b T v HA) (DV_const _ 0) HV).
  cbv beta in K. rewrite along_0 in K. apply (DV_eq _ 0 _ _ K). unfold ac_jvp_mesh, ac_jvp_field, Rdiv. ring.
Qed.
Lemma ac_output_temp S BF TF P A B X b T v N : field_numbered TF N A -> temp_derivative S -> volume_of B X <> 0 ->
  is_derive (fun t => ac_output S BF TF P A B X b (along T v t)) 0 (ac_temp_jvp N S BF TF P A B X b T v).
Proof.
  intros HA HS HV. unfold ac_output, ac_temp_jvp.
  assert (K := ac_value_path P (fun t => ac_sb2 S BF TF A X b (along T v t)) (fun _ => volume_of B X) _ 0 (ac_temp_ok S BF TF N A X b T v HA HS) (DV_const _ 0) HV).
  cbv beta in K. rewrite along_0 in K. apply (DV_eq _ 0 _ _ K). unfold ac_jvp_mesh, ac_jvp_field, Rdiv. ring.
Qed.
Lemma ac_mesh_reverse S BF TF P A B X b T bar wb V sdim NN :
  pairing sdim NN (ac_mesh_vjp S BF TF P A B X b T bar wb) V = pairing sdim NN wb V + bar * ac_mesh_jvp sdim NN S BF TF P A B X b T V.
Proof.
  unfold ac_mesh_vjp, ac_mesh_jvp. cbv zeta. rewrite !pairing_plus.
  set (sb := ac_sb2 S BF TF A X b T). set (vol := volume_of B X).
  rewrite (pairing_ext sdim NN (fun k J => ac_vol_bar P sb vol bar * volume_mesh B X k J) (fun k J => volume_mesh B X k J * ac_vol_bar P sb vol bar)) by (intros; ring).
  rewrite (pairing_ext sdim NN (fun k J => ac_sb2_bar P vol bar * ac_sb2_mesh S BF TF A X b T k J) (fun k J => ac_sb2_mesh S BF TF A X b T k J * ac_sb2_bar P vol bar)) by (intros; ring).
  rewrite !pairing_scal_r. unfold pairing.
  set (dr := rsum sdim (fun k => rsum NN (fun J => ac_sb2_mesh S BF TF A X b T k J * V k J))). set (dv := rsum sdim (fun k => rsum NN (fun J => volume_mesh B X k J * V k J))).
  unfold ac_jvp_mesh, ac_vol_bar, ac_sb2_bar, ac_strand_dot, ac_strand, Rdiv. ring.
Qed.
Lemma ac_flux_reverse S BF TF P A B X b T bar wb v N :
  dot N (ac_flux_vjp S BF TF P A B X b T bar wb) v = dot N wb v + bar * ac_flux_jvp N S BF TF P A B X b T v.
Proof. unfold ac_flux_vjp, ac_flux_jvp. rewrite dot_plus_l, dot_scal_l. unfold ac_jvp_field, ac_sb2_bar, ac_strand_dot, Rdiv. ring. Qed.
Lemma ac_temp_reverse S BF TF P A B X b T bar wb v N :
  dot N (ac_temp_vjp S BF TF P A B X b T bar wb) v = dot N wb v + bar * ac_temp_jvp N S BF TF P A B X b T v.
Proof. unfold ac_temp_vjp, ac_temp_jvp. rewrite dot_plus_l, dot_scal_l. unfold ac_jvp_field, ac_sb2_bar, ac_strand_dot, Rdiv. ring. Qed.
Lemma ac_sb2_measured S BF TF A X b T :
  ac_sb2 S BF TF A X b T = integral (measured (fun e q => c_val S e q (place e X) (at_point TF e q T) * at_point BF e q b ^ 2) A X).
Proof. unfold integral. rewrite (measured_sum (fun g w => g * w)). reflexivity. Qed.

(** * densities *)
Definition density_ok (D : density_fun) (P : params) (e : elem) (q : nat) (Y : mat) (b t : R) : Prop := forall pw,
  is_derive (fun x => d_loss D P e q Y x t * pw) b (d_flux D P e q Y b t pw) /\
  is_derive (fun x => d_loss D P e q Y b x * pw) t (d_temp D P e q Y b t pw) /\
  forall wrt, is_derive (fun x => d_loss D (upd P wrt x) e q Y b t * pw) (P wrt) (d_scalar D P wrt e q Y b t pw).
Lemma upd_other P wrt x k : k <> wrt -> upd P wrt x k = P k.
Proof. intros H. unfold upd. destruct (String.eqb_spec k wrt); [congruence|reflexivity]. Qed.
Lemma upd_same P wrt x : upd P wrt x wrt = x. Proof. unfold upd. now rewrite String.eqb_refl. Qed.
Lemma upd_id P wrt : upd P wrt (P wrt) = P.
Proof. apply functional_extensionality; intros k. unfold upd. destruct (String.eqb_spec k wrt); [now subst|reflexivity]. Qed.
Lemma upd_upd P wrt x y : upd (upd P wrt x) wrt y = upd P wrt y.
Proof. apply functional_extensionality; intros k. unfold upd. now destruct (String.eqb k wrt). Qed.
Ltac named wrt :=
  match goal with |- context [String.eqb wrt ?n] => destruct (String.eqb_spec wrt n) as [->|?] end.

Lemma dc_density_ok S P e q Y b t : temp_derivative S -> c_val S e q Y t <> 0 -> P "strand_radius" <> 0 -> P "strands_in_hand" <> 0 ->
  P "winding_volume" <> 0 -> P "stack_length" <> 0 -> density_ok (dc_density S) P e q Y b t.
Proof.
  intros HS HC R0 S0 V0 L0 pw. assert (PN := PI_neq0). cbn [d_loss d_flux d_temp d_scalar dc_density]. unfold dcd_R, strand_area. set (r2 := sqrt 2). clearbody r2. cbv zeta.
  split; [exact (DV_const _ b)|]. split.
  - apply (DV_ext (fun x => P "rms_current" ^ 2 * r2 * pw * P "wire_length" / (P "winding_volume" * P "stack_length" * (PI * P "strand_radius" ^ 2 * P "strands_in_hand")) * (/ c_val S e q Y x))).
    + intros x. unfold Rdiv. rewrite !Rinv_mult. ring.
    + apply (DV_eq _ t (P "rms_current" ^ 2 * r2 * pw * P "wire_length" / (P "winding_volume" * P "stack_length" * (PI * P "strand_radius" ^ 2 * P "strands_in_hand")) *
        (- c_dT S e q Y t / c_val S e q Y t ^ 2))); [|freeze P; field; repeat split; assumption].
      apply DV_scal. exact (is_derive_inv _ _ _ (HS e q Y t) HC).
  - intros wrt. set (s := c_val S e q Y t) in *. clearbody s. clear HS.
    named wrt; [|named wrt; [|named wrt; [|named wrt; [|named wrt; [|named wrt]]]]].
    7: { apply (DV_ext (fun x => P "rms_current" ^ 2 * (P "wire_length" / (PI * P "strand_radius" ^ 2 * P "strands_in_hand" * s)) * (1 * r2) * (1 / (P "winding_volume" * P "stack_length")) * pw));
         [|exact (DV_const _ _)]. intros x. now rewrite !upd_other by congruence. }
    all: unfold upd; cbn [String.eqb Ascii.eqb Bool.eqb]; freeze P.
    all: auto_derive; [nz|field; repeat split; assumption].
Qed.
Lemma ac_density_ok S P e q Y b t : temp_derivative S -> P "winding_volume" <> 0 -> density_ok (ac_density S) P e q Y b t.
Proof.
  intros HS V0 pw. cbn [d_loss d_flux d_temp d_scalar ac_density]. cbv zeta. split; [|split].
  - set (s := c_val S e q Y t). clearbody s. freeze P. auto_derive; [nz|field; assumption].
  - apply (DV_ext (fun x => c_val S e q Y x * (PI * P "strand_radius" ^ 4 * (2 * PI * P "frequency" * b) ^ 2 / 8 *
        (2 * P "strands_in_hand" * P "num_turns" * P "num_slots") * (1 / P "winding_volume") * pw))); [intros x; unfold Rdiv; ring|].
    apply (DV_eq _ t (c_dT S e q Y t * (PI * P "strand_radius" ^ 4 * (2 * PI * P "frequency" * b) ^ 2 / 8 *
        (2 * P "strands_in_hand" * P "num_turns" * P "num_slots") * (1 / P "winding_volume") * pw))); [|unfold Rdiv; ring].
    apply DV_scal_r, HS.
  - intros wrt. set (s := c_val S e q Y t) in *. clearbody s. clear HS.
    named wrt; [|named wrt; [|named wrt; [|named wrt; [|named wrt; [|named wrt]]]]].
    7: { match goal with |- is_derive ?f _ _ => apply (DV_ext (fun _ => f (P wrt))); [|exact (DV_const _ _)] end. intros x. now rewrite !upd_other by congruence. }
    all: unfold upd; cbn [String.eqb Ascii.eqb Bool.eqb]; freeze P.
    all: auto_derive; [nz|field; repeat split; assumption].
Qed.
Lemma core_density_ok rho kh ke P e q Y b t : three_state_derivatives kh -> three_state_derivatives ke -> density_ok (core_density rho kh ke) P e q Y b t.
Proof.
  intros Hh He pw. cbn [d_loss d_flux d_temp d_scalar core_density]. cbv zeta.
  destruct (Hh e t (P "frequency") b) as (h1 & h2 & h3). destruct (He e t (P "frequency") b) as (k1 & k2 & k3). split; [|split].
  - apply (DV_eq _ b ((rho e * P "frequency" * (t_d3 kh e t (P "frequency") b * b ^ 2 + t_val kh e t (P "frequency") b * (2 * b)) +
       rho e * P "frequency" ^ 2 * (t_d3 ke e t (P "frequency") b * b ^ 2 + t_val ke e t (P "frequency") b * (2 * b))) * pw)); [|ring].
    apply DV_scal_r.
    apply (DV_ext (fun x => rho e * P "frequency" * (t_val kh e t (P "frequency") x * x ^ 2) + rho e * P "frequency" ^ 2 * (t_val ke e t (P "frequency") x * x ^ 2))); [intros; ring|].
    assert (Q : is_derive (fun x : R => x ^ 2) b (2 * b)) by (auto_derive; [exact I|ring]).
    apply DV_plus; apply DV_scal; [exact (DV_mult _ _ b _ _ h3 Q)|exact (DV_mult _ _ b _ _ k3 Q)].
  - apply (DV_eq _ t ((rho e * P "frequency" * b ^ 2 * t_d1 kh e t (P "frequency") b + rho e * P "frequency" ^ 2 * b ^ 2 * t_d1 ke e t (P "frequency") b) * pw)); [|ring].
    apply DV_scal_r.
    apply (DV_ext (fun x => rho e * P "frequency" * b ^ 2 * t_val kh e x (P "frequency") b + rho e * P "frequency" ^ 2 * b ^ 2 * t_val ke e x (P "frequency") b)); [intros; ring|].
    apply DV_plus; now apply DV_scal.
  - intros wrt. named wrt.
    + unfold upd. cbn [String.eqb Ascii.eqb Bool.eqb]. set (f := P "frequency") in *. clearbody f.
      apply (DV_eq _ f ((rho e * b ^ 2 * (t_d2 kh e t f b * f + t_val kh e t f b * 1) + rho e * b ^ 2 * (t_d2 ke e t f b * f ^ 2 + t_val ke e t f b * (2 * f))) * pw)); [|ring].
      apply DV_scal_r.
      apply (DV_ext (fun x => rho e * b ^ 2 * (t_val kh e t x b * x) + rho e * b ^ 2 * (t_val ke e t x b * x ^ 2))); [intros; ring|].
      assert (Q : is_derive (fun x : R => x ^ 2) f (2 * f)) by (auto_derive; [exact I|ring]).
      apply DV_plus; apply DV_scal; [exact (DV_mult _ _ f _ _ h2 (DV_id f))|exact (DV_mult _ _ f _ _ k2 Q)].
    + match goal with |- is_derive ?f _ _ => apply (DV_ext (fun _ => f (P wrt))); [|exact (DV_const _ _)] end. intros x. now rewrite !upd_other by congruence.
Qed.

Section Dist.
Variables (BF TF : ffield) (D : density_fun).
Definition densities_ok (P : params) (M : list elem) (X : mat) (b T : vec) : Prop := forall e q, In e M -> (q < e_nq e)%nat ->
  density_ok D P e q (nodes_of e X) (fvalue BF e q b) (fvalue TF e q T).
Lemma load_pair P M X b T psi N : field_numbered TF N M -> dot N (dist_load BF TF D P M X b T) psi =
  lsum (fun e => rsum (e_nq e) (fun q => d_loss D P e q (nodes_of e X) (fvalue BF e q b) (fvalue TF e q T) * (fvalue TF e q psi * (e_pw e q * e_W e q (nodes_of e X))))) M.
Proof. intros H. unfold dist_load. rewrite dof_dot by exact H. apply lsum_ext; intros e _. apply rsum_ext; intros q _. cbv zeta. ring. Qed.
Lemma dist_flux_ok P M X b T psi v N NB : field_numbered TF N M -> field_numbered BF NB M -> densities_ok P M X b T ->
  is_derive (fun t => dot N (dist_load BF TF D P M X (along b v t) T) psi) 0 (dot NB (dist_flux BF TF D P M X b T psi) v).
Proof.
  intros H HB HD.
  apply (DV_ext (fun t => lsum (fun e => rsum (e_nq e) (fun q => d_loss D P e q (nodes_of e X) (fvalue BF e q (along b v t)) (fvalue TF e q T) * (fvalue TF e q psi * (e_pw e q * e_W e q (nodes_of e X))))) M));
    [intros t; now rewrite load_pair|].
  apply (quad_field_derive BF NB M (fun e q x => d_loss D P e q (nodes_of e X) x (fvalue TF e q T) * (fvalue TF e q psi * (e_pw e q * e_W e q (nodes_of e X))))); [exact HB|].
  intros e q He Hq. cbv zeta. apply (HD e q He Hq).
Qed.
Lemma dist_temp_ok P M X b T psi v N : field_numbered TF N M -> densities_ok P M X b T ->
  is_derive (fun t => dot N (dist_load BF TF D P M X b (along T v t)) psi) 0 (dot N (dist_temp BF TF D P M X b T psi) v).
Proof.
  intros H HD.
  apply (DV_ext (fun t => lsum (fun e => rsum (e_nq e) (fun q => d_loss D P e q (nodes_of e X) (fvalue BF e q b) (fvalue TF e q (along T v t)) * (fvalue TF e q psi * (e_pw e q * e_W e q (nodes_of e X))))) M));
    [intros t; now rewrite load_pair|].
  apply (quad_field_derive TF N M (fun e q x => d_loss D P e q (nodes_of e X) (fvalue BF e q b) x * (fvalue TF e q psi * (e_pw e q * e_W e q (nodes_of e X))))); [exact H|].
  intros e q He Hq. cbv zeta. apply (HD e q He Hq).
Qed.
Lemma dist_scalar_ok P M X b T psi wrt N : field_numbered TF N M -> densities_ok P M X b T ->
  is_derive (fun x => dot N (dist_load BF TF D (upd P wrt x) M X b T) psi) (P wrt) (dist_scalar BF TF D P wrt M X b T psi).
Proof.
  intros H HD.
  apply (DV_ext (fun x => lsum (fun e => rsum (e_nq e) (fun q => d_loss D (upd P wrt x) e q (nodes_of e X) (fvalue BF e q b) (fvalue TF e q T) * (fvalue TF e q psi * (e_pw e q * e_W e q (nodes_of e X))))) M));
    [intros t; now rewrite load_pair|].
  unfold dist_scalar, quad_total.
  apply (points_derive M (fun e q x => d_loss D (upd P wrt x) e q (nodes_of e X) (fvalue BF e q b) (fvalue TF e q T) * (fvalue TF e q psi * (e_pw e q * e_W e q (nodes_of e X))))).
  intros e q He Hq. apply (HD e q He Hq).
Qed.
Lemma scalar_linear P e q Y b t wrt pw : density_ok D P e q Y b t -> d_scalar D P wrt e q Y b t pw = d_scalar D P wrt e q Y b t 1 * pw.
Proof.
  intros H. assert (H1 := proj2 (proj2 (H 1)) wrt). assert (Hw := proj2 (proj2 (H pw)) wrt).
  apply (DV_unique _ _ _ _ Hw). apply (DV_ext (fun x => d_loss D (upd P wrt x) e q Y b t * 1 * pw)); [intros; ring|]. now apply DV_scal_r.
Qed.
Lemma dist_mesh_vjp_ok P A B X V b T psi wb sdim N NN :
  nodes_ok sdim NN A -> nodes_ok sdim NN B -> field_numbered TF N A -> (forall P e q Y Y' b t, d_loss D P e q Y b t = d_loss D P e q Y' b t) ->
  densities_ok P A X b T -> P "winding_volume" = volume_of B X ->
  exists d, is_derive (fun t => dot N (dist_load BF TF D (upd P "winding_volume" (volume_of B (moved X V t))) A (moved X V t) b T) psi) 0 d /\
    pairing sdim NN (dist_mesh_vjp BF TF D A B {| ds_P := P; ds_X := X; ds_b := b; ds_T := T |} psi wb) V = pairing sdim NN wb V + d.
Proof.
  intros HA HB HN HY HD HV.
  set (dv := pairing sdim NN (volume_mesh B X) V). assert (DV := volume_derive sdim NN B X V HB). fold dv in DV.
  set (vb := dist_scalar BF TF D P "winding_volume" A X b T psi).
  exists (pairing sdim NN (dist_mesh BF TF D P A X b T psi) V + vb * dv). split.
  - unfold dist_mesh. rewrite node_pair by (intros e He; apply (HA e He)).
    unfold vb, dist_scalar, quad_total. rewrite <- lsum_scal_r.
    apply (DV_ext (fun t => lsum (fun e => rsum (e_nq e) (fun q => d_loss D (upd P "winding_volume" (volume_of B (moved X V t))) e q (nodes_of e X) (fvalue BF e q b) (fvalue TF e q T) *
        (fvalue TF e q psi * (e_pw e q * e_W e q (moved (nodes_of e X) (nodes_of e V) t))))) A)).
    { intros t. rewrite load_pair by exact HN. apply lsum_ext; intros e _. apply rsum_ext; intros q _. rewrite (HY _ e q (nodes_of e (moved X V t)) (nodes_of e X)). reflexivity. }
    rewrite <- lsum_plus.
    apply (DV_eq _ 0 (lsum (fun e => rsum (e_nq e) (fun q =>
       d_scalar D P "winding_volume" e q (nodes_of e X) (fvalue BF e q b) (fvalue TF e q T) 1 * dv * (fvalue TF e q psi * (e_pw e q * e_W e q (nodes_of e X))) +
       pairing sdim (e_nn e) (fun k j => e_WRev e q (nodes_of e X) (1 * d_loss D P e q (nodes_of e X) (fvalue BF e q b) (fvalue TF e q T) * fvalue TF e q psi * e_pw e q) k j) (nodes_of e V))) A)).
    + apply points_derive. intros e q He Hq.
      destruct (rev_scalar_entries sdim (e_nn e) _ _ (nodes_of e X) (nodes_of e V) (proj2 (HA e He) q Hq)) as (dW & DW & PW).
      specialize (PW (1 * d_loss D P e q (nodes_of e X) (fvalue BF e q b) (fvalue TF e q T) * fvalue TF e q psi * e_pw e q)).
      change (fun k j => e_WRev e q (nodes_of e X) (1 * d_loss D P e q (nodes_of e X) (fvalue BF e q b) (fvalue TF e q T) * fvalue TF e q psi * e_pw e q) k j)
        with (e_WRev e q (nodes_of e X) (1 * d_loss D P e q (nodes_of e X) (fvalue BF e q b) (fvalue TF e q T) * fvalue TF e q psi * e_pw e q)). rewrite PW.
      assert (L : is_derive (fun x => d_loss D (upd P "winding_volume" x) e q (nodes_of e X) (fvalue BF e q b) (fvalue TF e q T)) (volume_of B (moved X V 0))
        (d_scalar D P "winding_volume" e q (nodes_of e X) (fvalue BF e q b) (fvalue TF e q T) 1)).
      { rewrite moved_0', <- HV. apply (DV_ext (fun x => d_loss D (upd P "winding_volume" x) e q (nodes_of e X) (fvalue BF e q b) (fvalue TF e q T) * 1)); [intros; ring|].
        apply (HD e q He Hq). }
      apply (DV_eq _ 0 _ _ (DV_mult _ (fun t => fvalue TF e q psi * (e_pw e q * e_W e q (moved (nodes_of e X) (nodes_of e V) t))) 0 _ _
         (DV_comp _ (fun t => volume_of B (moved X V t)) 0 _ _ L DV) (DV_scal _ _ 0 _ (DV_scal _ _ 0 _ DW)))).
      rewrite !moved_0', <- HV, upd_id. ring.
    + apply lsum_ext. intros e He. rewrite <- rsum_scal_r, <- rsum_plus. apply rsum_ext. intros q Hq.
      rewrite (scalar_linear P e q _ _ _ "winding_volume" (fvalue TF e q psi * (e_pw e q * e_W e q (nodes_of e X)))) by (apply HD; assumption). ring.
  - unfold dist_mesh_vjp. cbn [ds_P ds_X ds_b ds_T]. cbv zeta. fold vb. rewrite !pairing_plus.
    rewrite (pairing_ext sdim NN (fun k J => vb * volume_mesh B X k J) (fun k J => volume_mesh B X k J * vb)) by (intros; ring). rewrite pairing_scal_r. fold dv. ring.
Qed.
Lemma fvalue_one e q M : partition_of_unity TF M -> In e M -> (q < e_nq e)%nat -> fvalue TF e q (fun _ => 1) = 1.
Proof. intros H He Hq. unfold fvalue, dot, gather. rewrite (rsum_ext _ _ (f_shape TF e q)) by (intros; ring). now apply (H e q). Qed.
Lemma load_total P M X b T N : field_numbered TF N M -> partition_of_unity TF M ->
  dot N (dist_load BF TF D P M X b T) (fun _ => 1) = integral (measured (fun e q => d_loss D P e q (nodes_of e X) (fvalue BF e q b) (fvalue TF e q T)) M X).
Proof.
  intros H U. rewrite load_pair by exact H. unfold integral. rewrite (measured_sum (fun g w => g * w)). apply lsum_ext; intros e He. apply rsum_ext; intros q Hq.
  rewrite (fvalue_one e q M U He Hq). ring.
Qed.
End Dist.

(** * core losses *)
Section Core.
Variables (rho : elem -> R) (kh ke : tcoef) (BF TF : ffield).
Hypotheses (Hh : three_state_derivatives kh) (He : three_state_derivatives ke).
Lemma core_is_density P e q Y b t : d_loss (core_density rho kh ke) P e q Y b t = core_loss rho kh ke (P "frequency") e b t.
Proof. unfold core_loss. cbn [d_loss core_density]. cbv zeta. ring. Qed.
Lemma core_freq_ok f M X b T : is_derive (fun x => core_value rho kh ke BF TF x M X b T) f (core_freq rho kh ke BF TF f M X b T).
Proof.
  unfold core_value, core_freq, quad_total.
  apply (points_derive M (fun e q x => core_loss rho kh ke x e (fvalue BF e q b) (fvalue TF e q T) * (e_pw e q * e_W e q (nodes_of e X)))). intros e q _ _.
  assert (K := proj2 (proj2 (core_density_ok rho kh ke (fun _ => f) e q (nodes_of e X) (fvalue BF e q b) (fvalue TF e q T) Hh He (e_pw e q * e_W e q (nodes_of e X)))) "frequency").
  cbv beta in K. refine (DV_eq _ f _ _ (DV_ext _ _ f _ _ K) _).
  - intros x. cbv beta. rewrite core_is_density, upd_same. reflexivity.
  - cbn [d_scalar core_density String.eqb Ascii.eqb Bool.eqb]. cbv zeta. ring.
Qed.
Lemma core_flux_ok f M X b T v N : field_numbered BF N M ->
  is_derive (fun t => core_value rho kh ke BF TF f M X (along b v t) T) 0 (dot N (core_flux rho kh ke BF TF f M X b T) v).
Proof.
  intros H. unfold core_value, core_flux, quad_total.
  apply (quad_field_derive BF N M (fun e q x => core_loss rho kh ke f e x (fvalue TF e q T) * (e_pw e q * e_W e q (nodes_of e X)))); [exact H|]. intros e q _ _.
  assert (K := proj1 (core_density_ok rho kh ke (fun _ => f) e q (nodes_of e X) (fvalue BF e q b) (fvalue TF e q T) Hh He (e_pw e q * e_W e q (nodes_of e X)))).
  refine (DV_eq _ _ _ _ (DV_ext _ _ _ _ _ K) _).
  - intros x. cbv beta. rewrite core_is_density. reflexivity.
  - cbn [d_flux core_density]. cbv zeta. ring.
Qed.
Lemma core_temp_ok f M X b T v N : field_numbered TF N M ->
  is_derive (fun t => core_value rho kh ke BF TF f M X b (along T v t)) 0 (dot N (core_temp rho kh ke BF TF f M X b T) v).
Proof.
  intros H. unfold core_value, core_temp, quad_total.
  apply (quad_field_derive TF N M (fun e q x => core_loss rho kh ke f e (fvalue BF e q b) x * (e_pw e q * e_W e q (nodes_of e X)))); [exact H|]. intros e q _ _.
  assert (K := proj1 (proj2 (core_density_ok rho kh ke (fun _ => f) e q (nodes_of e X) (fvalue BF e q b) (fvalue TF e q T) Hh He (e_pw e q * e_W e q (nodes_of e X))))).
  refine (DV_eq _ _ _ _ (DV_ext _ _ _ _ _ K) _).
  - intros x. cbv beta. rewrite core_is_density. reflexivity.
  - cbn [d_temp core_density]. cbv zeta. ring.
Qed.
Lemma core_mesh_ok f M X V b T sdim NN : nodes_ok sdim NN M ->
  is_derive (fun t => core_value rho kh ke BF TF f M (moved X V t) b T) 0 (pairing sdim NN (core_mesh rho kh ke BF TF f M X b T) V).
Proof.
  intros H. apply quad_mesh_derive; [intros e Hi; apply (H e Hi)|]. intros e q Hi Hq.
  destruct (rev_scalar_entries sdim (e_nn e) _ _ (nodes_of e X) (nodes_of e V) (proj2 (H e Hi) q Hq)) as (dW & DW & PW).
  specialize (PW (1 * core_loss rho kh ke f e (fvalue BF e q b) (fvalue TF e q T) * e_pw e q)).
  match goal with |- is_derive _ _ (pairing _ _ ?m _) => change m with (e_WRev e q (nodes_of e X) (1 * core_loss rho kh ke f e (fvalue BF e q b) (fvalue TF e q T) * e_pw e q)) end.
  rewrite PW. apply (DV_eq _ 0 (core_loss rho kh ke f e (fvalue BF e q b) (fvalue TF e q T) * (e_pw e q * dW))); [|ring].
  apply DV_scal, DV_scal, DW.
Qed.
End Core.
(** * demagnetisation *)
Lemma demag_loop_sum n cw acc q : demag_loop n cw acc q = (-1) ^ n * acc + rsum n (fun i => (-1) ^ (n - i) * cw (q + i)%nat).
Proof.
  revert acc q. induction n as [|n IH]; intros acc q; [cbn; ring|]. cbn [demag_loop]. rewrite IH. rewrite rsum_shift.
  rewrite (rsum_ext n (fun i => (-1) ^ (S n - S i) * cw (q + S i)%nat) (fun i => (-1) ^ (n - i) * cw (S q + i)%nat)) by (intros; f_equal; f_equal; lia).
  replace (S n - 0)%nat with (S n) by lia. replace (q + 0)%nat with q by lia. cbn [pow]. ring.
Qed.
