(** C78, C79: volume, mass, averages, boundary flux and the induced-exponential aggregate. *)
From Coq Require Import Reals String List Bool Arith Lia Lra.
From Coquelicot Require Import Coquelicot.
From Verif Require Import Vec Deriv Current EmInteg EmIntegSpec EmMeshProofs IsoGeom SbpSpec SbpMeshProofs CommonFun CommonFunSpec CommonFunProofs.
Import ListNotations.
Local Open Scope R_scope.

(** the linear triangle with the one-point rule *)
Definition tri_dN : mat := fun j l => match j, l with O, _ => -1 | S O, O => 1 | S (S O), S O => 1 | _, _ => 0 end.
Definition tri (g : nat -> nat) : elem := {| e_nq := 1; e_pw := fun _ => 1 / 2; e_ndof := 3; e_dof := g; e_shape := fun _ _ => 1 / 3;
  e_nn := 3; e_node := g; e_W := fun _ => wt2 3 tri_dN; e_WRev := fun _ => wt2_rev 3 tri_dN |}.
Lemma tri_triangle g : triangle (tri g).
Proof. split; [|cbn; lra]. intros q P _. unfold signed_area, tri, wt2, det2, iso_jac, tri_dN. cbn. field. Qed.
Lemma tri_ok g N : (forall j, (j < 3)%nat -> (g j < N)%nat) -> mesh_ok 2 N N [tri g].
Proof. intros H e [<-|[]]. cbn [tri e_ndof e_dof e_nn e_node e_nq e_W e_WRev]. split; [exact H|]. split; [exact H|]. intros q _. apply wt2_ok. Qed.
(** the triangle with vertices (0,0), (1,0), (0,1) *)
Definition ref_tri : mat := fun k j => match k, j with O, S O => 1 | S O, S (S O) => 1 | _, _ => 0 end.
Lemma ref_area : signed_area ref_tri = 1 / 2.
Proof. unfold signed_area, ref_tri. field. Qed.

(** C78: the volume of a triangulation is the sum of the signed areas of its triangles, whatever the state. *)
Theorem C78_volume : forall (M : list elem) (X : nat -> nat -> R) u, List.Forall triangle M ->
  total (vol_energy NoRho) M X u = lsum (fun e => signed_area (fun k j => X k (e_node e j))) M.
Proof.
  intros M X u H. unfold total. apply lsum_ext. intros e He. rewrite Forall_forall in H. destruct (H e He) as [W S].
  unfold vol_energy. rewrite (rsum_ext _ _ (fun q => e_pw e q * (2 * signed_area (nodes_of e X)))) by (intros q Hq; now rewrite W).
  rewrite rsum_scal_r, S. unfold nodes_of. field.
Qed.
Print Assumptions C78_volume.
Example C78_volume_nonvacuous : List.Forall triangle [tri (fun j => j)] /\ total (vol_energy NoRho) [tri (fun j => j)] ref_tri (fun _ => 0) = 1 / 2.
Proof.
  split; [constructor; [apply tri_triangle|constructor]|]. rewrite C78_volume by (constructor; [apply tri_triangle|constructor]).
  unfold lsum. cbn [fold_right tri e_node]. unfold signed_area, ref_tri. field.
Qed.

(** C78: the reported mesh sensitivity of volume and mass is the derivative with respect to the positions of the nodes, when
    a density is attached or none is asked for. *)
Theorem C78_volume_mesh : forall sdim N NN (M : list elem) (rho : density) X V u, mesh_ok sdim N NN M -> rho <> NullRho ->
  (forall v rev, rho = Rho v rev -> forall e q, In e M -> (q < e_nq e)%nat -> rev_scalar sdim (e_nn e) (v e q) (rev e q)) ->
  is_derive (fun t => total (vol_energy rho) M (moved X V t) u) 0 (pairing sdim NN (assembled_mesh (vol_mesh rho) M X u) V).
Proof.
  intros sdim N NN M rho X V u H NR HR. apply total_mesh_derive; [intros e He; apply (H e He)|].
  intros e X0 V0 u0 He. apply vol_mesh_derive; [apply (H e He)|exact NR|]. intros v rev E q Hq. now apply (HR v rev E).
Qed.
Print Assumptions C78_volume_mesh.
Example C78_volume_mesh_nonvacuous : mesh_ok 2 3 3 [tri (fun j => j)] /\ NoRho <> NullRho /\
  pairing 2 3 (assembled_mesh (vol_mesh NoRho) [tri (fun j => j)] ref_tri (fun _ => 0)) ref_tri = 1.
Proof.
  split; [apply tri_ok; auto|]. split; [discriminate|].
  rewrite assembled_pair by (intros e [<-|[]] j Hj; exact Hj).
  unfold lsum. cbn [fold_right tri e_nn e_nq e_pw e_WRev]. unfold pairing, vol_mesh, wt2_rev, to_nodes, adj2, iso_jac, nodes_of, tri, ref_tri, tri_dN. cbn. lra.
Qed.

(** C78 is false of a density pointer that is set but points to nothing: the mass is the volume and its mesh sensitivity 0. *)
Theorem C78_null_density_refuted :
  ~ (forall sdim N NN (M : list elem) X V u, mesh_ok sdim N NN M ->
       is_derive (fun t => total (vol_energy NullRho) M (moved X V t) u) 0 (pairing sdim NN (assembled_mesh (vol_mesh NullRho) M X u) V)).
Proof.
  intros K. assert (D := K 2%nat 3%nat 3%nat [tri (fun j => j)] ref_tri ref_tri (fun _ => 0) ltac:(apply tri_ok; auto)).
  assert (D2 := C78_volume_mesh 2 3 3 [tri (fun j => j)] NoRho ref_tri ref_tri (fun _ => 0) ltac:(apply tri_ok; auto) ltac:(discriminate) ltac:(discriminate)).
  assert (E := DV_unique _ _ _ _ D D2). rewrite (proj2 (proj2 C78_volume_mesh_nonvacuous)) in E.
  rewrite assembled_pair in E by (intros e [<-|[]] j Hj; exact Hj).
  unfold lsum in E. cbn [fold_right tri e_nn e_nq e_pw e_WRev] in E. unfold pairing, vol_mesh, wt2_rev, to_nodes in E. cbn in E. lra.
Qed.
Print Assumptions C78_null_density_refuted.

(** C78: the reverse product of the mass with respect to "fill_factor" is the derivative, when the second coefficient is the
    derivative of the density. *)
Theorem C78_fill_factor_partial : forall (M : list elem) X u (rho : R -> elem -> nat -> mat -> R) (drho : elem -> nat -> mat -> R) r1 r2 f out_bar,
  (forall e q Y, In e M -> (q < e_nq e)%nat -> is_derive (fun s => rho s e q Y) f (drho e q Y)) ->
  is_derive (fun s => total (vol_energy (Rho (rho s) r1)) M X u * out_bar) f (mass_vjp (Rho (rho f) r1) (Rho drho r2) "fill_factor" M X u out_bar).
Proof.
  intros M X u rho drho r1 r2 f out_bar H. apply DV_scal_r. unfold total, fill_energy, vol_energy.
  apply (lsum_derive (fun e s => rsum (e_nq e) (fun q => e_pw e q * e_W e q (nodes_of e X) * rho s e q (nodes_of e X)))). intros e He.
  apply (DV_sum (e_nq e) (fun q s => e_pw e q * e_W e q (nodes_of e X) * rho s e q (nodes_of e X))). intros q Hq.
  apply DV_scal. now apply H.
Qed.
Print Assumptions C78_fill_factor_partial.
Example C78_fill_factor_nonvacuous : forall f, exists drho : elem -> nat -> mat -> R,
  (forall e q Y, In e [tri (fun j => j)] -> (q < e_nq e)%nat -> is_derive (fun s => (fun s (_ : elem) (_ : nat) (_ : mat) => s * 8960 + (1 - s) * 1000) s e q Y) f (drho e q Y)) /\
  mass_vjp (Rho (fun _ _ _ => f * 8960 + (1 - f) * 1000) (fun _ _ _ _ _ _ => 0)) (Rho drho (fun _ _ _ _ _ _ => 0)) "fill_factor" [tri (fun j => j)] ref_tri (fun _ => 0) 1 = 3980.
Proof.
  intros f. exists (fun _ _ _ => 7960). split.
  - intros e q Y _ _. cbv beta. auto_derive; [exact Logic.I|ring].
  - unfold mass_vjp. cbn [String.eqb Ascii.eqb Bool.eqb]. unfold total, fill_energy, vol_energy, lsum. cbn [fold_right tri e_nq e_pw e_W].
    unfold wt2, det2, iso_jac, nodes_of, ref_tri, tri_dN. cbn. lra.
Qed.

(** C78 is false of the forward product: it does not switch to the derivative of the density, so it returns the mass times
    the change of the fill factor; so does the reverse product when the name carries a component suffix. *)
Theorem C78_fill_factor_refuted :
  (forall rho drho wrt M X u d, mass_jvp rho drho wrt M X u d = total (vol_energy rho) M X u * d) /\
  (forall rho drho M X u b, mass_vjp rho drho "fill_factor:windings" M X u b = total (vol_energy rho) M X u * b) /\
  exists (rho : R -> elem -> nat -> mat -> R) drho M X u f,
    (forall e q Y, In e M -> (q < e_nq e)%nat -> is_derive (fun s => rho s e q Y) f (drho e q Y)) /\
    ~ is_derive (fun s => total (vol_energy (Rho (rho s) (fun _ _ _ _ _ _ => 0))) M X u) f
        (mass_jvp (Rho (rho f) (fun _ _ _ _ _ _ => 0)) (Rho drho (fun _ _ _ _ _ _ => 0)) "fill_factor" M X u 1).
Proof.
  split; [reflexivity|]. split; [reflexivity|].
  exists (fun s _ _ _ => s * 8960 + (1 - s) * 1000), (fun _ _ _ => 7960), [tri (fun j => j)], ref_tri, (fun _ => 0), 1. split.
  - intros e q Y _ _. auto_derive; [exact Logic.I|ring].
  - intros D.
    assert (D2 : is_derive (fun s => total (vol_energy (Rho (fun _ _ _ => s * 8960 + (1 - s) * 1000) (fun _ _ _ _ _ _ => 0))) [tri (fun j => j)] ref_tri (fun _ => 0)) 1 3980).
    { apply (DV_ext (fun s => (s * 8960 + (1 - s) * 1000) / 2)).
      - intros s. unfold total, vol_energy, lsum. cbn [fold_right tri e_nq e_pw e_W]. unfold wt2, det2, iso_jac, nodes_of, ref_tri, tri_dN. cbn. lra.
      - auto_derive; [exact Logic.I|field]. }
    assert (E := DV_unique _ _ _ _ D D2). unfold mass_jvp, total, fill_energy, vol_energy, lsum in E. cbn [fold_right tri e_nq e_pw e_W] in E.
    unfold wt2, det2, iso_jac, nodes_of, ref_tri, tri_dN in E. cbn in E. lra.
Qed.
Print Assumptions C78_fill_factor_refuted.

(** C78: the gradient and the mesh sensitivity of the integral of the state are its derivatives. *)
Theorem C78_state_integral : forall sdim N NN (M : list elem) X V u v, mesh_ok sdim N NN M ->
  is_derive (fun t => total state_energy M X (along u v t)) 0 (dot N (assembled state_grad M X u) v) /\
  is_derive (fun t => total state_energy M (moved X V t) u) 0 (pairing sdim NN (assembled_mesh state_mesh M X u) V).
Proof.
  intros sdim N NN M X V u v H. split.
  - apply total_state_derive; [intros e He; apply (H e He)|]. intros e X0 u0 v0 _. apply state_state.
  - apply total_mesh_derive; [intros e He; apply (H e He)|]. intros e X0 V0 u0 He. apply state_mesh_derive. apply (H e He).
Qed.
Print Assumptions C78_state_integral.
Example C78_state_integral_nonvacuous : mesh_ok 2 3 3 [tri (fun j => j)] /\ total state_energy [tri (fun j => j)] ref_tri (fun i => INR i) = 1 / 2.
Proof.
  split; [apply tri_ok; auto|]. unfold total, state_energy, lsum. cbn [fold_right tri e_nq e_pw e_W e_shape e_ndof].
  unfold wt2, det2, iso_jac, nodes_of, gather, ref_tri, tri_dN, dot. cbn. lra.
Qed.

(** C78: the average lies between the smallest and the largest value at the quadrature points, when both rules measure the
    same positive volume; a constant field has itself as average. *)
Theorem C78_average : forall (A B : list elem) X u lo hi, weights_positive (samples A X u) -> measure (samples B X u) = measure (samples A X u) ->
  (forall g w, In (g, w) (samples A X u) -> lo <= g <= hi) -> lo <= average_value A B X u <= hi.
Proof.
  intros A B X u lo hi P E H. unfold average_value. rewrite state_samples, (vol_samples B X u u), E.
  change (lo <= mean (samples A X u) <= hi). rewrite <- ie_zero. now apply ie_bounds.
Qed.
Print Assumptions C78_average.
Theorem C78_average_constant : forall (A B : list elem) X u c, unity A -> (forall J, u J = c) -> measure (samples B X u) = measure (samples A X u) ->
  measure (samples A X u) <> 0 -> average_value A B X u = c.
Proof.
  intros A B X u c U C E Z. unfold average_value. rewrite state_samples, (vol_samples B X u u), E.
  assert (S : lsum (fun p => fst p * snd p) (samples A X u) = c * measure (samples A X u)).
  { unfold measure. rewrite <- lsum_scal. apply lsum_ext. intros [g w] I. unfold samples in I. apply in_flat_map in I as [e [He I]].
    apply in_map_iff in I as [q [Eq I]]. injection Eq as <- <-. apply in_seq in I. cbn [fst snd].
    rewrite (rsum_ext _ _ (fun i => e_shape e q i * c)) by (intros; now rewrite C). rewrite rsum_scal_r, (U e q He) by lia. ring. }
  rewrite S. field. exact Z.
Qed.
Print Assumptions C78_average_constant.
Example C78_average_nonvacuous : weights_positive (samples [tri (fun j => j)] ref_tri (fun _ => 3)) /\ unity [tri (fun j => j)] /\
  measure (samples [tri (fun j => j)] ref_tri (fun _ => 3)) = 1 / 2 /\ average_value [tri (fun j => j)] [tri (fun j => j)] ref_tri (fun _ => 3) = 3.
Proof.
  assert (U : unity [tri (fun j => j)]) by (intros e q [<-|[]] _; cbn; lra).
  assert (S : measure (samples [tri (fun j => j)] ref_tri (fun _ => 3)) = 1 / 2).
  { unfold measure, lsum, samples. cbn [flat_map seq map app fold_right snd tri e_nq e_pw e_W e_node]. unfold wt2, det2, iso_jac, ref_tri, tri_dN. cbn. lra. }
  split; [|split; [exact U|split; [exact S|apply C78_average_constant; [exact U|reflexivity|reflexivity|rewrite S; lra]]]].
  split; [discriminate|]. intros g w [E|[]]. injection E as _ <-. cbn [tri e_pw e_W e_node]. unfold wt2, det2, iso_jac, ref_tri, tri_dN. cbn. lra.
Qed.

(** C78: the forward and reverse products of the average are its derivatives, with respect to the state and the mesh. *)
Theorem C78_average_derivatives : forall sdim N NN (A B : list elem) X V u v out_bar wrt_bar wrt_bar', mesh_ok sdim N NN A -> mesh_ok sdim N NN B ->
  total (vol_energy NoRho) B X u <> 0 ->
  (exists d, is_derive (fun t => average_value A B X (along u v t)) 0 d /\ average_state_jvp N A B X u v = d /\
     dot N (average_state_vjp A B X u out_bar wrt_bar) v = dot N wrt_bar v + out_bar * d) /\
  (exists d, is_derive (fun t => average_value A B (moved X V t) u) 0 d /\
     pairing sdim NN (average_mesh_vjp A B X u out_bar wrt_bar') V = pairing sdim NN wrt_bar' V + out_bar * d).
Proof.
  intros sdim N NN A B X V u v ob wb wb' HA HB Z. destruct (C78_state_integral sdim N NN A X V u v HA) as [D1 D2]. split.
  - assert (D3 : is_derive (fun t => total (vol_energy NoRho) B X (along u v t)) 0 0) by exact (DV_const (total (vol_energy NoRho) B X u) 0).
    assert (Q := quotient_vjp _ _ _ _ D1 D3). cbv beta in Q. assert (U0 : total state_energy A X (along u v 0) = total state_energy A X u).
    { unfold total, state_energy, dot, gather, along. apply lsum_ext. intros e _. apply rsum_ext. intros q _. do 2 f_equal. apply rsum_ext; intros; ring. }
    rewrite U0 in Q. change (total (vol_energy NoRho) B X (along u v 0)) with (total (vol_energy NoRho) B X u) in Q. specialize (Q Z).
    assert (G0 : forall x, dot N (assembled vol_grad B X u) x = 0).
    { intros x. unfold dot. rewrite (rsum_ext N _ (fun _ => 0)); [apply rsum_0|]. intros J _. unfold assembled.
      rewrite (lsum_ext _ (fun _ => 0)); [rewrite lsum_0; ring|]. intros e _. unfold scatter_to, vol_grad.
      rewrite (rsum_ext _ _ (fun _ => 0)); [apply rsum_0|]. intros i _. now destruct (Nat.eqb J (e_dof e i)). }
    eexists. split; [exact Q|]. split.
    + unfold average_state_jvp. cbv zeta. rewrite G0. field. exact Z.
    + unfold average_state_vjp. cbv zeta. set (s := total state_energy A X u) in *. set (w := total (vol_energy NoRho) B X u) in *.
      transitivity (dot N wb v + ob / w * dot N (assembled state_grad A X u) v + - s / w ^ 2 * ob * dot N (assembled vol_grad B X u) v).
      * unfold dot. rewrite <- !rsum_scal, <- !rsum_plus. apply rsum_ext. intros; unfold Rdiv; ring.
      * rewrite G0. unfold Rdiv. ring.
  - assert (D3 := C78_volume_mesh sdim N NN B NoRho X V u HB ltac:(discriminate) ltac:(discriminate)).
    assert (Q := quotient_vjp _ _ _ _ D2 D3). cbv beta in Q. rewrite moved_0' in Q. specialize (Q Z).
    eexists. split; [exact Q|]. unfold average_mesh_vjp. cbv zeta. set (s := total state_energy A X u) in *. set (w := total (vol_energy NoRho) B X u) in *.
    unfold pairing. rewrite <- !rsum_scal, <- !rsum_plus, <- rsum_scal, <- rsum_plus. apply rsum_ext. intros k _.
    rewrite <- !rsum_scal, <- rsum_plus, <- rsum_scal, <- rsum_plus. apply rsum_ext. intros j _. unfold Rdiv. ring.
Qed.
Print Assumptions C78_average_derivatives.
Example C78_average_derivatives_nonvacuous : mesh_ok 2 3 3 [tri (fun j => j)] /\ total (vol_energy NoRho) [tri (fun j => j)] ref_tri (fun _ => 0) <> 0.
Proof. split; [apply tri_ok; auto|]. rewrite (proj2 C78_volume_nonvacuous). lra. Qed.

(** C78 is false of an average of a named field: the output still averages the input "state" when the two have the same
    size; and when the field is given but "state" is not, it averages whatever its scratch vector holds. *)
Theorem C78_named_state_refuted :
  (forall name A B X ins tsize scratch v, ifind "state" ins = Some (tsize, v) -> average_output name A B X ins tsize scratch = average_value A B X v) /\
  (forall name A B X ins tsize scratch, ifind "state" ins = None -> average_output name A B X ins tsize scratch = average_value A B X scratch) /\
  exists A B X (temp state scratch : vec), average_value A B X temp = 300 /\
    average_output "temperature" A B X [("temperature"%string, (3%nat, temp)); ("state"%string, (3%nat, state))] 3 scratch = 1 /\
    average_output "temperature" A B X [("temperature"%string, (3%nat, temp))] 3 scratch = 7.
Proof.
  split; [intros name A B X ins tsize scratch v E; unfold average_output, fo_state; rewrite E, Nat.eqb_refl; reflexivity|].
  split; [intros name A B X ins tsize scratch E; unfold average_output, fo_state; rewrite E; reflexivity|].
  exists [tri (fun j => j)], [tri (fun j => j)], ref_tri, (fun _ => 300), (fun _ => 1), (fun _ => 7).
  assert (K : forall c : R, average_value [tri (fun j => j)] [tri (fun j => j)] ref_tri (fun _ => c) = c).
  { intros c. unfold average_value. rewrite (C78_volume _ _ _ (proj1 C78_volume_nonvacuous)). unfold total, state_energy, lsum.
    cbn [fold_right tri e_nq e_pw e_W e_shape e_ndof e_node]. unfold wt2, det2, iso_jac, nodes_of, gather, signed_area, ref_tri, tri_dN, dot. cbn. field. }
  unfold average_output, fo_state. cbn [ifind String.eqb Ascii.eqb Bool.eqb Nat.eqb]. rewrite !K. auto.
Qed.
Print Assumptions C78_named_state_refuted.

(** C78: on elements whose CalcShape assigns the vector, evaluation never overruns the shape buffer; it does on the first
    element with points that writes in place. *)
Theorem C78_shape_buffer_refuted :
  (forall M s, List.Forall (fun p => fst p = true) M -> exists s', state_energy_run M s = Ret s') /\
  (forall e M, (0 < e_nq e)%nat -> (0 < e_ndof e)%nat -> state_energy_run ((false, e) :: M) 0 = UB).
Proof.
  split.
  - intros M. induction M as [|[a e] M IH]; intros s H; [exists s; reflexivity|]. inversion H as [|? ? H1 H2]; subst. cbn in H1. subst a.
    cbn [state_energy_run]. destruct (Nat.eqb (e_nq e) 0); cbn [rbind calc_shape]; apply IH; exact H2.
  - intros e M Q D. cbn [state_energy_run]. destruct (Nat.eqb_spec (e_nq e) 0); [lia|]. unfold calc_shape.
    assert (E : Nat.ltb 0 (e_ndof e) = true) by now apply Nat.ltb_lt. rewrite E. reflexivity.
Qed.
Print Assumptions C78_shape_buffer_refuted.

(** C78: the boundary flux functional is linear in the temperature with the reported gradient, and for a temperature field
    whose gradient at the points is a (in reference coordinates J^T a) it is minus the sum of conductivity times a . normal. *)
Theorem C78_boundary_flux : forall ndof dim nq pw W1 kap nor dshape adj (u v : vec),
  is_derive (fun t => bn_energy ndof dim nq pw W1 kap nor dshape adj (along u v t)) 0 (dot ndof (bn_vector dim nq pw W1 kap nor dshape adj u) v) /\
  forall (J : nat -> mat) (a : nat -> vec),
    (forall q, (q < nq)%nat -> W1 q <> 0) ->
    (forall q k m, (q < nq)%nat -> (k < dim)%nat -> (m < dim)%nat -> rsum dim (fun l => J q k l * adj q l m) = if Nat.eqb k m then W1 q else 0) ->
    (forall q l, (q < nq)%nat -> (l < dim)%nat -> rsum ndof (fun i => u i * dshape q i l) = rsum dim (fun k => J q k l * a q k)) ->
    bn_energy ndof dim nq pw W1 kap nor dshape adj u = - rsum nq (fun q => kap q * rsum dim (fun k => a q k * nor q k) * pw q).
Proof.
  intros ndof dim nq pw W1 kap nor dshape adj u v. split.
  - unfold bn_vector. rewrite grad_dot. unfold bn_energy.
    apply (DV_sum nq (fun q t => - kap q * dot ndof (bn_dn dim nor dshape adj q) (along u v t) * (pw q / W1 q))). intros q _.
    apply (DV_eq _ 0 (- kap q * dot ndof (bn_dn dim nor dshape adj q) v * (pw q / W1 q))); [|ring].
    apply DV_scal_r, DV_scal. apply shape_derive.
  - intros J a Z HJ HG. unfold bn_energy. rewrite <- (Ropp_involutive (rsum nq _)). f_equal.
    replace (- rsum nq (fun q => - kap q * dot ndof (bn_dn dim nor dshape adj q) u * (pw q / W1 q)))
      with ((-1) * rsum nq (fun q => - kap q * dot ndof (bn_dn dim nor dshape adj q) u * (pw q / W1 q))) by ring.
    rewrite <- rsum_scal. apply rsum_ext. intros q Hq.
    assert (E : dot ndof (bn_dn dim nor dshape adj q) u = W1 q * rsum dim (fun k => a q k * nor q k)).
    { unfold dot, bn_dn. rewrite (rsum_ext ndof _ (fun i => rsum dim (fun l => u i * dshape q i l * bn_nh dim nor adj q l)))
        by (intros; rewrite <- rsum_scal_r; apply rsum_ext; intros; ring).
      rewrite rsum_swap. rewrite (rsum_ext dim _ (fun l => rsum dim (fun k => J q k l * a q k) * bn_nh dim nor adj q l))
        by (intros l Hl; now rewrite rsum_scal_r, HG).
      unfold bn_nh, mv. rewrite (rsum_ext dim _ (fun l => rsum dim (fun k => a q k * rsum dim (fun m => J q k l * adj q l m * nor q m)))).
      - rewrite rsum_swap. rewrite <- rsum_scal. apply rsum_ext. intros k Hk. rewrite rsum_scal, rsum_swap.
        rewrite (rsum_ext dim (fun m => rsum dim (fun l => J q k l * adj q l m * nor q m)) (fun m => if Nat.eqb m k then W1 q * nor q m else 0)).
        + rewrite (rsum_delta dim (fun m => W1 q * nor q m) k Hk). ring.
        + intros m Hm. rewrite rsum_scal_r, HJ by assumption. rewrite (Nat.eqb_sym m k). destruct (Nat.eqb k m); ring.
      - intros l Hl. rewrite <- rsum_scal_r. apply rsum_ext. intros k Hk. rewrite <- !rsum_scal. apply rsum_ext. intros; ring. }
    rewrite E. field. now apply Z.
Qed.
Print Assumptions C78_boundary_flux.
Example C78_boundary_flux_nonvacuous :
  bn_energy 2 1 1 (fun _ => 1) (fun _ => 2) (fun _ => 5) (fun _ _ => 1) (fun _ i _ => match i with O => -1 | _ => 1 end) (fun _ _ _ => 1) (fun i => INR i * 6) = - (5 * 3 * 1).
Proof. unfold bn_energy, bn_dn, bn_nh, mv, dot. cbn. lra. Qed.

(** * C79 *)
(** C79: the aggregate is the induced exponential of the values at the quadrature points, whatever shift is used. *)
Theorem C79_value : forall M X u rho tm, agg_value M X u rho tm = induced_exponential rho (samples M X u).
Proof. exact agg_shift. Qed.
Print Assumptions C79_value.

(** C79: with positive weights the aggregate lies between the smallest and the largest value, does not decrease with rho, is
    the mean for rho = 0, and is within volume / (w rho) of the maximum, w the weight of a point where it is attained. *)
Theorem C79_bounds : forall M X u rho tm lo hi, weights_positive (samples M X u) ->
  (forall g w, In (g, w) (samples M X u) -> lo <= g <= hi) -> lo <= agg_value M X u rho tm <= hi.
Proof. intros M X u rho tm lo hi P H. rewrite agg_shift. now apply ie_bounds. Qed.
Print Assumptions C79_bounds.
Theorem C79_monotone : forall M X u rho1 rho2 tm1 tm2, weights_positive (samples M X u) -> rho1 <= rho2 ->
  agg_value M X u 0 tm1 = mean (samples M X u) /\ agg_value M X u rho1 tm1 <= agg_value M X u rho2 tm2.
Proof. intros M X u rho1 rho2 tm1 tm2 P H. rewrite !agg_shift. split; [apply ie_zero|now apply ie_monotone]. Qed.
Print Assumptions C79_monotone.
Theorem C79_maximum : forall M X u rho tm m w, 0 < rho -> weights_positive (samples M X u) -> In (m, w) (samples M X u) -> is_maximum m (samples M X u) ->
  m - measure (samples M X u) / (w * rho) <= agg_value M X u rho tm <= m.
Proof.
  intros M X u rho tm m w R0 P I [_ H]. rewrite agg_shift. assert (G := ie_gap rho _ m w R0 P I H). split; [lra|].
  destruct (ie_bounds rho (samples M X u) (fold_right (fun p a => Rmin (fst p) a) m (samples M X u)) m P) as [_ B]; [|exact B].
  intros g w' I'. split; [|now apply (H g w')]. clear -I'. induction (samples M X u) as [|p l IH]; [elim I'|]. cbn [fold_right].
  destruct I' as [->|I']; [apply Rmin_l|]. eapply Rle_trans; [apply Rmin_r|now apply IH].
Qed.
Print Assumptions C79_maximum.
(** two triangles sharing no dofs, temperatures 300 and 400 *)
Definition two : list elem := [tri (fun j => j); tri (fun j => 3 + j)%nat].
Definition two_X : mat := fun k j => match j with O | S O | S (S O) => ref_tri k j | S (S (S m)) => ref_tri k m end.
Definition two_u : vec := fun i => if Nat.ltb i 3 then 300 else 400.
Lemma two_samples : samples two two_X two_u = [(300, 1 / 2); (400, 1 / 2)].
Proof.
  unfold samples, two. cbn [flat_map seq map app tri e_nq e_pw e_W e_node e_ndof e_shape e_dof].
  assert (E1 : rsum 3 (fun i => 1 / 3 * two_u i) = 300) by (unfold two_u; cbn; lra).
  assert (E2 : rsum 3 (fun i => 1 / 3 * two_u (3 + i)%nat) = 400) by (unfold two_u; cbn; lra).
  assert (W1 : 1 / 2 * wt2 3 tri_dN (fun k j => two_X k j) = 1 / 2) by (unfold wt2, det2, iso_jac, two_X, ref_tri, tri_dN; cbn; lra).
  assert (W2 : 1 / 2 * wt2 3 tri_dN (fun k j => two_X k (3 + j)%nat) = 1 / 2) by (unfold wt2, det2, iso_jac, two_X, ref_tri, tri_dN; cbn; lra).
  rewrite E1, E2, W1, W2. reflexivity.
Qed.
Lemma two_ok : mesh_ok 2 6 6 two.
Proof.
  intros e [<-|[<-|[]]]; cbn [tri e_ndof e_dof e_nn e_node e_nq e_W e_WRev]; (split; [intros; lia|split; [intros; lia|intros q _; apply wt2_ok]]).
Qed.
Lemma two_positive : weights_positive (samples two two_X two_u).
Proof. rewrite two_samples. split; [discriminate|]. intros g w [E|[E|[]]]; injection E as <- <-; lra. Qed.
Example C79_nonvacuous : weights_positive (samples two two_X two_u) /\ In (400, 1 / 2) (samples two two_X two_u) /\ is_maximum 400 (samples two two_X two_u) /\
  399 <= agg_value two two_X two_u 2 400 <= 400.
Proof.
  assert (M : is_maximum 400 (samples two two_X two_u)).
  { rewrite two_samples. split; [exists (1 / 2); cbn; tauto|]. intros g w [E|[E|[]]]; injection E as <- <-; lra. }
  assert (I : In (400, 1 / 2) (samples two two_X two_u)) by (rewrite two_samples; cbn; tauto).
  split; [exact two_positive|]. split; [exact I|]. split; [exact M|].
  assert (B := C79_maximum two two_X two_u 2 400 400 (1 / 2) ltac:(lra) two_positive I M).
  assert (E : measure (samples two two_X two_u) = 1) by (rewrite two_samples; unfold measure; cbn; lra). rewrite E in B. lra.
Qed.

(** C79: the forward and reverse products are the derivatives of the aggregate, with respect to the state and the mesh,
    whatever shift the last evaluation left. *)
Theorem C79_derivatives : forall sdim N NN (M : list elem) X V u v rho tm out_bar wrt_bar wrt_bar', mesh_ok sdim N NN M -> weights_positive (samples M X u) ->
  (exists d, is_derive (fun t => agg_value M X (along u v t) rho tm) 0 d /\ agg_state_jvp N M X u rho tm v = d /\
     dot N (agg_state_vjp M X u rho tm out_bar wrt_bar) v = dot N wrt_bar v + out_bar * d) /\
  (exists d, is_derive (fun t => agg_value M (moved X V t) u rho tm) 0 d /\
     pairing sdim NN (agg_mesh_vjp M X u rho tm out_bar wrt_bar') V = pairing sdim NN wrt_bar' V + out_bar * d).
Proof.
  intros sdim N NN M X V u v rho tm ob wb wb' H P.
  assert (Z : total (den_energy rho tm) M X u <> 0).
  { rewrite den_samples. destruct (shifted rho tm (samples M X u)) as [_ ->]. assert (D := den_pos rho _ P). assert (E := exp_pos (- (rho * tm))). nra. }
  split.
  - assert (D1 : is_derive (fun t => total (num_energy rho tm) M X (along u v t)) 0 (dot N (assembled (num_grad rho tm) M X u) v))
      by (apply total_state_derive; [intros e He; apply (H e He)|intros e X0 u0 v0 _; apply num_state]).
    assert (D2 : is_derive (fun t => total (den_energy rho tm) M X (along u v t)) 0 (dot N (assembled (den_grad rho tm) M X u) v))
      by (apply total_state_derive; [intros e He; apply (H e He)|intros e X0 u0 v0 _; apply den_state]).
    assert (G : forall e q, ie_g e (gather (e_ndof e) (e_dof e) (along u v 0)) q = ie_g e (gather (e_ndof e) (e_dof e) u) q)
      by (intros; unfold ie_g, dot, gather, along; apply rsum_ext; intros; ring).
    assert (A0 : total (num_energy rho tm) M X (along u v 0) = total (num_energy rho tm) M X u)
      by (unfold total, num_energy, ie_exp; apply lsum_ext; intros e _; apply rsum_ext; intros q _; now rewrite G).
    assert (B0 : total (den_energy rho tm) M X (along u v 0) = total (den_energy rho tm) M X u)
      by (unfold total, den_energy, ie_exp; apply lsum_ext; intros e _; apply rsum_ext; intros q _; now rewrite G).
    assert (Q := quotient_vjp _ _ _ _ D1 D2). cbv beta in Q. rewrite A0, B0 in Q. specialize (Q Z).
    eexists. split; [exact Q|]. split; [unfold agg_state_jvp; cbv zeta; field; exact Z|].
    unfold agg_state_vjp. cbv zeta. set (a := total (num_energy rho tm) M X u) in *. set (b := total (den_energy rho tm) M X u) in *.
    unfold dot. rewrite <- !rsum_scal, <- !rsum_plus, <- rsum_scal, <- rsum_plus. apply rsum_ext. intros i _. unfold Rdiv. ring.
  - assert (D1 : is_derive (fun t => total (num_energy rho tm) M (moved X V t) u) 0 (pairing sdim NN (assembled_mesh (num_mesh rho tm) M X u) V))
      by (apply total_mesh_derive; [intros e He; apply (H e He)|intros e X0 V0 u0 He; apply num_mesh_derive; apply (H e He)]).
    assert (D2 : is_derive (fun t => total (den_energy rho tm) M (moved X V t) u) 0 (pairing sdim NN (assembled_mesh (den_mesh rho tm) M X u) V))
      by (apply total_mesh_derive; [intros e He; apply (H e He)|intros e X0 V0 u0 He; apply den_mesh_derive; apply (H e He)]).
    assert (Q := quotient_vjp _ _ _ _ D1 D2). cbv beta in Q. rewrite moved_0' in Q. specialize (Q Z).
    eexists. split; [exact Q|]. unfold agg_mesh_vjp. cbv zeta. set (a := total (num_energy rho tm) M X u) in *. set (b := total (den_energy rho tm) M X u) in *.
    unfold pairing. rewrite <- !rsum_scal, <- !rsum_plus, <- rsum_scal, <- rsum_plus. apply rsum_ext. intros k _.
    rewrite <- !rsum_scal, <- rsum_plus, <- rsum_scal, <- rsum_plus. apply rsum_ext. intros j _. unfold Rdiv. ring.
Qed.
Print Assumptions C79_derivatives.
Example C79_derivatives_nonvacuous : mesh_ok 2 6 6 two /\ weights_positive (samples two two_X two_u).
Proof. split; [exact two_ok|exact two_positive]. Qed.

(** C79 is false of a run on several processes: every process shifts by the maximum of its own part, so a field that is
    constant on each process gives the plain average for every rho, at 300 and 400 always 350, where a run on one
    process gives more than 399 for rho = 2. *)
Theorem C79_processes_refuted :
  (forall rho, agg_parallel rho
     [{| p_elems := [tri (fun j => j)]; p_nodes := ref_tri; p_size := 3; p_state := fun _ => 300; p_local := fun _ => 300 |};
      {| p_elems := [tri (fun j => j)]; p_nodes := ref_tri; p_size := 3; p_state := fun _ => 400; p_local := fun _ => 400 |}] = 350) /\
  samples two two_X two_u = samples [tri (fun j => j)] ref_tri (fun _ => 300) ++ samples [tri (fun j => j)] ref_tri (fun _ => 400) /\
  399 <= agg_value two two_X two_u 2 400.
Proof.
  assert (S : forall c, samples [tri (fun j => j)] ref_tri (fun _ => c) = [(c, 1 / 2)]).
  { intros c. unfold samples. cbn [flat_map seq map app tri e_nq e_pw e_W e_node e_ndof e_shape e_dof].
    assert (E1 : rsum 3 (fun i => 1 / 3 * c) = c) by (cbn; lra).
    assert (W1 : 1 / 2 * wt2 3 tri_dN (fun k j => ref_tri k j) = 1 / 2) by (unfold wt2, det2, iso_jac, ref_tri, tri_dN; cbn; lra).
    now rewrite E1, W1. }
  split; [|split; [now rewrite two_samples, !S|apply C79_nonvacuous]].
  intros rho. unfold agg_parallel. unfold lsum. cbn [fold_right p_elems p_nodes p_local]. rewrite !num_samples, !den_samples, !S.
  unfold p_true_max. cbn [vmax p_size p_state]. unfold lsum. cbn [fold_right fst snd].
  rewrite !(Rmax_left 300), !(Rmax_left 400) by lra. replace (rho * (300 - 300)) with 0 by ring. replace (rho * (400 - 400)) with 0 by ring. rewrite exp_0. field.
Qed.
Print Assumptions C79_processes_refuted.

(** C79 is false of an aggregate of a named field evaluated without an input "state": no finite shift, no result; with it
    the value is the aggregate of the named field. *)
Theorem C79_named_field_refuted :
  (forall name rho M X ins tsize scratch n v v', ifind "state" ins = Some (S n, v') -> ifind name ins = Some (tsize, v) ->
     agg_output name rho M X ins tsize scratch = Some (induced_exponential rho (samples M X v))) /\
  (forall rho M X v tsize scratch, agg_output "temperature" rho M X [("temperature"%string, (tsize, v))] tsize scratch = None).
Proof.
  split.
  - intros name rho M X ins tsize scratch n v v' E1 E2. unfold agg_output, state_max, fo_state. rewrite E1, E2, Nat.eqb_refl.
    cbn [vmax]. destruct (vmax n v'); now rewrite agg_shift.
  - reflexivity.
Qed.
Print Assumptions C79_named_field_refuted.
Example C79_named_field_nonvacuous : ifind "state" [("state"%string, (6%nat, two_u))] = Some (6%nat, two_u) /\
  agg_output "state" 2 two two_X [("state"%string, (6%nat, two_u))] 6 (fun _ => 0) = Some (induced_exponential 2 (samples two two_X two_u)).
Proof. split; [reflexivity|]. apply (proj1 C79_named_field_refuted "state"%string 2 two two_X [("state"%string, (6%nat, two_u))] 6%nat (fun _ => 0) 5%nat two_u two_u); reflexivity. Qed.
