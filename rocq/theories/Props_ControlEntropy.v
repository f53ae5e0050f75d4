(** C141: entropy of the coupled flow-control residual, over every history of calls. *)
From Coq Require Import Reals String List Bool Arith Lia Lra FunctionalExtensionality.
From Coquelicot Require Import Coquelicot.
From Verif Require Import Num Vec Control ControlProofs Sbp SbpSpec SbpProofs SbpMesh SbpMeshSpec Euler EulerSpec ViscWall ViscWallSpec FlowJac FlowJacSpec FlowJacProofs FluxSmooth2 EntropyRate EntropyRateSpec
  EntropyRateProofs EntropyRateProofs2 ControlEntropy ControlEntropyProofs Props_Control Props_EntropyRate Props_ViscWall.
Import ListNotations.
Local Open Scope R_scope.

(** the total entropy reported is the mesh integral of the gas's entropy plus the controller's quadratic storage, with
    the matrix P supplied in this call or, if none is, the one supplied last *)
Theorem C141_total_entropy :
  forall test_ode d entvar N M l x u g k k' E, well_formed N M -> valid_gas d entvar N u g ->
  calcEntropy_ test_ode d entvar M l x u k = (k', Value E) ->
  exists p00 p01 p10 p11, E = mesh_integral M (fun i => math_entropy (g_rho g i) (g_p g i)) +
    (if test_ode then 1/2 * (x 0%nat * x 0%nat + x 1%nat * x 1%nat)
     else 1/2 * (x 0%nat * (p00 * x 0%nat + p01 * x 1%nat) + x 1%nat * (p10 * x 0%nat + p11 * x 1%nat))) /\
  (forall p, find "P-matrix" l = Some (Arr p) -> p00 = p 0%nat /\ p01 = p 1%nat /\ p10 = p 1%nat /\ p11 = p 3%nat) /\
  (find "P-matrix" l = None -> p00 = P (k_ctrl k) 0%nat 0%nat /\ p01 = P (k_ctrl k) 0%nat 1%nat /\ p10 = P (k_ctrl k) 1%nat 0%nat /\ p11 = P (k_ctrl k) 1%nat 1%nat).
Proof.
  intros test_ode d entvar N M l x u g k k' E WF VG H. unfold calcEntropy_ in H. destruct (setInputs_ l x k) as [k1 e] eqn:S. destruct e; try discriminate.
  rewrite ctrl_state in H. injection H as <- <-. destruct (setInputs_fine l x k k1 S) as [C _].
  destruct (C58_parameters _ _ _ C) as (_ & _ & _ & _ & _ & P0 & P1).
  exists (P (k_ctrl k1) 0%nat 0%nat), (P (k_ctrl k1) 0%nat 1%nat), (P (k_ctrl k1) 1%nat 0%nat), (P (k_ctrl k1) 1%nat 1%nat). split; [|split].
  - rewrite (entropy_is_integral d entvar N M u g WF VG). f_equal. unfold Control.entropy, innerProduct. destruct test_ode; cbn; [reflexivity|]. lra.
  - intros p Hp. destruct (P1 p Hp) as (A & B & D & F & _). auto.
  - intros HN. rewrite (P0 HN). auto.
Qed.
Print Assumptions C141_total_entropy.

(** after any history: when the coupled residual is defined at the end of the interval, the change is reported; it is the
    flow residual of that evaluation weighted with the gas's entropy variables, minus x^T P xdot *)
Theorem C141_change_is_weighted_residual :
  forall test_ode d N entvar lps visc ifc M bcs walls be sr h l x u g w xd ud t dt k2 rc r, well_formed N M -> (visc <> None -> entvar = false) ->
  valid_gas d entvar N u g -> entropy_variables d N g w -> (forall vel a s f, In f (walls vel a s) -> wall_fits N f) ->
  let k := history test_ode d entvar lps visc ifc M bcs walls be sr h in
  find "time" l = Some (Num t) -> find "dt" l = Some (Num dt) ->
  evaluate_ test_ode d entvar lps visc ifc M bcs walls be [("time"%string, Num (t + dt))] x u k = (k2, Value (rc, Some r)) ->
  snd (calcEntropyChange_ test_ode d entvar lps visc ifc M bcs walls be l x u xd ud k) =
  Value (rsum N (fun i => dot (d + 2) (w i) (r i)) +
    (if test_ode then - (x 0%nat * xd 0%nat + x 1%nat * xd 1%nat)
     else - (x 0%nat * (P (k_ctrl k) 0%nat 0%nat * xd 0%nat + P (k_ctrl k) 0%nat 1%nat * xd 1%nat) + x 1%nat * (P (k_ctrl k) 1%nat 0%nat * xd 0%nat + P (k_ctrl k) 1%nat 1%nat * xd 1%nat)))).
Proof.
  intros test_ode d N entvar lps visc ifc M bcs walls be sr h l x u g w xd ud t dt k2 rc r WF VE VG EW WW k HT HD HE.
  destruct (inv_history test_ode d entvar lps visc ifc M bcs walls be sr h) as (I1 & I2 & I3). fold k in I1, I2, I3.
  assert (S : exists k1, setInputs_ [("time"%string, Num (t + dt))] x k = (k1, Fine) /\ k_act k1 = k_act k /\ f_time (k_flow k1) = t + dt /\ Kp (k_ctrl k1) = Kp (k_ctrl k) /\
     target_entropy (k_ctrl k1) = target_entropy (k_ctrl k) /\ eta (k_ctrl k1) = eta (k_ctrl k)).
  { unfold setInputs_, setInputs, seq, set_num, set_arr, set_closed, set_P. cbn -[Rabs eps Rltb]. eexists. repeat split; reflexivity. }
  destruct S as (k1 & S & A1 & T1 & K1 & K2 & K3).
  destruct (k_act k) as [a|] eqn:A.
  2:{ unfold evaluate_ in HE. rewrite S in HE. rewrite (vel_none test_ode be x u k1) in HE by congruence. discriminate. }
  rewrite (evaluate_value test_ode d entvar lps visc ifc M bcs walls be _ x u k k1 a S A1) in HE. rewrite T1 in HE.
  assert (VV : vel_of test_ode x (be a u) (k_ctrl k1) = vel_of test_ode x (be a u) (k_ctrl k)) by (unfold vel_of; rewrite K1, K2, K3; reflexivity).
  rewrite VV in HE. injection HE as _ _ HR. set (vel := vel_of test_ode x (be a u) (k_ctrl k)) in *.
  rewrite (change_value test_ode d entvar lps visc ifc M bcs walls be l x u xd ud k a t dt HT HD A (I1 a eq_refl)). fold vel.
  destruct (calcEntropyChange d entvar lps visc ifc M (bcs vel a) (walls vel a) t dt u ud) as [flow|] eqn:EC.
  2:{ apply C137_reported_when_defined in EC. congruence. }
  rewrite (C137_change_is_weighted_residual d N entvar lps visc ifc M (bcs vel a) (walls vel a) u g w t dt ud flow r WF VE VG EW (WW vel a (t + dt)) HR EC).
  apply f_equal. apply f_equal. unfold entropyChange, innerProduct, dot. destruct test_ode; cbn; [lra|].
  unfold P_symmetric in I3. rewrite I3. lra.
Qed.
Print Assumptions C141_change_is_weighted_residual.

(** and it is minus the rate at which the reported total entropy changes along the direction (xdot, v), v the rate of the
    flow equations with the velocity of the controller *)
Theorem C141_change_is_rate :
  forall test_ode d N lps visc ifc M bcs walls be sr h l x u xd ud v t dt k2 rc r, well_formed N M -> (forall i, (i < N)%nat -> physical d (u i)) ->
  (forall vel a s f, In f (walls vel a s) -> wall_fits N f) ->
  let k := history test_ode d false lps visc ifc M bcs walls be sr h in
  find "time" l = Some (Num t) -> find "dt" l = Some (Num dt) ->
  evaluate_ test_ode d false lps visc ifc M bcs walls be [("time"%string, Num (t + dt))] x u k = (k2, Value (rc, Some r)) ->
  (forall i m, (i < N)%nat -> (m < d + 2)%nat -> massMult N (d + 2) (massMatrix d (d + 2) false M) v i m = - r i m) ->
  exists rate E, snd (calcEntropyChange_ test_ode d false lps visc ifc M bcs walls be l x u xd ud k) = Value rate /\
  (forall s, snd (calcEntropy_ test_ode d false M [] (fun i => x i + s * xd i) (fun i => axpy (u i) s (v i)) k) = Value (E s)) /\
  is_derive E 0 (- rate).
Proof.
  intros test_ode d N lps visc ifc M bcs walls be sr h l x u xd ud v t dt k2 rc r WF HU WW k HT HD HE EQ.
  destruct (inv_history test_ode d false lps visc ifc M bcs walls be sr h) as (I1 & I2 & I3). fold k in I1, I2, I3.
  assert (S : exists k1, setInputs_ [("time"%string, Num (t + dt))] x k = (k1, Fine) /\ k_act k1 = k_act k /\ f_time (k_flow k1) = t + dt /\ Kp (k_ctrl k1) = Kp (k_ctrl k) /\
     target_entropy (k_ctrl k1) = target_entropy (k_ctrl k) /\ eta (k_ctrl k1) = eta (k_ctrl k)).
  { unfold setInputs_, setInputs, seq, set_num, set_arr, set_closed, set_P. cbn -[Rabs eps Rltb]. eexists. repeat split; reflexivity. }
  destruct S as (k1 & S & A1 & T1 & K1 & K2 & K3).
  destruct (k_act k) as [a|] eqn:A.
  2:{ unfold evaluate_ in HE. rewrite S in HE. rewrite (vel_none test_ode be x u k1) in HE by congruence. discriminate. }
  rewrite (evaluate_value test_ode d false lps visc ifc M bcs walls be _ x u k k1 a S A1) in HE. rewrite T1 in HE.
  assert (VV : vel_of test_ode x (be a u) (k_ctrl k1) = vel_of test_ode x (be a u) (k_ctrl k)) by (unfold vel_of; rewrite K1, K2, K3; reflexivity).
  rewrite VV in HE. injection HE as _ _ HR. set (vel := vel_of test_ode x (be a u) (k_ctrl k)) in *.
  rewrite (change_value test_ode d false lps visc ifc M bcs walls be l x u xd ud k a t dt HT HD A (I1 a eq_refl)). fold vel.
  destruct (calcEntropyChange d false lps visc ifc M (bcs vel a) (walls vel a) t dt u ud) as [flow|] eqn:EC.
  2:{ apply C137_reported_when_defined in EC. congruence. }
  exists (flow + entropyChange test_ode (upd_x x (k_ctrl k)) xd).
  exists (fun s => calcEntropy d false M (fun i => axpy (u i) s (v i)) + Control.entropy test_ode (upd_x (fun i => x i + s * xd i) (k_ctrl k))).
  split; [reflexivity|]. split.
  - intros s. unfold calcEntropy_. 
    assert (S0 : exists k0, setInputs_ [] (fun i => x i + s * xd i) k = (k0, Fine) /\ P (k_ctrl k0) = P (k_ctrl k)).
    { unfold setInputs_, setInputs, seq, set_num, set_arr, set_closed, set_P. cbn -[Rabs eps Rltb]. eexists. split; reflexivity. }
    destruct S0 as (k0 & S0 & P0). rewrite S0, ctrl_state. cbn [snd]. apply f_equal. apply f_equal. unfold Control.entropy. cbn. rewrite P0. reflexivity.
  - replace (- (flow + entropyChange test_ode (upd_x x (k_ctrl k)) xd)) with (- flow + - entropyChange test_ode (upd_x x (k_ctrl k)) xd) by ring.
    apply @is_derive_plus.
    + exact (C138_entropy_rate d N lps visc ifc M (bcs vel a) (walls vel a) u ud v t dt r flow WF HU (WW vel a (t + dt)) HR EQ EC).
    + pose proof (C58_entropy_change test_ode (k_ctrl k) (fun s i => x i + s * xd i) 0 xd I3) as D. cbv beta in D.
      replace (fun i : nat => x i + 0 * xd i) with x in D by (apply functional_extensionality; intros; ring). apply D.
      intros i Hi. auto_derive; [exact I|ring].
Qed.
Print Assumptions C141_change_is_rate.

(** along the coupled equations the test controller gives up the control velocity times the boundary entropy: the total
    change is that of the flow plus this supply *)
Theorem C141_test_controller :
  forall d N lps visc ifc M bcs walls be sr h l x u g w ud t dt k2 rc r, well_formed N M ->
  valid_gas d false N u g -> entropy_variables d N g w -> (forall vel a s f, In f (walls vel a s) -> wall_fits N f) ->
  let k := history true d false lps visc ifc M bcs walls be sr h in
  find "time" l = Some (Num t) -> find "dt" l = Some (Num dt) ->
  evaluate_ true d false lps visc ifc M bcs walls be [("time"%string, Num (t + dt))] x u k = (k2, Value (rc, Some r)) ->
  exists a, k_act k = Some a /\
  snd (calcEntropyChange_ true d false lps visc ifc M bcs walls be l x u (fun i => - rc i) ud k) = Value (rsum N (fun i => dot (d + 2) (w i) (r i)) + x 1%nat * be a u).
Proof.
  intros d N lps visc ifc M bcs walls be sr h l x u g w ud t dt k2 rc r WF VG EW WW k HT HD HE.
  destruct (k_act k) as [a|] eqn:A.
  - exists a. split; [reflexivity|].
    rewrite (C141_change_is_weighted_residual true d N false lps visc ifc M bcs walls be sr h l x u g w _ ud t dt k2 rc r WF ltac:(reflexivity) VG EW WW HT HD HE).
    apply f_equal. apply f_equal.
    assert (S : exists k1, setInputs_ [("time"%string, Num (t + dt))] x k = (k1, Fine) /\ k_act k1 = k_act k).
    { unfold setInputs_, setInputs, seq, set_num, set_arr, set_closed, set_P. cbn -[Rabs eps Rltb]. eexists. split; reflexivity. }
    destruct S as (k1 & S & A1). rewrite (evaluate_value true d false lps visc ifc M bcs walls be _ x u k k1 a S) in HE by congruence. injection HE as _ <- _.
    unfold residual. cbn. ring.
  - exfalso. unfold evaluate_ in HE.
    assert (S : exists k1, setInputs_ [("time"%string, Num (t + dt))] x k = (k1, Fine) /\ k_act k1 = k_act k).
    { unfold setInputs_, setInputs, seq, set_num, set_arr, set_closed, set_P. cbn -[Rabs eps Rltb]. eexists. split; reflexivity. }
    destruct S as (k1 & S & A1). rewrite S in HE. rewrite (vel_none true be x u k1) in HE by congruence. discriminate.
Qed.
Print Assumptions C141_test_controller.

(** the actuator position supplied last, through a call that succeeded, is the one of the boundary conditions and of the
    boundary entropy, whatever calls follow that do not supply another, also calls that end in an exception *)
Theorem C141_actuator_remembered :
  forall test_ode d entvar lps visc ifc M bcs walls be sr h l x k1 a h',
  setInputs_ l x (history test_ode d entvar lps visc ifc M bcs walls be sr h) = (k1, Fine) -> find "x-actuator" l = Some (Arr a) ->
  List.Forall (fun c => find "x-actuator" (inputs_of c) = None) h' ->
  let k := history test_ode d entvar lps visc ifc M bcs walls be sr (h ++ CSet l x :: h') in
  k_act k = Some a /\ f_act (k_flow k) = Some a.
Proof.
  intros test_ode d entvar lps visc ifc M bcs walls be sr h l x k1 a h' S HA F k. unfold k. rewrite history_app. cbn [fold_left after]. rewrite S. cbn [fst].
  pose proof (inv_history test_ode d entvar lps visc ifc M bcs walls be sr h) as I. pose proof (inv_set l x _ I) as I1. rewrite S in I1. cbn [fst] in I1.
  destruct (keeps test_ode d entvar lps visc ifc M bcs walls be sr h' k1 I1 F) as [J K].
  pose proof (setInputs_act_fine _ _ _ _ S) as Q. rewrite HA in Q. destruct Q as [Q _]. rewrite Q in K. split; [exact K|]. apply J, K.
Qed.
Print Assumptions C141_actuator_remembered.

(** what the residual returns depends on the past only through inputs this call leaves out: two objects with any past
    agree when time, actuator position and the controller's parameters are supplied *)
Theorem C141_evaluate_independent_of_history :
  forall test_ode d entvar lps visc ifc M bcs walls be l x u k k' k1 k1', setInputs_ l x k = (k1, Fine) -> setInputs_ l x k' = (k1', Fine) ->
  (forall n, In n ["time"; "Kp"; "Td"; "Ti"; "eta"; "beta"; "target-entropy"]%string -> exists v, find n l = Some (Num v)) -> (exists a, find "x-actuator" l = Some (Arr a)) ->
  snd (evaluate_ test_ode d entvar lps visc ifc M bcs walls be l x u k) = snd (evaluate_ test_ode d entvar lps visc ifc M bcs walls be l x u k').
Proof.
  intros test_ode d entvar lps visc ifc M bcs walls be l x u k k' k1 k1' S S' HN (a & HA).
  pose proof (setInputs_act_fine _ _ _ _ S) as Q. rewrite HA in Q. destruct Q as [Q _]. pose proof (setInputs_act_fine _ _ _ _ S') as Q'. rewrite HA in Q'. destruct Q' as [Q' _].
  rewrite (evaluate_value test_ode d entvar lps visc ifc M bcs walls be l x u k k1 a S Q), (evaluate_value test_ode d entvar lps visc ifc M bcs walls be l x u k' k1' a S' Q'). cbn [snd].
  destruct (setInputs_fine _ _ _ _ S) as [C F]. destruct (setInputs_fine _ _ _ _ S') as [C' F'].
  destruct (C58_parameters _ _ _ C) as (PA & _). destruct (C58_parameters _ _ _ C') as (PA' & _).
  assert (EQ : forall n f, In (n, f) [("Kp"%string, Kp); ("Td"%string, Td); ("Ti"%string, Ti); ("eta"%string, eta); ("beta"%string, beta); ("target-entropy"%string, target_entropy)] -> f (k_ctrl k1) = f (k_ctrl k1')).
  { intros n f Hn. assert (exists v, find n (set_state x l) = Some (Num v)) as (v & Hv).
    { assert (n <> "state"%string /\ In n ["time"; "Kp"; "Td"; "Ti"; "eta"; "beta"; "target-entropy"]%string) as [N1 N2].
      { destruct Hn as [E|[E|[E|[E|[E|[E|[]]]]]]]; injection E as <- <-; (split; [discriminate|cbn; tauto]). }
      destruct (HN n N2) as (v & Hv). exists v. unfold set_state. cbn [find]. destruct (String.eqb_spec n "state"); [contradiction|exact Hv]. }
    assert (Hi : In (n, f) [("Kp"%string, Kp); ("Td"%string, Td); ("Ti"%string, Ti); ("eta"%string, eta); ("beta"%string, beta); ("target-entropy"%string, target_entropy); ("boundary-entropy"%string, boundary_entropy); ("time"%string, time)])
      by (cbn in *; tauto).
    rewrite (proj1 (PA n f Hi) v Hv), (proj1 (PA' n f Hi) v Hv). reflexivity. }
  assert (E1 : Kp (k_ctrl k1) = Kp (k_ctrl k1')) by (apply (EQ "Kp"%string Kp); cbn; tauto).
  assert (E2 : Td (k_ctrl k1) = Td (k_ctrl k1')) by (apply (EQ "Td"%string Td); cbn; tauto).
  assert (E3 : Ti (k_ctrl k1) = Ti (k_ctrl k1')) by (apply (EQ "Ti"%string Ti); cbn; tauto).
  assert (E4 : eta (k_ctrl k1) = eta (k_ctrl k1')) by (apply (EQ "eta"%string eta); cbn; tauto).
  assert (E5 : beta (k_ctrl k1) = beta (k_ctrl k1')) by (apply (EQ "beta"%string beta); cbn; tauto).
  assert (E6 : target_entropy (k_ctrl k1) = target_entropy (k_ctrl k1')) by (apply (EQ "target-entropy"%string target_entropy); cbn; tauto).
  assert (ET : f_time (k_flow k1) = f_time (k_flow k1')).
  { destruct (HN "time"%string ltac:(cbn; tauto)) as (t & Ht). revert F F'. unfold flow_set. rewrite Ht, HA. destruct (find "control" l) as [[]|]; intros F F'; try discriminate; injection F as <-; injection F' as <-; reflexivity. }
  apply f_equal. assert (EV : vel_of test_ode x (be a u) (k_ctrl k1) = vel_of test_ode x (be a u) (k_ctrl k1')) by (unfold vel_of; rewrite E1, E4, E6; reflexivity).
  rewrite EV, ET. apply f_equal2; [|reflexivity]. unfold residual. cbn. rewrite E1, E2, E3, E4, E5, E6. reflexivity.
Qed.
Print Assumptions C141_evaluate_independent_of_history.

(** the built-in actuator position (1/2, 0) is never used: until the caller supplies "x-actuator" neither the residual nor the change has a value *)
Theorem C141_actuator_default_refuted :
  forall test_ode d entvar lps visc ifc M bcs walls be sr h l x u xd ud, List.Forall (fun c => find "x-actuator" (inputs_of c) = None) h ->
  let k := history test_ode d entvar lps visc ifc M bcs walls be sr h in
  (exists a, f_act (k_flow k) = Some a) /\
  (find "x-actuator" l = None -> forall v, snd (evaluate_ test_ode d entvar lps visc ifc M bcs walls be l x u k) <> Value v) /\
  (forall v, snd (calcEntropyChange_ test_ode d entvar lps visc ifc M bcs walls be l x u xd ud k) <> Value v).
Proof.
  intros test_ode d entvar lps visc ifc M bcs walls be sr h l x u xd ud F k.
  assert (I : inv k_init) by (apply (inv_history test_ode d entvar lps visc ifc M bcs walls be sr [])).
  destruct (keeps test_ode d entvar lps visc ifc M bcs walls be sr h k_init I F) as [J K]. change (fold_left _ h k_init) with k in J, K. cbn in K.
  split; [apply J|]. split.
  - intros HA v. unfold evaluate_. destruct (setInputs_ l x k) as [k1 e] eqn:S. destruct e; try discriminate.
    pose proof (setInputs_act_fine _ _ _ _ S) as Q. rewrite HA in Q. destruct Q as [Q _]. rewrite (vel_none test_ode be x u k1) by congruence. discriminate.
  - intros v. unfold calcEntropyChange_. destruct (find "time" l) as [[t|]|]; try discriminate. destruct (find "dt" l) as [[dt|]|]; try discriminate.
    rewrite (vel_none test_ode be x u k K). discriminate.
Qed.
Print Assumptions C141_actuator_default_refuted.

(** calcEntropyChange_ reads only "time" and "dt": every other input of that call is without effect *)
Theorem C141_change_ignores_inputs :
  forall test_ode d entvar lps visc ifc M bcs walls be l l' x u xd ud k, find "time" l = find "time" l' -> find "dt" l = find "dt" l' ->
  calcEntropyChange_ test_ode d entvar lps visc ifc M bcs walls be l x u xd ud k = calcEntropyChange_ test_ode d entvar lps visc ifc M bcs walls be l' x u xd ud k.
Proof. intros. unfold calcEntropyChange_. rewrite H, H0. reflexivity. Qed.
Print Assumptions C141_change_ignores_inputs.
(** so that with the same inputs the reported change need not be the rate of the reported entropy: here the entropy is
    1/2 |x|^2 with the P of this call, its rate along xdot = x is 1, and the change reported is 0 *)
Theorem C141_same_inputs_refuted :
  forall a bcs walls be sr, exists l h x,
  let M := {| els := []; ifs := []; bfs := [] |} in
  let k := history false 2 false 0 None None M bcs walls be sr h in
  find "x-actuator" l = Some (Arr a) /\ find "time" l = Some (Num 0) /\ find "dt" l = Some (Num 1) /\
  snd (calcEntropyChange_ false 2 false 0 None None M bcs walls be l x (fun _ _ => 0) x (fun _ _ => 0) k) = Value 0 /\
  (forall s, snd (calcEntropy_ false 2 false M l (fun i => x i + s * x i) (fun _ _ => 0) k) = Value (1/2 * (1 + s) * (1 + s))).
Proof.
  intros a bcs walls be sr.
  set (p := fun i : nat => match i with O | 3%nat => 1 | _ => 0 end). set (x := fun i : nat => match i with O => 1 | _ => 0 end).
  exists [("x-actuator"%string, Arr a); ("time"%string, Num 0); ("dt"%string, Num 1); ("P-matrix"%string, Arr p)], [CSet [("x-actuator"%string, Arr a)] x], x. intros M k.
  assert (PS : Rltb (10000 * eps) (Rabs (p 1%nat - p 2%nat)) = false) by (apply Rltb_false; unfold p; rewrite Rminus_eq_0, Rabs_R0; pose proof eps_lt_1; lra).
  split; [reflexivity|]. split; [reflexivity|]. split; [reflexivity|].
  assert (K : k_act k = Some a /\ f_act (k_flow k) = Some a /\ P (k_ctrl k) = fun _ _ => 0).
  { unfold k, history, k_init. cbn [fold_left after]. unfold setInputs_, setInputs, seq, set_num, set_arr, set_closed, set_P. cbn -[Rabs eps Rltb]. repeat split; reflexivity. }
  destruct K as (K1 & K2 & K3). clearbody k.
  assert (p 0%nat = 1 /\ p 1%nat = 0 /\ p 3%nat = 1) as (Q0 & Q1 & Q3) by (repeat split; reflexivity). clearbody p. split.
  - rewrite (change_value false 2 false 0 None None M bcs walls be [("x-actuator"%string, Arr a); ("time"%string, Num 0); ("dt"%string, Num 1); ("P-matrix"%string, Arr p)] x (fun _ _ => 0) x (fun _ _ => 0) k a 0 1 ltac:(reflexivity) ltac:(reflexivity) K1 K2). unfold calcEntropyChange, formOutput. cbn [els bfs M].
    apply f_equal. unfold entropyChange, innerProduct. cbn. rewrite K3. unfold lsum. cbn. ring.
  - intros s. unfold calcEntropy_, setInputs_, setInputs, seq, set_num, set_arr, set_closed, set_P. cbn -[Rabs eps Rltb]. rewrite PS. cbn -[Rabs eps Rltb]. apply f_equal.
    unfold calcEntropy, lsum. cbn. unfold Control.entropy, innerProduct, x. cbn. rewrite Q0, Q1, Q3. field.
Qed.
Print Assumptions C141_same_inputs_refuted.

(** reporting the change moves the flow's clock: afterwards a residual asked for without "time" is that of time + dt *)
Theorem C141_change_moves_clock_refuted :
  forall test_ode d entvar lps visc ifc M bcs walls be sr h l x u xd ud t dt a, let k := history test_ode d entvar lps visc ifc M bcs walls be sr h in
  find "time" l = Some (Num t) -> find "dt" l = Some (Num dt) -> k_act k = Some a ->
  f_time (k_flow (fst (calcEntropyChange_ test_ode d entvar lps visc ifc M bcs walls be l x u xd ud k))) = t + dt.
Proof.
  intros test_ode d entvar lps visc ifc M bcs walls be sr h l x u xd ud t dt a k HT HD A.
  destruct (inv_history test_ode d entvar lps visc ifc M bcs walls be sr h) as (I1 & _ & _). fold k in I1.
  unfold calcEntropyChange_. rewrite HT, HD, (vel_some test_ode be x u k a A). cbn [k_flow k_ctrl k_act]. rewrite (I1 a A).
  destruct (calcEntropyChange _ _ _ _ _ _ _ _ _ _ _ _); [rewrite ctrl_change|]; reflexivity.
Qed.
Print Assumptions C141_change_moves_clock_refuted.

(** * Non-vacuity: the two-node box of moving gas between slip walls, one actuator position supplied *)
Example C141_case : exists a h l, let k := history true 1 false 0 None None slip_box (fun _ _ _ _ => SlipWall) (fun _ _ _ => []) (fun _ _ => 1) (fun _ => 0) h in
  find "time" l = Some (Num 2) /\ find "dt" l = Some (Num 1) /\ k_act k = Some a /\ well_formed 2 slip_box /\ valid_gas 1 false 2 moving_state moving_gas /\
  exists k2 rc r v, evaluate_ true 1 false 0 None None slip_box (fun _ _ _ _ => SlipWall) (fun _ _ _ => []) (fun _ _ => 1) [("time"%string, Num (2 + 1))] (fun _ => 1) moving_state k = (k2, Value (rc, Some r)) /\
  (forall i m, (i < 2)%nat -> (m < 1 + 2)%nat -> massMult 2 (1 + 2) (massMatrix 1 (1 + 2) false slip_box) v i m = - r i m).
Proof.
  destruct C137_case as (WF & _ & _ & _ & _ & _ & VG & _ & H). destruct (H 0 2 1) as (r & v & _ & HR & HV & _).
  exists (fun _ => 3), [CSet [("x-actuator"%string, Arr (fun _ => 3))] (fun _ => 0)], [("time"%string, Num 2); ("dt"%string, Num 1)]. intros k.
  assert (K : k_act k = Some (fun _ => 3)) by (unfold k, history, k_init; cbn [fold_left after]; unfold setInputs_, setInputs, seq, set_num, set_arr, set_closed, set_P; cbn -[Rabs eps Rltb]; reflexivity).
  split; [reflexivity|]. split; [reflexivity|]. split; [exact K|]. split; [exact WF|]. split; [exact VG|].
  assert (S : exists k1, setInputs_ [("time"%string, Num (2 + 1))] (fun _ => 1) k = (k1, Fine) /\ k_act k1 = k_act k /\ f_time (k_flow k1) = 2 + 1).
  { unfold setInputs_, setInputs, seq, set_num, set_arr, set_closed, set_P. cbn -[Rabs eps Rltb]. eexists. repeat split; reflexivity. }
  destruct S as (k1 & S & A1 & T1). eexists _, _, r, v. split; [|exact HV].
  rewrite (evaluate_value true 1 false 0 None None slip_box _ _ _ _ _ moving_state k k1 (fun _ => 3) S) by (rewrite A1; exact K). rewrite T1.
  cbv zeta. rewrite HR. reflexivity.
Qed.
