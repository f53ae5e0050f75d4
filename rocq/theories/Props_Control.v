(** Property C58: the flow controller. *)
From Coq Require Import Reals String List Bool Arith Lra Lia Psatz.
From Coquelicot Require Import Coquelicot.
From Verif Require Import Num Vec Control MmsProofs ControlProofs.
Import ListNotations.
Local Open Scope R_scope.

(** the controller with its states and the measured boundary entropy as functions of time *)
Theorem C58_pid :
  forall s (x0 x1 m m1 m2 : R -> R),
  closed_loop s = true -> beta s <> 0 -> eta s <> 0 -> Ti s <> 0 -> Td s <> 0 ->
  let st t := upd_bent (m t) (upd_x (fun i => match i with 0%nat => x0 t | _ => x1 t end) s) in
  (forall t, is_derive m t (m1 t)) -> (forall t, is_derive m1 t (m2 t)) ->
  (forall t, is_derive x0 t (- residual false (st t) 0%nat)) -> (forall t, is_derive x1 t (- residual false (st t) 1%nat)) ->
  exists v1 v2, (forall t, is_derive (fun t => velocity false (st t)) t (v1 t)) /\ (forall t, is_derive v1 t (v2 t)) /\
  forall t, beta s * eta s * Ti s * Td s * v2 t + (beta s * Ti s + eta s * Td s) * v1 t + velocity false (st t)
    = Kp s * beta s * (Ti s * Td s * (- m2 t) + (Ti s + Td s) * (- m1 t) + (target_entropy s - m t)).
Proof.
  intros s x0 x1 m m1 m2 HC Hb He Hi Hd st D1 D2 X0 X1.
  set (fac := 1 / (beta s * eta s * Ti s * Td s)). set (bb := beta s * Ti s + eta s * Td s).
  set (g := Kp s / (eta s * Ti s * Td s)). set (c0 := 1 / (eta s * beta s) - 1). set (c1 := bb / (eta s * beta s) - (Ti s + Td s)).
  assert (R0 : forall t, residual false (st t) 0%nat = fac * x1 t + c0 * ((target_entropy s - m t) * g)).
  { intros t. unfold residual, st. cbn. rewrite HC. unfold fac, c0, g. field. auto. }
  assert (R1 : forall t, residual false (st t) 1%nat = - x0 t + fac * bb * x1 t + c1 * ((target_entropy s - m t) * g)).
  { intros t. unfold residual, st. cbn. rewrite HC. unfold fac, c1, g, bb. field. auto. }
  assert (V : forall t, velocity false (st t) = x1 t + Kp s / eta s * (target_entropy s - m t)).
  { intros t. unfold velocity, st. cbn. rewrite HC. field. auto. }
  set (v1 := fun t => x0 t - fac * bb * x1 t - c1 * ((target_entropy s - m t) * g) - Kp s / eta s * m1 t).
  set (v2 := fun t => - (fac * x1 t + c0 * ((target_entropy s - m t) * g)) - fac * bb * (x0 t - fac * bb * x1 t - c1 * ((target_entropy s - m t) * g))
                      - c1 * (- m1 t * g) - Kp s / eta s * m2 t).
  exists v1, v2. split; [|split].
  - intros t. apply (is_derive_ext (fun t => x1 t + Kp s / eta s * (target_entropy s - m t))); [intros; symmetry; apply V|].
    eapply D_eq. { apply D_plus; [apply X1|]. apply D_scal. apply D_minus; [apply D_const|apply D1]. } rewrite R1. unfold v1. ring.
  - intros t. unfold v1. eapply D_eq.
    { apply D_minus; [apply D_minus; [apply D_minus; [apply X0|apply D_scal, X1]|]|apply D_scal, D2].
      apply D_scal. apply (D_mult (fun t => target_entropy s - m t) (fun _ => g)); [apply D_minus; [apply D_const|apply D1]|apply D_const]. }
    cbv beta. rewrite R0, R1. unfold v2. ring.
  - intros t. rewrite V. unfold v1, v2, fac, bb, c0, c1, g, bb. field. auto.
Qed.
Print Assumptions C58_pid.

(** the Jacobian is the derivative of the residual with respect to the controller state *)
Theorem C58_jacobian :
  forall test_ode s dx k, (k < 2)%nat ->
  is_derive (fun t => residual test_ode (upd_x (fun i => cx s i + t * dx i) s) k) 0 (rsum 2 (fun j => jacobian test_ode s k j * dx j)).
Proof.
  intros test_ode s dx k Hk. destruct test_ode; destruct k as [|[|]]; try lia; unfold residual, jacobian; cbn; try destruct (closed_loop s).
  all: match goal with |- context [fun t : ?A => _ * (_ + _) ] => idtac | _ => idtac end; auto_derive; auto; ring.
Qed.
Print Assumptions C58_jacobian.

(** the reported change is minus the rate of the reported entropy, along any path through the state *)
Theorem C58_entropy_change :
  forall test_ode s (x : R -> vec) t dxdt, P s 0%nat 1%nat = P s 1%nat 0%nat ->
  (forall i, (i < 2)%nat -> is_derive (fun r => x r i) t (dxdt i)) ->
  is_derive (fun r => entropy test_ode (upd_x (x r) s)) t (- entropyChange test_ode (upd_x (x t) s) dxdt).
Proof.
  intros test_ode s x t dxdt HS HD. pose proof (HD 0%nat ltac:(lia)) as D0. pose proof (HD 1%nat ltac:(lia)) as D1.
  destruct test_ode; unfold entropy, entropyChange, innerProduct, dot; cbn.
  - eapply D_eq. { apply D_scal, D_plus; (apply D_mult; [exact D0|exact D0] || (apply D_mult; [exact D1|exact D1])). } cbv beta. field.
  - assert (L : forall a b, is_derive (fun r => 0 + a * x r 0%nat + b * x r 1%nat) t (0 + a * dxdt 0%nat + b * dxdt 1%nat))
      by (intros a b; apply D_plus; [apply D_plus; [apply D_const|]|]; apply D_scal; assumption).
    eapply D_eq. { apply D_scal. apply D_plus; [apply D_plus; [apply D_const|]|]; (apply D_mult; [eassumption|apply L]). }
    cbv beta. rewrite HS. field.
Qed.
Print Assumptions C58_entropy_change.

(** P is symmetric after every history of calls, including those that ended in an exception *)
Theorem C58_P_symmetric :
  forall history, let s := fold_left (fun s l => fst (setInputs l s)) history cinit in P s 0%nat 1%nat = P s 1%nat 0%nat.
Proof.
  intros history. cbv zeta. assert (H : P_symmetric cinit) by reflexivity. revert H. generalize cinit.
  induction history as [|l h IH]; intros s H; [exact H|]. cbn [fold_left]. apply IH. now apply setInputs_symmetric.
Qed.
Print Assumptions C58_P_symmetric.

(** Parameters: a successful call stores each supplied value and keeps the others; the loop is closed unless a value
    smaller than machine epsilon is supplied in that very call; an asymmetric P is refused. *)
Theorem C58_parameters :
  forall l s s', setInputs l s = (s', Fine) ->
  (forall k f, In (k, f) [("Kp"%string, Kp); ("Td"%string, Td); ("Ti"%string, Ti); ("eta"%string, eta); ("beta"%string, beta);
      ("target-entropy"%string, target_entropy); ("boundary-entropy"%string, boundary_entropy); ("time"%string, time)] ->
    (forall v, find k l = Some (Num v) -> f s' = v) /\ (find k l = None -> f s' = f s)) /\
  (forall v, find "state" l = Some (Arr v) -> cx s' = v) /\ (find "state" l = None -> cx s' = cx s) /\
  (forall v, find "closed-loop" l = Some (Num v) -> (closed_loop s' = false <-> Rabs v < eps)) /\
  (find "closed-loop" l = None -> closed_loop s' = true) /\
  (find "P-matrix" l = None -> P s' = P s) /\
  forall p, find "P-matrix" l = Some (Arr p) -> P s' 0%nat 0%nat = p 0%nat /\ P s' 0%nat 1%nat = p 1%nat /\ P s' 1%nat 0%nat = p 1%nat /\
    P s' 1%nat 1%nat = p 3%nat /\ Rabs (p 1%nat - p 2%nat) <= 10000 * eps.
Proof.
  intros l s s' H. destruct (setInputs_members l s s' H) as (H1 & H2 & H3 & H4 & H5 & H6 & H7 & H8 & HX & HC & HP). clear H.
  unfold supplied_num in *. split.
  { intros k f [E|[E|[E|[E|[E|[E|[E|[E|[]]]]]]]]]; injection E as <- <-; split; intros; match goal with E : find ?k l = _ |- _ => rewrite E in * end; assumption. }
  split; [intros v E; now rewrite E in HX|]. split; [intros E; now rewrite E in HX|]. split.
  { intros v E. rewrite E in HC. destruct (closed_loop s'); split; intros; try discriminate; try reflexivity.
    - destruct HC as [HC _]. specialize (HC eq_refl). lra.
    - destruct (Rlt_or_le (Rabs v) eps); [assumption|]. destruct HC as [_ HC]. specialize (HC H0). discriminate. }
  split; [intros E; now rewrite E in HC|]. split; [intros E; now rewrite E in HP|]. intros p E. now rewrite E in HP.
Qed.
Print Assumptions C58_parameters.

(** With the storage matrix of the (uncontrolled) filter the entropy is positive definite and decays: the reported
    change of the open-loop controller is positive away from the origin. *)
Theorem C58_open_loop_dissipates :
  forall s, 0 < beta s -> 0 < eta s -> 0 < Ti s -> 0 < Td s -> closed_loop s = false ->
  P s 0%nat 1%nat = - (1/2) * (beta s * Ti s + eta s * Td s) -> P s 1%nat 0%nat = P s 0%nat 1%nat -> P s 1%nat 1%nat = 1 ->
  P s 0%nat 0%nat = beta s * eta s * Ti s * Td s + 1/2 * (beta s * Ti s + eta s * Td s) * (beta s * Ti s + eta s * Td s) ->
  cx s 0%nat <> 0 \/ cx s 1%nat <> 0 ->
  0 < entropy false s /\ 0 < entropyChange false s (fun k => - residual false s k).
Proof.
  intros s Hb He Hi Hd HC P1 P2 P3 P0 HX. unfold entropy, entropyChange, innerProduct, residual. rewrite HC. cbn.
  rewrite P2, P1, P3, P0. set (a := beta s * eta s * Ti s * Td s). set (b := beta s * Ti s + eta s * Td s).
  assert (HA : 0 < a) by (unfold a; repeat apply Rmult_lt_0_compat; assumption). assert (HB : 0 < b) by (unfold b; nra).
  generalize dependent (cx s 0%nat). intros u HX. generalize dependent (cx s 1%nat). intros v HX.
  assert (Q : 0 < u * u + v * v) by (destruct HX; nra).
  split.
  - replace (1 / 2 * (0 + u * (0 + (a + 1 / 2 * b * b) * u + - (1 / 2) * b * v) + v * (0 + - (1 / 2) * b * u + 1 * v)))
      with (1/2 * ((a + 1/4 * b * b) * (u * u) + (v - 1/2 * b * u) * (v - 1/2 * b * u))) by field.
    apply Rmult_lt_0_compat; [lra|]. destruct (Req_dec u 0) as [->|U].
    + assert (0 < v * v) by nra. nra.
    + assert (0 < u * u) by nra. assert (0 < a + 1/4 * b * b) by nra. assert (0 <= (v - 1/2 * b * u) * (v - 1/2 * b * u)) by apply Rle_0_sqr.
      assert (0 < (a + 1/4 * b * b) * (u * u)) by (apply Rmult_lt_0_compat; assumption). lra.
  - match goal with |- 0 < ?e => replace e with (b / 2 * (u * u) + b / (2 * a) * (v * v)) by (field; lra) end.
    assert (0 < b / 2) by lra. assert (0 < b / (2 * a)) by (apply Rdiv_lt_0_compat; lra).
    destruct (Req_dec u 0) as [->|U].
    + assert (0 < v * v) by nra. assert (0 < b / (2 * a) * (v * v)) by (apply Rmult_lt_0_compat; assumption). lra.
    + assert (0 < u * u) by nra. assert (0 <= v * v) by apply Rle_0_sqr.
      assert (0 < b / 2 * (u * u)) by (apply Rmult_lt_0_compat; assumption). assert (0 <= b / (2 * a) * (v * v)) by (apply Rmult_le_pos; lra). lra.
Qed.
Print Assumptions C58_open_loop_dissipates.

(** The test controller is lossless: the entropy it gives up is control velocity times boundary entropy. *)
Theorem C58_test_controller_lossless :
  forall s, entropyChange true s (fun k => - residual true s k) = velocity true s * boundary_entropy s.
Proof. intros s. unfold entropyChange, residual, velocity, dot. cbn. ring. Qed.
Print Assumptions C58_test_controller_lossless.

(** Coupled residual: one velocity for all ranks, computed from the current control state and the boundary entropy of
    the current flow state; the first two entries on rank 0 are the control residual at that boundary entropy, the rest
    is each rank's flow residual at that velocity. *)
Theorem C58_coupled :
  forall test_ode boundary_ent flow_eval l state s s1,
  setInputs (set_state (state 0%nat) l) s = (s1, Fine) ->
  let flow r i := state r ((if Nat.eqb r 0 then 2 else 0) + i)%nat in
  let m := boundary_ent flow in
  let s3 := upd_closed true (upd_bent m s1) in
  exists s3', s3' = s3 /\
  coupled_evaluate test_ode boundary_ent flow_eval l state s =
    (s3', Fine, Some (velocity test_ode s3, fun r i => if Nat.ltb i (if Nat.eqb r 0 then 2 else 0) then residual test_ode s3 i
        else flow_eval r flow (velocity test_ode s3) (i - (if Nat.eqb r 0 then 2 else 0))%nat)) /\
  cx s3 = state 0%nat /\ boundary_entropy s3 = m.
Proof.
  intros test_ode be fe l state s s1 H flow m s3. exists s3. split; [reflexivity|].
  assert (X : cx s1 = state 0%nat) by (destruct (setInputs_members _ _ _ H) as (_ & _ & _ & _ & _ & _ & _ & _ & HX & _); exact HX).
  assert (CL : negb (Rltb (Rabs 1) eps) = true) by (rewrite Rabs_R1, (proj2 (Rltb_false 1 eps)); [reflexivity|pose proof eps_lt_1; lra]).
  unfold coupled_evaluate, control_of. rewrite H. fold flow.
  change (be (fun r => flow_of r (state r))) with m. change (fun r' => flow_of r' (state r')) with flow.
  assert (E : forall s', cx s' = state 0%nat -> setInputs [("state"%string, Arr (state 0%nat)); ("boundary-entropy"%string, Num m)] s' = (upd_closed true (upd_bent m s'), Fine)).
  { intros s' X'. unfold setInputs, seq, set_num, set_arr, set_closed, set_P. cbn -[Rabs eps Rltb]. rewrite CL. rewrite <- X'. destruct s'; reflexivity. }
  rewrite (E s1 X). rewrite (E (upd_closed true (upd_bent m s1))) by exact X.
  split; [|split; [exact X|reflexivity]]. reflexivity.
Qed.
Print Assumptions C58_coupled.

(** Open loop is not available through the coupled residual: whatever the caller supplies, also "closed-loop" = 0,
    the velocity and the residual contain the feedback term. *)
Theorem C58_open_loop_refuted :
  forall boundary_ent flow_eval l state s s1,
  setInputs (set_state (state 0%nat) (("closed-loop"%string, Num 0) :: l)) s = (s1, Fine) ->
  closed_loop s1 = false /\
  exists s3 vel res, coupled_evaluate false boundary_ent flow_eval (("closed-loop"%string, Num 0) :: l) state s = (s3, Fine, Some (vel, res)) /\
  closed_loop s3 = true /\
  vel = state 0%nat 1%nat + Kp s1 * (target_entropy s1 - boundary_ent (fun r i => state r ((if Nat.eqb r 0 then 2 else 0) + i)%nat)) / eta s1.
Proof.
  intros be fe l state s s1 H. split.
  - destruct (C58_parameters _ _ _ H) as (_ & _ & _ & HC & _). apply (HC 0); [reflexivity|]. rewrite Rabs_R0. apply eps_lt_1.
  - destruct (C58_coupled false be fe _ state s s1 H) as (s3 & E3 & E & X & _). eexists _, _, _. split; [exact E|]. subst s3.
    split; [reflexivity|]. unfold velocity. cbn -[boundary_entropy]. cbn in X. rewrite X. reflexivity.
Qed.
Print Assumptions C58_open_loop_refuted.

(** a controller with all inputs supplied *)
Example C58_example : exists s1, setInputs (set_state (fun i => INR i) [("Kp"%string, Num 2); ("Td"%string, Num 1); ("Ti"%string, Num 3); ("eta"%string, Num (1/2)); ("beta"%string, Num 4);
   ("P-matrix"%string, Arr (fun _ => 1))]) cinit = (s1, Fine) /\ Kp s1 = 2 /\ beta s1 = 4 /\ closed_loop s1 = true.
Proof.
  assert (CL : negb (Rltb (Rabs 1) eps) = true) by (rewrite Rabs_R1, (proj2 (Rltb_false 1 eps)); [reflexivity|pose proof eps_lt_1; lra]).
  assert (PS : Rltb (10000 * eps) (Rabs (1 - 1)) = false) by (apply Rltb_false; rewrite Rminus_eq_0, Rabs_R0; pose proof eps_lt_1; lra).
  unfold setInputs, seq, set_num, set_arr, set_closed, set_P. cbn -[Rabs eps Rltb]. rewrite CL, PS. eexists. split; [reflexivity|]. cbn. auto.
Qed.
