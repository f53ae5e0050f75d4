(** Lemmas about the coupled residual as an object with memory. *)
From Coq Require Import Reals String List Bool Arith Lia Lra.
From Coquelicot Require Import Coquelicot.
From Verif Require Import Num Vec Control ControlProofs Sbp SbpMesh ViscWall FlowJac EntropyRate ControlEntropy.
Import ListNotations.
Local Open Scope R_scope.

Lemma closed_default : negb (Rltb (Rabs 1) eps) = true.
Proof. rewrite Rabs_R1, (proj2 (Rltb_false 1 eps)); [reflexivity|pose proof eps_lt_1; lra]. Qed.
Lemma ctrl_bent c x m : setInputs [("state"%string, Arr x); ("boundary-entropy"%string, Num m)] c = (upd_closed true (upd_x x (upd_bent m c)), Fine).
Proof. unfold setInputs, seq, set_num, set_arr, set_closed, set_P. cbn -[Rabs eps Rltb]. rewrite closed_default. reflexivity. Qed.
Lemma ctrl_state c x : setInputs [("state"%string, Arr x)] c = (upd_closed true (upd_x x c), Fine).
Proof. unfold setInputs, seq, set_num, set_arr, set_closed, set_P. cbn -[Rabs eps Rltb]. rewrite closed_default. reflexivity. Qed.
Lemma ctrl_change c x xd t dt : setInputs [("state"%string, Arr x); ("state_dot"%string, Arr xd); ("time"%string, Num t); ("dt"%string, Num dt)] c = (upd_closed true (upd_x x (upd_time t c)), Fine).
Proof. unfold setInputs, seq, set_num, set_arr, set_closed, set_P. cbn -[Rabs eps Rltb]. rewrite closed_default. reflexivity. Qed.

(** a vector under "time" stops the controller, and so the call, before anything is stored in the flow *)
Lemma time_refused l c v : find "time" l = Some (Arr v) -> setInputs l c = (c, BadVariantAccess).
Proof. intros H. unfold setInputs, seq, set_num. rewrite H. reflexivity. Qed.

Lemma setInputs_act l x k :
  let k' := fst (setInputs_ l x k) in
  (k_act k' = k_act k /\ f_act (k_flow k') = f_act (k_flow k)) \/
  (exists a, find "x-actuator" l = Some (Arr a) /\ k_act k' = Some a /\ f_act (k_flow k') = Some a).
Proof.
  cbv zeta. unfold setInputs_. destruct (setInputs (set_state x l) (k_ctrl k)) as [c e] eqn:E.
  destruct e; [|left; split; reflexivity|left; split; reflexivity].
  unfold flow_set. destruct (find "time" l) as [[t|tv]|] eqn:T.
  2:{ rewrite (time_refused (set_state x l) (k_ctrl k) tv) in E; [discriminate|]. unfold set_state. cbn. exact T. }
  all: destruct (find "control" l) as [[cv|ca]|]; destruct (find "x-actuator" l) as [[an|a]|]; cbn [fst k_act k_flow f_act];
    first [left; split; reflexivity | right; exists a; repeat split; reflexivity].
Qed.
Lemma setInputs_act_fine l x k k' : setInputs_ l x k = (k', Fine) ->
  match find "x-actuator" l with Some (Arr a) => k_act k' = Some a /\ f_act (k_flow k') = Some a | Some (Num _) => False
  | None => k_act k' = k_act k /\ f_act (k_flow k') = f_act (k_flow k) end.
Proof.
  unfold setInputs_. destruct (setInputs (set_state x l) (k_ctrl k)) as [c e] eqn:E.
  destruct e; try discriminate. unfold flow_set.
  destruct (find "time" l) as [[t|tv]|]; destruct (find "control" l) as [[cv|ca]|]; destruct (find "x-actuator" l) as [[an|a]|]; intros H; try discriminate; injection H as <-; cbn; auto.
Qed.
(** a successful setInputs_ in terms of the controller and of the flow *)
Lemma setInputs_fine l x k k' : setInputs_ l x k = (k', Fine) ->
  setInputs (set_state x l) (k_ctrl k) = (k_ctrl k', Fine) /\ flow_set l (k_flow k) = (k_flow k', Fine).
Proof.
  unfold setInputs_. destruct (setInputs (set_state x l) (k_ctrl k)) as [c e] eqn:E.
  destruct e; try discriminate. destruct (flow_set l (k_flow k)) as [f e] eqn:F.
  destruct e; try discriminate. destruct (find "x-actuator" l) as [[an|a]|]; intros H; try discriminate; injection H as <-; auto.
Qed.
Lemma setInputs_sym l x k : P_symmetric (k_ctrl k) -> P_symmetric (k_ctrl (fst (setInputs_ l x k))).
Proof.
  intros S. unfold setInputs_. pose proof (setInputs_symmetric (set_state x l) (k_ctrl k) S) as S'.
  destruct (setInputs (set_state x l) (k_ctrl k)) as [c e]. cbn [fst] in S'. destruct e; try exact S'.
  destruct (flow_set l (k_flow k)) as [f e]. destruct e; try exact S'. destruct (find "x-actuator" l) as [[an|a]|]; exact S'.
Qed.

Section Coupled.
Context (test_ode : bool) (d : nat) (entvar : bool) (lps : R) (visc : option viscosity) (ifc : option R) (M : mesh)
  (bcs : R -> vec -> R -> bface -> bc) (walls : R -> vec -> R -> list vface) (be : vec -> (nat -> vec) -> R) (sr : (nat -> vec) -> R).
Notation evaluate_ := (evaluate_ test_ode d entvar lps visc ifc M bcs walls be).
Notation calcEntropy_ := (calcEntropy_ test_ode d entvar M).
Notation calcEntropyChange_ := (calcEntropyChange_ test_ode d entvar lps visc ifc M bcs walls be).
Notation controlVelocity := (controlVelocity test_ode be).
Notation after := (after test_ode d entvar lps visc ifc M bcs walls be sr).
Notation history := (history test_ode d entvar lps visc ifc M bcs walls be sr).

Lemma vel_some x u k a : k_act k = Some a ->
  controlVelocity x u k =
  ({| k_ctrl := upd_closed true (upd_x x (upd_bent (be a u) (k_ctrl k))); k_flow := k_flow k; k_act := Some a |},
   Value (velocity test_ode (upd_closed true (upd_x x (upd_bent (be a u) (k_ctrl k)))))).
Proof. intros H. unfold ControlEntropy.controlVelocity. rewrite H, ctrl_bent. reflexivity. Qed.
Lemma vel_none x u k : k_act k = None -> controlVelocity x u k = (k, Undefined).
Proof. intros H. unfold ControlEntropy.controlVelocity. rewrite H. reflexivity. Qed.

(** the velocity the controller gives with state x, boundary entropy m and its parameters *)
Definition vel_of (x : vec) (m : R) (c : cstate) : R :=
  if test_ode then x 1%nat else x 1%nat + Kp c * (target_entropy c - m) / eta c.
Lemma vel_value x m c : velocity test_ode (upd_closed true (upd_x x (upd_bent m c))) = vel_of x m c.
Proof. unfold velocity, vel_of. destruct test_ode; reflexivity. Qed.

Lemma evaluate_value l x u k k' a : setInputs_ l x k = (k', Fine) -> k_act k' = Some a ->
  let vel := vel_of x (be a u) (k_ctrl k') in
  evaluate_ l x u k =
  ({| k_ctrl := upd_closed true (upd_x x (upd_bent (be a u) (k_ctrl k')));
      k_flow := {| f_control := vel; f_act := Some a; f_time := f_time (k_flow k') |}; k_act := Some a |},
   Value (residual test_ode (upd_closed true (upd_x x (upd_bent (be a u) (k_ctrl k')))),
          residualAt d entvar lps visc ifc M (bcs vel a) (walls vel a) (f_time (k_flow k')) u)).
Proof.
  intros H A. cbv zeta. unfold ControlEntropy.evaluate_. rewrite H, (vel_some x u k' a A). cbn [k_act k_ctrl k_flow f_time].
  rewrite ctrl_bent, vel_value. reflexivity.
Qed.
Lemma change_value l x u xd ud k a t dt : find "time" l = Some (Num t) -> find "dt" l = Some (Num dt) -> k_act k = Some a -> f_act (k_flow k) = Some a ->
  let vel := vel_of x (be a u) (k_ctrl k) in
  snd (calcEntropyChange_ l x u xd ud k) =
  match calcEntropyChange d entvar lps visc ifc M (bcs vel a) (walls vel a) t dt u ud with
  | None => Throws MISOException
  | Some flow => Value (flow + entropyChange test_ode (upd_x x (k_ctrl k)) xd)
  end.
Proof.
  intros HT HD A F. cbv zeta. unfold ControlEntropy.calcEntropyChange_. rewrite HT, HD, (vel_some x u k a A). cbn [k_flow k_ctrl k_act].
  rewrite F, vel_value. destruct (calcEntropyChange _ _ _ _ _ _ _ _ _ _ _ _) as [flow|]; [|reflexivity].
  rewrite ctrl_change. reflexivity.
Qed.

(** * every history *)
(** the actuator of the residual and that of the boundary conditions agree once it has been supplied *)
Definition inv (k : coupled) : Prop := (forall a, k_act k = Some a -> f_act (k_flow k) = Some a) /\ (exists a, f_act (k_flow k) = Some a) /\ P_symmetric (k_ctrl k).
Lemma inv_set l x k : inv k -> inv (fst (setInputs_ l x k)).
Proof.
  intros (A & B & S). destruct (setInputs_act l x k) as [[E F]|(a & _ & E & F)]; (split; [|split; [|apply setInputs_sym, S]]); rewrite ?E, ?F; try assumption.
  - intros a' H. exact H.
  - exists a. reflexivity.
Qed.
Lemma inv_after k c : inv k -> inv (after k c).
Proof.
  intros I. destruct c as [l x|l x u|l x u|l x u xd ud|l u]; unfold ControlEntropy.after.
  - apply inv_set, I.
  - pose proof (inv_set l x k I) as I'. unfold ControlEntropy.evaluate_. destruct (setInputs_ l x k) as [k1 e]. cbn [fst] in I'. destruct e; try exact I'.
    destruct (k_act k1) as [a|] eqn:A.
    + rewrite (vel_some x u k1 a A). cbn [k_act k_ctrl k_flow]. rewrite ctrl_bent. cbn [fst]. destruct I' as (I1 & I2 & I3). split; [|split]; cbn; [intros a' H; exact H|exists a; reflexivity|exact I3].
    + rewrite (vel_none x u k1 A). exact I'.
  - pose proof (inv_set l x k I) as I'. unfold ControlEntropy.calcEntropy_. destruct (setInputs_ l x k) as [k1 e]. cbn [fst] in I'. destruct e; try rewrite ctrl_state; exact I'.
  - unfold ControlEntropy.calcEntropyChange_. destruct (find "time" l) as [[t|]|]; [|exact I|exact I]. destruct (find "dt" l) as [[dt|]|]; [|exact I|exact I].
    destruct (k_act k) as [a|] eqn:A; [|rewrite (vel_none x u k A); exact I].
    rewrite (vel_some x u k a A). cbn [k_flow k_ctrl k_act]. destruct I as (I1 & I2 & I3). rewrite (I1 a A).
    destruct (calcEntropyChange _ _ _ _ _ _ _ _ _ _ _ _) as [flow|]; [rewrite ctrl_change|]; (split; [|split]; cbn; [intros a' H; exact H|exists a; reflexivity|exact I3]).
  - unfold calcSupplyRate_. destruct (find "time" l) as [[t|]|]; [|exact I|exact I]. destruct (find "dt" l) as [[dt|]|]; exact I.
Qed.
Lemma inv_history h : inv (history h).
Proof.
  unfold ControlEntropy.history. assert (I : inv k_init). { split; [|split]; cbn; [discriminate|eexists; reflexivity|reflexivity]. }
  revert I. generalize k_init. induction h as [|c h IH]; intros k I; [exact I|]. cbn [fold_left]. apply IH, inv_after, I.
Qed.
(** the inputs a call supplies *)
Definition inputs_of (c : call) : cins := match c with CSet l _ | CEvaluate l _ _ | CEntropy l _ _ | CChange l _ _ _ _ | CSupply l _ => l end.
Lemma after_keeps k c : inv k -> find "x-actuator" (inputs_of c) = None -> k_act (after k c) = k_act k.
Proof.
  intros I. assert (K : forall l x, find "x-actuator" l = None -> k_act (fst (setInputs_ l x k)) = k_act k).
  { intros l x H. destruct (setInputs_act l x k) as [[E _]|(a & E & _)]; [exact E|congruence]. }
  destruct c as [l x|l x u|l x u|l x u xd ud|l u]; cbn [inputs_of]; intros H; unfold ControlEntropy.after.
  - apply K, H.
  - specialize (K l x H). unfold ControlEntropy.evaluate_. destruct (setInputs_ l x k) as [k1 e]. cbn [fst] in K. destruct e; try exact K.
    destruct (k_act k1) as [a|] eqn:A; [|rewrite (vel_none x u k1 A); cbn [fst]; congruence].
    rewrite (vel_some x u k1 a A). cbn [k_act k_ctrl k_flow]. rewrite ctrl_bent. exact K.
  - specialize (K l x H). unfold ControlEntropy.calcEntropy_. destruct (setInputs_ l x k) as [k1 e]. cbn [fst] in K. destruct e; try rewrite ctrl_state; exact K.
  - clear K. unfold ControlEntropy.calcEntropyChange_. destruct (find "time" l) as [[t|]|]; [|reflexivity|reflexivity]. destruct (find "dt" l) as [[dt|]|]; [|reflexivity|reflexivity].
    destruct (k_act k) as [a|] eqn:A; [|rewrite (vel_none x u k A); exact A].
    rewrite (vel_some x u k a A). cbn [k_flow k_ctrl k_act]. destruct I as (I1 & I2 & I3). rewrite (I1 a A).
    destruct (calcEntropyChange _ _ _ _ _ _ _ _ _ _ _ _) as [flow|]; [rewrite ctrl_change|]; reflexivity.
  - unfold calcSupplyRate_. destruct (find "time" l) as [[t|]|]; [|reflexivity|reflexivity]. destruct (find "dt" l) as [[dt|]|]; reflexivity.
Qed.
Lemma history_app h h' : history (h ++ h') = fold_left after h' (history h).
Proof. unfold ControlEntropy.history. apply fold_left_app. Qed.
Lemma keeps h k : inv k -> List.Forall (fun c => find "x-actuator" (inputs_of c) = None) h -> inv (fold_left after h k) /\ k_act (fold_left after h k) = k_act k.
Proof.
  intros I F. revert k I. induction F as [|c h H F IH]; intros k I; [split; [exact I|reflexivity]|]. cbn [fold_left].
  destruct (IH (after k c) (inv_after k c I)) as [J K]. split; [exact J|]. rewrite K. apply after_keeps; assumption.
Qed.
End Coupled.
