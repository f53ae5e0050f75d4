From Coq Require Import Reals List Arith Lia Lra Bool FunctionalExtensionality.
From Verif Require Import Num Vec RootFind RootFindProofs RKSpec RungeKutta RungeKuttaProofs.
Local Open Scope R_scope.

(** what relax_gamma guarantees about the entropy residual at the factor it returns *)
Definition relaxed_ok (F : R -> R) (gamma : R) : Prop :=
  Rabs (F gamma) <= 1 / 10^12 \/
  (exists z, Rabs (z - gamma) < 1 / 10^12 /\ 1 / 10^12 < Rabs (F z)) \/
  (exists x, secant_run Rnum (fun g => Some (F g)) (99/100) (101/100) (1/10^12) (1/10^12) 30 = Some (x, 30%nat)).
Lemma relax_gamma_ok F gamma : relax_gamma F = Returned gamma -> relaxed_ok F gamma.
Proof.
  unfold relax_gamma, secant. intros H.
  destruct (secant_run Rnum (fun g => Some (F g)) (99/100) (101/100) (1/10^12) (1/10^12) 30) as [[x n]|] eqn:E; [|discriminate].
  pose proof E as E'. apply secant_sound in E'. destruct E' as [_ E'].
  destruct (Nat.ltb 30 n); [discriminate|]. assert (Hx : x = gamma) by congruence. subst x.
  destruct E' as [E'|[E'|E']]; [left; exact E'|right; left; exact E'|right; right; exists gamma; subst n; exact E].
Qed.

Lemma midpoint_entropy f kold x t dt x' t' :
  rrk_midpoint_step f kold x t dt = Some (x', t') ->
  let k := ec_implicit f (t + dt / 2) (dt / 2) x kold in
  let delta := ec_change f (t + dt / 2) (1/2 * dt) (axpy x (1/2 * dt) k) k in
  exists gamma, t' = t + gamma * dt /\ (forall i, x' i = x i + gamma * dt * k i) /\
  ec_entropy f x' = ec_entropy f x - gamma * dt * delta + midpoint_entropyFun f x k dt delta gamma /\
  relaxed_ok (midpoint_entropyFun f x k dt delta) gamma.
Proof.
  intros H k delta. unfold rrk_midpoint_step in H. fold k in H. fold delta in H.
  destruct (relax_gamma _) as [gamma|] eqn:E; [|discriminate]. injection H as <- <-. exists gamma.
  split; [reflexivity|]. split; [intros; reflexivity|]. split; [unfold midpoint_entropyFun; ring|].
  apply relax_gamma_ok. exact E.
Qed.

(** quadratic entropy 1/2 |x|^2 with the matching rate -x_mid . k: the relaxation equation *)
Lemma midpoint_quadratic n f x k dt g :
  (forall u, ec_entropy f u = 1/2 * dot n u u) ->
  midpoint_entropyFun f x k dt (- dot n (axpy x (1/2 * dt) k) k) g = dt^2 / 2 * dot n k k * (g * (g - 1)).
Proof.
  intros HS. unfold midpoint_entropyFun. rewrite !HS, !dot_axpy_l, !dot_axpy_r, (dot_comm n k x). field.
Qed.

(** convex entropy: every non-zero root of the relaxation equation is positive.
    Gradient inequality  S(v) >= S(u) + w(u).(v-u); the midpoint rate is delta = - w(x_mid).k and the entropy
    variables increase strictly along the step. *)
Lemma midpoint_positive n f w x k dt g :
  (forall u v, ec_entropy f u + dot n (w u) (vsub v u) <= ec_entropy f v) ->
  0 < dt -> dot n (w x) k < dot n (w (axpy x (1/2 * dt) k)) k ->
  midpoint_entropyFun f x k dt (- dot n (w (axpy x (1/2 * dt) k)) k) g = 0 -> g <> 0 -> 0 < g.
Proof.
  intros HS Hdt Hw HF Hg. destruct (Rtotal_order g 0) as [Hn|[E|Hp]]; [|congruence|exact Hp]. exfalso.
  assert (H := HS x (axpy x (g * dt) k)).
  replace (vsub (axpy x (g * dt) k) x) with (vscal (g * dt) k) in H by (apply functional_extensionality; intros i; unfold vsub, axpy, vscal; ring).
  rewrite dot_scal_r in H. unfold midpoint_entropyFun in HF.
  assert (0 < (- (g * dt)) * (dot n (w (axpy x (1/2 * dt) k)) k - dot n (w x) k)) by (apply Rmult_lt_0_compat; nra).
  nra.
Qed.

(** gamma = 0 always solves the relaxation equation *)
Lemma midpoint_zero_root f x k dt delta : midpoint_entropyFun f x k dt delta 0 = 0.
Proof.
  unfold midpoint_entropyFun. replace (axpy x (0 * dt) k) with x by (apply functional_extensionality; intros i; unfold axpy; ring). ring.
Qed.

(** the flow solver's rate is taken at the end of the step instead of its middle: for x' = -t (entropy x,
    rate w.R = t) the relaxed midpoint step of size 1 from t = 0 does not move at all *)
Definition forced : ecop := {|
  ec_mult := fun t x i => - t;
  ec_implicit := fun t dt x k0 i => - t;
  ec_entropy := fun x => x 0%nat;
  ec_change := flow_change (fun t u => t) |}.
Lemma forced_stuck kold x : exists x', rrk_midpoint_step forced kold x 0 1 = Some (x', 0) /\ (forall i, x' i = x i).
Proof.
  unfold rrk_midpoint_step, relax_gamma. cbn [forced ec_implicit ec_change]. unfold flow_change.
  assert (EF : midpoint_entropyFun forced x (fun _ => - (0 + 1 / 2)) 1 (0 + 1 / 2 + 1 / 2 * 1) = fun g => 1/2 * g + 0).
  { apply functional_extensionality. intros g. unfold midpoint_entropyFun, axpy. cbn. field. }
  rewrite EF.
  destruct (secant_affine (1/2) 0 (99/100) (101/100) (1/10^12) (1/10^12) 30) as (g & Eg & Hg & Hr); [lra|lra|lra|lia|].
  unfold sec in Eg.
  rewrite Eg. assert (g = 0).
  { assert (1 / 10 ^ 12 < 1/10) by lra. unfold Rabs in Hg. destruct (Rcase_abs _) in Hg; destruct Hr as [->|[->|Hr]]; lra. }
  subst g. eexists. split; [f_equal; f_equal; ring|]. intros i. unfold axpy. ring.
Qed.

(** "steady" marching on the time-dependent residual M k + R(x + dt k): the state is replaced by the rate *)
Definition relax_to_one : ecop := {|
  ec_mult := fun t x i => 1 - x i;
  ec_implicit := fun t dt x k0 i => (1 - x i) / (1 + dt);
  ec_entropy := fun x => 0;
  ec_change := fun _ _ _ _ => 0 |}.
