From Coq Require Import Reals List String Bool Arith Lia Lra.
From Coquelicot Require Import Coquelicot.
From Verif Require Import Num Vec Inputs Ode LineSearch Newton.
Import ListNotations.
Local Open Scope string_scope.
Local Open Scope R_scope.

(** what setInputs leaves: views of the two buffers, dt and time *)
Lemma solve_sets m r n ub kb dt t :
  exists r', setInputs m r (solve_inputs n ub kb dt t) = Ok r' /\
  (forall m', view m' (td_state r') = blk m' ub) /\ (forall m', view m' (td_state_dot r') = blk m' kb) /\
  td_dt r' = dt /\ td_time r' = t.
Proof. eexists. split; [reflexivity|]. repeat split. Qed.

Lemma evaluate_spec p m r n ub kb dt t r' : 
  setInputs m r (solve_inputs n ub kb dt t) = Ok r' ->
  (forall tt u w i, (forall j, u j = w j) -> spatial p tt u i = spatial p tt w i) ->
  forall m' inp i,
  evaluate p m' r' inp i = mass p (blk m' kb) i + spatial p t (fun j => blk m' ub j + dt * blk m' kb j) i.
Proof.
  intros H Hext m' inp i. destruct (solve_sets m r n ub kb dt t) as (r1 & E & E1 & E2 & E3 & E4).
  rewrite H in E. injection E as <-. unfold evaluate, vadd. rewrite E1, E2, E3, E4.
  destruct (Reqb_spec dt 0) as [->|Hn].
  - rewrite (Hext t (blk m' ub) (fun j => blk m' ub j + 0 * blk m' kb j)); [ring|]. intros; ring.
  - unfold axpy. ring.
Qed.

Lemma evaluate_ignores p m r i1 i2 : evaluate p m r i1 = evaluate p m r i2.
Proof. reflexivity. Qed.

(** the Jacobian is the derivative of evaluate when the buffer of state_dot moves along v *)
Definition move (m : mem) (kb : nat) (s : R) (v : vec) : mem :=
  {| blk := fun b j => if Nat.eqb b kb then blk m kb j + s * v j else blk m b j; next := next m |}.

Lemma jacobian_derivative p jac m r n ub kb dt t r' :
  ub <> kb ->
  setInputs m r (solve_inputs n ub kb dt t) = Ok r' ->
  (forall tt u w i, (forall j, u j = w j) -> spatial p tt u i = spatial p tt w i) ->
  (forall u v s i, mass p (fun j => u j + s * v j) i = mass p u i + s * mass p v i) ->
  (forall tt x v i, is_derive (fun s => spatial p tt (fun j => x j + s * v j) i) 0 (jac tt x v i)) ->
  (forall tt x v s i, jac tt x (fun j => s * v j) i = s * jac tt x v i) ->
  forall m' v inp i,
  is_derive (fun s => evaluate p (move m' kb s v) r' inp i) 0 (getJacobian p jac m' r' v i).
Proof.
  intros Hne H Hext Hmass Hjac Hlin m' v inp i.
  assert (Ef : forall s, evaluate p (move m' kb s v) r' inp i =
     (mass p (blk m' kb) i + s * mass p v i) +
     spatial p t (fun j => (blk m' ub j + dt * blk m' kb j) + s * (dt * v j)) i).
  { intros s. rewrite (evaluate_spec p m r n ub kb dt t r' H Hext). cbn [move blk]. rewrite Nat.eqb_refl.
    destruct (Nat.eqb_spec ub kb) as [E|_]; [contradiction|]. f_equal.
    - apply Hmass.
    - apply Hext. intros j. ring. }
  eapply is_derive_ext; [intros s; symmetry; apply Ef|].
  destruct (solve_sets m r n ub kb dt t) as (r1 & E & E1 & E2 & E3 & E4). rewrite H in E. injection E as <-.
  replace (getJacobian p jac m' r' v i) with (mass p v i + jac t (fun j => blk m' ub j + dt * blk m' kb j) (fun j => dt * v j) i).
  2: { unfold getJacobian. rewrite E1, E2, E3, E4. destruct (Reqb_spec dt 0) as [->|Hn].
       - rewrite Hlin. ring.
       - unfold vadd, vscal, axpy. rewrite Hlin. reflexivity. }
  apply (is_derive_plus (fun s => mass p (blk m' kb) i + s * mass p v i)); [|apply Hjac].
  auto_derive; [trivial|ring].
Qed.

(** addJacobians *)
Lemma addJacobians_supported A dt B C D :
  addJacobians A dt B C = Some D ->
  (kind A = Hypre /\ kind B = Hypre) \/ (kind A = Identity /\ kind B = Dense /\ (forall v i, act A v i = v i)) \/ kind A = Block ->
  forall v i, act D v i = act A v i + dt * act B v i.
Proof.
  unfold addJacobians. intros H [[Ea Eb]|[(Ea & Eb & Hi)|Ea]] v i; rewrite Ea in H; try rewrite Eb in H;
    destruct (kind C); try discriminate; injection H as <-; cbn; unfold vadd, vscal; try rewrite Hi; ring.
Qed.

(** With a constant merit function and a descent slope the backtracking search returns 0 *)
Lemma ls_constant_zero o phi phi0 dphi0 :
  (forall a, phi a = phi0) -> 0 < mu Rnum o -> dphi0 < 0 -> 0 < rho_lo Rnum o ->
  forall rem first a1 p1 a2, 0 < a2 -> fst (ls_loop Rnum o phi phi0 dphi0 rem first a1 p1 a2 phi0) = 0.
Proof.
  intros Hc Hmu Hd Hlo. induction rem as [|rem IH]; intros first a1 p1 a2 Ha; cbn [ls_loop].
  - cbn. assert (E : Rltb (phi0 + mu Rnum o * a2 * dphi0) phi0 = true); [apply Rltb_true|rewrite E; reflexivity].
    assert (0 < mu Rnum o * a2) by (apply Rmult_lt_0_compat; assumption). cbn in *. nra.
  - assert (E : Rltb (phi0 + mu Rnum o * a2 * dphi0) phi0 = true).
    { apply Rltb_true. assert (0 < mu Rnum o * a2) by (apply Rmult_lt_0_compat; assumption). cbn in *. nra. }
    change (nltb Rnum (nadd Rnum phi0 (nmul Rnum (nmul Rnum (mu Rnum o) a2) dphi0)) phi0) with (Rltb (phi0 + mu Rnum o * a2 * dphi0) phi0).
    rewrite E. cbv zeta. set (x := if (first || _)%bool then _ else _).
    set (a2' := nmax Rnum _ _). rewrite Hc.
    specialize (IH false a2 phi0 a2'). destruct (ls_loop Rnum o phi phi0 dphi0 rem false a2 phi0 a2' phi0) as [a tr]. cbn in IH |- *.
    apply IH. unfold a2'. rewrite nmax_R. apply Rlt_le_trans with (a2 * rho_lo Rnum o); [apply Rmult_lt_0_compat; assumption|apply Rmax_r].
Qed.
Lemma search_constant_zero o phi phi0 dphi0 alpha :
  (forall a, phi a = phi0) -> 0 < mu Rnum o -> dphi0 < 0 -> 0 < rho_lo Rnum o -> 0 < alpha ->
  fst (ls_search Rnum o phi phi0 dphi0 alpha) = 0.
Proof.
  intros Hc Hmu Hd Hlo Ha. unfold ls_search. rewrite Hc.
  assert (H := ls_constant_zero o phi phi0 dphi0 Hc Hmu Hd Hlo (max_iter Rnum o) true alpha phi0 alpha Ha).
  destruct (ls_loop Rnum o phi phi0 dphi0 (max_iter Rnum o) true alpha phi0 alpha phi0). exact H.
Qed.

(** the line search of RelaxedNewton on a time-dependent residual: trial states go to a scratch block sb *)
Definition put (m : mem) (sb : nat) (z : vec) : mem :=
  {| blk := fun b j => if Nat.eqb b sb then z j else blk m b j; next := next m |}.
Lemma relaxed_newton_stalls p m r n ub kb dt t r' o jac m' sb c :
  setInputs m r (solve_inputs n ub kb dt t) = Ok r' -> sb <> ub -> sb <> kb ->
  (forall tt u w, (forall j, u j = w j) -> spatial p tt u = spatial p tt w) ->
  (forall u w, (forall j, u j = w j) -> mass p u = mass p w) ->
  let res := Mult p m' r' kb n in
  norm n res <> 0 -> 0 < dot n (jac c) res -> 0 < mu Rnum o -> 0 < rho_lo Rnum o ->
  ComputeScalingFactor n o (fun z => Mult p (put m' sb z) r' sb n) jac (blk m' kb) res c = 0.
Proof.
  intros H H1 H2 Hext Hm res Hn Hd Hmu Hlo.
  destruct (solve_sets m r n ub kb dt t) as (r1 & E & E1 & E2 & E3 & E4). rewrite H in E. injection E as <-.
  assert (Ec : forall z, Mult p (put m' sb z) r' sb n = res).
  { intros z. unfold res, Mult, evaluate. rewrite !E1, !E2, !E3, !E4.
    assert (Eu : forall j, blk (put m' sb z) ub j = blk m' ub j) by (intros j; cbn; destruct (Nat.eqb_spec ub sb); congruence).
    assert (Ek : forall j, blk (put m' sb z) kb j = blk m' kb j) by (intros j; cbn; destruct (Nat.eqb_spec kb sb); congruence).
    rewrite (Hm _ _ Ek). rewrite (Hext t _ _ Eu).
    rewrite (Hext t (axpy (blk (put m' sb z) ub) dt (blk (put m' sb z) kb)) (axpy (blk m' ub) dt (blk m' kb))); [reflexivity|].
    intros j. unfold axpy. rewrite Eu, Ek. reflexivity. }
  unfold ComputeScalingFactor. apply search_constant_zero.
  - intros a. unfold Phi_eval. rewrite Ec. reflexivity.
  - exact Hmu.
  - unfold Phi_dphi0, Phi_phi0. assert (0 <= norm n res) by apply sqrt_pos.
    assert (0 < norm n res) by lra. unfold Rdiv. assert (0 < / norm n res) by (apply Rinv_0_lt_compat; assumption). nra.
  - exact Hlo.
  - lra.
Qed.
