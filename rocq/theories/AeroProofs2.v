(** Proofs about the boundary entropy and the far-field supply rate. *)
From Coq Require Import Reals Arith Lia Lra Psatz List Bool FunctionalExtensionality.
From Coquelicot Require Import Coquelicot.
From Verif Require Import Num Vec SbpSpec Sbp SbpProofs SbpProofs2 SbpProofs3 SbpMesh SbpMeshSpec SbpMeshProofs Euler EulerSpec EulerProofs EulerDeriv BoundaryProofs
  SmoothCalc FluxSmooth FluxSmooth2 FlowJacSpec FlowJac FlowJacProofs ViscWall ViscWallSpec Aero AeroSpec AeroProofs.
Import ListNotations.
Local Open Scope R_scope.

Lemma sqexp_form n nc len xc x : (n <= nc)%nat -> (forall i, (n <= i < nc)%nat -> xc i = 0) -> len <> 0 ->
  squaredExponential n nc len xc x = Some (exp (- (rsum n (fun i => (x i - xc i) ^ 2) / len ^ 2))).
Proof.
  intros H Z L. unfold squaredExponential. destruct (Nat.leb_spec n nc); [|lia]. cbv zeta. f_equal. f_equal.
  assert (E : dot nc xc xc = dot n xc xc).
  { unfold dot. replace nc with (n + (nc - n))%nat by lia. rewrite rsum_app, (rsum_ext (nc - n) _ (fun _ => 0)), rsum_0; [ring|]. intros k Hk. rewrite Z by lia. ring. }
  rewrite E. replace (rsum n (fun i => (x i - xc i) ^ 2)) with (dot n x x - 2 * dot n x xc + dot n xc xc); [unfold Rdiv; ring|].
  unfold dot. rewrite <- rsum_scal, <- rsum_minus, <- rsum_plus. apply rsum_ext. intros; ring.
Qed.
Lemma conv_entropy d dir q U : physical d q ->
  dot (d + 2) (calcEntropyVars d false q) (mk d (U * q 0%nat) (fun i => U * q (S i) + dir i * pressure d q) (U * (q (S d) + pressure d q))) = dot d (mom q) dir + U * entropy d false q.
Proof.
  intros PQ. pose proof (w_dot_q d q PQ) as WQ. destruct PQ as (rho & u & p & Hr & Hp & H).
  pose proof (w_dot_n d q dir rho u p Hr Hp H) as WN. pose proof (entvars_prim d q rho u p Hr Hp H) as (_ & _ & WE).
  rewrite (state_pressure d q rho u p ltac:(lra) H). rewrite dot_state in WQ |- *. rewrite mk_0, mk_E.
  replace (dot d (mom (calcEntropyVars d false q)) (mom (mk d (U * q 0%nat) (fun i => U * q (S i) + dir i * p) (U * (q (S d) + p))))) with
    (U * dot d (mom (calcEntropyVars d false q)) (mom q) + p * dot d (mom (calcEntropyVars d false q)) dir).
  - rewrite <- WN. assert (Q0 : q 0%nat = rho) by apply H.
    replace (entropy d false q) with (calcEntropyVars d false q 0%nat * q 0%nat + dot d (mom (calcEntropyVars d false q)) (mom q) + calcEntropyVars d false q (S d) * q (S d) - q 0%nat) by lra.
    rewrite WE, Q0. field. lra.
  - unfold dot. rewrite <- !rsum_scal, <- rsum_plus. apply rsum_ext. intros i Hi. unfold mom. rewrite mk_S by exact Hi. ring.
Qed.
Lemma supply_outflow d qfs q dir k : physical d q -> 0 < qfs 0%nat -> 0 <= dot d dir (mom qfs) ->
  supplyRateFun d qfs k dir q = - (dot d dir (mom qfs) / qfs 0%nat) * entropy d false q.
Proof.
  intros PQ H0 HU. unfold supplyRateFun. cbv zeta. rewrite (dot_ext (d + 2) _ (calcEntropyVars d false q) _ _ (veq_refl _ _) (farfield2_outflow d dir qfs q H0 HU)).
  rewrite conv_entropy by exact PQ. rewrite (dot_comm d dir (mom q)). ring.
Qed.
Lemma supply_inflow d qfs q dir k rho u p : 0 < rho -> 0 < p -> is_state d q rho u p -> 0 < qfs 0%nat -> dot d dir (mom qfs) <= 0 ->
  supplyRateFun d qfs k dir q = - (dot d dir (mom qfs) / qfs 0%nat) * (dot (d + 2) (calcEntropyVars d false q) qfs - rho * (pressure d qfs / p)).
Proof.
  intros Hr Hp H H0 HU. unfold supplyRateFun. cbv zeta. rewrite (dot_ext (d + 2) _ (calcEntropyVars d false q) _ _ (veq_refl _ _) (farfield2_inflow d dir qfs q H0 HU)).
  pose proof (w_dot_n d q dir rho u p Hr Hp H) as WN. pose proof (entvars_prim d q rho u p Hr Hp H) as (_ & _ & WE).
  rewrite (state_pressure d q rho u p ltac:(lra) H). set (U := dot d dir (mom qfs) / qfs 0%nat). rewrite !dot_state, mk_0, mk_E.
  replace (dot d (mom (calcEntropyVars d false q)) (mom (mk d (U * qfs 0%nat) (fun i => U * qfs (S i) + dir i * p) (U * (qfs (S d) + pressure d qfs))))) with
    (U * dot d (mom (calcEntropyVars d false q)) (mom qfs) + p * dot d (mom (calcEntropyVars d false q)) dir).
  - rewrite WN, (dot_comm d dir (mom q)), WE. field. lra.
  - unfold dot. rewrite <- !rsum_scal, <- rsum_plus. apply rsum_ext. intros i Hi. unfold mom. rewrite mk_S by exact Hi. ring.
Qed.
Lemma euler_entropy d dir q : physical d q -> dot (d + 2) (calcEntropyVars d false q) (calcEulerFlux d dir q) = dot d (mom q) dir + dot d (mom q) dir / q 0%nat * entropy d false q.
Proof.
  intros PQ. rewrite <- conv_entropy by exact PQ. destruct PQ as (rho & u & p & Hr & Hp & H). assert (Q0 : q 0%nat = rho) by apply H.
  apply dot_ext; [apply veq_refl|]. apply same_intro.
  - unfold calcEulerFlux. cbv zeta. rewrite !mk_0. field. lra.
  - intros i Hi. unfold calcEulerFlux. cbv zeta. rewrite !mk_S by exact Hi. unfold Rdiv. ring.
  - unfold calcEulerFlux. cbv zeta. rewrite !mk_E. unfold Rdiv. ring.
Qed.
(** the stale gradient *)
Lemma stale_one ns buf (W : nat -> vec) : test 1 ns W (snd (staleVector 1 ns 1 (fun _ => 0%nat) (fun _ => 1) buf)) = dot ns (W 0%nat) buf.
Proof.
  unfold staleVector. cbn [loop]. cbv zeta. cbn [fst snd]. rewrite (loop_read (test 1 ns W) ns _ (fun m => W 0%nat m * (1 * (buf m * 1)))).
  - rewrite test_zero, Rplus_0_l. unfold dot. apply rsum_ext. intros; ring.
  - intros m t Hm. rewrite test_add2 by (assumption || lia). reflexivity.
Qed.
