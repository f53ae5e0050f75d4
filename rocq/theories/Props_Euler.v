(** C28-C30: thermodynamics of the Euler equations, variable changes, logarithmic average.
    [d] is the number of space dimensions; [is_state d q rho u p] (EulerSpec.v) says that q holds the
    conservative variables of density rho, velocity u, pressure p; [physical]: rho > 0 and p > 0;
    [same d]: equality of all d+2 entries. *)
From Coq Require Import Reals Arith Lra Lia.
From Coquelicot Require Import Coquelicot.
From Verif Require Import Num Vec Euler EulerSpec EulerProofs EulerDeriv LogAvgProofs.
Local Open Scope R_scope.

(** a concrete physical state in two dimensions: density 2, velocity (1/2, 1), pressure 3 *)
Definition sample2 : vec := mk 2 2 (fun i => match i with O => 1 | _ => 2 end) (35/4).
Definition sample2' : vec := mk 2 1 (fun i => match i with O => -1 | _ => 1 end) (7/2).
Example sample2_state : is_state 2 sample2 2 (fun i => match i with O => 1/2 | _ => 1 end) 3.
Proof. unfold is_state, sample2, mk, dot. cbn. repeat split; try lra. intros i Hi. destruct i as [|[|i]]; cbn; try lra; lia. Qed.
Example sample2'_state : is_state 2 sample2' 1 (fun i => match i with O => -1 | _ => 1 end) 1.
Proof. unfold is_state, sample2', mk, dot. cbn. repeat split; try lra. intros i Hi. destruct i as [|[|i]]; cbn; try lra; lia. Qed.
Example sample2_physical : physical 2 sample2.
Proof. exists 2, (fun i => match i with O => 1/2 | _ => 1 end), 3. split; [lra|]. split; [lra|exact sample2_state]. Qed.
Example sample2'_physical : physical 2 sample2'.
Proof. exists 1, (fun i => match i with O => -1 | _ => 1 end), 1. split; [lra|]. split; [lra|exact sample2'_state]. Qed.
Example sample2_differ : ~ same 2 sample2 sample2'.
Proof. intros H. specialize (H 0%nat ltac:(lia)). unfold sample2, sample2', mk in H. lra. Qed.

(** conservative -> entropy -> conservative is the identity *)
Theorem C28_conservative_roundtrip :
  forall d q, physical d q -> same d (calcConservativeVars d true (calcEntropyVars d false q)) q.
Proof. exact cons_of_ent. Qed.
Print Assumptions C28_conservative_roundtrip.
(** entropy -> conservative -> entropy is the identity, and lands in the physical states *)
Theorem C28_entropy_roundtrip :
  forall d w, w (S d) < 0 ->
  physical d (calcConservativeVars d true w) /\ same d (calcEntropyVars d false (calcConservativeVars d true w)) w.
Proof. exact ent_of_cons. Qed.
Print Assumptions C28_entropy_roundtrip.
(** entropy variables of a physical state do have a negative last entry *)
Theorem C28_entropy_variables_admissible : forall d q, physical d q -> calcEntropyVars d false q (S d) < 0.
Proof. exact ent_last_neg. Qed.
Print Assumptions C28_entropy_variables_admissible.
(** the pressure of a state is its pressure; a state is physical iff its density and pressure() are positive *)
Theorem C28_pressure : forall d q rho u p, rho <> 0 -> is_state d q rho u p -> pressure d q = p.
Proof. exact state_pressure. Qed.
Print Assumptions C28_pressure.
Theorem C28_physical_iff : forall d q, physical d q <-> 0 < q 0%nat /\ 0 < pressure d q.
Proof. exact physical_iff. Qed.
Print Assumptions C28_physical_iff.

(** entropy is -rho ln(p/rho^gamma)/(gamma-1), whichever variables it is computed from *)
Theorem C29_entropy_value :
  forall d q rho u p, 0 < rho -> 0 < p -> is_state d q rho u p ->
  entropy d false q = math_entropy rho p /\ entropy d true (calcEntropyVars d false q) = math_entropy rho p.
Proof.
  intros d q rho u p Hr Hp H. split; [exact (entropy_prim d q rho u p Hr Hp H)|].
  rewrite entropy_variables_agree by (exists rho, u, p; auto). exact (entropy_prim d q rho u p Hr Hp H).
Qed.
Print Assumptions C29_entropy_value.
(** the spectral radius is |u.n| + c |n|, whichever variables it is computed from *)
Theorem C29_spectral_radius :
  forall d dir q rho u p, 0 < rho -> 0 < p -> is_state d q rho u p ->
  calcSpectralRadius d false dir q = Rabs (dot d u dir) + sound rho p * sqrt (dot d dir dir) /\
  calcSpectralRadius d true dir (calcEntropyVars d false q) = calcSpectralRadius d false dir q.
Proof.
  intros d dir q rho u p Hr Hp H. split; [exact (spectral_prim d dir q rho u p Hr Hp H)|].
  apply spectral_agree. exists rho, u, p; auto.
Qed.
Print Assumptions C29_spectral_radius.
(** entropy variables are the gradient of the entropy *)
Theorem C29_entropy_gradient :
  forall d q v, physical d q ->
  is_derive (fun s => entropy d false (axpy q s v)) 0 (dot (d + 2) (calcEntropyVars d false q) v).
Proof. exact entropy_derive. Qed.
Print Assumptions C29_entropy_gradient.
(** dpressdq is the gradient of the pressure *)
Theorem C29_pressure_gradient :
  forall d q v, q 0%nat <> 0 -> is_derive (fun s => pressure d (axpy q s v)) 0 (dot (d + 2) (dpressdq d q) v).
Proof. exact pressure_derive. Qed.
Print Assumptions C29_pressure_gradient.
(** entropy is strictly convex: it lies above each of its tangent planes, touching only at the tangency point *)
Theorem C29_entropy_convex :
  forall d q q0, physical d q -> physical d q0 ->
  entropy d false q0 + rsum (d + 2) (fun i => calcEntropyVars d false q0 i * (q i - q0 i)) <= entropy d false q.
Proof. exact entropy_first_order. Qed.
Print Assumptions C29_entropy_convex.
Theorem C29_entropy_strictly_convex :
  forall d q q0, physical d q -> physical d q0 ->
  entropy d false q = entropy d false q0 + rsum (d + 2) (fun i => calcEntropyVars d false q0 i * (q i - q0 i)) -> same d q q0.
Proof. intros d q q0 A B E. apply affine_zero; auto. unfold entropy_affine. lra. Qed.
Print Assumptions C29_entropy_strictly_convex.
(** the physical states form a convex set *)
Theorem C29_physical_convex :
  forall d a b t, physical d a -> physical d b -> 0 <= t <= 1 -> physical d (fun i => (1 - t) * a i + t * b i).
Proof. exact physical_convex. Qed.
Print Assumptions C29_physical_convex.
(** the relative entropy (affine-shifted entropy function) is a distance-like quantity *)
Theorem C29_relative_entropy :
  forall d q q0, physical d q -> physical d q0 ->
  0 <= entropy_affine d q q0 /\ (entropy_affine d q q0 = 0 -> same d q q0).
Proof. intros d q q0 A B. split; [exact (affine_nonneg d q q0 A B)|exact (affine_zero d q q0 A B)]. Qed.
Print Assumptions C29_relative_entropy.

(** logarithmic average *)
Theorem C30_symmetric : forall a b, 0 < a -> 0 < b -> logavg a b = logavg b a.
Proof. exact logavg_sym. Qed.
Print Assumptions C30_symmetric.
Theorem C30_equal : forall a, 0 < a -> logavg a a = a.
Proof. exact logavg_same. Qed.
Print Assumptions C30_equal.
Theorem C30_between : forall a b, 0 < a -> 0 < b -> Rmin a b <= logavg a b <= Rmax a b.
Proof. exact logavg_between. Qed.
Print Assumptions C30_between.
Theorem C30_exact_when_spread :
  forall a b, 0 < a -> 0 < b -> 1 / 1000 <= spread a b -> logavg a b = (a - b) / (ln a - ln b).
Proof. exact logavg_exact. Qed.
Print Assumptions C30_exact_when_spread.
(** everywhere within a relative 1e-16, from above *)
Theorem C30_error :
  forall a b, 0 < a -> 0 < b -> a <> b ->
  (a - b) / (ln a - ln b) <= logavg a b <= (a - b) / (ln a - ln b) * (1 + 1 / 10 ^ 16).
Proof. exact logavg_error. Qed.
Print Assumptions C30_error.
Example C30_both_branches : spread 1 (101/100) < 1/1000 /\ 1 / 1000 <= spread 1 2.
Proof. unfold spread. split; lra. Qed.
