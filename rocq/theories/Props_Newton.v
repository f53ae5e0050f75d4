(** C06, C07, C46 *)
From Coq Require Import Reals ZArith Bool List Lra Lia.
From Verif Require Import Num Vec LineSearch LineSearchProofs Newton NewtonProofs.
Local Open Scope R_scope.

(** C06.  F is the residual (right-hand side subtracted), [solve] the linear-solver answers, J the
    Jacobian operator; all arbitrary.  [Some res] = the program was not aborted by mfem_error. *)
Theorem C06_inexact_newton :
  forall (n : nat) (F : vec -> vec) (J solve : vec -> vec -> vec) (o : inopts)
         (iterative_mode : bool) (x0 : vec) (eta : R) (res : inresult),
  0 <= tt o <= 2 ->
  in_mult n F J solve o iterative_mode x0 eta = Some res ->
  let start := if iterative_mode then x0 else (fun _ => 0) in
  let goal := Rmax (rel_tol o * norm n (F start)) (abs_tol o) in
  final_norm res = norm n (F (rx res)) /\
  (converged res = true <-> final_norm res <= goal) /\
  (converged res = false -> final_iter res = inmax_iter o) /\
  (final_iter res <= inmax_iter o)%nat /\
  final_norm res <= (1 - tt o / 2) ^ final_iter res * norm n (F start) /\
  exists xs : nat -> vec,
    xs 0%nat = start /\ xs (final_iter res) = rx res /\
    forall k, (k < final_iter res)%nat ->
      exists s, 0 < s <= 1 /\ xs (S k) = axpy (xs k) (- s) (solve (xs k) (F (xs k))) /\
        norm n (F (xs (S k))) <= (1 - tt o / 2) * norm n (F (xs k)).
Proof. exact in_mult_spec. Qed.
Print Assumptions C06_inexact_newton.

Example C06_nonvacuous :
  let o := {| eta_max := 1/10; tt := 1/10000; rel_tol := 0; abs_tol := 1/2; inmax_iter := 1 |} in
  exists res, in_mult 1 (fun x => x) (fun _ v => v) (fun _ r => r) o true (fun _ => 1) (1/10000) = Some res
    /\ converged res = true /\ final_iter res = 1%nat.
Proof.
  intros o. unfold in_mult. cbn [rel_tol abs_tol inmax_iter o].
  assert (E1 : norm 1 (fun _ => 1) = 1).
  { unfold norm, dot, rsum. replace (0 + 1 * 1) with 1 by lra. apply sqrt_1. }
  assert (E0 : norm 1 (axpy (fun _ => 1) (- (1)) (fun _ => 1)) = 0).
  { unfold norm, dot, rsum, axpy. replace (0 + _) with 0 by lra. apply sqrt_0. }
  rewrite E1. replace (Rmax (0 * 1) (1/2)) with (1/2) by (unfold Rmax; destruct (Rle_dec (0*1) (1/2)); lra).
  cbn [in_loop]. rewrite E1. destruct (Rleb_spec 1 (1/2)) as [H|_]; [lra|].
  unfold ComputeStepSize. cbn [inmax_iter o cs_loop]. rewrite E0. cbn [tt].
  match goal with |- context [Rltb ?a 0] => destruct (Rltb_spec a 0) as [H|_] end; [exfalso; cbn [tt o] in H; lra|].
  cbv beta iota. destruct (Reqb_spec 1 0) as [H|_]; [lra|].
  rewrite E0. destruct (Rleb_spec 0 (1/2)) as [_|H]; [|lra].
  eexists; split; [reflexivity|split; reflexivity].
Qed.

(** C07: right for self-adjoint Jacobians ... *)
Theorem C07_slope_selfadjoint_partial :
  forall (n : nat) (A : vec -> vec) (r c : vec),
  (forall u v, dot n u (A v) = dot n (A u) v) ->
  slope n (fun _ => A) r r c = - dot n (A c) r /\
  derivable_pt_lim (fun s => 1/2 * (norm n (axpy r (- s) (A c)) * norm n (axpy r (- s) (A c)))) 0 (slope n (fun _ => A) r r c).
Proof.
  intros n A r c H. split; [exact (slope_selfadjoint n A r c H)|].
  rewrite (slope_selfadjoint n A r c H). exact (merit_derivative n r (A c)).
Qed.
Print Assumptions C07_slope_selfadjoint_partial.

Example C07_nonvacuous : forall n u v, dot n u (vscal 2 v) = dot n (vscal 2 u) v.
Proof. intros. rewrite dot_scal_l, dot_scal_r. reflexivity. Qed.

(** ... and has the wrong sign for a rotation although c is the exact Newton update *)
Theorem C07_slope_refuted :
  let r : vec := fun i => match i with 0%nat => 1 | _ => 0 end in
  let c : vec := fun i => match i with 1%nat => 1 | _ => 0 end in
  veq 2 (mv 2 rotA c) r /\
  derivable_pt_lim (fun s => 1/2 * (norm 2 (axpy r (- s) (mv 2 rotA c)) * norm 2 (axpy r (- s) (mv 2 rotA c)))) 0 (-1) /\
  slope 2 (fun _ => mv 2 rotA) r r c = 1.
Proof. exact slope_wrong_sign. Qed.
Print Assumptions C07_slope_refuted.

(** C46: RelaxedNewton merit function *)
Theorem C46_merit_slope_is_derivative :
  forall (n : nat) (F : vec -> vec) (x c r Ac : vec),
  0 < norm n r -> (forall s, veq n (F (axpy x (- s) c)) (axpy r (- s) Ac)) ->
  Phi_eval n F x c 0 = Phi_phi0 n r /\
  derivable_pt_lim (Phi_eval n F x c) 0 (Phi_dphi0 n (fun _ => Ac) r c).
Proof. exact Phi_dphi0_is_derivative. Qed.
Print Assumptions C46_merit_slope_is_derivative.

Theorem C46_relaxed_newton_decrease :
  forall (n : nat) (o : ls_opts Rnum) (F jac : vec -> vec) (x r c : vec),
  0 < rho_lo Rnum o <= rho_hi Rnum o -> rho_hi Rnum o < 1 ->
  0 < norm n r -> veq n (jac c) r ->
  let a := ComputeScalingFactor n o F jac x r c in
  a = 0 \/ (0 < a <= 1 /\ norm n (F (axpy x (- a) c)) <= (1 - mu Rnum o * a) * norm n r).
Proof. exact relaxed_newton_step. Qed.
Print Assumptions C46_relaxed_newton_decrease.

Example C46_nonvacuous : 0 < norm 1 (fun _ => 1) /\ veq 1 ((fun v => v) (fun _ => 1)) (fun _ => 1) /\
  (forall s, veq 1 ((fun v => v) (axpy (fun _ => 1) (- s) (fun _ => 1))) (axpy (fun _ => 1) (- s) (fun _ => 1))).
Proof.
  split; [|split; [|intros]]; try apply veq_refl.
  unfold norm, dot, rsum. apply sqrt_lt_R0. lra.
Qed.
