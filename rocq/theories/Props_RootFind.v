(** C01, C02, C03 *)
From Coq Require Import Reals ZArith Bool List Lra Lia Floats.
From Verif Require Import Num RootFind RootFindProofs.
Local Open Scope R_scope.

(** C01: the returned point is inside the initial interval and certified. *)
Theorem C01_bisection_sound :
  forall (f : R -> R) (xl xr ftol xtol : R) (maxiter : nat) (x : R),
  f xl * f xr < 0 ->
  bisection Rnum f xl xr ftol xtol maxiter = Returned x ->
  Rmin xl xr <= x <= Rmax xl xr /\
  (Rabs (f x) <= ftol \/ f x = 0 \/
   exists a b, Rmin xl xr <= a <= Rmax xl xr /\ Rmin xl xr <= b <= Rmax xl xr /\
               Rabs (b - a) <= xtol /\ f a * f b < 0 /\ x = (a + b) / 2).
Proof. exact bisection_sound. Qed.
Print Assumptions C01_bisection_sound.

Theorem C01_bisection_near_root :
  forall (f : R -> R) (xl xr ftol xtol : R) (maxiter : nat) (x : R),
  continuity f -> f xl * f xr < 0 -> 0 <= ftol ->
  bisection Rnum f xl xr ftol xtol maxiter = Returned x ->
  Rmin xl xr <= x <= Rmax xl xr /\ (Rabs (f x) <= ftol \/ exists z, f z = 0 /\ Rabs (z - x) <= xtol / 2).
Proof. exact bisection_continuous. Qed.
Print Assumptions C01_bisection_near_root.

Theorem C01_bisection_same_sign_throws :
  forall (f : R -> R) (xl xr ftol xtol : R) (maxiter : nat),
  0 < f xl * f xr -> bisection Rnum f xl xr ftol xtol maxiter = Thrown.
Proof. exact bisection_same_sign_throws. Qed.
Print Assumptions C01_bisection_same_sign_throws.

(** enough iterations: it does return *)
Theorem C01_bisection_returns :
  forall (f : R -> R) (xl xr ftol xtol : R) (maxiter k : nat),
  f xl * f xr <= 0 -> (k < maxiter)%nat -> Rabs (xr - xl) <= 2 ^ k * xtol ->
  exists x, bisection Rnum f xl xr ftol xtol maxiter = Returned x.
Proof. exact bisection_returns. Qed.
Print Assumptions C01_bisection_returns.

(** hypotheses are met: x - 1/3 on [0,1], xtol = 1/8, 4 iterations *)
Example C01_nonvacuous : exists x, bisection Rnum (fun x => x - 1/3) 0 1 0 (1/8) 4 = Returned x /\
   (fun x => x - 1/3) 0 * (fun x => x - 1/3) 1 < 0 /\ continuity (fun x => x - 1/3).
Proof.
  destruct (C01_bisection_returns (fun x => x - 1/3) 0 1 0 (1/8) 4 3) as [x Hx]; [lra|lia| |].
  - rewrite Rabs_right; simpl; lra.
  - exists x; repeat split; [exact Hx|lra|reg].
Qed.

(** C02: both halves of the English claim are false of the code. *)
Theorem C02_endpoint_root_refuted :
  ~ (forall (f : R -> R) (xl xr ftol xtol : R) (maxiter : nat) (x : R),
     continuity f -> f xl * f xr <= 0 -> 0 < ftol -> 0 < xtol ->
     bisection Rnum f xl xr ftol xtol maxiter = Returned x ->
     Rabs (f x) <= ftol \/ exists z, f z = 0 /\ Rabs (z - x) <= xtol).
Proof.
  intros H.
  destruct (H (fun x => x) 0 1 (1/4) (1/4) 50%nat (1/2)) as [H1|(z & Hz & H1)]; try lra; try (apply derivable_continuous, derivable_id).
  - apply bisection_endpoint_root_wrong; [lra|lra|lia].
  - rewrite Rabs_right in H1; lra.
  - simpl in Hz. subst z. rewrite Rabs_left in H1; lra.
Qed.
Print Assumptions C02_endpoint_root_refuted.

(** for every tolerance below the bracket and every iteration limit from 2 on *)
Theorem C02_endpoint_root_always_wrong :
  forall (ftol xtol : R) (maxiter : nat),
  ftol < 1/2 -> xtol < 1 -> (2 <= maxiter)%nat ->
  bisection Rnum (fun x => x) 0 1 ftol xtol maxiter = Returned (1/2).
Proof. exact bisection_endpoint_root_wrong. Qed.
Print Assumptions C02_endpoint_root_always_wrong.

(** throws although the midpoint reached after the last allowed iteration is the exact root *)
Theorem C02_throws_though_converged_refuted :
  forall ftol xtol, 0 <= ftol < 1/4 -> xtol < 1 ->
  bisection Rnum (fun x => x - 3/4) 0 1 ftol xtol 1 = Thrown /\
  exists x, bisect_loop Rnum (fun x => x - 3/4) ftol xtol 1 0 (-(3/4)) 1 (1/4) (1/2) (-(1/4)) = (x, O) /\ x = 3/4.
Proof. exact bisection_converged_but_throws. Qed.
Print Assumptions C02_throws_though_converged_refuted.

(** what does hold: it throws only if the halved interval could not reach xtol within the limit *)
Theorem C02_throw_only_if_short_partial :
  forall (f : R -> R) (xl xr ftol xtol : R) (maxiter : nat),
  f xl * f xr <= 0 -> (1 <= maxiter)%nat ->
  bisection Rnum f xl xr ftol xtol maxiter = Thrown ->
  2 ^ (maxiter - 1) * xtol < Rabs (xr - xl).
Proof. exact bisection_throw_short. Qed.
Print Assumptions C02_throw_only_if_short_partial.
Example C02_partial_nonvacuous :
  bisection Rnum (fun x => x - 3/4) 0 1 0 (1/2) 1 = Thrown /\ (0 - 3/4) * (1 - 3/4) <= 0.
Proof. split; [apply bisection_converged_but_throws; lra|lra]. Qed.

(** the same runs in binary64 *)
Example C02_float_endpoint :
  bisection Fnum (fun x => x) 0%float 1%float 0x1p-30%float 0x1p-30%float 50 = Returned 0x1p-1%float.
Proof. vm_compute. reflexivity. Qed.
Example C02_float_throws :
  bisection Fnum (fun x => PrimFloat.sub x 0x1.8p-1)%float 0%float 1%float 0%float 0%float 1 = Thrown.
Proof. vm_compute. reflexivity. Qed.

(** C03 *)
Theorem C03_secant_affine_exact :
  forall (a b x1 x2 ftol xtol : R) (maxiter : nat),
  a <> 0 -> x1 <> x2 -> 0 <= ftol -> (1 <= maxiter)%nat ->
  exists x, secant Rnum (fun x => Some (a * x + b)) x1 x2 ftol xtol maxiter = Returned x /\
            Rabs (a * x + b) <= ftol /\ (x = x1 \/ x = x2 \/ a * x + b = 0).
Proof. exact secant_affine. Qed.
Print Assumptions C03_secant_affine_exact.

Theorem C03_secant_sound_partial :
  forall (f : R -> R) (x1 x2 ftol xtol : R) (maxiter : nat) (x : R) (n : nat),
  secant_run Rnum (fun u => Some (f u)) x1 x2 ftol xtol maxiter = Some (x, n) ->
  secant Rnum (fun u => Some (f u)) x1 x2 ftol xtol maxiter = Returned x /\
  (Rabs (f x) <= ftol \/ (exists z, Rabs (z - x) < xtol /\ ftol < Rabs (f z)) \/ n = maxiter).
Proof. exact secant_sound. Qed.
Print Assumptions C03_secant_sound_partial.

(** the iteration-limit exception is unreachable *)
Theorem C03_secant_never_reports_failure :
  forall (f : R -> option R) (x1 x2 ftol xtol : R) (maxiter : nat),
  (exists y1 y2, f x1 = Some y1 /\ f x2 = Some y2) ->
  exists x, secant Rnum f x1 x2 ftol xtol maxiter = Returned x.
Proof. exact secant_never_reports_failure. Qed.
Print Assumptions C03_secant_never_reports_failure.

(** hence, for a function without a root, a non-root is returned for every iteration limit *)
Theorem C03_secant_silent_failure_refuted :
  forall (maxiter : nat) (xtol : R),
  exists x, secant Rnum (fun x => Some (x * x + 1)) 0 1 (1/2) xtol maxiter = Returned x /\ 1 <= Rabs (x * x + 1).
Proof. exact secant_silent_failure. Qed.
Print Assumptions C03_secant_silent_failure_refuted.

Example C03_float_silent_failure :
  secant Fnum (fun x => Some (x * x + 1)%float) 0%float 1%float 0x1p-40%float 0%float 1 = Returned (-1)%float.
Proof. vm_compute. reflexivity. Qed.
