(** C04, C05 *)
From Coq Require Import Reals ZArith Bool List Lra Lia Floats.
From Verif Require Import Num LineSearch LineSearchProofs.
Import ListNotations.
Local Open Scope R_scope.

(** C04.  [tr] is the list of steps at which phi is evaluated, in order. *)
Theorem C04_search_spec :
  forall (o : ls_opts Rnum) (phi : R -> R) (phi0 dphi0 alpha a : R) (tr : list R),
  0 < rho_lo Rnum o <= rho_hi Rnum o -> 0 < alpha ->
  ls_search Rnum o phi phi0 dphi0 alpha = (a, tr) ->
  hd 0 tr = alpha /\
  (1 <= length tr <= S (max_iter Rnum o))%nat /\
  (forall i, (S i < length tr)%nat ->
     rho_lo Rnum o * nth i tr 0 <= nth (S i) tr 0 <= rho_hi Rnum o * nth i tr 0 /\
     ~ phi (nth i tr 0) <= phi0 + mu Rnum o * nth i tr 0 * dphi0) /\
  ((a = last tr 0 /\ phi a <= phi0 + mu Rnum o * a * dphi0) \/
   (a = 0 /\ length tr = S (max_iter Rnum o) /\ ~ phi (last tr 0) <= phi0 + mu Rnum o * last tr 0 * dphi0)).
Proof. exact ls_search_spec. Qed.
Print Assumptions C04_search_spec.

Theorem C04_search_range :
  forall (o : ls_opts Rnum) (phi : R -> R) (phi0 dphi0 alpha a : R) (tr : list R),
  0 < rho_lo Rnum o <= rho_hi Rnum o -> rho_hi Rnum o < 1 -> 0 < alpha ->
  ls_search Rnum o phi phi0 dphi0 alpha = (a, tr) ->
  a = 0 \/ (rho_lo Rnum o ^ (length tr - 1) * alpha <= a <= rho_hi Rnum o ^ (length tr - 1) * alpha
            /\ 0 < a <= alpha /\ phi a <= phi0 + mu Rnum o * a * dphi0).
Proof. exact ls_search_range. Qed.
Print Assumptions C04_search_range.

(** each new trial is the interpolation step clamped to [rho_lo, rho_hi] times the previous trial:
    quadratic for the first backtrack or order 2, else cubic through the last two trials *)
Theorem C04_trial_rule :
  forall (o : ls_opts Rnum) (phi : R -> R) (phi0 dphi0 alpha a : R) (tr : list R),
  ls_search Rnum o phi phi0 dphi0 alpha = (a, tr) ->
  forall i, (S i < length tr)%nat ->
  nth (S i) tr 0 =
    let t := nth i tr 0 in
    let raw := if orb (Nat.eqb i 0) (Z.eqb (interp_order Rnum o) 2)
               then quadratic_interp Rnum phi0 dphi0 (phi t) t
               else cubic_interp Rnum phi0 dphi0 (phi (nth (i - 1) tr 0)) (nth (i - 1) tr 0) (phi t) t in
    Rmax (Rmin raw (t * rho_hi Rnum o)) (t * rho_lo Rnum o).
Proof. exact ls_search_rule. Qed.
Print Assumptions C04_trial_rule.

(** on a differentiable merit function with a descent slope the search succeeds once max_iter is large enough *)
Theorem C04_search_succeeds :
  forall (mu0 rhi rlo : R) (ord : Z) (phi : R -> R) (phi0 dphi0 alpha : R),
  0 < rlo <= rhi -> rhi < 1 -> 0 < alpha -> mu0 < 1 ->
  phi 0 = phi0 -> derivable_pt_lim phi 0 dphi0 -> dphi0 < 0 ->
  exists K, forall mi, (K <= mi)%nat ->
    0 < fst (ls_search Rnum {| mu := mu0 : T Rnum; rho_hi := rhi : T Rnum; rho_lo := rlo : T Rnum; interp_order := ord; max_iter := mi |} phi phi0 dphi0 alpha).
Proof. exact ls_search_succeeds. Qed.
Print Assumptions C04_search_succeeds.

Example C04_nonvacuous_defaults : 0 < rho_lo Rnum (ls_default Rnum) <= rho_hi Rnum (ls_default Rnum) /\ rho_hi Rnum (ls_default Rnum) < 1.
Proof. unfold ls_default, nlit; cbn [rho_lo rho_hi ndiv nZ Rnum]; lra. Qed.
Example C04_nonvacuous_descent : derivable_pt_lim (fun x => (1 - x) * (1 - x)) 0 (-2) /\ -2 < 0.
Proof.
  split; [|lra]. replace (-2) with ((0 - 1) * (1 - 0) + (1 - 0) * (0 - 1)) by lra.
  apply derivable_pt_lim_mult; apply derivable_pt_lim_minus; first [apply derivable_pt_lim_const|apply derivable_pt_lim_id].
Qed.

(** in binary64 a NaN merit value is accepted as "sufficient decrease" (the comparison is false) *)
Theorem C04_nan_accepted_refuted :
  exists (phi : float -> float) phi0 dphi0,
    fst (ls_search Fnum (ls_default Fnum) phi phi0 dphi0 1%float) = 1%float /\
    PrimFloat.leb (phi 1%float) (phi0 + (mu Fnum (ls_default Fnum)) * 1 * dphi0)%float = false.
Proof. exists (fun _ => nan), 1%float, (-1)%float. split; vm_compute; reflexivity. Qed.
Print Assumptions C04_nan_accepted_refuted.

(** a run in binary64 that needs several backtracks *)
Example C04_float_run : List.length (snd (ls_search Fnum (ls_default Fnum) (fun x => 1 - x + 1000 * x * x)%float 1%float (-1)%float 1%float)) = 5%nat.
Proof. vm_compute. reflexivity. Qed.

(** C05 *)
Theorem C05_quadratic_min :
  forall a b c alpha : R, 0 < a -> alpha <> 0 ->
  let q x := a * (x * x) + b * x + c in
  forall x, q (quadratic_interp Rnum c b (q alpha) alpha) <= q x.
Proof. exact quadratic_interp_min. Qed.
Print Assumptions C05_quadratic_min.

Theorem C05_quadratic_stationary :
  forall a b c alpha : R, a <> 0 -> alpha <> 0 ->
  2 * a * quadratic_interp Rnum c b (a * (alpha * alpha) + b * alpha + c) alpha + b = 0.
Proof. exact quadratic_interp_stationary. Qed.
Print Assumptions C05_quadratic_stationary.

Theorem C05_quadInterp_stationary :
  forall c0 c1 c2 x0 x1 : R, c2 <> 0 -> x0 <> x1 ->
  let q x := c0 + c1 * x + c2 * (x * x) in
  c1 + 2 * c2 * quadInterp Rnum x0 (q x0) (c1 + 2 * c2 * x0) x1 (q x1) = 0.
Proof. exact quadInterp_stationary. Qed.
Print Assumptions C05_quadInterp_stationary.

Theorem C05_cubic_local_min_partial :
  forall a b c d alpha1 alpha2 : R,
  alpha1 <> 0 -> alpha2 <> 0 -> alpha1 <> alpha2 -> 1 / 2^52 <= Rabs a -> 0 <= b * b - 3 * a * c ->
  let q x := a * (x * x * x) + b * (x * x) + c * x + d in
  let x : R := cubic_interp Rnum d c (q alpha1) alpha1 (q alpha2) alpha2 in
  3 * a * (x * x) + 2 * b * x + c = 0 /\ 0 <= 6 * a * x + 2 * b.
Proof. intros a b c d u v Hu Hv Huv Ha Hd. exact (cubic_interp_stationary a b c d u v Hu Hv Huv Ha Hd). Qed.
Print Assumptions C05_cubic_local_min_partial.

(** degenerate branch: whenever the interpolant is really quadratic and has non-zero slope at 0, the
    result is the mirror image of the minimiser and is not stationary *)
Theorem C05_cubic_degenerate_refuted :
  forall b c d alpha1 alpha2 : R,
  alpha1 <> 0 -> alpha2 <> 0 -> alpha1 <> alpha2 -> b <> 0 ->
  let q x := b * (x * x) + c * x + d in
  let x : R := cubic_interp Rnum d c (q alpha1) alpha1 (q alpha2) alpha2 in
  2 * b * x + c = 2 * c /\ x = - (- c / (2 * b)).
Proof. exact cubic_interp_degenerate_wrong. Qed.
Print Assumptions C05_cubic_degenerate_refuted.

Example C05_float_degenerate : (* (x-1)^2 sampled at 4 and 2: the code says -1, the minimiser is +1 *)
  cubic_interp Fnum 1%float (-2)%float 9%float 4%float 1%float 2%float = (-1)%float.
Proof. vm_compute. reflexivity. Qed.
