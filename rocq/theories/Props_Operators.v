(** Properties C24, C25, C26: operator combinations and the block preconditioner. *)
From Coq Require Import Reals List Arith Bool Lia Lra.
From Verif Require Import Num Vec Operators OperatorsProofs.
Local Open Scope R_scope.

(** C24.  [usable a]: |a| > 1e-16 and a is 1 or further than 1e-16 from 1 (true of every double above 1e-16).
    Whatever the work vector and the destination held, the result is a A x + b B x. *)
Theorem C24_sum_of_operators_partial :
  forall o work y x, usable (sa o) -> usable (sb o) ->
  forall i, snd (sum_mult o work y x) i = sa o * opA o x i + sb o * opB o x i.
Proof. exact sum_mult_ok. Qed.
Print Assumptions C24_sum_of_operators_partial.

(** with a zero coefficient the result contains what an earlier product, or the destination, left behind *)
Theorem C24_zero_coefficient_stale_refuted :
  forall o work y x i,
  (sa o = 0 -> usable (sb o) -> snd (sum_mult o work y x) i = work i + sb o * opB o x i) /\
  (usable (sa o) -> sb o = 0 -> snd (sum_mult o work y x) i = sa o * opA o x i + y i).
Proof.
  intros. split.
  - intros E Hb. apply sum_mult_stale_a; [|exact Hb]. rewrite E, Rabs_R0. unfold zero_tol. lra.
  - intros Ha E. apply sum_mult_stale_b; [exact Ha|]. rewrite E, Rabs_R0. unfold zero_tol. lra.
Qed.
Print Assumptions C24_zero_coefficient_stale_refuted.

Example C24_nonvacuous : usable 1 /\ usable (1/2) /\ usable (-3).
Proof. unfold usable, zero_tol. rewrite Rabs_R1, (Rabs_pos_eq (1/2)), (Rabs_left (-3)), (Rabs_left (1/2 - 1)), (Rabs_left (-3 - 1)) by lra. repeat split; lra. Qed.

(** C25.  Residual affine with Jacobian J: the product is exact, for every baseline, direction, destination *)
Theorem C25_exact_on_affine_partial :
  forall n j y x J base, (forall s u v i, res j (axpy u s v) i = res j u i + s * J v i) ->
  usable (scale j) ->
  forall i, jf_mult n (jf_setState j base) y x i =
    scale j * J x i + match explicit_part j with Some B => B x i | None => 0 end.
Proof. exact jf_affine. Qed.
Print Assumptions C25_exact_on_affine_partial.

(** smooth residual (second-order remainder with constant L): the error is at most (L/2) 1e-5 |x| *)
Theorem C25_error_bound :
  forall n j y x J base L i, explicit_part j = None -> scale j = 1 -> 0 <= L ->
  (forall s, Rabs (res j (axpy base s x) i - res j base i - s * J i) <= L / 2 * s^2 * dot n x x) ->
  1 / 10^6 < dot n x x ->
  Rabs (jf_mult n (jf_setState j base) y x i - J i) <= L / 2 * (1 / 10^5) * norm n x.
Proof. exact jf_error. Qed.
Print Assumptions C25_error_bound.

(** the finite-difference step is always positive, and the perturbation has norm exactly 1e-5 for |x| > 1e-3 *)
Theorem C25_step_size :
  forall n x, 0 < getStepSize n x /\ getStepSize n x <= 1 / 10^2 /\
  (1 / 10^6 < dot n x x -> dot n (vscal (getStepSize n x) x) (vscal (getStepSize n x) x) = 1 / 10^10).
Proof. intros. split; [apply step_pos|]. split; [apply step_small|apply pert_norm]. Qed.
Print Assumptions C25_step_size.

(** scale = 0 leaves the old destination in the result *)
Theorem C25_zero_scale_stale_refuted :
  forall n j y x, scale j = 0 ->
  forall i, jf_mult n j y x i = y i + match explicit_part j with Some B => B x i | None => 0 end.
Proof. intros n j y x E. apply jf_stale. rewrite E, Rabs_R0. unfold zero_tol. lra. Qed.
Print Assumptions C25_zero_scale_stale_refuted.

Example C25_nonvacuous :
  let j := {| scale := 1/2; res := fun u i => 3 * u i + 7; explicit_part := Some (fun v => v); jf_state := fun _ => 0; res_at_state := fun _ => 0 |} in
  (forall s u v i, res j (axpy u s v) i = res j u i + s * (3 * v i)) /\ usable (scale j).
Proof.
  cbn. split; [intros; unfold axpy; ring|]. unfold usable, zero_tol. rewrite (Rabs_pos_eq (1/2)), (Rabs_left (1/2 - 1)) by lra. split; lra.
Qed.

(** C26.  Adjoint pair, if every diagonal block is given with its transpose *)
Theorem C26_adjoint_pair :
  forall p x y, mono (offsets p) -> offsets p 0%nat = 0%nat ->
  (forall i, (i < nBlocks p)%nat ->
     match bop p i, bopT p i with
     | Some A, Some B => forall u v, dot (offsets p (S i) - offsets p i) (A u) v = dot (offsets p (S i) - offsets p i) u (B v)
     | None, None => True
     | _, _ => False
     end) ->
  dot (offsets p (nBlocks p)) (bj_mult p x) y = dot (offsets p (nBlocks p)) x (bj_multT p y).
Proof. exact bj_adjoint. Qed.
Print Assumptions C26_adjoint_pair.

(** each block of the result is the block operator applied to the same block of the argument, identity if unset *)
Theorem C26_blockwise :
  forall p x, mono (offsets p) -> forall i d, (i < nBlocks p)%nat -> (d < offsets p (S i) - offsets p i)%nat ->
  bj_mult p x (offsets p i + d)%nat =
    match bop p i with Some A => A (fun e => x (offsets p i + e)%nat) d | None => x (offsets p i + d)%nat end.
Proof. intros p x Hm i d. exact (bj_loop_block (offsets p) (bop p) x Hm (nBlocks p) i d). Qed.
Print Assumptions C26_blockwise.

Example C26_nonvacuous :
  let p := {| nBlocks := 2; offsets := fun i => (2 * i)%nat;
              bop := fun i => if Nat.eqb i 0 then Some (fun u d => if Nat.eqb d 0 then u 1%nat else 0) else None;
              bopT := fun i => if Nat.eqb i 0 then Some (fun u d => if Nat.eqb d 1 then u 0%nat else 0) else None |} in
  mono (offsets p) /\ offsets p 0%nat = 0%nat /\
  (forall i, (i < nBlocks p)%nat ->
     match bop p i, bopT p i with
     | Some A, Some B => forall u v, dot (offsets p (S i) - offsets p i) (A u) v = dot (offsets p (S i) - offsets p i) u (B v)
     | None, None => True
     | _, _ => False
     end).
Proof.
  cbn. split; [intros i; cbn; lia|]. split; [reflexivity|]. intros i Hi. destruct i as [|[|i]]; cbn; [|trivial|lia].
  intros u v. unfold dot. cbn. ring.
Qed.
