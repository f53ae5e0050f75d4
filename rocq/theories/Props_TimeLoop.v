(** Properties C13 and C14: the unsteady time loop and its log.
    [passes r] lists, for each pass through the loop, (iteration, time before the step, step size,
    state before the step); [r_t r], [r_state r] are the time and state when the run ends. *)
From Coq Require Import Reals List ZArith Bool Lia Lra String.
From Verif Require Import Num TimeLoop TimeLoopProofs Logger LoggerProofs.
Import ListNotations.
Local Open Scope R_scope.

(** C13, exact-t-final (the default).  The time marcher advances time by the step size. *)
Theorem C13_exact_final_time :
  forall (S : Type) (step : S -> R -> R -> S * R) (o : time_opts) (lo : log_opts) (s : S),
  (forall s t dt, snd (step s t dt) = t + dt) -> 0 < dt_opt o -> exact_t_final o = true -> t_initial o < t_final o ->
  let r := solveForState step o lo s in
  let N := List.length (passes r) in
  (* every pass: times strictly increasing by full steps, never past t-final, steps in (0, dt] *)
  (forall i p, nth_error (passes r) i = Some p ->
     let '(ti, t, d, _) := p in
     ti = Z.of_nat i /\ t = t_initial o + INR i * dt_opt o /\ t < t_final o /\ 0 < d <= dt_opt o /\
     t + d <= t_final o /\ (Datatypes.S i < N -> d = dt_opt o)%nat) /\
  (* the end *)
  t_initial o <= r_t r <= t_final o /\ r_t r = Rmin (t_initial o + INR N * dt_opt o) (t_final o) /\
  (Z.of_nat N = Z.max 0 (max_iter o) \/ t_final o - 1 / 10^14 * dt_opt o <= r_t r) /\
  (* and no smaller number of steps of size dt gets there *)
  (forall M, (M < N)%nat -> t_initial o + INR M * dt_opt o < t_final o - (if Nat.eqb M 0 then 0 else 1 / 10^14 * dt_opt o)).
Proof. intros S step o lo s H1 H2 H3 H4. exact (exact_run step o H1 H2 lo s H3 H4). Qed.
Print Assumptions C13_exact_final_time.

(** exact-t-final switched off: full steps only, overshoot below dt *)
Theorem C13_free_final_time :
  forall (S : Type) (step : S -> R -> R -> S * R) (o : time_opts) (lo : log_opts) (s : S),
  (forall s t dt, snd (step s t dt) = t + dt) -> 0 < dt_opt o -> exact_t_final o = false -> t_initial o < t_final o ->
  let r := solveForState step o lo s in
  let N := List.length (passes r) in
  (forall i p, nth_error (passes r) i = Some p ->
     let '(ti, t, d, _) := p in ti = Z.of_nat i /\ t = t_initial o + INR i * dt_opt o /\ d = dt_opt o /\ t < t_final o) /\
  r_t r = t_initial o + INR N * dt_opt o /\ r_t r < t_final o + dt_opt o /\
  (Z.of_nat N = Z.max 0 (max_iter o) \/ t_final o - 1 / 10^14 * dt_opt o <= r_t r).
Proof. intros S step o lo s H1 H2 H3 H4. exact (free_run step o H1 H2 lo s H3 H4). Qed.
Print Assumptions C13_free_final_time.

(** the state at the end is the marcher applied once per pass, each pass starting where the last ended *)
Theorem C13_state_is_marched :
  forall (S : Type) (step : S -> R -> R -> S * R) (o : time_opts) (lo : log_opts) (s : S),
  let r := solveForState step o lo s in
  (forall k t d x, nth_error (passes r) 0 = Some (k, t, d, x) -> k = 0%Z /\ t = t_initial o /\ x = s) /\
  (forall i k t d x k' t' d' x',
     nth_error (passes r) i = Some (k, t, d, x) -> nth_error (passes r) (Datatypes.S i) = Some (k', t', d', x') ->
     k' = (k + 1)%Z /\ (x', t') = step x t d) /\
  (forall k t d x, nth_error (passes r) (List.length (passes r) - 1) = Some (k, t, d, x) -> (r_state r, r_t r) = step x t d) /\
  (passes r = [] -> r_state r = s /\ r_t r = t_initial o).
Proof. exact marched. Qed.
Print Assumptions C13_state_is_marched.

(** a run asked to end before it starts goes backwards in time and then takes a step of size zero *)
Theorem C13_backwards_refuted :
  forall (S : Type) (step : S -> R -> R -> S * R) (o : time_opts) lo s,
  (forall s t dt, snd (step s t dt) = t + dt) -> 0 < dt_opt o -> exact_t_final o = true -> t_final o < t_initial o ->
  (1 < max_iter o)%Z ->
  r_t (solveForState step o lo s) = t_final o /\
  exists d s1, passes (solveForState step o lo s) = [(0%Z, t_initial o, d, s); (1%Z, t_final o, 0, s1)] /\ d < 0.
Proof. exact (@backwards). Qed.
Print Assumptions C13_backwards_refuted.

(** a relaxed marcher (t += gamma*dt with gamma > 1) can end past t-final although exact-t-final is set *)
Theorem C13_relaxed_overshoot_refuted :
  forall gamma, 1 < gamma ->
  exists (o : time_opts) (lo : log_opts), exact_t_final o = true /\ 0 < dt_opt o /\ t_initial o < t_final o /\
  t_final o < r_t (solveForState (fun (s : unit) t dt => (s, t + gamma * dt)) o lo tt).
Proof. exact relaxed_overshoot. Qed.
Print Assumptions C13_relaxed_overshoot_refuted.

Example C13_nonvacuous :
  let o := {| t_initial := 0; t_final := 1; dt_opt := 3/4; max_iter := 3; exact_t_final := true |} in
  let r := solveForState (fun s t dt => (s + dt, t + dt)) o {| initial_state := true; each_timestep := true; final_state := true |} 0 in
  List.length (passes r) = 2%nat /\ r_t r = 1 /\ r_state r = 1.
Proof. exact tl_example. Qed.

(** C14.  [last_record log k t s]: the last thing logged under time step k is (t, s). *)
Theorem C14_final_state_logged :
  forall (S : Type) (step : S -> R -> R -> S * R) (o : time_opts) (lo : log_opts) (s : S), final_state lo = true ->
  let r := solveForState step o lo s in last_record (r_log r) (r_iter r) (r_t r) (r_state r).
Proof. intros S step o lo s. exact (log_final step o lo s). Qed.
Print Assumptions C14_final_state_logged.

(** every pass is logged under its own key, and stays readable unless the final record reuses that key *)
Theorem C14_each_step_logged_partial :
  forall (S : Type) (step : S -> R -> R -> S * R) (o : time_opts) (lo : log_opts) (s : S), each_timestep lo = true ->
  let r := solveForState step o lo s in
  forall i p, nth_error (passes r) i = Some p ->
  let '(k, t, _, x) := p in
  k = Z.of_nat i /\ (final_state lo = false \/ r_iter r <> k -> last_record (r_log r) k t x).
Proof. intros S step o lo s. exact (log_each step o lo s). Qed.
Print Assumptions C14_each_step_logged_partial.

(** the final record gets a fresh key iff the step limit ended the run; when t-final ended it, it
    reuses the key of the last pass, so the state logged before the last step is lost *)
Theorem C14_final_overwrites_last_step_refuted :
  forall (S : Type) (step : S -> R -> R -> S * R) (o : time_opts) (lo : log_opts) (s : S),
  let r := solveForState step o lo s in let N := List.length (passes r) in
  (0 < max_iter o)%Z ->
  (0 < N)%nat /\
  (r_iter r = Z.of_nat N /\ Z.of_nat N = max_iter o \/
   r_iter r = (Z.of_nat N - 1)%Z /\ exists t d x, nth_error (passes r) (N - 1) = Some (r_iter r, t, d, x) /\ iterationExit o (r_t r) d = true).
Proof. intros S step o lo s. exact (final_key step o lo s). Qed.
Print Assumptions C14_final_overwrites_last_step_refuted.

(** default logging options: the initial state is kept under key 0 - with time 0 whatever t-initial is -
    unless the run ends in its first pass, when the final record replaces it *)
Theorem C14_initial_state_default_partial :
  forall (S : Type) (step : S -> R -> R -> S * R) (o : time_opts) (s : S) (lo : log_opts),
  initial_state lo = true -> each_timestep lo = false ->
  let r := solveForState step o lo s in
  (r_iter r <> 0%Z -> last_record (r_log r) 0 0 s) /\
  (final_state lo = true -> r_iter r = 0%Z -> last_record (r_log r) 0 (r_t r) (r_state r)).
Proof. intros S step o s lo. exact (log_initial_default step o s lo). Qed.
Print Assumptions C14_initial_state_default_partial.

(** a reader sees one record per key *)
Theorem C14_record_unique :
  forall (S : Type) (log : list (event S)) k t s t' s', last_record log k t s -> last_record log k t' s' -> t = t' /\ s = s'.
Proof. exact (@last_record_det). Qed.
Print Assumptions C14_record_unique.

(** and BinaryLogger::readState of that key returns that record *)
Theorem C14_log_is_readable :
  forall (S : Type) (enc_t : R -> double) (enc_s : S -> list double) rank (log : list (event S)) k t s fs,
  last_record log k t s -> is_double (enc_t t) -> Forall is_double (enc_s s) -> (Z.of_nat (List.length (enc_s s)) < 2^31)%Z ->
  bin_read (bin_saves fs (map (to_save enc_t enc_s rank) log)) "state" k rank = (Some (enc_t t), map Some (enc_s s)).
Proof. exact (@last_record_readable). Qed.
Print Assumptions C14_log_is_readable.

(** steady solves: initial guess under 0, solution under 1 at time 1, even if final_state is off *)
Theorem C14_steady_log :
  forall (S : Type) (lo : log_opts) (newton : S -> S) (s : S),
  last_record (snd (solveSteady lo newton s)) 1 1 (fst (solveSteady lo newton s)) /\
  fst (solveSteady lo newton s) = newton s /\
  (initial_state lo = true -> last_record (snd (solveSteady lo newton s)) 0 0 s).
Proof. exact (@steady_log). Qed.
Print Assumptions C14_steady_log.
