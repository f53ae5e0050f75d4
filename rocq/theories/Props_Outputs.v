(** Properties C17, C18, C19: outputs. *)
From Coq Require Import Reals List String Bool Arith Lia Lra.
From Coquelicot Require Import Coquelicot.
From Verif Require Import Vec Outputs OutputsProofs.
Import ListNotations.
Local Open Scope R_scope.

(** C17.  [creates add l names]: the registry after any history of createOutput calls. *)
Theorem C17_registry_after_history :
  forall (add : string -> option output) (names : list string) (l : registry) (k : string),
  rfind k (creates add l names) =
    match rfind k l with
    | Some o => Some o
    | None => if existsb (String.eqb k) names then add k else None
    end.
Proof. exact creates_find. Qed.
Print Assumptions C17_registry_after_history.

Theorem C17_duplicate_refused :
  forall add l name o, rfind name l = Some o -> createOutput add l name = MISOException.
Proof. intros add l name o H. unfold createOutput. rewrite H. reflexivity. Qed.
Print Assumptions C17_duplicate_refused.

Theorem C17_fresh_accepted :
  forall add l name, rfind name l = None -> forall o, add name = Some o ->
  exists l', createOutput add l name = Done l' /\ rfind name l' = Some o /\ (forall k, k <> name -> rfind k l' = rfind k l).
Proof. exact create_fresh. Qed.
Print Assumptions C17_fresh_accepted.

(** after any history of createOutput calls on a new solver, whatever their order and repetitions, every
    query on a name throws iff that name was never (successfully) created *)
Theorem C17_queries_throw_iff_never_created :
  forall (add : string -> option output) (names : list string) name wrt n u v (x : R),
  let l := creates add [] names in
  let never := ~ (In name names /\ add name <> None) in
  (getOutputSize l name = MISOException <-> never) /\
  (calcOutput l name = MISOException <-> never) /\
  (calcOutputPartialScalar l name wrt x = MISOException <-> never) /\
  (calcOutputPartial l name wrt n v = MISOException <-> never) /\
  (outputJVP l name wrt n v x = MISOException <-> never) /\
  (outputVJP l name wrt n u v = MISOException <-> never).
Proof.
  intros. assert (H : rfind name l = None <-> never).
  { subst l never. rewrite creates_find. cbn [rfind]. destruct (existsb (String.eqb name) names) eqn:E.
    - apply existsb_exists in E. destruct E as [y [Hy Ey]]. apply String.eqb_eq in Ey. subst y.
      destruct (add name); split; intros; try discriminate; intuition congruence.
    - split; [|auto]. intros _ [Hi _]. assert (existsb (String.eqb name) names = true); [|congruence].
      apply existsb_exists. exists name. rewrite String.eqb_refl. auto. }
  unfold getOutputSize, calcOutput, calcOutputPartialScalar, calcOutputPartial, outputJVP, outputVJP.
  rewrite <- H. destruct (rfind name l); repeat split; intros; congruence.
Qed.
Print Assumptions C17_queries_throw_iff_never_created.

(** an unknown derivative name is swallowed: nothing is thrown and the destination keeps its old content *)
Theorem C17_unknown_wrt_swallowed_refuted :
  forall f wrt n l name out_bar old (x : R), rfind name l = Some (FunctionalOutput f) ->
  wrt <> "state"%string -> f_field f wrt = None -> f_scalar f (before_colon wrt) = None ->
  calcOutputPartial l name wrt n old = Done old /\ outputJVP l name wrt n old x = Done x /\ outputVJP l name wrt n out_bar old = Done old.
Proof.
  intros f wrt n l name out_bar old x Hr Hw Hf Hs. apply String.eqb_neq in Hw.
  unfold calcOutputPartial, outputJVP, outputVJP. rewrite Hr. cbn [FunctionalOutput o_partial o_jvp o_vjp o_vjp_scalar].
  unfold fo_partial, fo_jvp, fo_vjp, fo_vjp_scalar. rewrite Hw, Hf, Hs. cbn. destruct (Nat.eqb n 1); auto.
Qed.
Print Assumptions C17_unknown_wrt_swallowed_refuted.

(** C18: the vector form overwrites (for functional outputs and a known derivative) *)
Theorem C18_vector_partial_overwrites_partial :
  forall f l name wrt n g, rfind name l = Some (FunctionalOutput f) ->
  (if String.eqb wrt "state" then Some (f_grad f) else f_field f wrt) = Some g ->
  forall old, calcOutputPartial l name wrt n old = Done g.
Proof.
  intros f l name wrt n g Hr Hg old. unfold calcOutputPartial. rewrite Hr. cbn [FunctionalOutput o_partial].
  unfold fo_partial. rewrite Hg. reflexivity.
Qed.
Print Assumptions C18_vector_partial_overwrites_partial.

(** the scalar form accumulates: two calls give twice the partial *)
Theorem C18_scalar_partial_accumulates_refuted :
  forall l name wrt o p, rfind name l = Some o -> o_partial_scalar o wrt = Some p ->
  forall old, calcOutputPartialScalar l name wrt old = Done (Some (old + p)).
Proof. intros l name wrt o p Hr Hp old. unfold calcOutputPartialScalar. rewrite Hr, Hp. reflexivity. Qed.
Print Assumptions C18_scalar_partial_accumulates_refuted.

(** and for functional outputs it is never a number *)
Theorem C18_functional_scalar_partial_nan_refuted :
  forall f l name wrt old, rfind name l = Some (FunctionalOutput f) -> calcOutputPartialScalar l name wrt old = Done None.
Proof. intros f l name wrt old H. unfold calcOutputPartialScalar. rewrite H. reflexivity. Qed.
Print Assumptions C18_functional_scalar_partial_nan_refuted.

(** C19.  [adjoint_at o wrt n]: for every registry holding o, every seed and direction, the forward
    product from 0 and the reverse product from 0 satisfy  out_bar * (J wrt_dot) = (J^T out_bar) . wrt_dot. *)
Theorem C19_functional_adjoint_partial :
  forall f wrt n, (n <> 1)%nat \/ wrt <> "state"%string -> adjoint_at (FunctionalOutput f) wrt n.
Proof. exact api_adjoint_functional. Qed.
Print Assumptions C19_functional_adjoint_partial.

Theorem C19_quotient_adjoint_partial :
  forall f g wrt n, (n <> 1)%nat -> f_value g <> 0 -> adjoint_at (RatioOutput f g) wrt n.
Proof. exact api_adjoint_ratio. Qed.
Print Assumptions C19_quotient_adjoint_partial.

(** the forward product of a quotient output is the derivative of its value along the direction *)
Theorem C19_quotient_derivative :
  forall (a b : R -> functional) wrt n wrt_dot da db,
  fo_jvp (a 0) wrt n wrt_dot = Some da -> fo_jvp (b 0) wrt n wrt_dot = Some db ->
  is_derive (fun s => f_value (a s)) 0 da -> is_derive (fun s => f_value (b s)) 0 db -> f_value (b 0) <> 0 ->
  exists d, ratio_jvp (a 0) (b 0) wrt n wrt_dot = Some d /\ is_derive (fun s => ratio_value (a s) (b s)) 0 d.
Proof. exact ratio_derivative. Qed.
Print Assumptions C19_quotient_derivative.

(** reverse mode adds to what wrt_bar held *)
Theorem C19_reverse_accumulates :
  forall f g wrt n out_bar wrt_bar b0,
  (fo_vjp f wrt n out_bar (fun _ => 0) = Some b0 ->
     exists b, fo_vjp f wrt n out_bar wrt_bar = Some b /\ forall i, b i = wrt_bar i + b0 i) /\
  (ratio_vjp f g wrt n out_bar (fun _ => 0) = Some b0 ->
     exists b, ratio_vjp f g wrt n out_bar wrt_bar = Some b /\ forall i, b i = wrt_bar i + b0 i).
Proof. intros. split; [apply fo_vjp_acc|apply ratio_vjp_acc]. Qed.
Print Assumptions C19_reverse_accumulates.

(** the mass output with respect to the fill factor *)
Theorem C19_mass_fill_factor_refuted :
  exists f df, f_scalar f "fill_factor" = Some 5 /\ f_scalar df "fill_factor" = Some 2 /\
  ~ adjoint_at (MassOutput f df) "fill_factor" 1.
Proof. exact mass_not_adjoint. Qed.
Print Assumptions C19_mass_fill_factor_refuted.

(** a state with one degree of freedom *)
Theorem C19_one_dof_state_refuted :
  exists f, f_grad f 0%nat = 3 /\ f_scalar f "state" = None /\ ~ adjoint_at (FunctionalOutput f) "state" 1.
Proof. exact one_dof_state_not_adjoint. Qed.
Print Assumptions C19_one_dof_state_refuted.

Example C19_nonvacuous :
  let f := {| f_value := 3; f_grad := fun i => INR i; f_field := fun w => if String.eqb w "mesh_coords" then Some (fun i => 1 + INR i) else None;
              f_scalar := fun _ => None |} in
  rfind "J" [("J"%string, FunctionalOutput f)] = Some (FunctionalOutput f) /\
  fo_jvp f "mesh_coords" 2 (fun _ => 1) = Some (0 + (1 + INR 0) * 1 + (1 + INR 1) * 1).
Proof. cbn. auto. Qed.

Example C17_nonvacuous :
  let f := {| f_value := 3; f_grad := fun i => INR i; f_field := fun _ => None; f_scalar := fun _ => None |} in
  calcOutput (creates (fun _ => Some (FunctionalOutput f)) [] ["drag"; "lift"; "drag"]%string) "lift" = Done 3 /\
  calcOutput (creates (fun _ => Some (FunctionalOutput f)) [] ["drag"; "lift"; "drag"]%string) "mass" = MISOException.
Proof. cbn. auto. Qed.
