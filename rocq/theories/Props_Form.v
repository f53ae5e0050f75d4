(** C65-C68: residual forms with essential degrees of freedom: residual, Jacobian products, adjoint,
    caching over histories, parameter sensitivities.  Specification: FormSpec.v. *)
From Coq Require Import Reals Lra Lia List String Bool Arith.
From Coquelicot Require Import Coquelicot.
From Verif Require Import Vec Form FormSpec FormProofs SbpProofs.
Import ListNotations.
Local Open Scope R_scope.

(** evaluate returns the specified residual for the given state and throws exactly when the inputs
    hold no state; it changes nothing but the work vector. *)
Theorem C65_residual : forall (W In : Type) (P : pieces W In) (i : In) (f : nform W),
  match state_of _ _ P i with
  | None => evaluate _ _ P i f = Thrown
  | Some u => exists r f1, evaluate _ _ P i f = Done (r, f1)
      /\ (forall k, r k = residual_spec (ess _ f) (bc_field _ _ P (world _ f)) (raw _ _ P (world _ f)) u k)
      /\ world _ f1 = world _ f /\ ess _ f1 = ess _ f /\ jac _ f1 = jac _ f /\ jac_e _ f1 = jac_e _ f /\ jac_t _ f1 = jac_t _ f
  end.
Proof.
  intros W In P i f. destruct (state_of _ _ P i) as [u|] eqn:Eu.
  - destruct (evaluate_spec W In P i f u Eu) as (r & f1 & E & A1 & A2 & A3 & A4 & A5 & A6).
    exists r, f1. split; [exact E|]. split; [exact A6|]. repeat split; assumption.
  - unfold evaluate. rewrite Eu. reflexivity.
Qed.
Print Assumptions C65_residual.

Lemma asm W In (P : pieces W In) i f u J f1 : state_of _ _ P i = Some u -> getJacobian _ _ P i f = Done (J, f1) ->
  J = elim_left (ess _ f) (grad _ _ P (world _ f) u) /\
  matches W In P f1 (Build_ghost W (world _ f) (ess _ f) (Some (world _ f, u, ess _ f))).
Proof.
  intros Eu. unfold getJacobian. rewrite Eu. intros E. injection E as <- <-. split; [reflexivity|].
  unfold matches; cbn. repeat split. left; reflexivity.
Qed.

(** After the Jacobian is assembled at u, the product with v is added to res_dot, and it is the
    derivative of evaluate's residual at u along v: for every v when there is no boundary field, and
    for v vanishing on the essential dofs otherwise. *)
Theorem C65_product_partial : forall (W In : Type) (P : pieces W In) (i : In) (f : nform W) (u : vec) J f1 (v res_dot : vec),
  state_of _ _ P i = Some u ->
  gradient_of (size _ _ P) (raw _ _ P (world _ f)) (grad _ _ P (world _ f)) ->
  getJacobian _ _ P i f = Done (J, f1) ->
  bc_field _ _ P (world _ f) = None \/ zero_on (ess _ f) v ->
  exists out f2 d, jvp_state _ _ P v res_dot f1 = Done (out, f2) /\ veq (size _ _ P) out (vadd res_dot d) /\
    deriv_along (size _ _ P) (residual_spec (ess _ f) (bc_field _ _ P (world _ f)) (raw _ _ P (world _ f))) u v d.
Proof.
  intros W In P i f u J f1 v rd Eu HG EJ Hv. destruct (asm _ _ _ _ _ _ _ _ Eu EJ) as (_ & M).
  destruct (jvp_matches W In P f1 _ (world _ f) u (ess _ f) v rd M eq_refl eq_refl) as (out & f2 & E & V).
  exists out, f2, (jv (size _ _ P) (ess _ f) (grad _ _ P (world _ f) u) v). split; [exact E|]. split; [exact V|].
  apply residual_deriv; assumption.
Qed.
Print Assumptions C65_product_partial.

(** The two products are transposes of each other, for every v and r, at every state. *)
Theorem C65_transpose : forall (W In : Type) (P : pieces W In) (i : In) (f : nform W) J f1 (v r : vec),
  getJacobian _ _ P i f = Done (J, f1) ->
  exists jv f2 vj f3, jvp_state _ _ P v (fun _ => 0) f1 = Done (jv, f2) /\ vjp _ _ P "state" r (fun _ => 0) f1 = Done (vj, f3) /\
    dot (size _ _ P) r jv = dot (size _ _ P) vj v.
Proof.
  intros W In P i f J f1 v r EJ. destruct (state_of _ _ P i) as [u|] eqn:Eu.
  2:{ unfold getJacobian in EJ. rewrite Eu in EJ. discriminate. }
  destruct (asm _ _ _ _ _ _ _ _ Eu EJ) as (_ & M).
  destruct (jvp_matches W In P f1 _ (world _ f) u (ess _ f) v (fun _ => 0) M eq_refl eq_refl) as (a & f2 & Ea & Va).
  destruct (vjp_matches W In P f1 _ (world _ f) u (ess _ f) r (fun _ => 0) M eq_refl eq_refl) as (b & f3 & Eb & Vb).
  exists a, f2, b, f3. split; [exact Ea|]. split; [exact Eb|].
  rewrite (dot_ext _ r r a _ (veq_refl _ r) Va), (dot_ext _ b _ v v Vb (veq_refl _ v)).
  rewrite dot_plus_r, dot_plus_l, jv_vj. f_equal. unfold dot. transitivity 0; [|symmetry].
  - rewrite (rsum_ext _ _ (fun _ => 0)); [apply rsum_0|intros; ring].
  - rewrite (rsum_ext _ _ (fun _ => 0)); [apply rsum_0|intros; ring].
Qed.
Print Assumptions C65_transpose.

(** The reverse product is accumulated into wrt_bar. *)
Theorem C65_reverse : forall (W In : Type) (P : pieces W In) (i : In) (f : nform W) u J f1 (r wrt_bar : vec),
  state_of _ _ P i = Some u -> getJacobian _ _ P i f = Done (J, f1) ->
  exists out f2, vjp _ _ P "state" r wrt_bar f1 = Done (out, f2) /\
    forall j, (j < size _ _ P)%nat ->
    out j = wrt_bar j + rsum (size _ _ P) (fun k => if in_dec Nat.eq_dec k (ess _ f) then 0 else grad _ _ P (world _ f) u k j * r k).
Proof.
  intros W In P i f u J f1 r wb Eu EJ. destruct (asm _ _ _ _ _ _ _ _ Eu EJ) as (_ & M).
  destruct (vjp_matches W In P f1 _ (world _ f) u (ess _ f) r wb M eq_refl eq_refl) as (b & f3 & Eb & Vb).
  exists b, f3. split; [exact Eb|]. intros j Hj. rewrite (Vb j Hj). unfold vadd. rewrite vj_char by exact Hj. f_equal.
  unfold mvT. apply rsum_ext. intros k _. rewrite dec_memb. unfold zero_at. destruct (memb k (ess _ f)); lra.
Qed.
Print Assumptions C65_reverse.

(** A Newton step with the returned matrix: if d solves jac d = -residual, then d is the exact Newton
    direction of the evaluated residual (its derivative along d is minus the residual), provided the
    state satisfies the boundary values (or none are prescribed); and d leaves the essential dofs alone. *)
Theorem C65_newton_partial : forall (W In : Type) (P : pieces W In) (i : In) (f : nform W) u J f1 r f2 d,
  state_of _ _ P i = Some u ->
  gradient_of (size _ _ P) (raw _ _ P (world _ f)) (grad _ _ P (world _ f)) ->
  (forall k, List.In k (ess _ f) -> (k < size _ _ P)%nat) ->
  match bc_field _ _ P (world _ f) with None => True | Some g => agree_on (ess _ f) u g end ->
  getJacobian _ _ P i f = Done (J, f1) -> evaluate _ _ P i f = Done (r, f2) ->
  veq (size _ _ P) (mv (size _ _ P) J d) (vscal (-1) r) ->
  zero_on (ess _ f) d /\
  deriv_along (size _ _ P) (residual_spec (ess _ f) (bc_field _ _ P (world _ f)) (raw _ _ P (world _ f))) u d (vscal (-1) r).
Proof.
  intros W In P i f u J f1 r f2 d Eu HG HE Hb EJ ER HS. destruct (asm _ _ _ _ _ _ _ _ Eu EJ) as (HJ & M).
  destruct (evaluate_spec W In P i f u Eu) as (r' & f' & E' & _ & _ & _ & _ & _ & HR). rewrite ER in E'. injection E' as <- <-.
  assert (R0 : forall k, List.In k (ess _ f) -> r k = 0).
  { intros k Hk. rewrite HR. unfold residual_spec. destruct (in_dec Nat.eq_dec k (ess _ f)); [|contradiction].
    destruct (bc_field _ _ P (world _ f)) as [g|]; [|reflexivity]. rewrite (Hb k Hk). ring. }
  assert (Z : zero_on (ess _ f) d).
  { intros k Hk. pose proof (HS k (HE k Hk)) as E. rewrite HJ, row_ess in E by (auto using HE). rewrite E. unfold vscal. rewrite (R0 k Hk). ring. }
  split; [exact Z|]. intros k Hk.
  pose proof (residual_deriv W In P (ess _ f) (bc_field _ _ P (world _ f)) _ _ u d HG (or_intror Z) k Hk) as D.
  rewrite (jv_char _ _ _ _ _ Hk) in D.
  destruct (in_dec Nat.eq_dec k (ess _ f)) as [H|H].
  - rewrite (zero_at_in _ _ _ H) in D. unfold vscal. rewrite (R0 k H), Rmult_0_r. exact D.
  - rewrite (zero_at_out _ _ _ H) in D. rewrite <- (HS k Hk), HJ, row_free_noess by assumption. exact D.
Qed.
Print Assumptions C65_newton_partial.

(** A two-dof example used below: dof 1 is prescribed, F u = (u0^2 + 3 u1, 0), inputs are states. *)
Definition ex_raw (_ : unit) (u : vec) : vec := fun i => match i with 0%nat => u 0%nat * u 0%nat + 3 * u 1%nat | _ => 0 end.
Definition ex_grad (_ : unit) (u : vec) : mat := fun i j => match i, j with 0%nat, 0%nat => 2 * u 0%nat | 0%nat, 1%nat => 3 | _, _ => 0 end.
Definition ex (g : option vec) : pieces unit vec :=
  Build_pieces unit vec 2 ex_raw ex_grad (fun _ => g) (fun _ w => w) (fun u => Some u) (fun _ => None)
    (fun s => if String.eqb s "p" then Some (fun _ psi => psi 0%nat * 0 + psi 1%nat * 1) else None).
Lemma ex_gradient : gradient_of 2 (ex_raw tt) (ex_grad tt).
Proof.
  intros u v i Hi. destruct i as [|[|i]]; [| |lia].
  - unfold ex_raw, axpy, mv, ex_grad. cbn [rsum]. auto_derive; [exact I|]. ring.
  - unfold ex_raw, mv, ex_grad. cbn [rsum]. replace (0 + 0 * v 0%nat + 0 * v 1%nat) with 0 by ring. apply (is_derive_const (0:R)).
Qed.
Example C65_example : exists J f1, getJacobian _ _ (ex None) (fun _ => 1) (setOptions _ (Some [1%nat]) (fresh _ tt)) = Done (J, f1) /\ J 0%nat 0%nat = 2 /\ J 0%nat 1%nat = 0 /\ J 1%nat 1%nat = 1.
Proof. eexists _, _. split; [reflexivity|]. cbn. split; [|split]; [ring|reflexivity|reflexivity]. Qed.

(** With a boundary field the product misses the boundary rows: the residual there is u - g, whose
    derivative along v is v, and the code adds nothing. *)
Theorem C65_boundary_rows_refuted : forall g : vec, exists (f : nform unit) u J f1 v out f2,
  getJacobian _ _ (ex (Some g)) u f = Done (J, f1) /\ jvp_state _ _ (ex (Some g)) v (fun _ => 0) f1 = Done (out, f2) /\
  ~ deriv_along 2 (residual_spec (ess _ f) (Some g) (ex_raw tt)) u v out.
Proof.
  intros g. exists (setOptions _ (Some [1%nat]) (fresh _ tt)), (fun _ => 1).
  eexists _, _. exists (fun i => match i with 1%nat => 1 | _ => 0 end). eexists _, _. split; [reflexivity|]. split; [reflexivity|].
  intros H. specialize (H 1%nat (Nat.lt_succ_diag_r 1)).
  assert (D : is_derive (fun t => residual_spec [1%nat] (Some g) (ex_raw tt) (axpy (fun _ => 1) t (fun i => match i with 1%nat => 1 | _ => 0 end)) 1%nat) 0 1).
  { unfold residual_spec, axpy. cbn. auto_derive; [exact I|]. ring. }
  pose proof (is_derive_unique _ _ _ H) as A. pose proof (is_derive_unique _ _ _ D) as B.
  cbn [ess setOptions] in A. rewrite A in B. cbn in B. lra.
Qed.
Print Assumptions C65_boundary_rows_refuted.

(** A Newton step from a state that does not satisfy the boundary values is not the Newton direction:
    the coupling of the free rows to the boundary change is dropped. *)
Theorem C65_newton_refuted : exists (g u : vec) (f : nform unit) J f1 r f2 d,
  getJacobian _ _ (ex (Some g)) u f = Done (J, f1) /\ evaluate _ _ (ex (Some g)) u f = Done (r, f2) /\
  veq 2 (mv 2 J d) (vscal (-1) r) /\
  ~ deriv_along 2 (residual_spec (ess _ f) (Some g) (ex_raw tt)) u d (vscal (-1) r).
Proof.
  exists (fun _ => 1), (fun i => match i with 0%nat => 1 | _ => 0 end), (setOptions _ (Some [1%nat]) (fresh _ tt)).
  eexists _, _, _, _. exists (fun i => match i with 0%nat => -1/2 | _ => 1 end).
  split; [reflexivity|]. split; [reflexivity|]. split.
  - intros i Hi. destruct i as [|[|i]]; [| |lia]; unfold mv, vscal; cbn; unfold elim_left, zero_at; cbn; field.
  - intros H. specialize (H 0%nat Nat.lt_0_2).
    match type of H with is_derive ?G _ _ => set (F := G) in H end.
    assert (D : is_derive F 0 2).
    { unfold F, residual_spec, axpy. cbn. auto_derive; [exact I|]. field. }
    pose proof (is_derive_unique _ _ _ H) as A. pose proof (is_derive_unique _ _ _ D) as B. rewrite A in B.
    unfold vscal, zero_at in B. cbn in B. lra.
Qed.
Print Assumptions C65_newton_refuted.

(** ** Adjoint *)

(** After linearisation at u, solveForAdjoint returns psi that is zero on the essential dofs and
    satisfies psi . (derivative of the residual along v) = state_bar . v for every v that leaves the
    essential dofs alone; the caller's state_bar is unchanged (it is passed by value here and copied
    in the code).  lin is any linear solver that solves exactly. *)
Theorem C66_adjoint_partial : forall (W In : Type) (P : pieces W In) (i j : In) (f : nform W) u J f1 lin (state_bar x0 : vec),
  state_of _ _ P i = Some u ->
  gradient_of (size _ _ P) (raw _ _ P (world _ f)) (grad _ _ P (world _ f)) ->
  getJacobian _ _ P i f = Done (J, f1) ->
  (forall A b y k, (k < size _ _ P)%nat -> mv (size _ _ P) A (lin A b y) k = b k) ->
  exists psi f2, solveForAdjoint _ _ P lin j state_bar x0 f1 = Done (psi, f2) /\
    (forall k, (k < size _ _ P)%nat -> List.In k (ess _ f) -> psi k = 0) /\
    forall v d, zero_on (ess _ f) v ->
      deriv_along (size _ _ P) (residual_spec (ess _ f) (bc_field _ _ P (world _ f)) (raw _ _ P (world _ f))) u v d ->
      dot (size _ _ P) psi d = dot (size _ _ P) state_bar v.
Proof.
  intros W In P i j f u J f1 lin b x0 Eu HG EJ HL. destruct (asm _ _ _ _ _ _ _ _ Eu EJ) as (_ & M).
  destruct (adjoint_matches W In P lin j b x0 f1 _ (world _ f) u (ess _ f) M eq_refl eq_refl HL) as (psi & f2 & E & _ & _ & Z & HT).
  exists psi, f2. split; [exact E|]. split; [exact Z|]. intros v d Hv HD.
  set (n := size _ _ P) in *.
  assert (Ed : veq n d (jv n (ess _ f) (grad _ _ P (world _ f) u) v)).
  { intros k Hk. pose proof (is_derive_unique _ _ _ (HD k Hk)) as A.
    pose proof (is_derive_unique _ _ _ (residual_deriv W In P (ess _ f) (bc_field _ _ P (world _ f)) _ _ u v HG (or_intror Hv) k Hk)) as B.
    rewrite <- A. exact B. }
  rewrite (dot_ext n psi psi d _ (veq_refl n psi) Ed), jv_vj.
  unfold dot. apply rsum_ext. intros k Hk. rewrite vj_char by exact Hk.
  destruct (in_dec Nat.eq_dec k (ess _ f)) as [H|H]; [rewrite (Hv k H); ring|].
  rewrite <- (HT k Hk H). f_equal. unfold mvT. apply rsum_ext. intros q Hq. unfold zero_at.
  destruct (memb q (ess _ f)) eqn:Eq; [|reflexivity]. apply memb_in in Eq. rewrite (Z q Hq Eq). ring.
Qed.
Print Assumptions C66_adjoint_partial.

(** With no essential dofs it solves the full transposed system. *)
Theorem C66_adjoint_unconstrained : forall (W In : Type) (P : pieces W In) (i j : In) (f : nform W) u J f1 lin (state_bar x0 : vec),
  state_of _ _ P i = Some u -> ess _ f = [] -> getJacobian _ _ P i f = Done (J, f1) ->
  (forall A b y k, (k < size _ _ P)%nat -> mv (size _ _ P) A (lin A b y) k = b k) ->
  exists psi f2, solveForAdjoint _ _ P lin j state_bar x0 f1 = Done (psi, f2) /\
    veq (size _ _ P) (mvT (size _ _ P) (grad _ _ P (world _ f) u) psi) state_bar.
Proof.
  intros W In P i j f u J f1 lin b x0 Eu Ee EJ HL. destruct (asm _ _ _ _ _ _ _ _ Eu EJ) as (_ & M). rewrite Ee in M.
  destruct (adjoint_matches W In P lin j b x0 f1 _ (world _ f) u [] M eq_refl eq_refl HL) as (psi & f2 & E & _ & _ & _ & HT).
  exists psi, f2. split; [exact E|]. intros k Hk. apply HT; [exact Hk|intros []].
Qed.
Print Assumptions C66_adjoint_unconstrained.

(** Total derivative by the adjoint.  Along a parameter p the state u(p) keeps the residual's free rows
    at zero and its essential dofs fixed.  Then the derivative of F(p, u(p)) is its partial derivative
    minus the library's vector-Jacobian product of the residual with psi.  Rp is the partial derivative
    of the assembled form, v the derivative of u(p), state_bar that of F in the state; the chain rule
    for the form and for F along the curve is a hypothesis, and so is that the registered sensitivity
    of the form wrt "p" is the transposed partial derivative. *)
Theorem C66_total_derivative : forall (W In : Type) (P : pieces W In) (i : In) (f : nform W) u J f1 lin (state_bar x0 : vec)
    (wp : R -> W) (up : R -> vec) (F : R -> vec -> R) (Fp : R) (v Rp : vec) (name : string) s,
  state_of _ _ P i = Some u -> getJacobian _ _ P i f = Done (J, f1) ->
  push _ _ P i (world _ f) = world _ f ->
  (forall A b y k, (k < size _ _ P)%nat -> mv (size _ _ P) A (lin A b y) k = b k) ->
  wp 0 = world _ f -> up 0 = u ->
  (forall p k, (k < size _ _ P)%nat -> ~ List.In k (ess _ f) -> raw _ _ P (wp p) (up p) k = 0) ->
  (forall k, List.In k (ess _ f) -> v k = 0) ->
  (forall k, (k < size _ _ P)%nat -> ~ List.In k (ess _ f) ->
     is_derive (fun p => raw _ _ P (wp p) (up p) k) 0 (mv (size _ _ P) (grad _ _ P (world _ f) u) v k + Rp k)) ->
  is_derive (fun p => F p (up p)) 0 (Fp + dot (size _ _ P) state_bar v) ->
  ssens _ _ P name = Some s -> (forall psi, s (world _ f) psi = dot (size _ _ P) psi Rp) ->
  exists psi f2, solveForAdjoint _ _ P lin i state_bar x0 f1 = Done (psi, f2) /\
    is_derive (fun p => F p (up p)) 0 (Fp - vjp_scalar _ _ P name psi f2).
Proof.
  intros W In P i f u J f1 lin b x0 wp up F Fp v Rp name s Eu EJ Hpush HL Hw Hup H0 Hv HR HF Es Hs.
  destruct (asm _ _ _ _ _ _ _ _ Eu EJ) as (_ & M).
  destruct (adjoint_matches W In P lin i b x0 f1 _ (world _ f) u (ess _ f) M eq_refl eq_refl HL) as (psi & f2 & E & Ew & _ & Z & HT).
  exists psi, f2. split; [exact E|]. set (n := size _ _ P) in *.
  assert (W2 : world _ f2 = world _ f) by (rewrite Ew; destruct M as (A & _); cbn in A; rewrite A; exact Hpush).
  unfold vjp_scalar. rewrite Es, W2, Hs.
  replace (Fp - dot n psi Rp) with (Fp + dot n b v); [exact HF|].
  assert (K : forall k, (k < n)%nat -> ~ List.In k (ess _ f) -> Rp k = - mv n (grad _ _ P (world _ f) u) v k).
  { intros k Hk Hk2. pose proof (is_derive_unique _ _ _ (HR k Hk Hk2)) as A.
    assert (B : is_derive (fun p => raw _ _ P (wp p) (up p) k) 0 0).
    { apply (is_derive_ext_R (fun _ => 0)); [intros t; symmetry; apply H0; assumption|apply (is_derive_const (0:R))]. }
    apply is_derive_unique in B. rewrite A in B. lra. }
  assert (E1 : dot n psi Rp = - dot n psi (mv n (grad _ _ P (world _ f) u) v)).
  { unfold dot. rewrite <- rsum_opp. apply rsum_ext. intros k Hk.
    destruct (in_dec Nat.eq_dec k (ess _ f)) as [H|H]; [rewrite (Z k Hk H); ring|]. rewrite (K k Hk H). ring. }
  rewrite E1, mv_adj.
  assert (E2 : dot n (mvT n (grad _ _ P (world _ f) u) psi) v = dot n b v).
  { unfold dot. apply rsum_ext. intros k Hk.
    destruct (in_dec Nat.eq_dec k (ess _ f)) as [H|H]; [rewrite (Hv k H); ring|]. rewrite (HT k Hk H). reflexivity. }
  rewrite E2. ring.
Qed.
Print Assumptions C66_total_derivative.

Definition solve22 (A : mat) (b _ : vec) : vec :=
  let D := A 0%nat 0%nat * A 1%nat 1%nat - A 0%nat 1%nat * A 1%nat 0%nat in
  fun i => match i with
           | 0%nat => (b 0%nat * A 1%nat 1%nat - A 0%nat 1%nat * b 1%nat) / D
           | _ => (A 0%nat 0%nat * b 1%nat - b 0%nat * A 1%nat 0%nat) / D end.
(** at u = (1,0), state_bar = (4,5): psi = (2,0) *)
Example C66_example : exists J f1 psi f2, getJacobian _ _ (ex None) (fun i => match i with 0%nat => 1 | _ => 0 end) (setOptions _ (Some [1%nat]) (fresh _ tt)) = Done (J, f1) /\
  solveForAdjoint _ _ (ex None) solve22 (fun i => match i with 0%nat => 1 | _ => 0 end) (fun i => match i with 0%nat => 4 | _ => 5 end) (fun _ => 0) f1 = Done (psi, f2) /\
  psi 0%nat = 2 /\ psi 1%nat = 0.
Proof.
  eexists _, _, _, _. split; [reflexivity|]. split; [reflexivity|].
  unfold solve22, transpose, elim_left, zero_at; cbn. split; field.
Qed.

(** With a boundary field the returned vector does not solve the transposed system of the residual
    (rows of the essential dofs): at u = (1,g1) the residual's Jacobian is ((2,3),(0,1)), and psi = (2,0)
    for state_bar = (4,5), while 3*2 + 0 <> 5.  The completion routine finalizeAdjointSystem, which
    nothing calls, would return the negative of the solution on the free dofs. *)
Theorem C66_boundary_refuted : forall g : vec, exists u (f : nform unit) J f1 state_bar psi f2 v d fin,
  getJacobian _ _ (ex (Some g)) u f = Done (J, f1) /\
  solveForAdjoint _ _ (ex (Some g)) solve22 u state_bar (fun _ => 0) f1 = Done (psi, f2) /\
  deriv_along 2 (residual_spec (ess _ f) (Some g) (ex_raw tt)) u v d /\
  dot 2 psi d <> dot 2 state_bar v /\
  finalizeAdjointSystem _ _ (ex (Some g)) psi f2 = Done fin /\
  fin 0%nat = - psi 0%nat /\ psi 0%nat = 2.
Proof.
  intros g. exists (fun i => match i with 0%nat => 1 | _ => 0 end), (setOptions _ (Some [1%nat]) (fresh _ tt)).
  eexists _, _. exists (fun i => match i with 0%nat => 4 | _ => 5 end). eexists _, _.
  exists (fun i => match i with 0%nat => 0 | _ => 1 end), (fun i => match i with 0%nat => 3 | _ => 1 end). eexists.
  split; [reflexivity|]. split; [reflexivity|]. split; [|split; [|split; [reflexivity|]]].
  - intros i Hi. destruct i as [|[|i]]; [| |lia]; unfold residual_spec, axpy; cbn; auto_derive; auto; ring.
  - unfold dot, solve22, transpose, elim_left, zero_at. cbn. intros H. field_simplify in H. lra.
  - split; unfold mvT, set_at, get_at, solve22, transpose, elim_left, elim_rows, elim_removed, zero_at; cbn; field.
Qed.
Print Assumptions C66_boundary_refuted.

(** ** Histories *)

(** For every sequence of calls on a new form the stored matrices are those of one assembly: the last
    getJacobian that was given a state, or, before any such call, the first linearize that was; with
    the fields, state and essential dofs of that moment.  The stored transpose, if any, is the
    transpose of the stored matrix.  [gruns] replays only fields, essential dofs and that moment. *)
Theorem C67_history : forall (W In : Type) (P : pieces W In) (w : W) (l : list (call In)),
  let f := runs _ _ P l (fresh _ w) in
  let g := gruns W In P l (Build_ghost W w [] None) in
  world _ f = gw _ g /\ ess _ f = ge _ g /\
  (jac _ f = None <-> ga _ g = None) /\
  (forall w0 u0 l0, ga _ g = Some (w0, u0, l0) ->
     jac _ f = Some (elim_left l0 (grad _ _ P w0 u0)) /\
     jac_e _ f = Some (elim_rows l0 (elim_removed l0 (grad _ _ P w0 u0)))) /\
  (forall T, jac_t _ f = Some T -> exists J, jac _ f = Some J /\ T = transpose J).
Proof.
  intros W In P w l f g. pose proof (runs_matches W In P l _ _ (fresh_matches W In P w)) as M.
  fold f in M. fold g in M. destruct M as (H1 & H2 & H3 & H4 & H5).
  split; [exact H1|]. split; [exact H2|]. split; [|split].
  - rewrite H3. destruct (ga _ g); cbn; split; congruence.
  - intros w0 u0 l0 E. rewrite E in H3, H4. split; assumption.
  - intros T E. destruct H5 as [H5|(a & Ea & H5)]; [congruence|]. rewrite H5 in E. injection E as <-.
    exists (left_of W In P a). rewrite H3, Ea. split; reflexivity.
Qed.
Print Assumptions C67_history.

(** Consequently, if the essential dofs have not changed since that assembly, the products and the
    adjoint use the derivative of the residual at the state of that assembly. *)
Theorem C67_products : forall (W In : Type) (P : pieces W In) (w : W) (l : list (call In)) w0 u0 l0 (v r : vec),
  let f := runs _ _ P l (fresh _ w) in
  let g := gruns W In P l (Build_ghost W w [] None) in
  ga _ g = Some (w0, u0, l0) -> ge _ g = l0 ->
  gradient_of (size _ _ P) (raw _ _ P w0) (grad _ _ P w0) ->
  bc_field _ _ P w0 = None \/ zero_on l0 v ->
  exists out f2 d, jvp_state _ _ P v r f = Done (out, f2) /\ veq (size _ _ P) out (vadd r d) /\
    deriv_along (size _ _ P) (residual_spec l0 (bc_field _ _ P w0) (raw _ _ P w0)) u0 v d.
Proof.
  intros W In P w l w0 u0 l0 v r f g Ea Ee HG Hv.
  pose proof (runs_matches W In P l _ _ (fresh_matches W In P w)) as M. fold f in M. fold g in M.
  destruct (jvp_matches W In P f g w0 u0 l0 v r M Ea Ee) as (out & f2 & E & V).
  exists out, f2, (jv (size _ _ P) l0 (grad _ _ P w0 u0) v). split; [exact E|]. split; [exact V|]. apply residual_deriv; assumption.
Qed.
Print Assumptions C67_products.

(** Before any linearisation the products and the adjoint throw; no history makes the adjoint or the
    products use a half-assembled pair. *)
Theorem C67_unlinearized : forall (W In : Type) (P : pieces W In) (w : W) (l : list (call In)) lin i v r b x,
  let f := runs _ _ P l (fresh _ w) in
  ga _ (gruns W In P l (Build_ghost W w [] None)) = None ->
  jvp_state _ _ P v r f = Thrown /\ vjp _ _ P "state" r b f = Thrown /\ solveForAdjoint _ _ P lin i b x f = Thrown.
Proof.
  intros W In P w l lin i v r b x f Ea.
  pose proof (runs_matches W In P l _ _ (fresh_matches W In P w)) as (H1 & H2 & H3 & H4 & H5). fold f in H1, H2, H3, H4, H5.
  rewrite Ea in H3, H4. cbn in H3, H4. destruct H5 as [H5|(a & Ha & _)]; [|congruence].
  split; [|split].
  - unfold jvp_state. rewrite H3. reflexivity.
  - unfold vjp. cbn. unfold vjp_state. rewrite H3. reflexivity.
  - unfold solveForAdjoint, setUpAdjointSystem, getJacobianTranspose. cbn. rewrite H5, H3. reflexivity.
Qed.
Print Assumptions C67_unlinearized.

(** linearize at a state does not make the products those of that state: after a nonlinear solve (which
    assembled at an iterate) or an earlier linearize, it keeps the old matrix. *)
Theorem C67_linearize_refuted : forall first : vec -> call vec, first = CGetJacobian \/ first = CLinearize ->
  let u1 := fun _ : nat => 1 in let u2 := fun _ : nat => 2 in let e0 := fun i => match i with 0%nat => 1 | _ => 0 end in
  exists out f2, jvp_state _ _ (ex None) e0 (fun _ => 0) (runs _ _ (ex None) [first u1; CLinearize u2] (fresh _ tt)) = Done (out, f2) /\
  out 0%nat = 2 /\ deriv_along 2 (ex_raw tt) u2 e0 (fun i => match i with 0%nat => 4 | _ => 0 end).
Proof.
  intros first [->| ->] u1 u2 e0; (eexists _, _; split; [reflexivity|]; split;
    [unfold mv, elim_left, elim_rows, elim_removed, zero_at, e0; cbn; unfold u1; ring|]);
  (intros i Hi; destruct i as [|[|i]]; [| |lia]; unfold ex_raw, axpy, u2, e0; cbn;
    [auto_derive; [exact I|ring]|apply (is_derive_const (0:R))]).
Qed.
Print Assumptions C67_linearize_refuted.

(** Nor does changing the essential dofs: the matrix keeps the rows and columns of the old set. *)
Theorem C67_options_refuted :
  let u := fun _ : nat => 1 in let e1 := fun i => match i with 1%nat => 1 | _ => 0 end in
  exists out f2, jvp_state _ _ (ex None) e1 (fun _ => 0) (runs _ _ (ex None) [CLinearize u; CSetOptions (Some [1%nat]); CLinearize u] (fresh _ tt)) = Done (out, f2) /\
  out 0%nat = 0 /\ deriv_along 2 (residual_spec [1%nat] None (ex_raw tt)) u e1 (fun i => match i with 0%nat => 3 | _ => 0 end).
Proof.
  intros u e1; eexists _, _; split; [reflexivity|]; split;
    [unfold mv, elim_left, elim_rows, elim_removed, zero_at, e1; cbn; ring|].
  intros i Hi; destruct i as [|[|i]]; [| |lia]; unfold residual_spec, ex_raw, axpy, u, e1; cbn;
    [auto_derive; [exact I|ring]|apply (is_derive_const (0:R))].
Qed.
Print Assumptions C67_options_refuted.

Example C67_example : ga _ (gruns unit vec (ex None) [CEvaluate (fun _ => 7); CGetJacobian (fun _ => 1); CLinearize (fun _ => 2); CSetInputs (fun _ => 3)]
  (Build_ghost unit tt [] None)) = Some (tt, fun _ => 1, []).
Proof. reflexivity. Qed.

(** ** Parameter sensitivities *)

(** Vector-Jacobian product wrt a field (or any vector input) named wrt with components j < m: if the
    registered integrators assemble the transposed partial derivative of the form, the product is the
    derivative of r . residual in each component, essential rows of r not counted; accumulated. *)
Theorem C68_field : forall (W In : Type) (P : pieces W In) (f : nform W) (wrt : string) s (m : nat) (wp : nat -> R -> W) (D : nat -> vec)
    (u r wrt_bar : vec),
  wrt <> "state"%string -> sens _ _ P wrt = Some s ->
  (forall j, (j < m)%nat -> wp j 0 = world _ f) ->
  (forall j p, (j < m)%nat -> bc_field _ _ P (wp j p) = bc_field _ _ P (world _ f)) ->
  (forall j k, (j < m)%nat -> (k < size _ _ P)%nat -> is_derive (fun p => raw _ _ P (wp j p) u k) 0 (D j k)) ->
  (forall psi j, (j < m)%nat -> s (world _ f) psi j = dot (size _ _ P) psi (D j)) ->
  exists out f1, vjp _ _ P wrt r wrt_bar f = Done (out, f1) /\
  forall j, (j < m)%nat -> exists d, out j = wrt_bar j + d /\
    is_derive (fun p => dot (size _ _ P) r (residual_spec (ess _ f) (bc_field _ _ P (wp j p)) (raw _ _ P (wp j p)) u)) 0 d.
Proof.
  intros W In P f wrt s m wp D u r wb Hn Es H0 Hb HD Hs. unfold vjp.
  destruct (String.eqb_spec wrt "state"); [contradiction|]. unfold vjp_field. rewrite Es. eexists _, _. split; [reflexivity|].
  intros j Hj. eexists. split; [reflexivity|]. rewrite (Hs _ j Hj). unfold dot. apply is_derive_rsum. intros k Hk.
  replace (zero_at (ess _ f) r k * D j k) with (r k * (if in_dec Nat.eq_dec k (ess _ f) then 0 else D j k))
    by (rewrite dec_memb; unfold zero_at; destruct (memb k (ess _ f)); ring).
  apply is_derive_scal'. unfold residual_spec. destruct (in_dec Nat.eq_dec k (ess _ f)).
  - apply (is_derive_ext_R (fun _ => match bc_field _ _ P (world _ f) with Some b => u k - b k | None => 0 end)).
    + intros t. rewrite (Hb j t Hj). reflexivity.
    + apply (is_derive_const (match bc_field _ _ P (world _ f) with Some b => u k - b k | None => 0 end : R)).
  - apply HD; assumption.
Qed.
Print Assumptions C68_field.

(** The same for a scalar, but only for r vanishing on the essential dofs ... *)
Theorem C68_scalar_partial : forall (W In : Type) (P : pieces W In) (f : nform W) (wrt : string) s (wp : R -> W) (D u r : vec),
  ssens _ _ P wrt = Some s -> wp 0 = world _ f ->
  (forall p, bc_field _ _ P (wp p) = bc_field _ _ P (world _ f)) ->
  (forall k, (k < size _ _ P)%nat -> is_derive (fun p => raw _ _ P (wp p) u k) 0 (D k)) ->
  (forall psi, s (world _ f) psi = dot (size _ _ P) psi D) ->
  zero_on (ess _ f) r ->
  is_derive (fun p => dot (size _ _ P) r (residual_spec (ess _ f) (bc_field _ _ P (wp p)) (raw _ _ P (wp p)) u)) 0 (vjp_scalar _ _ P wrt r f).
Proof.
  intros W In P f wrt s wp D u r Es H0 Hb HD Hs Hr. unfold vjp_scalar. rewrite Es, Hs. unfold dot. apply is_derive_rsum. intros k Hk.
  destruct (in_dec Nat.eq_dec k (ess _ f)) as [H|H].
  - rewrite (Hr k H). apply (is_derive_ext_R (fun _ => 0)); [intros; ring|]. replace (0 * D k) with 0 by ring. apply (is_derive_const (0:R)).
  - apply is_derive_scal'. unfold residual_spec. destruct (in_dec Nat.eq_dec k (ess _ f)); [contradiction|]. apply HD; exact Hk.
Qed.
Print Assumptions C68_scalar_partial.

(** ... otherwise it counts rows that the residual replaces.  Two dofs, the second prescribed,
    F(p,u) = (0, p): the product with r = (0,1) is 1, the residual does not depend on p. *)
Theorem C68_scalar_refuted :
  let P := Build_pieces R vec 2 (fun p _ i => match i with 1%nat => p | _ => 0 end) (fun _ _ _ _ => 0) (fun _ => None)
             (fun _ w => w) (fun u => Some u) (fun _ => None) (fun _ => Some (fun _ psi => psi 1%nat)) in
  let f := setOptions R (Some [1%nat]) (fresh R 0) in let r := fun i => match i with 1%nat => 1 | _ => 0 end in
  vjp_scalar _ _ P "p" r f = 1 /\
  forall p u, dot 2 r (residual_spec (ess _ f) (bc_field _ _ P p) (raw _ _ P p) u) = 0.
Proof. cbn. split; [reflexivity|]. intros p u. unfold dot, residual_spec. cbn. ring. Qed.
Print Assumptions C68_scalar_refuted.

(** Linear forms: addLoad adds the assembled form on the free dofs and nothing on the essential ones,
    and its reverse products are those of that vector (vector inputs: every load_bar; scalars: load_bar
    vanishing on the essential dofs). *)
Definition load_spec (E : list nat) (b : vec) : vec := fun i => if in_dec Nat.eq_dec i E then 0 else b i.
Theorem C68_load : forall (W : Type) (L : lpieces W) (w : W) (E : list nat) (tv : vec) (n : nat),
  (forall i, addLoad _ L w E tv i = tv i + load_spec E (assembled _ L w) i) /\
  (forall wrt s m (wp : nat -> R -> W) (D : nat -> vec) (load_bar wrt_bar : vec),
     lsens _ L wrt = Some s -> (forall j, (j < m)%nat -> wp j 0 = w) ->
     (forall j k, (j < m)%nat -> (k < n)%nat -> is_derive (fun p => assembled _ L (wp j p) k) 0 (D j k)) ->
     (forall psi j, (j < m)%nat -> s w psi j = dot n psi (D j)) ->
     forall j, (j < m)%nat -> exists d, lvjp_field _ L w E wrt load_bar wrt_bar j = wrt_bar j + d /\
       is_derive (fun p => dot n load_bar (load_spec E (assembled _ L (wp j p)))) 0 d) /\
  (forall wrt s (wp : R -> W) (D : vec) (load_bar : vec),
     lssens _ L wrt = Some s -> wp 0 = w ->
     (forall k, (k < n)%nat -> is_derive (fun p => assembled _ L (wp p) k) 0 (D k)) ->
     (forall psi, s w psi = dot n psi D) -> zero_on E load_bar ->
     is_derive (fun p => dot n load_bar (load_spec E (assembled _ L (wp p)))) 0 (lvjp_scalar _ L w wrt load_bar)).
Proof.
  intros W L w E tv n. split; [|split].
  - intros i. unfold addLoad, load_spec. rewrite dec_memb. reflexivity.
  - intros wrt s m wp D lb wb Es H0 HD Hs j Hj. unfold lvjp_field. rewrite Es. eexists. split; [reflexivity|].
    rewrite (Hs _ j Hj). unfold dot. apply is_derive_rsum. intros k Hk. unfold load_spec.
    destruct (in_dec Nat.eq_dec k E) as [H|H].
    + rewrite (zero_at_in _ _ _ H). apply (is_derive_ext_R (fun _ => 0)); [intros; ring|]. replace (0 * D j k) with 0 by ring. apply (is_derive_const (0:R)).
    + rewrite (zero_at_out _ _ _ H). apply is_derive_scal'. apply HD; assumption.
  - intros wrt s wp D lb Es H0 HD Hs Hr. unfold lvjp_scalar. rewrite Es, Hs. unfold dot. apply is_derive_rsum. intros k Hk. unfold load_spec.
    destruct (in_dec Nat.eq_dec k E) as [H|H].
    + rewrite (Hr k H). apply (is_derive_ext_R (fun _ => 0)); [intros; ring|]. replace (0 * D k) with 0 by ring. apply (is_derive_const (0:R)).
    + apply is_derive_scal'. apply HD; exact Hk.
Qed.
Print Assumptions C68_load.

(** the hypotheses are met: one field with one component, F = (p^2, 5p), second dof prescribed *)
Example C68_example :
  let L := Build_lpieces R (fun p i => match i with 0%nat => p * p | _ => 5 * p end)
             (fun _ => Some (fun p psi _ => psi 0%nat * (2 * p) + psi 1%nat * 5)) (fun _ => None) in
  lvjp_field _ L 3 [1%nat] "p" (fun _ => 1) (fun _ => 10) 0%nat = 16 /\
  forall p k, (k < 2)%nat -> is_derive (fun q => assembled _ L q k) p (match k with 0%nat => 2 * p | _ => 5 end).
Proof.
  cbn. split; [unfold lvjp_field; cbn; unfold zero_at; cbn; ring|].
  intros p k Hk. destruct k as [|[|k]]; [| |lia]; auto_derive; auto; ring.
Qed.
