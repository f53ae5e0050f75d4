(** C106-C109: the time-marching operator MISOEvolver. *)
From Coq Require Import Reals Lra Lia List Bool Arith String.
From Coquelicot Require Import Coquelicot.
From Verif Require Import Num Vec Deriv Form FormProofs Inputs Ode Evolver EvolverSpec EvolverProofs.
Import ListNotations.
Local Open Scope R_scope.

(** an evolver reached from its constructor by any sequence of calls *)
Definition reached (c : config) (e : evolver) : Prop := exists w0 e0 l, construct c w0 = EOk e0 /\ erun e0 l = EOk e.
Lemma reached_built c e : reached c e -> built c e.
Proof. intros [w0 [e0 [l [H K]]]]. apply (built_run c l e0); [|exact K]. now apply (built_construct c w0). Qed.
Definition matrix_of (b : option bform) : option mat := option_map b_mat b.
(** the solver of the mass matrix is exact *)
Definition exact_cg (n : nat) (cg : mat -> vec -> vec -> vec) (M : mat) : Prop :=
  forall A b y, (forall i j, A i j = M i j) -> forall i, (i < n)%nat -> mv n A (cg A b y) i = b i.

(** ** C106: the explicit rate *)
Theorem C106_rate_partial : forall c e M F cg x y, reached c e -> c_nmass c = None -> c_mass c = Some M -> c_res c = Some F ->
  exact_cg (c_n c) cg (b_mat M) -> (c_stiff c = None \/ forall j, List.In j (c_ess c) -> x j = 0) ->
  exists yy e1, ev_mult cg x y e = EOk (yy, e1) /\
    forall i, (i < c_n c)%nat -> ~ List.In i (c_ess c) -> is_rate (c_n c) (b_mat M) (nl_mult F) (matrix_of (c_stiff c)) (c_load c) x yy i.
Proof.
  intros c e M F cg x y Hr HN HM HF HC HS. destruct (reached_built c e Hr) as [B1 [B2 B3]].
  unfold ev_mult. rewrite B1, HN, HF, B2, HM, B3. cbn [option_map]. do 2 eexists. split; [reflexivity|].
  intros i Hi HE. unfold is_rate, matrix_of. cbv beta.
  set (rhs := match c_load c with Some l => _ | None => _ end).
  pose proof (HC (elim_left [] (b_mat M)) rhs y ltac:(intros; apply elim_nil) i Hi) as K.
  rewrite (mv_ext (c_n c) (elim_left [] (b_mat M)) (b_mat M)) in K by (intros; apply elim_nil).
  rewrite (mv_scal (c_n c) (b_mat M) (-1)), K. unfold rhs. clear K rhs.
  destruct (c_stiff c) as [b|]; cbn [option_map matrix_term].
  - destruct HS as [HS|HS]; [discriminate|].
    destruct (c_load c); unfold vadd; cbn [vector_term]; rewrite mv_elim_free by auto; ring.
  - destruct (c_load c); unfold vadd; cbn [vector_term]; ring.
Qed.
Print Assumptions C106_rate_partial.
Definition sm (a : R) : mat := fun i j => if Nat.eqb i j then a else 0.
Definition form1 (f g : R -> R) (e : list nat) : nlform := {| nl_raw := fun u i => f (u i); nl_grad := fun u i j => if Nat.eqb i j then g (u i) else 0; nl_energy := fun u => u 0%nat; nl_ess := e |}.
Definition full (M : mat) : bform := {| b_mat := M; b_level := LegacyFull |}.
Example C106_witness : exists w0 e c, construct c w0 = EOk e /\ reached c e /\ c_ess c = [1%nat] /\ c_stiff c <> None /\ exact_cg (c_n c) (fun _ b _ i => b i / 2) (sm 2).
Proof.
  exists (fun _ => 0). eexists. exists {| c_n := 2; c_ess := [1%nat]; c_nmass := None; c_mass := Some (full (sm 2)); c_res := Some (form1 (fun u => u * u) (fun u => 2 * u) []);
    c_stiff := Some (full (sm 3)); c_load := Some (fun _ => 1); c_ent := None; c_abort := true |}.
  split; [reflexivity|]. split; [do 2 eexists; exists []; split; reflexivity|]. split; [reflexivity|]. split; [discriminate|].
  intros A b y HA i Hi. cbn in Hi. destruct i as [|[|?]]; try lia; cbn [mv]; unfold mv; cbn [rsum c_n]; rewrite !HA; unfold sm; cbn [Nat.eqb]; field.
Qed.
(** essential dofs: the mass matrix is not eliminated, so the rate there is not zero although the residual's rows are *)
Definition clamp : config := {| c_n := 2; c_ess := [0%nat]; c_nmass := None; c_mass := Some (full (fun i j => if Nat.eqb i j then 2 else 1));
  c_res := Some (form1 (fun u => u) (fun _ => 1) [0%nat]); c_stiff := None; c_load := None; c_ent := None; c_abort := true |}.
Definition cg2 (_ : mat) (b : vec) (_ : vec) : vec := fun i => match i with O => (2 * b 0%nat - b 1%nat) / 3 | _ => (2 * b 1%nat - b 0%nat) / 3 end.
Theorem C106_essential_refuted : exact_cg 2 cg2 (fun i j => if Nat.eqb i j then 2 else 1) /\
  forall w0, exists e0 yy e1, construct clamp w0 = EOk e0 /\ ev_mult cg2 (fun i => match i with O => 0 | _ => 3 end) (fun _ => 0) e0 = EOk (yy, e1) /\
    c_ess clamp = [0%nat] /\ yy 0%nat = 1.
Proof.
  split.
  - intros A b y HA i Hi. destruct i as [|[|?]]; try lia; unfold mv; cbn [rsum]; rewrite !HA; cbn; field.
  - intros w0. do 3 eexists. split; [reflexivity|]. split; [reflexivity|]. split; [reflexivity|]. cbn. field.
Qed.
Print Assumptions C106_essential_refuted.
(** without a residual the work vector is not reset: every call adds to what the earlier ones left *)
Fixpoint mults (cg : mat -> vec -> vec -> vec) (xs : list vec) (y : vec) (e : evolver) : eret (vec * evolver) :=
  match xs with
  | [] => EOk (y, e)
  | x :: xs => ebind (ev_mult cg x y e) (fun '(y1, e1) => mults cg xs y1 e1)
  end.
Fixpoint sum_over (f : vec -> R) (xs : list vec) : R := match xs with [] => 0 | x :: xs => f x + sum_over f xs end.
Lemma mults_app cg xs : forall ys y e, mults cg (xs ++ ys) y e = ebind (mults cg xs y e) (fun '(y1, e1) => mults cg ys y1 e1).
Proof. induction xs as [|x xs IH]; intros ys y e; cbn; [reflexivity|]. destruct (ev_mult cg x y e) as [[y1 e1]| | |]; cbn; auto. Qed.
Theorem C106_no_residual : forall c w0 e0 M cg xs x y, construct c w0 = EOk e0 -> c_nmass c = None -> c_mass c = Some M -> c_res c = None -> c_ess c = [] ->
  exact_cg (c_n c) cg (b_mat M) ->
  exists yy e1, mults cg (xs ++ [x]) y e0 = EOk (yy, e1) /\
    forall i, (i < c_n c)%nat -> mv (c_n c) (b_mat M) yy i + w0 i + sum_over (fun z => matrix_term (c_n c) (matrix_of (c_stiff c)) z i + vector_term (c_load c) i) (xs ++ [x]) = 0.
Proof.
  intros c w0 e0 M cg xs x y H HN HM HF HE HC. destruct (built_construct c w0 e0 H) as [B [W _]].
  set (term := fun (z : vec) i => matrix_term (c_n c) (matrix_of (c_stiff c)) z i + vector_term (c_load c) i).
  assert (forall z y e, built c e -> exists y1 e1, ev_mult cg z y e = EOk (y1, e1) /\ built c e1 /\ (forall i, e_work e1 i = e_work e i + term z i) /\
    (forall i, (i < c_n c)%nat -> mv (c_n c) (b_mat M) y1 i = - e_work e1 i)) as K.
  { intros z y' e [B1 [B2 B3]]. unfold ev_mult. rewrite B1, HN, HF, B2, HM, B3. cbn [option_map]. do 2 eexists. split; [reflexivity|].
    split; [unfold built; cbn; rewrite HM; auto|]. cbn [e_work]. split.
    - intros i. unfold term, matrix_of. rewrite HE. destruct (c_stiff c), (c_load c); cbn [option_map matrix_term vector_term]; unfold vadd;
        try rewrite (mv_ext (c_n c) (elim_left [] (b_mat b)) (b_mat b)) by (intros; apply elim_nil); ring.
    - intros i Hi. cbv beta. rewrite (mv_scal (c_n c) (b_mat M) (-1)). rewrite <- (mv_ext (c_n c) (elim_left [] (b_mat M)) (b_mat M)) by (intros; apply elim_nil).
      rewrite HC by (auto; intros; apply elim_nil). ring. }
  assert (forall xs y e, built c e -> exists y1 e1, mults cg xs y e = EOk (y1, e1) /\ built c e1 /\ forall i, e_work e1 i = e_work e i + sum_over (fun z => term z i) xs) as L.
  { induction xs0 as [|z zs IH]; intros y' e Be; cbn [mults sum_over].
    - exists y', e. split; [reflexivity|]. split; [exact Be|]. intros; ring.
    - destruct (K z y' e Be) as [y1 [e1 [H1 [Be1 [W1 _]]]]]. rewrite H1. cbn [ebind].
      destruct (IH y1 e1 Be1) as [y2 [e2 [H2 [Be2 W2]]]]. exists y2, e2. split; [exact H2|]. split; [exact Be2|].
      intros i. rewrite W2, W1. ring. }
  destruct (L xs y e0 B) as [y1 [e1 [H1 [Be1 W1]]]]. destruct (K x y1 e1 Be1) as [y2 [e2 [H2 [Be2 [W2 S2]]]]].
  exists y2, e2. split; [rewrite mults_app, H1; cbn; rewrite H2; reflexivity|].
  intros i Hi. fold (term x). rewrite (S2 i Hi), W2, W1, W.
  assert (sum_over (fun z => term z i) (xs ++ [x]) = sum_over (fun z => term z i) xs + term x i) as E.
  { clear. induction xs as [|z zs IH]; cbn; [ring|]. rewrite IH. ring. }
  change (sum_over (fun z => matrix_term (c_n c) (matrix_of (c_stiff c)) z i + vector_term (c_load c) i) (xs ++ [x])) with (sum_over (fun z => term z i) (xs ++ [x])).
  rewrite E. ring.
Qed.
Print Assumptions C106_no_residual.
Definition drive : config := {| c_n := 1; c_ess := []; c_nmass := None; c_mass := Some (full (sm 1)); c_res := None; c_stiff := None; c_load := Some (fun _ => 1); c_ent := None; c_abort := true |}.
(** the same call twice: the second rate is twice the first; both depend on memory nobody initialised *)
Theorem C106_no_residual_refuted : forall w0 : vec, exists e0 y1 e1 y2 e2, construct drive w0 = EOk e0 /\
  ev_mult (fun _ b _ => b) (fun _ => 0) (fun _ => 0) e0 = EOk (y1, e1) /\ ev_mult (fun _ b _ => b) (fun _ => 0) (fun _ => 0) e1 = EOk (y2, e2) /\
  y1 0%nat = - (w0 0%nat + 1) /\ y2 0%nat = - (w0 0%nat + 2).
Proof. intros w0. do 5 eexists. repeat (split; [reflexivity|]). cbn; unfold vadd; split; ring. Qed.
Print Assumptions C106_no_residual_refuted.
(** what the constructor and the explicit rate refuse *)
Theorem C106_refused : forall c w0, (c_nmass c <> None -> c_mass c <> None -> construct c w0 = EThrow) /\
  (forall e cg x y, reached c e -> c_nmass c <> None -> ev_mult cg x y e = EThrow) /\
  (forall e cg x y, reached c e -> c_nmass c = None -> c_mass c = None -> ev_mult cg x y e = EUB).
Proof.
  intros c w0. split; [|split].
  - intros H1 H2. unfold construct, check. destruct (c_nmass c); [|contradiction]. destruct (c_mass c); [reflexivity|contradiction].
  - intros e cg x y Hr HN. destruct (reached_built c e Hr) as [B1 _]. unfold ev_mult. rewrite B1. destruct (c_nmass c); [reflexivity|contradiction].
  - intros e cg x y Hr HN HM. destruct (reached_built c e Hr) as [B1 [B2 _]]. unfold ev_mult. rewrite B1, HN, B2, HM. reflexivity.
Qed.
Print Assumptions C106_refused.

(** ** C107: the operator of the implicit step and its gradient *)
Theorem C107_residual : forall c p x k M F, p_x p = Some x -> c_nmass c = None -> c_mass c = Some M -> c_res c = Some F ->
  exists r, sys_mult c p k = EOk r /\
    (forall i, ~ List.In i (c_ess c) -> r i = implicit_residual (c_n c) (b_mat M) (nl_mult F) None (c_load c) (p_dt p) x k i) /\
    (forall i, List.In i (c_ess c) -> r i = 0).
Proof.
  intros c p x k M F HX HN HM HF. destruct (sys_value c p x F k HX HF) as [r [H [V Z]]]. exists r. split; [exact H|]. split.
  - intros i Hi. rewrite (V i Hi). unfold inertia, implicit_residual. rewrite HN, HM. cbn [matrix_term]. unfold axpy. ring.
  - intros i Hi. now apply (Z i M).
Qed.
Print Assumptions C107_residual.
Theorem C107_gradient_partial : forall c p x k v F, p_x p = Some x -> c_res c = Some F ->
  (c_mass c <> None \/ c_nmass c <> None) -> (c_mass c = None \/ c_nmass c = None) ->
  on_entries (c_n c) (nl_raw F) -> jacobian_of (c_n c) (nl_raw F) (nl_grad F) -> (forall i, List.In i (nl_ess F) -> List.In i (c_ess c)) ->
  (forall N, c_nmass c = Some N -> p_stage p <> 0 /\ on_entries (c_n c) (nl_raw N) /\ jacobian_of (c_n c) (nl_raw N) (nl_grad N) /\ (forall i, List.In i (nl_ess N) -> List.In i (c_ess c))) ->
  (forall j, List.In j (c_ess c) -> v j = 0) ->
  exists (r : R -> vec) J, (forall t : R, sys_mult c p (fun j => k j + t * v j) = EOk (r t)) /\ sys_grad c p k = EOk J /\
    forall i, (i < c_n c)%nat -> ~ List.In i (c_ess c) -> is_derive (fun t : R => r t i) 0 (mv (c_n c) J v i).
Proof.
  intros c p x k v F HX HF H1 H2 FE FJ FS HN HV.
  destruct (sys_grad_value c p x F k HX HF) as [J [HJ [_ GJ]]].
  assert (forall t : R, sys_mult c p (fun j => k j + t * v j) = EOk (match sys_mult c p (fun j => k j + t * v j) with EOk r => r | _ => fun _ => 0 end)) as S.
  { intros t. destruct (sys_value c p x F (fun j => k j + t * v j) HX HF) as [r [-> _]]. reflexivity. }
  exists (fun t => match sys_mult c p (fun j => k j + t * v j) with EOk r => r | _ => fun _ => 0 end), J. split; [exact S|]. split; [exact HJ|].
  intros i Hi HE. rewrite (GJ v i HE HV).
  apply (is_derive_ext_R (fun t : R => inertia c p x (fun j => k j + t * v j) i + nl_mult F (axpy x (p_dt p) (fun j => k j + t * v j)) i + vector_term (c_load c) i
     + match c_mass c with Some b => mv (c_n c) (b_mat b) (fun j => k j + t * v j) i | None => 0 end)).
  { intros t. destruct (sys_value c p x F (fun j => k j + t * v j) HX HF) as [r [-> [V _]]]. symmetry. now apply V. }
  assert (is_derive (fun t : R => nl_mult F (axpy x (p_dt p) (fun j => k j + t * v j)) i) 0 (p_dt p * mv (c_n c) (nl_grad F (axpy x (p_dt p) k)) v i)) as DF.
  { eapply is_derive_ext_R; [|apply (step_derive (c_n c) (nl_raw F) (nl_grad F) x (p_dt p) k v i FE FJ Hi)].
    intros t. symmetry. unfold nl_mult. apply zero_at_out. intros C. now apply HE, FS. }
  unfold inertia. destruct (c_nmass c) as [N|] eqn:EN.
  - assert (c_mass c = None) as -> by (destruct H2; [assumption|discriminate]). destruct (HN N eq_refl) as [HP [NE [NJ NS]]].
    assert (is_derive (fun t : R => (nl_mult N (axpy x (p_stage p) (fun j => k j + t * v j)) i - nl_mult N x i) * (1 / p_stage p)) 0 (mv (c_n c) (nl_grad N (axpy x (p_stage p) k)) v i)) as DN.
    { assert (is_derive (fun t : R => nl_mult N (axpy x (p_stage p) (fun j => k j + t * v j)) i) 0 (p_stage p * mv (c_n c) (nl_grad N (axpy x (p_stage p) k)) v i)) as D0.
      { eapply is_derive_ext_R; [|apply (step_derive (c_n c) (nl_raw N) (nl_grad N) x (p_stage p) k v i NE NJ Hi)].
        intros t. symmetry. unfold nl_mult. apply zero_at_out. intros C. now apply HE, NS. }
      eapply DV_eq; [apply DV_scal_r, DV_minus; [exact D0|apply DV_const]|]. field. exact HP. }
    eapply DV_eq; [apply DV_plus; [apply DV_plus; [apply DV_plus; [exact DN|exact DF]|apply DV_const]|apply DV_const]|]. ring.
  - destruct (c_mass c) as [b|] eqn:EM; [|destruct H1; congruence].
    assert (is_derive (fun t : R => mv (c_n c) (b_mat b) (fun j => k j + t * v j) i) 0 (mv (c_n c) (b_mat b) v i)) as DM.
    { apply (is_derive_ext_R (fun t : R => mv (c_n c) (b_mat b) k i + t * mv (c_n c) (b_mat b) v i)).
      - intros t. rewrite (mv_plus (c_n c) (b_mat b) k (fun j => t * v j)), mv_scal. reflexivity.
      - auto_derive; [exact Logic.I|ring]. }
    eapply DV_eq; [apply DV_plus; [apply DV_plus; [apply DV_plus; [apply DV_const|exact DF]|apply DV_const]|exact DM]|]. ring.
Qed.
Print Assumptions C107_gradient_partial.
Lemma jac1 n f g e : (forall u : R, is_derive f u (g u)) -> on_entries n (nl_raw (form1 f g e)) /\ jacobian_of n (nl_raw (form1 f g e)) (nl_grad (form1 f g e)).
Proof.
  intros H. split.
  - intros u u' E i Hi. cbn. now rewrite E.
  - intros u v i Hi. cbn [nl_raw nl_grad form1].
    assert (mv n (fun i j => if Nat.eqb i j then g (u i) else 0) v i = v i * g (u i)) as ->.
    { unfold mv. rewrite <- (rsum_delta n (fun j => v j * g (u i)) i Hi). apply rsum_ext. intros j _. rewrite (Nat.eqb_sym i j). destruct (Nat.eqb j i); ring. }
    apply (is_derive_comp f (fun t : R => u i + t * v i)).
    + replace (u i + 0 * v i) with (u i) by ring. apply H.
    + auto_derive; [exact Logic.I|ring].
Qed.
Example C107_witness : exists c x, c_mass c <> None /\ c_ess c = [0%nat] /\ (exists F, c_res c = Some F /\ on_entries (c_n c) (nl_raw F) /\ jacobian_of (c_n c) (nl_raw F) (nl_grad F)) /\
  exists J, sys_grad c {| p_dt := 1 / 2; p_x := Some x; p_stage := -1 |} (fun _ => 1) = EOk J /\ J 1%nat 1%nat = 4.
Proof.
  exists {| c_n := 2; c_ess := [0%nat]; c_nmass := None; c_mass := Some (full (sm 2)); c_res := Some (form1 (fun u => u * u) (fun u => 2 * u) []);
    c_stiff := None; c_load := None; c_ent := None; c_abort := true |}, (fun _ => 3 / 2).
  split; [discriminate|]. split; [reflexivity|]. split.
  - eexists. split; [reflexivity|]. apply jac1. intros u. auto_derive; [exact Logic.I|ring].
  - eexists. split; [reflexivity|]. cbn. unfold axpy. field.
Qed.
(** without any mass the step is missing from the gradient *)
Theorem C107_no_mass : forall c p x k v F, p_x p = Some x -> c_res c = Some F -> c_mass c = None -> c_nmass c = None ->
  on_entries (c_n c) (nl_raw F) -> jacobian_of (c_n c) (nl_raw F) (nl_grad F) -> (forall i, List.In i (nl_ess F) -> List.In i (c_ess c)) ->
  (forall j, List.In j (c_ess c) -> v j = 0) ->
  exists (r : R -> vec) J, (forall t : R, sys_mult c p (fun j => k j + t * v j) = EOk (r t)) /\ sys_grad c p k = EOk J /\
    forall i, (i < c_n c)%nat -> ~ List.In i (c_ess c) -> is_derive (fun t : R => r t i) 0 (p_dt p * mv (c_n c) J v i).
Proof.
  intros c p x k v F HX HF H1 H2 FE FJ FS HV.
  destruct (sys_grad_value c p x F k HX HF) as [J [HJ [_ GJ]]].
  assert (forall t : R, sys_mult c p (fun j => k j + t * v j) = EOk (match sys_mult c p (fun j => k j + t * v j) with EOk r => r | _ => fun _ => 0 end)) as S.
  { intros t. destruct (sys_value c p x F (fun j => k j + t * v j) HX HF) as [r [-> _]]. reflexivity. }
  exists (fun t => match sys_mult c p (fun j => k j + t * v j) with EOk r => r | _ => fun _ => 0 end), J. split; [exact S|]. split; [exact HJ|].
  intros i Hi HE. rewrite (GJ v i HE HV), H1, H2.
  apply (is_derive_ext_R (fun t : R => nl_mult F (axpy x (p_dt p) (fun j => k j + t * v j)) i + vector_term (c_load c) i)).
  { intros t. destruct (sys_value c p x F (fun j => k j + t * v j) HX HF) as [r [-> [V _]]]. rewrite (V i HE). unfold inertia. rewrite H1, H2. ring. }
  eapply DV_eq; [apply DV_plus; [|apply DV_const]|apply Rplus_0_r].
  eapply is_derive_ext_R; [|apply (step_derive (c_n c) (nl_raw F) (nl_grad F) x (p_dt p) k v i FE FJ Hi)].
  intros t. symmetry. unfold nl_mult. apply zero_at_out. intros C. now apply HE, FS.
Qed.
Print Assumptions C107_no_mass.
Definition algebraic : config := {| c_n := 1; c_ess := []; c_nmass := None; c_mass := None; c_res := Some (form1 (fun u => u - 1) (fun _ => 1) []);
  c_stiff := None; c_load := None; c_ent := None; c_abort := true |}.
Theorem C107_no_mass_refuted : exists (r : R -> vec) J,
  (forall t : R, sys_mult algebraic {| p_dt := 1 / 2; p_x := Some (fun _ => 0); p_stage := -1 |} (fun _ => t) = EOk (r t)) /\
  sys_grad algebraic {| p_dt := 1 / 2; p_x := Some (fun _ => 0); p_stage := -1 |} (fun _ => 0) = EOk J /\
  is_derive (fun t : R => r t 0%nat) 0 (1 / 2) /\ J 0%nat 0%nat = 1.
Proof.
  do 2 eexists. split; [intros t; reflexivity|]. split; [reflexivity|]. split; [|reflexivity].
  apply (is_derive_ext_R (fun t : R => 0 + (0 + 1 / 2 * t - 1))); [intros t; reflexivity|]. auto_derive; [exact Logic.I|field].
Qed.
Print Assumptions C107_no_mass_refuted.

(** ** C108: the implicit step *)
(** the linear solver is exact on the rows of the essential dofs *)
Definition exact_rows (n : nat) (E : list nat) (w : newton) : Prop :=
  forall J r i, (i < n)%nat -> List.In i E -> (forall v, mv n J v i = v i) -> nw_lin w J r i = r i.
Theorem C108_implicit : forall c e M F w dt x, reached c e -> c_nmass c = None -> c_mass c = Some M -> c_res c = Some F -> c_abort c = true ->
  (forall i, List.In i (c_ess c) -> (i < c_n c)%nat) -> exact_rows (c_n c) (c_ess c) w ->
  implicitSolve (Some w) dt x e = EAbort \/
  exists k e1, implicitSolve (Some w) dt x e = EOk (k, e1) /\ (forall i, List.In i (c_ess c) -> k i = 0) /\
    let res k := zero_at (c_ess c) (implicit_residual (c_n c) (b_mat M) (nl_mult F) None (c_load c) dt x k) in
    norm (c_n c) (res k) <= Rmax (nw_rel w * norm (c_n c) (res (fun _ => 0))) (nw_abs w).
Proof.
  intros c e M F w dt x Hr HN HM HF HA HE HW. destruct (reached_built c e Hr) as [B1 _].
  set (p := {| p_dt := dt; p_x := Some x; p_stage := -1 |}).
  assert (forall k r, sys_mult c p k = EOk r -> veq (c_n c) r (zero_at (c_ess c) (implicit_residual (c_n c) (b_mat M) (nl_mult F) None (c_load c) dt x k))) as SR.
  { intros k r H i Hi. destruct (C107_residual c p x k M F eq_refl HN HM HF) as [r' [H' [V Z]]]. rewrite H in H'. injection H' as <-.
    destruct (in_dec Nat.eq_dec i (c_ess c)) as [I|I]; [rewrite zero_at_in, Z by auto; reflexivity|]. rewrite zero_at_out, V by auto. reflexivity. }
  unfold implicitSolve. rewrite B1. fold p. unfold newton_mult.
  destruct (sys_value c p x F (fun _ => 0) eq_refl HF) as [r0 [H0 _]]. rewrite H0. cbn [ebind].
  destruct (newton_inv w c p x F (Rmax (nw_rel w * norm (c_n c) r0) (nw_abs w)) eq_refl HF (fun k => forall i, List.In i (c_ess c) -> k i = 0)) with (rem := nw_max w) (k := fun _ : nat => 0) (r := r0)
    as [k1 [b [r1 [H1 [I1 [S1 N1]]]]]]; auto.
  { intros k r J Ik Hk HJ i Hi. unfold axpy. rewrite (Ik i Hi).
    destruct (sys_grad_value c p x F k eq_refl HF) as [J' [HJ' [ER _]]]. rewrite HJ in HJ'. injection HJ' as <-.
    rewrite (HW J r i (HE i Hi) Hi) by (intros v; apply ER; auto). rewrite (SR k r Hk i (HE i Hi)), zero_at_in by auto. ring. }
  rewrite H1. cbn [ebind]. rewrite HA. cbn [andb]. destruct b; cbn [negb]; [right|now left].
  exists k1. eexists. split; [reflexivity|]. split; [exact I1|]. cbv zeta.
  rewrite <- (norm_ext _ _ _ (SR _ _ S1)), <- (norm_ext _ _ _ (SR _ _ H0)). now apply N1.
Qed.
Print Assumptions C108_implicit.
(** a linear problem is solved exactly by one step *)
Theorem C108_linear : forall c e M F A b w dt x, reached c e -> c_nmass c = None -> c_mass c = Some M -> c_res c = Some F ->
  affine_map (c_n c) (nl_raw F) A b -> (forall u i j, nl_grad F u i j = A i j) -> (forall i, List.In i (nl_ess F) -> List.In i (c_ess c)) ->
  (forall i, List.In i (c_ess c) -> (i < c_n c)%nat) ->
  (forall k J, sys_grad c {| p_dt := dt; p_x := Some x; p_stage := -1 |} k = EOk J -> forall r i, (i < c_n c)%nat -> mv (c_n c) J (nw_lin w J r) i = r i) ->
  (0 < nw_max w)%nat -> nw_rel w < 1 -> nw_abs w = 0 ->
  exists k e1, implicitSolve (Some w) dt x e = EOk (k, e1) /\ (forall i, List.In i (c_ess c) -> k i = 0) /\
    forall i, (i < c_n c)%nat -> ~ List.In i (c_ess c) -> implicit_residual (c_n c) (b_mat M) (nl_mult F) None (c_load c) dt x k i = 0.
Proof.
  intros c e M F A b w dt x Hr HN HM HF HA HG FS HE HL Hm Hrel Habs. destruct (reached_built c e Hr) as [B1 _].
  set (p := {| p_dt := dt; p_x := Some x; p_stage := -1 |}) in *.
  unfold implicitSolve. rewrite B1. fold p. unfold newton_mult.
  destruct (C107_residual c p x (fun _ => 0) M F eq_refl HN HM HF) as [r0 [H0 [V0 Z0]]]. rewrite H0. cbn [ebind]. rewrite Habs.
  destruct (nw_max w) as [|rem]; [lia|]. cbn [newton_loop].
  destruct (Rleb_spec (norm (c_n c) r0) (Rmax (nw_rel w * norm (c_n c) r0) 0)) as [L|L].
  - cbn [ebind]. rewrite andb_false_r. exists (fun _ => 0). eexists. split; [reflexivity|]. split; [reflexivity|]. intros i Hi HI. rewrite <- V0 by auto.
    assert (norm (c_n c) r0 = 0) as N0. { pose proof (norm_pos (c_n c) r0) as P. unfold Rmax in L. destruct (Rle_dec _ _) in L; [lra|nra]. }
    now apply (norm_0 (c_n c) r0 N0).
  - destruct (sys_grad_value c p x F (fun _ => 0) eq_refl HF) as [J [HJ [ER FR]]]. rewrite HJ. cbn [ebind].
    set (d := nw_lin w J r0). set (k1 := axpy (fun _ => 0) (-1) d).
    destruct (C107_residual c p x k1 M F eq_refl HN HM HF) as [r1 [H1 [V1 Z1]]]. rewrite H1. cbn [ebind].
    assert (forall i, (i < c_n c)%nat -> mv (c_n c) J d i = r0 i) as HD by (intros i Hi; apply (HL _ J HJ r0 i Hi)).
    assert (forall i, List.In i (c_ess c) -> d i = 0) as HDE by (intros i Hi; rewrite <- (ER d i Hi (HE i Hi)), (HD i (HE i Hi)); now apply Z0).
    assert (forall i, (i < c_n c)%nat -> r1 i = 0) as R1.
    { intros i Hi. destruct (in_dec Nat.eq_dec i (c_ess c)) as [I|I]; [now apply Z1|]. rewrite V1 by auto.
      specialize (HD i Hi). rewrite (FR d i I HDE), HN, HM in HD. rewrite (mv_ext (c_n c) (nl_grad F (axpy x (p_dt p) (fun _ => 0))) A) in HD by (intros; apply HG). rewrite V0 in HD by auto.
      unfold implicit_residual in *. cbn [matrix_term] in *. unfold nl_mult in *. rewrite zero_at_out in HD |- * by (intros C; now apply I, FS).
      rewrite HA in HD |- * by auto. cbn [p p_dt] in *.
      rewrite (mv_plus (c_n c) A x (fun j => dt * k1 j)), (mv_scal (c_n c) A dt k1).
      rewrite (mv_plus (c_n c) A x (fun j => dt * 0)) in HD. rewrite (mv_scal (c_n c) A dt (fun _ => 0)) in HD.
      assert (forall B, mv (c_n c) B (fun _ => 0) i = 0) as Z by (intros B; unfold mv; rewrite (rsum_ext (c_n c) _ (fun _ => 0)) by (intros; ring); apply rsum_0).
      assert (forall B, mv (c_n c) B k1 i = - mv (c_n c) B d i) as KD by (intros B; unfold k1, axpy; rewrite (mv_plus (c_n c) B (fun _ => 0) (fun j => -1 * d j)), Z, mv_scal; ring).
      rewrite !KD. rewrite !Z in HD. lra. }
    assert (norm (c_n c) r1 = 0) as N1.
    { unfold norm, dot. rewrite (rsum_ext (c_n c) _ (fun _ => 0)) by (intros i Hi; rewrite R1 by auto; ring). rewrite rsum_0. apply sqrt_0. }
    assert (newton_loop w c p (Rmax (nw_rel w * norm (c_n c) r0) 0) rem k1 r1 = EOk (k1, true)) as ->.
    { destruct rem; cbn [newton_loop]; destruct (Rleb_spec (norm (c_n c) r1) (Rmax (nw_rel w * norm (c_n c) r0) 0)) as [Q|Q]; try reflexivity;
        exfalso; rewrite N1 in Q; pose proof (Rmax_r (nw_rel w * norm (c_n c) r0) 0); lra. }
    cbn [ebind]. rewrite andb_false_r. exists k1. eexists. split; [reflexivity|]. split.
    + intros i Hi. unfold k1, axpy. rewrite HDE by auto. ring.
    + intros i Hi HI. pose proof (R1 i Hi) as Q. rewrite V1 in Q by auto. exact Q.
Qed.
Print Assumptions C108_linear.
(** the result of an implicit step is the same whatever the stiffness matrix ... *)
Theorem C108_stiffness_ignored : forall c K w dt x w0 w0' e e', construct c w0 = EOk e ->
  construct {| c_n := c_n c; c_ess := c_ess c; c_nmass := c_nmass c; c_mass := c_mass c; c_res := c_res c; c_stiff := K; c_load := c_load c; c_ent := c_ent c; c_abort := c_abort c |} w0' = EOk e' ->
  match implicitSolve w dt x e, implicitSolve w dt x e' with EOk (k, _), EOk (k', _) => k = k' | EAbort, EAbort => True | EUB, EUB => True | _, _ => False end.
Proof.
  intros c K w dt x w0 w0' e e' H H'. destruct (built_construct _ _ _ H) as [[B _] _]. destruct (built_construct _ _ _ H') as [[B' _] _].
  set (c' := {| c_n := c_n c; c_ess := c_ess c; c_nmass := c_nmass c; c_mass := c_mass c; c_res := c_res c; c_stiff := K; c_load := c_load c; c_ent := c_ent c; c_abort := c_abort c |}) in *.
  unfold implicitSolve. rewrite B, B'. destruct w as [nw|]; [|exact Logic.I].
  assert (forall p k, newton_mult nw c' p k = newton_mult nw c p k) as ->.
  { intros p k. unfold newton_mult. change (sys_mult c' p k) with (sys_mult c p k). destruct (sys_mult c p k) as [r| | |]; try reflexivity. cbn [ebind].
    change (c_n c') with (c_n c). generalize (Rmax (nw_rel nw * norm (c_n c) r) (nw_abs nw)). intros goal. revert k r. generalize (nw_max nw). induction n as [|n IH]; intros k r; cbn [newton_loop]; [reflexivity|].
    change (sys_grad c' p k) with (sys_grad c p k). change (c_n c') with (c_n c). destruct (Rleb _ _); [reflexivity|]. destruct (sys_grad c p k) as [J| | |]; try reflexivity. cbn [ebind].
    change (sys_mult c' p) with (sys_mult c p). destruct (sys_mult c p _) as [r1| | |]; try reflexivity. cbn [ebind]. apply IH. }
  change (c_abort c') with (c_abort c). set (p := Build_params dt (Some x) (-1)).
  assert (newton_mult nw c p (fun _ => 0) <> EThrow) as NT.
  { unfold newton_mult, sys_mult. cbn [p_x p]. destruct (c_res c) as [F|] eqn:HF; [|discriminate]. cbn [ebind].
    match goal with |- newton_loop _ _ _ ?g ?m ?k ?r <> _ => generalize g; intros goal; generalize m; intros mm; generalize k r; revert goal; induction mm as [|m0 IH]; intros goal k0 r0; cbn [newton_loop]; destruct (Rleb _ _); try discriminate end.
    destruct (sys_grad_value c p x F k0 eq_refl HF) as [J [-> _]]. cbn [ebind]. destruct (sys_value c p x F (axpy k0 (-1) (nw_lin nw J r0)) eq_refl HF) as [r1 [-> _]]. cbn [ebind]. apply IH. }
  destruct (newton_mult nw c p (fun _ => 0)) as [[k b]| | |]; cbn [ebind]; try exact Logic.I; [destruct (_ && _); [exact Logic.I|reflexivity]|congruence].
Qed.
Print Assumptions C108_stiffness_ignored.
Definition decay : config := {| c_n := 1; c_ess := []; c_nmass := None; c_mass := Some (full (sm 1)); c_res := Some (form1 (fun _ => 0) (fun _ => 0) []);
  c_stiff := Some (full (sm 1)); c_load := None; c_ent := None; c_abort := true |}.
Definition inv1 : newton := {| nw_lin := fun J r i => r i / J i i; nw_rel := 0; nw_abs := 0; nw_max := 5 |}.
(** ... while the explicit rate uses it *)
Theorem C108_stiffness_refuted : forall w0, exists e k e1 y e2, construct decay w0 = EOk e /\
  implicitSolve (Some inv1) 1 (fun _ => 1) e = EOk (k, e1) /\ k 0%nat = 0 /\
  implicit_residual 1 (sm 1) (fun _ _ => 0) (Some (sm 1)) None 1 (fun _ => 1) k 0 = 1 /\
  ev_mult (fun _ b _ => b) (fun _ => 1) (fun _ => 0) e = EOk (y, e2) /\ y 0%nat = -1.
Proof.
  intros w0. eexists. exists (fun _ => 0). do 3 eexists. split; [reflexivity|]. split.
  - unfold implicitSolve, newton_mult. cbn [e_cfg decay c_abort c_n ebind sys_mult p_x c_res c_load c_mass c_nmass nw_max inv1].
    cbn [newton_loop].
    match goal with |- context [Rleb ?a ?b] => assert (Rleb a b = true) as -> end; [|reflexivity].
    apply Rleb_true. match goal with |- norm ?n ?r <= _ => assert (norm n r = 0) as -> end; [|apply Rmax_r].
    unfold norm, dot. cbn. unfold vadd, mv, full, sm, axpy, nl_mult, zero_at, form1. cbn. match goal with |- sqrt ?a = _ => replace a with 0 by ring end. apply sqrt_0.
  - split; [reflexivity|]. split; [unfold implicit_residual; cbn; unfold mv, sm; cbn; ring|]. split; [reflexivity|].
    cbn. unfold nl_mult, zero_at, form1, elim_left, full, sm, vadd, mv. cbn. ring.
Qed.
Print Assumptions C108_stiffness_refuted.
(** nonlinear mass: the equation solved has N(x - k) in the place of N(x + dt k) *)
Theorem C108_nonlinear_mass_partial : forall c N F A b dt x k, c_nmass c = Some N -> c_mass c = None -> c_res c = Some F ->
  affine_map (c_n c) (nl_raw N) A b -> dt <> 0 ->
  exists r, sys_mult c {| p_dt := dt; p_x := Some x; p_stage := -1 |} k = EOk r /\
    forall i, (i < c_n c)%nat -> ~ List.In i (c_ess c) -> r i = implicit_residual_nm (nl_mult N) (nl_mult F) (c_load c) dt x k i.
Proof.
  intros c N F A b dt x k HN HM HF HA Hdt. destruct (sys_value c {| p_dt := dt; p_x := Some x; p_stage := -1 |} x F k eq_refl HF) as [r [H [V _]]].
  exists r. split; [exact H|]. intros i Hi HE. rewrite (V i HE). unfold inertia, implicit_residual_nm. rewrite HN, HM. cbn [p_stage p_dt].
  assert (forall a, a <> 0 -> (nl_mult N (fun j => x j + a * k j) i - nl_mult N x i) / a = (if memb i (nl_ess N) then 0 else mv (c_n c) A k i)) as K.
  { intros a Ha. unfold nl_mult, zero_at. destruct (memb i (nl_ess N)); [field; exact Ha|]. rewrite !HA by auto. rewrite (mv_plus (c_n c) A x (fun j => a * k j)), mv_scal. field. exact Ha. }
  rewrite (K dt Hdt). unfold axpy. replace ((nl_mult N (fun j => x j + -1 * k j) i - nl_mult N x i) * (1 / -1)) with ((nl_mult N (fun j => x j + -1 * k j) i - nl_mult N x i) / -1) by (field).
  rewrite K by lra. ring.
Qed.
Print Assumptions C108_nonlinear_mass_partial.
Definition squares : config := {| c_n := 1; c_ess := []; c_nmass := Some (form1 (fun u => u * u) (fun u => 2 * u) []); c_mass := None;
  c_res := Some (form1 (fun u => 4 * ((u - 1) * (u - 1)) - 1) (fun u => 8 * (u - 1)) []); c_stiff := None; c_load := None; c_ent := None; c_abort := true |}.
Theorem C108_nonlinear_mass_refuted : forall w0, exists e k e1, construct squares w0 = EOk e /\
  implicitSolve (Some inv1) (1 / 2) (fun _ => 1) e = EOk (k, e1) /\
  implicit_residual_nm (fun u i => u i * u i) (fun u i => 4 * ((u i - 1) * (u i - 1)) - 1) None (1 / 2) (fun _ => 1) k 0 = 3 / 8.
Proof.
  intros w0. eexists. 
  set (p := {| p_dt := 1 / 2; p_x := Some (fun _ : nat => 1); p_stage := -1 |}).
  assert (forall k, exists r, sys_mult squares p k = EOk r /\ r 0%nat = 2 * k 0%nat - 1) as SM.
  { intros k. eexists. split; [reflexivity|]. cbn. unfold vadd, nl_mult, zero_at, axpy, form1. cbn. field. }
  assert (exists J, sys_grad squares p (fun _ => 0) = EOk J /\ J 0%nat 0%nat = 2) as [J [HJ J2]].
  { eexists. split; [reflexivity|]. cbn. unfold axpy. ring. }
  destruct (SM (fun _ => 0)) as [r0 [H0 V0]].
  set (k1 := axpy (fun _ => 0) (-1) (nw_lin inv1 J r0)).
  destruct (SM k1) as [r1 [H1 V1]].
  assert (k1 0%nat = 1 / 2) as K1 by (unfold k1, axpy; cbn; rewrite V0, J2; lra).
  assert (forall r : vec, norm 1 r = Rabs (r 0%nat)) as N1 by (intros r; unfold norm, dot; cbn; rewrite Rplus_0_l; rewrite <- (sqrt_Rsqr_abs (r 0%nat)); reflexivity).
  exists k1. eexists. split; [reflexivity|]. split.
  - unfold implicitSolve. cbn [e_cfg]. unfold newton_mult. match goal with |- context [sys_mult squares ?q _] => change q with p end. rewrite H0. cbn [ebind nw_rel nw_abs nw_max inv1]. cbn [newton_loop]. change (c_n squares) with 1%nat.
    assert (Rmax (0 * norm 1 r0) 0 = 0) as -> by (rewrite Rmult_0_l; apply Rmax_left; lra).
    assert (Rleb (norm 1 r0) 0 = false) as -> by (apply Rleb_false; rewrite N1, V0; unfold Rabs; destruct (Rcase_abs _); lra).
    rewrite HJ. cbn [ebind]. match goal with |- context [sys_mult squares p ?q] => change q with k1 end. rewrite H1. cbn [ebind].
    assert (Rleb (norm 1 r1) 0 = true) as -> by (apply Rleb_true; rewrite N1, V1, K1; replace (2 * (1 / 2) - 1) with 0 by field; rewrite Rabs_R0; lra).
    reflexivity.
  - unfold implicit_residual_nm. cbn [vector_term]. rewrite K1. field.
Qed.
Print Assumptions C108_nonlinear_mass_refuted.
Theorem C108_no_solver : forall e dt x, implicitSolve None dt x e = EUB. Proof. reflexivity. Qed.
Print Assumptions C108_no_solver.
Example C108_witness : exists w0 e c, construct c w0 = EOk e /\ reached c e /\ c_ess c = [1%nat] /\ c_abort c = true /\ exact_rows (c_n c) (c_ess c) inv1 /\
  exists k e1, implicitSolve (Some inv1) 1 (fun _ => 1) e = EOk (k, e1) /\ k 0%nat <> 0.
Proof.
  exists (fun _ => 0). eexists. exists {| c_n := 2; c_ess := [1%nat]; c_nmass := None; c_mass := Some (full (sm 2)); c_res := Some (form1 (fun u => 3 * u) (fun _ => 3) []);
    c_stiff := None; c_load := Some (fun _ => 1); c_ent := None; c_abort := true |}.
  split; [reflexivity|]. match goal with |- reached ?c ?e /\ _ => set (cc := c); set (ee := e) end.
  assert (reached cc ee) as RR by (do 2 eexists; exists []; split; reflexivity). split; [exact RR|]. split; [reflexivity|]. split; [reflexivity|].
  split.
  - intros J r i Hi HE HR. cbn in HE. destruct HE as [<-|[]]. cbn. specialize (HR (fun j => if Nat.eqb j 1 then 1 else 0)). unfold mv in HR. cbn in HR.
    assert (J 1%nat 1%nat = 1) as -> by lra. field.
  - assert (affine_map (c_n cc) (nl_raw (form1 (fun u => 3 * u) (fun _ => 3) [])) (sm 3) (fun _ => 0)) as HA.
    { intros u i Hi. cbn in Hi. destruct i as [|[|?]]; try lia; unfold mv, sm; cbn; ring. }
    assert (forall u i j, nl_grad (form1 (fun u => 3 * u) (fun _ => 3) []) u i j = sm 3 i j) as HG by reflexivity.
    assert (forall i, List.In i (c_ess cc) -> (i < c_n cc)%nat) as HE by (intros i Hi; cbn in Hi; destruct Hi as [<-|[]]; cbn; lia).
    assert (forall k J, sys_grad cc {| p_dt := 1; p_x := Some (fun _ => 1); p_stage := -1 |} k = EOk J -> forall r i, (i < c_n cc)%nat -> mv (c_n cc) J (nw_lin inv1 J r) i = r i) as HL.
    { intros k J HJ r i Hi. unfold sys_grad in HJ. cbn [p_x c_res cc c_nmass c_mass] in HJ. injection HJ as <-. change (c_n cc) with 2%nat in *.
      destruct i as [|[|?]]; try lia; unfold mv, elim_left, full, sm, form1; cbn; field. }
    destruct (C108_linear cc ee (full (sm 2)) (form1 (fun u => 3 * u) (fun _ => 3) []) (sm 3) (fun _ => 0) inv1 1 (fun _ => 1) RR eq_refl eq_refl eq_refl HA HG (fun i (H : List.In i []) => False_ind _ H) HE HL) as [k [e1 [H [Z S]]]];
      [cbn; lia|cbn; lra|reflexivity|].
    exists k, e1. split; [exact H|]. intros K. assert (~ List.In 0%nat (c_ess cc)) as N0 by (cbn; lia). specialize (S 0%nat ltac:(cbn; lia) N0).
    unfold implicit_residual, mv, full, sm, nl_mult, zero_at, form1 in S. cbn in S. rewrite K in S. lra.
Qed.

(** ** C109: the gradient and the entropy of an evolver, the operator over a time-dependent residual *)
Theorem C109_gradient : forall c e w dt x k e1 y, reached c e -> implicitSolve w dt x e = EOk (k, e1) ->
  ev_gradient y e1 = sys_grad c {| p_dt := dt; p_x := Some x; p_stage := -1 |} y.
Proof.
  intros c e w dt x k e1 y Hr H. destruct (reached_built c e Hr) as [B1 _]. unfold implicitSolve in H. destruct w as [nw|]; [|discriminate].
  destruct (newton_mult _ _ _ _) as [[k' b]| | |]; cbn [ebind] in H; try discriminate. destruct (_ && _); [discriminate|]. injection H as <- <-.
  unfold ev_gradient. cbn. now rewrite B1.
Qed.
Print Assumptions C109_gradient.
Theorem C109_gradient_early : forall c w0 e y, construct c w0 = EOk e -> ev_gradient y e = EUB.
Proof. intros c w0 e y H. destruct (built_construct c w0 e H) as [[B _] [_ P]]. unfold ev_gradient, sys_grad. rewrite P. reflexivity. Qed.
Print Assumptions C109_gradient_early.
Definition quad : config := {| c_n := 1; c_ess := []; c_nmass := None; c_mass := Some (full (sm 1)); c_res := Some (form1 (fun u => u * u) (fun u => 2 * u) []);
  c_stiff := None; c_load := None; c_ent := None; c_abort := true |}.
(** the argument of GetGradient is taken as a slope from the last baseline, not as the state *)
Theorem C109_gradient_refuted : forall w0, exists e k e1 J, construct quad w0 = EOk e /\ implicitSolve (Some inv1) (1 / 2) (fun _ => 0) e = EOk (k, e1) /\
  ev_gradient (fun _ => 1) e1 = EOk J /\ J 0%nat 0%nat = 3 / 2 /\ sm 1 0%nat 0%nat + 1 / 2 * (2 * 1) = 2.
Proof.
  intros w0. eexists. exists (fun _ => 0). do 2 eexists. split; [reflexivity|]. split.
  - unfold implicitSolve, newton_mult. cbn [e_cfg quad c_abort c_n ebind sys_mult p_x c_res c_load c_mass c_nmass nw_max inv1]. cbn [newton_loop].
    match goal with |- context [Rleb ?a ?b] => assert (Rleb a b = true) as -> end; [|reflexivity].
    apply Rleb_true. match goal with |- norm ?n ?r <= _ => assert (norm n r = 0) as -> end; [|apply Rmax_r].
    unfold norm, dot. cbn. unfold vadd, mv, full, sm, nl_mult, zero_at, form1, axpy. cbn. match goal with |- sqrt ?a = _ => replace a with 0 by ring end. apply sqrt_0.
  - split; [reflexivity|]. cbn. unfold axpy, sm. cbn. split; field.
Qed.
Print Assumptions C109_gradient_refuted.
Theorem C109_entropy : forall c e x k dt, reached c e ->
  (c_ent c = None -> ev_entropy x e = EThrow /\ ev_entropy_change dt x k e = EThrow) /\
  (forall E F, c_ent c = Some E -> c_res c = Some F -> ev_entropy x e = EOk (nl_energy E x) /\ ev_entropy_change dt x k e = EOk (nl_energy F (fun i => x i + dt * k i))).
Proof.
  intros c e x k dt Hr. destruct (reached_built c e Hr) as [B1 _]. unfold ev_entropy, ev_entropy_change. rewrite B1. split.
  - intros ->. auto.
  - intros E F -> ->. split; reflexivity.
Qed.
Print Assumptions C109_entropy.
(** the operator for Newton's method over a TimeDependentResidual has the same value for every slope *)
Theorem C109_ode_operator_refuted : forall p m r n wb kb wb' kb', ode_operator_mult p m r n wb kb = ode_operator_mult p m r n wb' kb'.
Proof. reflexivity. Qed.
Print Assumptions C109_ode_operator_refuted.
