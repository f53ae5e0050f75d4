From Coq Require Import Reals List String Bool Arith Lia Lra Psatz.
From Coquelicot Require Import Coquelicot.
From Verif Require Import Vec Outputs.
Import ListNotations.
Local Open Scope R_scope.

(** ** registry *)
Lemma rfind_app k l l' : rfind k (l ++ l') = match rfind k l with Some v => Some v | None => rfind k l' end.
Proof. induction l as [|[a b] l IH]; cbn; [reflexivity|]. destruct String.eqb; [reflexivity|exact IH]. Qed.

Lemma creates_find add names : forall l k,
  rfind k (creates add l names) =
    match rfind k l with
    | Some o => Some o
    | None => if existsb (String.eqb k) names then add k else None
    end.
Proof.
  induction names as [|n names IH]; intros l k.
  - cbn. destruct (rfind k l); reflexivity.
  - unfold creates. cbn [fold_left]. fold (creates add (match createOutput add l n with Done l' => l' | MISOException => l end) names).
    rewrite IH. cbn [existsb]. unfold createOutput.
    destruct (rfind n l) as [o|] eqn:En.
    + destruct (String.eqb_spec k n) as [->|]; [rewrite En; reflexivity|reflexivity].
    + destruct (add n) as [o|] eqn:Ea.
      * rewrite rfind_app. cbn [rfind]. destruct (rfind k l); [reflexivity|].
        destruct (String.eqb_spec k n) as [->|]; [rewrite Ea; reflexivity|reflexivity].
      * destruct (rfind k l) eqn:Ek; [reflexivity|]. destruct (String.eqb_spec k n) as [->|]; [|reflexivity].
        cbn. rewrite Ea. destruct existsb; reflexivity.
Qed.

Lemma create_fresh add l name : rfind name l = None -> forall o, add name = Some o ->
  exists l', createOutput add l name = Done l' /\ rfind name l' = Some o /\ (forall k, k <> name -> rfind k l' = rfind k l).
Proof.
  intros Hf o Ha. unfold createOutput. rewrite Hf, Ha. eexists. split; [reflexivity|]. split.
  - rewrite rfind_app, Hf. cbn. rewrite String.eqb_refl. reflexivity.
  - intros k Hk. rewrite rfind_app. destruct (rfind k l); [reflexivity|]. cbn.
    apply String.eqb_neq in Hk. rewrite Hk. reflexivity.
Qed.

(** ** adjoint pairs *)
Lemma fo_adjoint f wrt n out_bar wrt_dot d b : (n <> 1)%nat \/ wrt = "state"%string ->
  fo_jvp f wrt n wrt_dot = Some d -> fo_vjp f wrt n out_bar (fun _ => 0) = Some b ->
  out_bar 0%nat * d = dot n b wrt_dot.
Proof.
  unfold fo_jvp, fo_vjp, dot. intros Hn Hd Hb. destruct (String.eqb_spec wrt "state") as [E|E].
  - injection Hd as <-. injection Hb as <-. rewrite <- rsum_scal. apply rsum_ext. intros i _. lra.
  - destruct Hn as [Hn|Hn]; [|congruence]. apply Nat.eqb_neq in Hn. rewrite Hn in Hd.
    destruct (f_field f wrt) as [g|]; cbn in *; [|discriminate].
    injection Hd as <-. injection Hb as <-. rewrite <- rsum_scal. apply rsum_ext. intros i _. lra.
Qed.
Lemma fo_adjoint_scalar f wrt out_bar wrt_dot d b : wrt <> "state"%string ->
  fo_jvp f wrt 1 wrt_dot = Some d -> fo_vjp_scalar f wrt out_bar = Some b -> out_bar 0%nat * d = b * wrt_dot 0%nat.
Proof.
  unfold fo_jvp, fo_vjp_scalar. intros Hn Hd Hb. apply String.eqb_neq in Hn. rewrite Hn in Hd. cbn in Hd.
  destruct (f_scalar f (before_colon wrt)); cbn in *; [|discriminate]. injection Hd as <-. injection Hb as <-. lra.
Qed.

Lemma ratio_adjoint f g wrt n out_bar wrt_dot d b : (n <> 1)%nat \/ wrt = "state"%string -> f_value g <> 0 ->
  ratio_jvp f g wrt n wrt_dot = Some d -> ratio_vjp f g wrt n out_bar (fun _ => 0) = Some b ->
  out_bar 0%nat * d = dot n b wrt_dot.
Proof.
  unfold ratio_jvp, ratio_vjp. intros Hn Hg Hd Hb.
  destruct (fo_jvp f wrt n wrt_dot) as [x|] eqn:Ex; [|discriminate].
  destruct (fo_jvp g wrt n wrt_dot) as [y|] eqn:Ey; [|discriminate].
  destruct (fo_vjp f wrt n out_bar _) as [u|] eqn:Eu; [|discriminate].
  destruct (fo_vjp g wrt n out_bar _) as [v|] eqn:Ev; [|discriminate].
  injection Hd as <-. injection Hb as <-.
  pose proof (fo_adjoint f wrt n out_bar wrt_dot x u Hn Ex Eu) as A.
  pose proof (fo_adjoint g wrt n out_bar wrt_dot y v Hn Ey Ev) as B.
  assert (E : dot n (fun i => 0 + 1 / f_value g * u i + - f_value f / f_value g ^ 2 * v i) wrt_dot
     = 1 / f_value g * dot n u wrt_dot + - f_value f / f_value g ^ 2 * dot n v wrt_dot).
  { unfold dot. rewrite <- !rsum_scal, <- rsum_plus. apply rsum_ext. intros i _. ring. }
  etransitivity; [|symmetry; exact E]. rewrite <- A, <- B. field. exact Hg.
Qed.

(** accumulation *)
Lemma fo_vjp_acc f wrt n out_bar wrt_bar b0 : fo_vjp f wrt n out_bar (fun _ => 0) = Some b0 ->
  exists b, fo_vjp f wrt n out_bar wrt_bar = Some b /\ forall i, b i = wrt_bar i + b0 i.
Proof.
  unfold fo_vjp. destruct (String.eqb wrt "state").
  - intros H. injection H as <-. eexists. split; [reflexivity|]. intros i. lra.
  - destruct (f_field f wrt); cbn; [|discriminate]. intros H. injection H as <-. eexists. split; [reflexivity|]. intros i. lra.
Qed.
Lemma ratio_vjp_acc f g wrt n out_bar wrt_bar b0 : ratio_vjp f g wrt n out_bar (fun _ => 0) = Some b0 ->
  exists b, ratio_vjp f g wrt n out_bar wrt_bar = Some b /\ forall i, b i = wrt_bar i + b0 i.
Proof.
  unfold ratio_vjp. destruct fo_vjp; [|discriminate]. destruct fo_vjp; [|discriminate].
  intros H. injection H as <-. eexists. split; [reflexivity|]. intros i. unfold Rdiv. cbn [pow]. ring.
Qed.

(** the quotient output's forward product is the derivative of the quotient along wrt_dot *)
Lemma ratio_derivative (a b : R -> functional) wrt n wrt_dot da db :
  fo_jvp (a 0) wrt n wrt_dot = Some da -> fo_jvp (b 0) wrt n wrt_dot = Some db ->
  is_derive (fun s => f_value (a s)) 0 da -> is_derive (fun s => f_value (b s)) 0 db -> f_value (b 0) <> 0 ->
  exists d, ratio_jvp (a 0) (b 0) wrt n wrt_dot = Some d /\ is_derive (fun s => ratio_value (a s) (b s)) 0 d.
Proof.
  intros Ha Hb Da Db Hn. unfold ratio_jvp. rewrite Ha, Hb. eexists. split; [reflexivity|].
  unfold ratio_value.
  pose proof (is_derive_div (fun s => f_value (a s)) (fun s => f_value (b s)) 0 da db Da Db Hn) as D.
  replace ((f_value (b 0) * da - f_value (a 0) * db) / f_value (b 0) ^ 2) with ((da * f_value (b 0) - f_value (a 0) * db) / f_value (b 0) ^ 2) by (f_equal; ring).
  exact D.
Qed.

(** through the API *)
Definition adjoint_at (o : output) (wrt : string) (n : nat) : Prop :=
  forall (out_bar wrt_dot : vec) name l d b,
    rfind name l = Some o ->
    outputJVP l name wrt n wrt_dot 0 = Done d -> outputVJP l name wrt n out_bar (fun _ => 0) = Done b ->
    out_bar 0%nat * d = dot n b wrt_dot.

Lemma api_adjoint_functional f wrt n : (n <> 1)%nat \/ wrt <> "state"%string -> adjoint_at (FunctionalOutput f) wrt n.
Proof.
  intros Hn out_bar wrt_dot name l d b Hr Hd Hb. unfold outputJVP, outputVJP in *. rewrite Hr in *.
  cbn [FunctionalOutput o_jvp o_vjp o_vjp_scalar] in *. injection Hd as <-. injection Hb as <-.
  destruct (Nat.eqb_spec n 1) as [E|E].
  - destruct Hn as [|Hn]; [congruence|]. subst n.
    destruct (fo_jvp f wrt 1 wrt_dot) as [d|] eqn:Ed.
    + destruct (fo_vjp_scalar f wrt out_bar) as [b|] eqn:Eb.
      * pose proof (fo_adjoint_scalar f wrt out_bar wrt_dot d b Hn Ed Eb). unfold dot. cbn. lra.
      * unfold fo_jvp, fo_vjp_scalar in *. apply String.eqb_neq in Hn. rewrite Hn in Ed. cbn in Ed.
        destruct (f_scalar f (before_colon wrt)); discriminate.
    + destruct (fo_vjp_scalar f wrt out_bar) as [b|] eqn:Eb.
      * unfold fo_jvp, fo_vjp_scalar in *. apply String.eqb_neq in Hn. rewrite Hn in Ed. cbn in Ed.
        destruct (f_scalar f (before_colon wrt)); discriminate.
      * unfold dot. cbn. lra.
  - destruct (fo_jvp f wrt n wrt_dot) as [d|] eqn:Ed, (fo_vjp f wrt n out_bar (fun _ => 0)) as [b|] eqn:Eb.
    + rewrite <- (fo_adjoint f wrt n out_bar wrt_dot d b (or_introl E) Ed Eb). lra.
    + exfalso. unfold fo_jvp, fo_vjp in *. destruct (String.eqb wrt "state"); [discriminate|].
      apply Nat.eqb_neq in E. rewrite E in Ed. destruct (f_field f wrt); discriminate.
    + exfalso. unfold fo_jvp, fo_vjp in *. destruct (String.eqb wrt "state"); [discriminate|].
      apply Nat.eqb_neq in E. rewrite E in Ed. destruct (f_field f wrt); discriminate.
    + unfold dot. rewrite rsum_ext with (g := fun _ => 0) by (intros; lra). rewrite rsum_0. lra.
Qed.

Lemma api_adjoint_ratio f g wrt n : (n <> 1)%nat -> f_value g <> 0 -> adjoint_at (RatioOutput f g) wrt n.
Proof.
  intros Hn Hg out_bar wrt_dot name l d b Hr Hd Hb. unfold outputJVP, outputVJP in *. rewrite Hr in *.
  cbn [RatioOutput o_jvp o_vjp o_vjp_scalar] in *. injection Hd as <-. injection Hb as <-.
  pose proof Hn as E. apply Nat.eqb_neq in E. rewrite E.
  assert (J : forall h, (exists d, fo_jvp h wrt n wrt_dot = Some d) <-> (exists b, fo_vjp h wrt n out_bar (fun _ => 0) = Some b)).
  { intros h. unfold fo_jvp, fo_vjp. rewrite E. destruct (String.eqb wrt "state"); [split; intros; eauto|].
    destruct (f_field h wrt); cbn; split; intros [? H]; eauto; discriminate. }
  destruct (ratio_jvp f g wrt n wrt_dot) as [d|] eqn:Ed, (ratio_vjp f g wrt n out_bar (fun _ => 0)) as [b|] eqn:Eb.
  - rewrite <- (ratio_adjoint f g wrt n out_bar wrt_dot d b (or_introl Hn) Hg Ed Eb). lra.
  - exfalso. unfold ratio_jvp, ratio_vjp in *.
    destruct (fo_jvp f wrt n wrt_dot) eqn:E1; [|discriminate]. destruct (fo_jvp g wrt n wrt_dot) eqn:E2; [|discriminate].
    destruct (proj1 (J f) (ex_intro _ _ E1)) as [? H1]. destruct (proj1 (J g) (ex_intro _ _ E2)) as [? H2]. rewrite H1, H2 in Eb. discriminate.
  - exfalso. unfold ratio_jvp, ratio_vjp in *.
    destruct (fo_vjp f wrt n out_bar _) eqn:E1; [|discriminate]. destruct (fo_vjp g wrt n out_bar _) eqn:E2; [|discriminate].
    destruct (proj2 (J f) (ex_intro _ _ E1)) as [? H1]. destruct (proj2 (J g) (ex_intro _ _ E2)) as [? H2]. rewrite H1, H2 in Ed. discriminate.
  - unfold dot. rewrite rsum_ext with (g := fun _ => 0) by (intros; lra). rewrite rsum_0. lra.
Qed.

(** mass with respect to the fill factor: forward mode differentiates the wrong thing *)
Lemma mass_not_adjoint : exists f df, f_scalar f "fill_factor" = Some 5 /\ f_scalar df "fill_factor" = Some 2 /\
  ~ adjoint_at (MassOutput f df) "fill_factor" 1.
Proof.
  exists {| f_value := 5; f_grad := fun _ => 0; f_field := fun _ => None; f_scalar := fun _ => Some 5 |},
         {| f_value := 2; f_grad := fun _ => 0; f_field := fun _ => None; f_scalar := fun _ => Some 2 |}.
  split; [reflexivity|]. split; [reflexivity|]. intros H.
  specialize (H (fun _ => 1) (fun _ => 1) "mass"%string [("mass"%string, MassOutput {| f_value := 5; f_grad := fun _ => 0; f_field := fun _ => None; f_scalar := fun _ => Some 5 |} {| f_value := 2; f_grad := fun _ => 0; f_field := fun _ => None; f_scalar := fun _ => Some 2 |})] _ _ eq_refl eq_refl eq_refl).
  revert H. unfold dot. cbn. lra.
Qed.
(** a one-entry state: reverse mode silently does nothing *)
Lemma one_dof_state_not_adjoint : exists f, f_grad f 0%nat = 3 /\ f_scalar f "state" = None /\ ~ adjoint_at (FunctionalOutput f) "state" 1.
Proof.
  exists {| f_value := 5; f_grad := fun _ => 3; f_field := fun _ => None; f_scalar := fun _ => None |}.
  split; [reflexivity|]. split; [reflexivity|]. intros H.
  specialize (H (fun _ => 1) (fun _ => 1) "J"%string [("J"%string, FunctionalOutput {| f_value := 5; f_grad := fun _ => 3; f_field := fun _ => None; f_scalar := fun _ => None |})] _ _ eq_refl eq_refl eq_refl).
  revert H. unfold dot. cbn. lra.
Qed.
