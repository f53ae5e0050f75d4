(** Proofs about heat exchange on boundaries and interfaces. *)
From Coq Require Import Reals String List Bool Arith Lra Lia.
From Coquelicot Require Import Coquelicot.
From Verif Require Import Vec Deriv Inputs EmInteg EmIntegSpec Thermal ThermalSpec.
Import ListNotations.
Local Open Scope R_scope.

Lemma val1_T F o u q : val1 F o u q = T1 F o u q. Proof. reflexivity. Qed.
Lemma val2_T F o u q : val2 F o u q = T2 F o u q. Proof. reflexivity. Qed.

Lemma entry1 F X g u i : (i < n1 F)%nat -> face_vector F X g u i =
  scale g * integral F X (vec_order F g) (fun q => law1 g (T1 F (vec_order F g) u q) (T2 F (vec_order F g) u q) * sh1 F (vec_order F g) q i).
Proof.
  intros Hi. apply Nat.ltb_lt in Hi. unfold integral. destruct g; cbn [face_vector scale law1]; rewrite ?Hi, <- rsum_scal; apply rsum_ext; intros q _;
    unfold wf, val1, val2, T1, T2, dot; ring.
Qed.
Lemma entry2 F X g u i : interface g = true -> face_vector F X g u (n1 F + i)%nat =
  scale g * integral F X (vec_order F g) (fun q => law2 g (T1 F (vec_order F g) u q) (T2 F (vec_order F g) u q) * sh2 F (vec_order F g) q i).
Proof.
  intros Hi. assert (E : (n1 F + i <? n1 F)%nat = false) by (apply Nat.ltb_ge; lia). assert (E2 : (n1 F + i - n1 F)%nat = i) by lia.
  unfold integral. destruct g; try discriminate; cbn [face_vector scale law2]; rewrite E, E2, <- rsum_scal; apply rsum_ext; intros q _;
    unfold wf, val1, val2, T1, T2, dot; ring.
Qed.
Lemma integral_sum F X o n (f : nat -> nat -> R) : rsum n (fun i => integral F X o (f i)) = integral F X o (fun q => rsum n (fun i => f i q)).
Proof. unfold integral. rewrite rsum_swap. apply rsum_ext. intros q _. now rewrite rsum_scal. Qed.
Lemma integral_ext F X o f g : (forall q, (q < npts F o)%nat -> f q = g q) -> integral F X o f = integral F X o g.
Proof. intros H. unfold integral. apply rsum_ext. intros q Hq. now rewrite H. Qed.
Lemma integral_plus F X o f g : integral F X o (fun q => f q + g q) = integral F X o f + integral F X o g.
Proof. unfold integral. rewrite <- rsum_plus. apply rsum_ext. intros; ring. Qed.
Lemma integral_scal F X o a f : integral F X o (fun q => a * f q) = a * integral F X o f.
Proof. unfold integral. rewrite <- rsum_scal. apply rsum_ext. intros; ring. Qed.

(** the weighted term in closed form *)
Lemma site_formula F X g u psi : dot (size F g) psi (face_vector F X g u) =
  scale g * integral F X (vec_order F g) (fun q =>
    T1 F (vec_order F g) psi q * law1 g (T1 F (vec_order F g) u q) (T2 F (vec_order F g) u q) +
    T2 F (vec_order F g) psi q * law2 g (T1 F (vec_order F g) u q) (T2 F (vec_order F g) u q)).
Proof.
  set (o := vec_order F g).
  assert (A : rsum (n1 F) (fun i => psi i * face_vector F X g u i) =
              scale g * integral F X o (fun q => T1 F o psi q * law1 g (T1 F o u q) (T2 F o u q))).
  { rewrite (rsum_ext _ _ (fun i => integral F X o (fun q => scale g * (psi i * sh1 F o q i * law1 g (T1 F o u q) (T2 F o u q))))).
    - rewrite integral_sum. rewrite <- integral_scal. apply integral_ext. intros q _. rewrite rsum_scal. unfold T1. now rewrite <- rsum_scal_r.
    - intros i Hi. rewrite entry1 by exact Hi. fold o. rewrite <- integral_scal, <- integral_scal. apply integral_ext. intros; ring. }
  rewrite integral_plus. unfold size. destruct (interface g) eqn:I.
  - unfold dot. rewrite rsum_app, A, Rmult_plus_distr_l. f_equal.
    rewrite (rsum_ext _ _ (fun i => integral F X o (fun q => scale g * (psi (n1 F + i)%nat * sh2 F o q i * law2 g (T1 F o u q) (T2 F o u q))))).
    + rewrite integral_sum. rewrite <- integral_scal. apply integral_ext. intros q _. rewrite rsum_scal. unfold T2. now rewrite <- rsum_scal_r.
    + intros i Hi. rewrite entry2 by exact I. fold o. rewrite <- integral_scal, <- integral_scal. apply integral_ext. intros; ring.
  - unfold dot. rewrite A. rewrite Rmult_plus_distr_l.
    assert (Z : integral F X o (fun q => T2 F o psi q * law2 g (T1 F o u q) (T2 F o u q)) = 0).
    { unfold integral. rewrite (rsum_ext _ _ (fun _ => 0)); [apply rsum_0|]. intros q _. destruct g; try discriminate; cbn; ring. }
    rewrite Z. ring.
Qed.

(** linear part of the law *)
Definition lin1 (g : integ) (a b : R) : R := match g with Contact _ h _ => h * (a - b) | InternalConvection _ h _ _ | ConvectionBC h _ _ => h * a | OutfluxBC _ _ => 0 end.
Definition lin2 (g : integ) (a b : R) : R := match g with Contact _ h _ => h * (b - a) | InternalConvection _ h _ _ => h * b | _ => 0 end.
Lemma law1_lin g a b a' b' t : law1 g (a + t * a') (b + t * b') = law1 g a b + t * lin1 g a' b'.
Proof. destruct g; cbn; ring. Qed.
Lemma law2_lin g a b a' b' t : law2 g (a + t * a') (b + t * b') = law2 g a b + t * lin2 g a' b'.
Proof. destruct g; cbn; ring. Qed.
Lemma T1_along F o u v t q : T1 F o (along u v t) q = T1 F o u q + t * T1 F o v q.
Proof. unfold T1, along. rewrite <- rsum_scal, <- rsum_plus. apply rsum_ext. intros; ring. Qed.
Lemma T2_along F o u v t q : T2 F o (along u v t) q = T2 F o u q + t * T2 F o v q.
Proof. unfold T2, along. rewrite <- rsum_scal, <- rsum_plus. apply rsum_ext. intros; ring. Qed.

Lemma grad1 F X g u v i : (i < n1 F)%nat -> mv (size F g) (face_grad F X g u) v i =
  scale g * integral F X (grad_order F g) (fun q => lin1 g (T1 F (grad_order F g) v q) (T2 F (grad_order F g) v q) * sh1 F (grad_order F g) q i).
Proof.
  intros Hi. set (o := grad_order F g). assert (Hb := proj2 (Nat.ltb_lt _ _) Hi).
  rewrite <- integral_scal. unfold mv, size, integral. destruct g; cbn [interface face_grad scale lin1]; fold o.
  - rewrite rsum_app, Hb.
    rewrite (rsum_ext (n1 F) _ (fun j => rsum (npts F o) (fun q => sh1 F o q i * (wf F X o alpha q * h) * (v j * sh1 F o q j)))).
    2:{ intros j Hj. apply Nat.ltb_lt in Hj. rewrite Hj, <- rsum_scal_r. apply rsum_ext; intros; ring. }
    rewrite (rsum_ext (n2 F) _ (fun j => rsum (npts F o) (fun q => - sh1 F o q i * (wf F X o alpha q * h) * (v (n1 F + j)%nat * sh2 F o q j)))).
    2:{ intros j Hj. assert (E : (n1 F + j <? n1 F)%nat = false) by (apply Nat.ltb_ge; lia). rewrite E. replace (n1 F + j - n1 F)%nat with j by lia. rewrite <- rsum_scal_r. apply rsum_ext; intros; ring. }
    rewrite (rsum_swap (n1 F)), (rsum_swap (n2 F)), <- rsum_plus. apply rsum_ext. intros q _. rewrite !rsum_scal. unfold T1, T2, wf. ring.
  - rewrite rsum_app, Hb.
    rewrite (rsum_ext (n1 F) _ (fun j => rsum (npts F o) (fun q => sh1 F o q i * (wf F X o alpha q * h) * (v j * sh1 F o q j)))).
    2:{ intros j Hj. apply Nat.ltb_lt in Hj. rewrite Hj, <- rsum_scal_r. apply rsum_ext; intros; ring. }
    rewrite (rsum_ext (n2 F) _ (fun j => 0)).
    2:{ intros j Hj. assert (E : (n1 F + j <? n1 F)%nat = false) by (apply Nat.ltb_ge; lia). rewrite E, rsum_0. ring. }
    rewrite rsum_0, (rsum_swap (n1 F)), Rplus_0_r. apply rsum_ext. intros q _. rewrite !rsum_scal. unfold T1, T2, wf. ring.
  - rewrite (rsum_ext (n1 F) _ (fun j => rsum (npts F o) (fun q => sh1 F o q i * (wf F X o alpha q * h) * (v j * sh1 F o q j)))).
    2:{ intros j Hj. rewrite <- rsum_scal_r. apply rsum_ext; intros; ring. }
    rewrite (rsum_swap (n1 F)). apply rsum_ext. intros q _. rewrite !rsum_scal. unfold T1, T2, wf. ring.
  - rewrite (rsum_ext (n1 F) _ (fun _ => 0)) by (intros; ring). rewrite rsum_0. rewrite (rsum_ext _ _ (fun _ => 0)) by (intros; ring). now rewrite rsum_0.
Qed.
Lemma grad2 F X g u v i : interface g = true -> mv (size F g) (face_grad F X g u) v (n1 F + i)%nat =
  scale g * integral F X (grad_order F g) (fun q => lin2 g (T1 F (grad_order F g) v q) (T2 F (grad_order F g) v q) * sh2 F (grad_order F g) q i).
Proof.
  intros Hi. set (o := grad_order F g). assert (Hb : (n1 F + i <? n1 F)%nat = false) by (apply Nat.ltb_ge; lia). assert (E2 : (n1 F + i - n1 F)%nat = i) by lia.
  rewrite <- integral_scal. unfold mv, size, integral. destruct g; try discriminate; cbn [interface face_grad scale lin2]; fold o.
  - rewrite rsum_app, Hb, E2.
    rewrite (rsum_ext (n1 F) _ (fun j => rsum (npts F o) (fun q => - sh2 F o q i * (wf F X o alpha q * h) * (v j * sh1 F o q j)))).
    2:{ intros j Hj. apply Nat.ltb_lt in Hj. rewrite Hj, <- rsum_scal_r. apply rsum_ext; intros; ring. }
    rewrite (rsum_ext (n2 F) _ (fun j => rsum (npts F o) (fun q => sh2 F o q i * (wf F X o alpha q * h) * (v (n1 F + j)%nat * sh2 F o q j)))).
    2:{ intros j Hj. assert (E : (n1 F + j <? n1 F)%nat = false) by (apply Nat.ltb_ge; lia). rewrite E. replace (n1 F + j - n1 F)%nat with j by lia. rewrite <- rsum_scal_r. apply rsum_ext; intros; ring. }
    rewrite (rsum_swap (n1 F)), (rsum_swap (n2 F)), <- rsum_plus. apply rsum_ext. intros q _. rewrite !rsum_scal. unfold T1, T2, wf. ring.
  - rewrite rsum_app, Hb, E2.
    rewrite (rsum_ext (n1 F) _ (fun j => 0)).
    2:{ intros j Hj. apply Nat.ltb_lt in Hj. rewrite Hj, rsum_0. ring. }
    rewrite (rsum_ext (n2 F) _ (fun j => rsum (npts F o) (fun q => sh2 F o q i * (wf F X o alpha q * h) * (v (n1 F + j)%nat * sh2 F o q j)))).
    2:{ intros j Hj. assert (E : (n1 F + j <? n1 F)%nat = false) by (apply Nat.ltb_ge; lia). rewrite E. replace (n1 F + j - n1 F)%nat with j by lia. rewrite <- rsum_scal_r. apply rsum_ext; intros; ring. }
    rewrite rsum_0, (rsum_swap (n2 F)), Rplus_0_l. apply rsum_ext. intros q _. rewrite !rsum_scal. unfold T1, T2, wf. ring.
Qed.

Lemma affine_derive (a b : R) : is_derive (fun t => a + t * b) 0 b.
Proof. apply (DV_eq _ 0 (0 + 1 * b)); [|ring]. apply DV_plus; [apply DV_const|]. apply DV_scal_r, DV_id. Qed.

Lemma jacobian F X g u v : vec_order F g = grad_order F g ->
  derivative_at (size F g) (face_vector F X g) u v (mv (size F g) (face_grad F X g u) v).
Proof.
  intros O i Hi.
  apply (DV_ext (fun t => face_vector F X g u i + t * mv (size F g) (face_grad F X g u) v i)); [|apply affine_derive].
  intros t. destruct (Nat.lt_ge_cases i (n1 F)) as [L|L].
  - rewrite !entry1, grad1, <- O by exact L. set (o := vec_order F g).
    rewrite <- !integral_scal, <- integral_plus. apply integral_ext. intros q _.
    rewrite T1_along, T2_along, law1_lin. ring.
  - unfold size in Hi. destruct (interface g) eqn:I; [|lia]. replace i with (n1 F + (i - n1 F))%nat by lia. set (j := (i - n1 F)%nat).
    rewrite !entry2, grad2, <- O by exact I. set (o := vec_order F g).
    rewrite <- !integral_scal, <- integral_plus. apply integral_ext. intros q _.
    rewrite T1_along, T2_along, law2_lin. ring.
Qed.
Lemma grad_sym F X g u i j : face_grad F X g u i j = face_grad F X g u j i.
Proof.
  destruct g; cbn [face_grad]; try reflexivity; apply rsum_ext; intros q _.
  - destruct (i <? n1 F)%nat, (j <? n1 F)%nat; ring.
  - destruct (i <? n1 F)%nat, (j <? n1 F)%nat; ring.
  - ring.
Qed.
Lemma grad_form F X g u v : dot (size F g) v (mv (size F g) (face_grad F X g u) v) =
  scale g * integral F X (grad_order F g) (fun q => let a := T1 F (grad_order F g) v q in let b := T2 F (grad_order F g) v q in a * lin1 g a b + b * lin2 g a b).
Proof.
  set (o := grad_order F g).
  assert (A : rsum (n1 F) (fun i => v i * mv (size F g) (face_grad F X g u) v i) =
              scale g * integral F X o (fun q => T1 F o v q * lin1 g (T1 F o v q) (T2 F o v q))).
  { rewrite (rsum_ext _ _ (fun i => integral F X o (fun q => scale g * (v i * sh1 F o q i * lin1 g (T1 F o v q) (T2 F o v q))))).
    - rewrite integral_sum. rewrite <- integral_scal. apply integral_ext. intros q _. rewrite rsum_scal. unfold T1. now rewrite <- rsum_scal_r.
    - intros i Hi. rewrite grad1 by exact Hi. fold o. rewrite <- integral_scal, <- integral_scal. apply integral_ext. intros; ring. }
  cbv zeta. rewrite integral_plus. unfold size at 1. destruct (interface g) eqn:I.
  - unfold dot. rewrite rsum_app, A, Rmult_plus_distr_l. f_equal.
    rewrite (rsum_ext _ _ (fun i => integral F X o (fun q => scale g * (v (n1 F + i)%nat * sh2 F o q i * lin2 g (T1 F o v q) (T2 F o v q))))).
    + rewrite integral_sum. rewrite <- integral_scal. apply integral_ext. intros q _. rewrite rsum_scal. unfold T2. now rewrite <- rsum_scal_r.
    + intros i Hi. rewrite grad2 by exact I. fold o. rewrite <- integral_scal, <- integral_scal. apply integral_ext. intros; ring.
  - unfold dot. rewrite A. rewrite Rmult_plus_distr_l.
    assert (Z : integral F X o (fun q => T2 F o v q * lin2 g (T1 F o v q) (T2 F o v q)) = 0).
    { unfold integral. rewrite (rsum_ext _ _ (fun _ => 0)); [apply rsum_0|]. intros q _. destruct g; try discriminate; cbn; ring. }
    rewrite Z. ring.
Qed.
Lemma integral_nonneg F X o f : (forall q, (q < npts F o)%nat -> 0 <= wts F o q * Wf F o q X) -> (forall q, 0 <= f q) -> 0 <= integral F X o f.
Proof. intros H1 H2. unfold integral. apply rsum_nonneg. intros q Hq. apply Rmult_le_pos; auto. Qed.

(** * parameters *)
(** a parameter of an integrator *)
Lemma lsum_derive {A} (f : A -> R -> R) (d : A -> R) x (l : list A) :
  (forall a, In a l -> is_derive (f a) x (d a)) -> is_derive (fun t => lsum (fun a => f a t) l) x (lsum d l).
Proof.
  induction l as [|a r IH]; intros H; cbn [lsum]; [apply DV_const|].
  apply (DV_plus (f a) (fun t => lsum (fun a => f a t) r)); [apply H; now left|]. apply IH. intros b Hb. apply H. now right.
Qed.
Lemma lookup_one k x key : lookup key [(k, Scalar x)] = if String.eqb key k then Some (Scalar x) else None.
Proof. reflexivity. Qed.
Definition take1 (k : string) (x : R) (key : string) (old : R) : R := if String.eqb key k then x else old.
Lemma take_one k x key old : take [(k, Scalar x)] key old = Ok (take1 k x key old).
Proof. unfold take, setValueFromInputs, take1. rewrite lookup_one. now destruct (String.eqb key k). Qed.
Definition given (k : string) (x : R) (g : integ) : integ :=
  match g with
  | Contact n h a => Contact n (take1 k x (h_name n) h) a
  | InternalConvection n h t a => InternalConvection n (take1 k x (h_name n) h) (take1 k x (temp_name n) t) a
  | ConvectionBC h t a => ConvectionBC (take1 k x "h" h) (take1 k x "fluid_temp" t) a
  | OutfluxBC f a => OutfluxBC (take1 k x "outflux" f) a
  end.
Lemma given_ok k x g : integ_setInputs [(k, Scalar x)] g = Ok (given k x g).
Proof. destruct g; cbn [integ_setInputs obind given]; rewrite !take_one; cbn [obind]; rewrite ?take_one; reflexivity. Qed.
Lemma with_one k x r : with_inputs [(k, Scalar x)] r = Some (map (fun p => (given k x (fst p), snd p)) r).
Proof. induction r as [|[g s] r IH]; [reflexivity|]. cbn [with_inputs map fst snd]. now rewrite given_ok, IH. Qed.

Lemma names_differ n : String.eqb (h_name n) (temp_name n) = false.
Proof. unfold h_name, temp_name. destruct (String.eqb n ""); reflexivity. Qed.

Lemma integral_derive F X o (f : R -> nat -> R) (d : nat -> R) x :
  (forall q, (q < npts F o)%nat -> is_derive (fun t => f t q) x (d q)) -> is_derive (fun t => integral F X o (f t)) x (integral F X o d).
Proof. intros H. unfold integral. apply (DV_sum _ (fun q t => wts F o q * Wf F o q X * f t q)). intros q Hq. now apply DV_scal, H. Qed.

Lemma site_param k g s x : k <> "outflux"%string -> (match s with (F, _, _) => vec_order F g = par_order F g end) ->
  is_derive (fun t => site_term (given k t g) s) x (match s with (F, X, (u, psi)) => named k (par_sens F X (given k x g) u psi) end).
Proof.
  destruct s as [[F X] [u psi]]. intros K O.
  destruct g as [n h a|n h t0 a|h t0 a|f a]; cbn [vec_order par_order] in O.
  - apply (DV_ext (fun t => a * integral F X (both F) (fun q => T1 F (both F) psi q * (take1 k t (h_name n) h * (T1 F (both F) u q - T2 F (both F) u q)) +
                                                             T2 F (both F) psi q * (take1 k t (h_name n) h * (T2 F (both F) u q - T1 F (both F) u q))))).
    { intros t. unfold site_term. rewrite site_formula. reflexivity. }
    cbn [given par_sens named lsum fst snd par_order]. rewrite <- O. unfold take1. destruct (String.eqb (h_name n) k) eqn:E.
    + apply (DV_eq _ x (a * integral F X (both F) (fun q => T1 F (both F) psi q * (1 * (T1 F (both F) u q - T2 F (both F) u q)) + T2 F (both F) psi q * (1 * (T2 F (both F) u q - T1 F (both F) u q))))).
      * apply DV_scal, integral_derive. intros q _. apply DV_plus; apply DV_scal, DV_scal_r, DV_id.
      * rewrite Rplus_0_r. unfold integral. rewrite <- rsum_scal. apply rsum_ext. intros q _. unfold wf. unfold val1, val2, T1, T2, dot. ring.
    + rewrite Rplus_0_r. apply DV_const.
  - set (o := (both F + ordW F)%nat).
    apply (DV_ext (fun t => a * integral F X o (fun q => T1 F o psi q * (take1 k t (h_name n) h * (T1 F o u q - take1 k t (temp_name n) t0)) +
                                                         T2 F o psi q * (take1 k t (h_name n) h * (T2 F o u q - take1 k t (temp_name n) t0))))).
    { intros t. unfold site_term. rewrite site_formula. reflexivity. }
    cbn [given par_sens named lsum fst snd par_order]. fold o. unfold take1. destruct (String.eqb (h_name n) k) eqn:E.
    + apply String.eqb_eq in E. subst k. rewrite (String.eqb_sym (temp_name n)), (names_differ n).
      apply (DV_eq _ x (a * integral F X o (fun q => T1 F o psi q * (1 * (T1 F o u q - t0)) + T2 F o psi q * (1 * (T2 F o u q - t0))))).
      * apply DV_scal, integral_derive. intros q _. apply DV_plus; apply DV_scal, DV_scal_r, DV_id.
      * rewrite !Rplus_0_r. unfold integral. rewrite <- rsum_scal. apply rsum_ext. intros q _. unfold wf. unfold val1, val2, T1, T2, dot. ring.
    + destruct (String.eqb (temp_name n) k) eqn:E2.
      * apply (DV_eq _ x (a * integral F X o (fun q => T1 F o psi q * (h * (0 - 1)) + T2 F o psi q * (h * (0 - 1))))).
        -- apply DV_scal, integral_derive. intros q _. apply DV_plus; apply DV_scal, DV_scal; apply DV_minus; [apply DV_const|apply DV_id|apply DV_const|apply DV_id].
        -- rewrite Rplus_0_l, Rplus_0_r. unfold integral. rewrite <- rsum_scal. apply rsum_ext. intros q _. unfold wf. unfold val1, val2, T1, T2, dot. ring.
      * rewrite !Rplus_0_r. apply DV_const.
  - set (o := (2 * ord1 F + ordW F)%nat). assert (Eo : (ord1 F + ord1 F + ordW F)%nat = o) by (unfold o; lia).
    apply (DV_ext (fun t => a * integral F X o (fun q => T1 F o psi q * (take1 k t "h" h * (T1 F o u q - take1 k t "fluid_temp" t0)) + T2 F o psi q * 0))).
    { intros t. unfold site_term. rewrite site_formula. cbn [given vec_order]. rewrite Eo. reflexivity. }
    cbn [given par_sens named lsum fst snd par_order]. fold o. unfold take1. destruct (String.eqb "h" k) eqn:E.
    + apply String.eqb_eq in E. subst k. cbn [String.eqb Ascii.eqb Bool.eqb].
      apply (DV_eq _ x (a * integral F X o (fun q => T1 F o psi q * (1 * (T1 F o u q - t0)) + 0))).
      * apply DV_scal, integral_derive. intros q _. apply DV_plus; [apply DV_scal, DV_scal_r, DV_id|apply DV_const].
      * rewrite !Rplus_0_r. unfold integral. rewrite <- rsum_scal. apply rsum_ext. intros q _. unfold wf. unfold val1, T1, dot. ring.
    + destruct (String.eqb "fluid_temp" k) eqn:E2.
      * apply (DV_eq _ x (a * integral F X o (fun q => T1 F o psi q * (h * (0 - 1)) + 0))).
        -- apply DV_scal, integral_derive. intros q _. apply DV_plus; [|apply DV_const]. apply DV_scal, DV_scal; apply DV_minus; [apply DV_const|apply DV_id].
        -- rewrite Rplus_0_l, Rplus_0_r. unfold integral. rewrite <- rsum_scal. apply rsum_ext. intros q _. unfold wf. unfold val1, T1, dot. ring.
      * rewrite !Rplus_0_r. apply DV_const.
  - cbn [given]. unfold take1. assert (E : String.eqb "outflux" k = false) by (apply String.eqb_neq; congruence). rewrite E. apply DV_const.
Qed.

(** * mesh *)
Lemma find_index_nth x l i : find_index x l = Some i -> (i < length l)%nat /\ nth i l O = x.
Proof.
  revert i. induction l as [|y r IH]; intros i; cbn; [discriminate|]. destruct (Nat.eqb_spec x y) as [->|].
  - intros [= <-]. split; [lia|reflexivity].
  - destruct (find_index x r) eqn:E; [|discriminate]. intros [= <-]. destruct (IH _ eq_refl). split; [lia|assumption].
Qed.
Lemma find_index_in x l : In x l -> find_index x l <> None.
Proof.
  induction l as [|y r IH]; intros H; [destruct H|]. cbn. destruct (Nat.eqb_spec x y); [discriminate|].
  destruct H as [->|H]; [congruence|]. specialize (IH H). destruct (find_index x r); [discriminate|congruence].
Qed.
Lemma insert_sum v1 v2 : forall j fb b (V : nat -> R), (forall d, In d v2 -> In d v1) ->
  rsum (length v1) (fun i => insert v1 v2 j fb b i * V (nth i v1 O)) =
  rsum (length v1) (fun i => b i * V (nth i v1 O)) + rsum (length v2) (fun i => fb (j + i)%nat * V (nth i v2 O)).
Proof.
  induction v2 as [|d r IH]; intros j fb b V H; cbn [insert length]; [cbn; ring|].
  rewrite IH by (intros e He; apply H; now right). rewrite rsum_shift. cbn [nth]. rewrite Nat.add_0_r.
  destruct (find_index d v1) as [idx|] eqn:E; [|now elim (find_index_in d v1 (H d (or_introl eq_refl)))].
  destruct (find_index_nth _ _ _ E) as [L N].
  rewrite (rsum_ext (length v1) _ (fun i => b i * V (nth i v1 O) + (if Nat.eqb i idx then fb j * V (nth i v1 O) else 0))) by (intros i _; destruct (Nat.eqb i idx); ring).
  rewrite rsum_plus, (rsum_delta _ (fun i => fb j * V (nth i v1 O)) idx L), N.
  rewrite (rsum_ext (length r) (fun i => fb (S j + i)%nat * _) (fun i => fb (j + S i)%nat * V (nth i r O))) by (intros i _; f_equal; f_equal; lia).
  ring.
Qed.
Lemma flat_pair a b P Q : (0 < b)%nat -> rsum (a * b) (fun i => flat b P i * flat b Q i) = pairing a b P Q.
Proof.
  intros Hb. unfold pairing. induction a as [|a IH]; [reflexivity|]. replace (S a * b)%nat with (a * b + b)%nat by lia.
  rewrite rsum_app, IH. cbn [rsum]. f_equal. apply rsum_ext. intros j Hj. unfold flat.
  assert (E1 : ((a * b + j) / b)%nat = a) by (rewrite Nat.add_comm, Nat.div_add, Nat.div_small by lia; lia).
  assert (E2 : ((a * b + j) mod b)%nat = j) by (rewrite Nat.add_comm, Nat.mod_add, Nat.mod_small by lia; lia).
  now rewrite E1, E2.
Qed.

Lemma face_mesh F X V g u psi : vec_order F g = mesh_order F g ->
  (forall o q, rev_scalar (fdim F) (fnn F) (Wf F o q) (WfRev F o q)) ->
  is_derive (fun t => dot (size F g) psi (face_vector F (moved X V t) g u)) 0 (pairing (fdim F) (fnn F) (face_bar F X g u psi) V).
Proof.
  intros O H. set (o := mesh_order F g).
  apply (DV_ext (fun t => rsum (npts F o) (fun q => w_bar F g u psi q * Wf F o q (moved X V t)))).
  { intros t. rewrite site_formula, O. fold o. unfold integral. rewrite <- rsum_scal. apply rsum_ext. intros q _.
    destruct g; cbn [w_bar scale law1 law2]; fold o; unfold val1, val2, T1, T2, dot; unfold o; cbn [mesh_order]; ring. }
  assert (E : pairing (fdim F) (fnn F) (face_bar F X g u psi) V = rsum (npts F o) (fun q => pairing (fdim F) (fnn F) (WfRev F o q X (w_bar F g u psi q)) V)).
  { unfold pairing, face_bar. fold o. rewrite (rsum_ext (fdim F) _ (fun k => rsum (npts F o) (fun q => rsum (fnn F) (fun j => WfRev F o q X (w_bar F g u psi q) k j * V k j)))).
    - apply rsum_swap.
    - intros k _. rewrite rsum_swap. apply rsum_ext. intros j _. now rewrite rsum_scal_r. }
  rewrite E. apply (DV_sum (npts F o) (fun q t => w_bar F g u psi q * Wf F o q (moved X V t))). intros q _. apply H.
Qed.
