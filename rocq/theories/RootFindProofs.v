(** Proofs about the root finders over the reals. *)
From Coq Require Import Reals ZArith Bool List Lra Lia Psatz.
From Verif Require Import Num RootFind.
Local Open Scope R_scope.

Definition bis := bisection Rnum.
Definition sec := secant Rnum.

(** What a caller may conclude from a returned point (specification, no model helper used). *)
Definition bracketed (f : R -> R) (lo hi xtol x : R) : Prop :=
  exists a b, lo <= a <= hi /\ lo <= b <= hi /\ Rabs (b - a) <= xtol /\ f a * f b < 0 /\ x = (a + b) / 2.

Lemma half_R : nlit Rnum 1 2 = 1/2. Proof. reflexivity. Qed.

Lemma bisect_loop_sound f ftol xtol lo hi rem :
  forall xl xr x r,
  lo <= xl <= hi -> lo <= xr <= hi -> f xl * f xr < 0 ->
  bisect_loop Rnum f ftol xtol rem xl (f xl) xr (f xr) (1/2 * (xl + xr)) (f (1/2 * (xl + xr))) = (x, S r) ->
  lo <= x <= hi /\ (Rabs (f x) <= ftol \/ f x = 0 \/ bracketed f lo hi xtol x).
Proof.
  induction rem as [|rem IH]; intros xl xr x r Hl Hr Hs; cbn [bisect_loop]; [discriminate|].
  set (xm := 1/2 * (xl + xr)) in *.
  assert (Hm : lo <= xm <= hi) by (unfold xm; lra).
  cbn [nltb Rnum nabs nsub nmul nadd nZ].
  destruct (Rltb_spec ftol (Rabs (f xm))) as [H1|H1]; cbn [andb].
  2:{ intros H; injection H as <- _. split; [exact Hm|left; exact H1]. }
  destruct (Rltb_spec xtol (Rabs (xr - xl))) as [H2|H2].
  2:{ intros H; injection H as <- _. split; [exact Hm|right; right].
      exists xl, xr; repeat split; try lra; unfold xm; lra. }
  destruct (Rltb_spec (f xm * f xl) 0) as [H3|H3].
  { rewrite half_R. apply IH; try assumption. lra. }
  destruct (Rltb_spec (f xm * f xr) 0) as [H4|H4].
  { rewrite half_R. apply IH; assumption. }
  intros H; injection H as <- _. split; [exact Hm|right; left].
  destruct (Rtotal_order (f xm) 0) as [Hf|[Hf|Hf]]; [exfalso|exact Hf|exfalso].
  - assert (f xl <= 0) by nra. assert (f xr <= 0) by nra. nra.
  - assert (0 <= f xl) by nra. assert (0 <= f xr) by nra. nra.
Qed.

Lemma bisection_sound f xl xr ftol xtol maxiter x :
  f xl * f xr < 0 ->
  bis f xl xr ftol xtol maxiter = Returned x ->
  Rmin xl xr <= x <= Rmax xl xr /\
  (Rabs (f x) <= ftol \/ f x = 0 \/ bracketed f (Rmin xl xr) (Rmax xl xr) xtol x).
Proof.
  intros Hs. unfold bis, bisection. cbn [nltb Rnum nmul nadd nZ].
  destruct (Rltb_spec 0 (f xl * f xr)) as [H|_]; [lra|].
  destruct bisect_loop as [y r] eqn:E. destruct r as [|r]; [discriminate|].
  intros H; injection H as <-. rewrite half_R in E. eapply bisect_loop_sound; [..|exact E]; try exact Hs.
  - split; [apply Rmin_l|apply Rmax_l].
  - split; [apply Rmin_r|apply Rmax_r].
Qed.

Lemma bisection_same_sign_throws f xl xr ftol xtol maxiter :
  0 < f xl * f xr -> bis f xl xr ftol xtol maxiter = Thrown.
Proof. intros H. unfold bis, bisection. cbn [nltb Rnum nmul nZ]. destruct (Rltb_spec 0 (f xl * f xr)); [reflexivity|lra]. Qed.

(** a continuous function has a root within half the bracket *)
Lemma bracket_root f a b :
  continuity f -> f a * f b < 0 -> exists z, f z = 0 /\ Rabs (z - (a + b)/2) <= Rabs (b - a) / 2.
Proof.
  intros Hc Hs.
  assert (Hg : forall u v, u < v -> f u * f v < 0 -> exists z, f z = 0 /\ u <= z <= v).
  { intros u v Huv Hp.
    destruct (IVT_cor f u v Hc) as [z Hz]; [lra|lra|]. exists z; tauto. }
  destruct (Rtotal_order a b) as [H|[H|H]].
  - destruct (Hg a b H Hs) as (z & Hz & Hr). exists z; split; [exact Hz|].
    rewrite (Rabs_right (b - a)) by lra. apply Rabs_le; lra.
  - subst. exfalso. nra.
  - destruct (Hg b a H) as (z & Hz & Hr); [lra|]. exists z; split; [exact Hz|].
    rewrite (Rabs_left (b - a)) by lra. apply Rabs_le; lra.
Qed.

Lemma bisection_continuous f xl xr ftol xtol maxiter x :
  continuity f -> f xl * f xr < 0 -> 0 <= ftol ->
  bis f xl xr ftol xtol maxiter = Returned x ->
  Rmin xl xr <= x <= Rmax xl xr /\ (Rabs (f x) <= ftol \/ exists z, f z = 0 /\ Rabs (z - x) <= xtol / 2).
Proof.
  intros Hc Hs Ht H. destruct (bisection_sound _ _ _ _ _ _ _ Hs H) as [Hr Hx]. split; [exact Hr|].
  destruct Hx as [Hx|[Hx|Hx]].
  - left; exact Hx.
  - left. rewrite Hx, Rabs_R0; exact Ht.
  - destruct Hx as (a & b & _ & _ & Hw & Hp & ->). right.
    destruct (bracket_root f a b Hc Hp) as (z & Hz & Hd). exists z; split; [exact Hz|lra].
Qed.

(** enough iterations: the loop returns *)
Lemma bisect_loop_terminates f ftol xtol rem : forall k xl fl xr fr xm fm,
  (k < rem)%nat -> Rabs (xr - xl) <= 2 ^ k * xtol ->
  fm = f xm -> xm = 1/2 * (xl + xr) ->
  exists x r, bisect_loop Rnum f ftol xtol rem xl fl xr fr xm fm = (x, S r).
Proof.
  induction rem as [|rem IH]; intros k xl fl xr fr xm fm Hk Hw Hfm Hxm; [lia|].
  cbn [bisect_loop]. cbn [nltb Rnum nabs nsub nmul nadd nZ]. rewrite half_R.
  destruct (Rltb_spec ftol (Rabs fm)) as [H1|H1]; cbn [andb]; [|eauto].
  destruct (Rltb_spec xtol (Rabs (xr - xl))) as [H2|H2]; [|eauto].
  destruct k as [|k]; [simpl in Hw; lra|].
  assert (Hd : Rabs (xr - xl) = 2 * Rabs (xm - xl)).
  { rewrite Hxm. replace (1/2 * (xl + xr) - xl) with (/2 * (xr - xl)) by lra.
    rewrite Rabs_mult, (Rabs_right (/2)); lra. }
  assert (Hd' : Rabs (xr - xl) = 2 * Rabs (xr - xm)).
  { rewrite Hxm. replace (xr - 1/2 * (xl + xr)) with (/2 * (xr - xl)) by lra.
    rewrite Rabs_mult, (Rabs_right (/2)); lra. }
  simpl in Hw.
  destruct (Rltb_spec (fm * fl) 0) as [H3|H3].
  { apply (IH k); [lia|lra|reflexivity|reflexivity]. }
  destruct (Rltb_spec (fm * fr) 0) as [H4|H4].
  { apply (IH k); [lia|lra|reflexivity|reflexivity]. }
  destruct rem as [|rem]; [lia|eauto].
Qed.

Lemma bisection_returns f xl xr ftol xtol maxiter k :
  f xl * f xr <= 0 -> (k < maxiter)%nat -> Rabs (xr - xl) <= 2 ^ k * xtol ->
  exists x, bis f xl xr ftol xtol maxiter = Returned x.
Proof.
  intros Hs Hk Hw. unfold bis, bisection. cbn [nltb Rnum nmul nadd nZ].
  destruct (Rltb_spec 0 (f xl * f xr)) as [H|_]; [lra|]. rewrite half_R.
  destruct (bisect_loop_terminates f ftol xtol maxiter k xl (f xl) xr (f xr) _ _ Hk Hw eq_refl eq_refl)
    as (x & r & E). rewrite E. exists x; reflexivity.
Qed.

Lemma bisection_throw_short f xl xr ftol xtol maxiter :
  f xl * f xr <= 0 -> (1 <= maxiter)%nat ->
  bis f xl xr ftol xtol maxiter = Thrown -> 2 ^ (maxiter - 1) * xtol < Rabs (xr - xl).
Proof.
  intros Hs Hm Ht. destruct (Rlt_le_dec (2 ^ (maxiter - 1) * xtol) (Rabs (xr - xl))) as [H|H]; [exact H|].
  destruct (bisection_returns f xl xr ftol xtol maxiter (maxiter - 1)) as [x Hx]; [exact Hs|lia|exact H|].
  rewrite Hx in Ht; discriminate.
Qed.

(** ** Failures *)
(* end-point root: f(x) = x on [0,1] returns 1/2 for every tolerance below 1/2 and 1 and every maxiter >= 2 *)
Lemma bisection_endpoint_root_wrong ftol xtol maxiter :
  ftol < 1/2 -> xtol < 1 -> (2 <= maxiter)%nat ->
  bis (fun x => x) 0 1 ftol xtol maxiter = Returned (1/2).
Proof.
  intros H1 H2 H3. unfold bis, bisection. cbn [nltb Rnum nmul nadd nZ].
  destruct (Rltb_spec 0 (0 * 1)) as [H|_]; [lra|]. rewrite half_R.
  destruct maxiter as [|[|m]]; try lia. cbn [bisect_loop]. cbn [nltb Rnum nabs nsub nmul nadd nZ].
  replace (1/2*(0+1)) with (1/2) by lra.
  destruct (Rltb_spec ftol (Rabs (1/2))) as [_|H]; [|rewrite Rabs_right in H; lra].
  destruct (Rltb_spec xtol (Rabs (1-0))) as [_|H]; [|rewrite Rabs_right in H; lra]. cbn [andb].
  destruct (Rltb_spec (1/2*0) 0) as [H|_]; [lra|].
  destruct (Rltb_spec (1/2*1) 0) as [H|_]; [lra|]. reflexivity.
Qed.

(* converged exactly when the iterations ran out: f(x) = x - 3/4 on [0,1], one iteration reaches the root *)
Lemma bisection_converged_but_throws ftol xtol :
  0 <= ftol < 1/4 -> xtol < 1 ->
  bis (fun x => x - 3/4) 0 1 ftol xtol 1 = Thrown /\
  (* the midpoint after the single allowed iteration is the exact root *)
  exists x, bisect_loop Rnum (fun x => x - 3/4) ftol xtol 1 0 (-(3/4)) 1 (1/4) (1/2) (-(1/4)) = (x, O) /\ x = 3/4.
Proof.
  intros H1 H2.
  assert (E : bisect_loop Rnum (fun x => x - 3/4) ftol xtol 1 0 (-(3/4)) 1 (1/4) (1/2) (-(1/4)) = (3/4, O)).
  { cbn [bisect_loop]. cbn [nltb Rnum nabs nsub nmul nadd nZ]. rewrite half_R.
    rewrite Rabs_left by lra. rewrite Rabs_right by lra.
    destruct (Rltb_spec ftol (--(1/4))) as [_|H]; [|lra].
    destruct (Rltb_spec xtol (1-0)) as [_|H]; [|lra]. cbn [andb].
    destruct (Rltb_spec (-(1/4) * -(3/4)) 0) as [H|_]; [lra|].
    destruct (Rltb_spec (-(1/4) * (1/4)) 0) as [_|H]; [|lra].
    f_equal; lra. }
  split; [|eauto].
  unfold bis, bisection. cbn [nltb Rnum nmul nadd nZ].
  destruct (Rltb_spec 0 ((0-3/4)*(1-3/4))) as [H|_]; [lra|]. rewrite half_R.
  replace (1/2*(0+1)) with (1/2) by lra. replace (0-3/4) with (-(3/4)) by lra.
  replace (1-3/4) with (1/4) by lra. replace (1/2-3/4) with (-(1/4)) by lra.
  rewrite E. reflexivity.
Qed.

(** ** secant *)
Lemma secant_loop_iter f ftol xtol rem : forall iter x1 f1 x2 f2 x fx y j,
  secant_loop Rnum f ftol xtol rem iter x1 f1 x2 f2 x fx = (y, j) -> (j <= iter + rem)%nat.
Proof.
  induction rem as [|rem IH]; intros iter x1 f1 x2 f2 x fx y j; cbn [secant_loop].
  { intros H; injection H as <- <-; lia. }
  destruct (nltb Rnum ftol _). 2:{ intros H; injection H as <- <-; lia. }
  destruct (f _).
  - destruct (nltb Rnum _ xtol). { intros H; injection H as <- <-; lia. }
    intros H; apply IH in H; lia.
  - intros H; apply IH in H; lia.
Qed.

(* the "maximum number of iterations exceeded" exception can never be raised *)
Lemma secant_never_reports_failure f x1 x2 ftol xtol maxiter :
  (exists y1 y2, f x1 = Some y1 /\ f x2 = Some y2) ->
  exists x, sec f x1 x2 ftol xtol maxiter = Returned x.
Proof.
  intros (y1 & y2 & E1 & E2). unfold sec, secant, secant_run. rewrite E1, E2.
  match goal with |- context [if ?c then _ else _] => destruct c end;
  match goal with |- context [secant_loop ?a ?b ?c ?d ?e ?g ?h ?i ?j ?k ?l ?m] =>
    destruct (secant_loop a b c d e g h i j k l m) as [y n] eqn:E end;
  apply secant_loop_iter in E; destruct (Nat.ltb_spec maxiter n); try lia; eauto.
Qed.

Lemma secant_silent_failure maxiter xtol :
  exists x, sec (fun x => Some (x * x + 1)) 0 1 (1/2) xtol maxiter = Returned x /\ 1 <= Rabs (x * x + 1).
Proof.
  destruct (secant_never_reports_failure (fun x => Some (x*x+1)) 0 1 (1/2) xtol maxiter) as [x Hx]; [eauto|].
  exists x; split; [exact Hx|]. rewrite Rabs_right; nra.
Qed.

(* affine function: exact *)
Lemma secant_affine a b x1 x2 ftol xtol maxiter :
  a <> 0 -> x1 <> x2 -> 0 <= ftol -> (1 <= maxiter)%nat ->
  exists x, sec (fun x => Some (a * x + b)) x1 x2 ftol xtol maxiter = Returned x /\
            Rabs (a * x + b) <= ftol /\ (x = x1 \/ x = x2 \/ a * x + b = 0).
Proof.
  intros Ha Hx Ht Hm. unfold sec, secant, secant_run. destruct maxiter as [|m]; [lia|].
  assert (Hgen : forall u v, u <> v ->
    exists x n, secant_loop Rnum (fun x => Some (a*x+b)) ftol xtol (S m) 0 u (a*u+b) v (a*v+b) v (a*v+b) = (x, n)
      /\ (n <= S m)%nat /\ Rabs (a*x+b) <= ftol /\ (x = v \/ a * x + b = 0)).
  { intros u v Huv. cbn [secant_loop]. cbn [nltb Rnum nabs nsub nmul ndiv].
    destruct (Rltb_spec ftol (Rabs (a*v+b))) as [H1|H1].
    2:{ exists v, 0%nat; repeat split; auto; lia. }
    set (dx := (a*v+b)*(v-u)/(a*v+b-(a*u+b))).
    assert (Hd : a * (v - dx) + b = 0).
    { unfold dx. field. intros Hz. apply Huv. apply (Rmult_eq_reg_l a); lra. }
    destruct (Rltb_spec (Rabs dx) xtol).
    - exists (v - dx), 1%nat; repeat split; auto; try lia. rewrite Hd, Rabs_R0; exact Ht.
    - exists (v - dx), 1%nat. split.
      + destruct m as [|m]; cbn [secant_loop]; [reflexivity|]. cbn [nltb Rnum nabs].
        rewrite Hd, Rabs_R0. destruct (Rltb_spec ftol 0); [lra|reflexivity].
      + repeat split; auto; try lia. rewrite Hd, Rabs_R0; exact Ht. }
  cbn [nltb Rnum nabs].
  destruct (Rltb_spec (Rabs (a*x1+b)) (Rabs (a*x2+b))).
  - destruct (Hgen x2 x1) as (x & n & E & Hn & Hf & Hc); [congruence|]. rewrite E.
    destruct (Nat.ltb_spec (S m) n); [lia|]. exists x; repeat split; auto; tauto.
  - destruct (Hgen x1 x2) as (x & n & E & Hn & Hf & Hc); [congruence|]. rewrite E.
    destruct (Nat.ltb_spec (S m) n); [lia|]. exists x; repeat split; auto; tauto.
Qed.

(* what a normal return does guarantee: converged in f, or last update below xtol, or iterations exhausted *)
Lemma secant_loop_sound f ftol xtol rem : forall iter x1 f1 x2 f2 x fx y j,
  fx = f x ->
  secant_loop Rnum (fun u => Some (f u)) ftol xtol rem iter x1 f1 x2 f2 x fx = (y, j) ->
  Rabs (f y) <= ftol \/ (exists z, Rabs (z - y) < xtol /\ ftol < Rabs (f z)) \/ j = (iter + rem)%nat.
Proof.
  induction rem as [|rem IH]; intros iter x1 f1 x2 f2 x fx y j Hx; cbn [secant_loop].
  { intros H; injection H as <- <-. right; right; lia. }
  cbn [nltb Rnum nabs nsub nmul ndiv].
  destruct (Rltb_spec ftol (Rabs fx)) as [H1|H1].
  2:{ intros H; injection H as <- <-. left; subst; exact H1. }
  match goal with |- context [Rltb (Rabs ?d) xtol] => set (dx := d); destruct (Rltb_spec (Rabs dx) xtol) as [H2|H2] end.
  { intros H; injection H as <- <-. right; left. exists x. split; [|subst; exact H1].
    replace (x - (x - dx)) with dx by lra. exact H2. }
  intros H. apply IH in H; [|reflexivity]. destruct H as [H|[H|H]]; auto. right; right; lia.
Qed.

Lemma secant_sound f x1 x2 ftol xtol maxiter x n :
  secant_run Rnum (fun u => Some (f u)) x1 x2 ftol xtol maxiter = Some (x, n) ->
  sec (fun u => Some (f u)) x1 x2 ftol xtol maxiter = Returned x /\
  (Rabs (f x) <= ftol \/ (exists z, Rabs (z - x) < xtol /\ ftol < Rabs (f z)) \/ n = maxiter).
Proof.
  unfold sec, secant. intros H; rewrite H. revert H. unfold secant_run.
  match goal with |- context [if ?c then _ else _] => destruct c end;
  intros H; injection H as H; pose proof H as Hi; apply secant_loop_iter in Hi;
  apply secant_loop_sound in H; try reflexivity;
  (destruct (Nat.ltb_spec maxiter n); [lia|]); (split; [reflexivity|exact H]).
Qed.
