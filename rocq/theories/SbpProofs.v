(** Proofs about the SBP operators and the assembly loops. *)
From Coq Require Import Reals Arith Lra Lia Psatz Bool List FunctionalExtensionality.
From Coquelicot Require Import Coquelicot.
From Verif Require Import Num Vec Sbp.
Import ListNotations.
Local Open Scope R_scope.

Definition delta (a b : nat) : R := if Nat.eqb a b then 1 else 0.
Lemma delta_refl a : delta a a = 1. Proof. unfold delta. rewrite Nat.eqb_refl. reflexivity. Qed.
Lemma delta_sym a b : delta a b = delta b a. Proof. unfold delta. rewrite Nat.eqb_sym. reflexivity. Qed.
Lemma rsum_delta_l n a (f : nat -> R) : (a < n)%nat -> rsum n (fun k => delta a k * f k) = f a.
Proof. intros H. rewrite <- (rsum_delta n f a H). apply rsum_ext. intros k Hk. unfold delta. rewrite Nat.eqb_sym. destruct (Nat.eqb k a); ring. Qed.
Lemma rsum_delta_r n a (f : nat -> R) : (a < n)%nat -> rsum n (fun k => delta k a * f k) = f a.
Proof. intros H. rewrite <- (rsum_delta_l n a f H). apply rsum_ext. intros k Hk. rewrite delta_sym. reflexivity. Qed.

(** reading a loop through any additive observation *)
Lemma loop_read {S : Type} (r : S -> R) n (body : nat -> S -> S) (g : nat -> R) s :
  (forall k t, (k < n)%nat -> r (body k t) = r t + g k) -> r (loop n body s) = r s + rsum n g.
Proof. induction n as [|n IH]; intros Hk; simpl; [lra|]. rewrite Hk by lia. rewrite IH by (intros; apply Hk; lia). lra. Qed.
Lemma loop_ext {S : Type} n (f g : nat -> S -> S) s : (forall k t, (k < n)%nat -> f k t = g k t) -> loop n f s = loop n g s.
Proof. induction n as [|n IH]; intros H; simpl; [reflexivity|]. rewrite IH by (intros; apply H; lia). apply H. lia. Qed.
(** testing a node/state array with W *)
Definition test (n ns : nat) (W : nat -> vec) (A : mat) : R := rsum n (fun i => dot ns (W i) (A i)).
Lemma add2_eq A i j x a b : add2 A i j x a b = A a b + delta a i * (delta b j * x).
Proof. unfold add2, delta. destruct (Nat.eqb a i), (Nat.eqb b j); simpl; ring. Qed.
Lemma test_add2 n ns W A i j x : (i < n)%nat -> (j < ns)%nat -> test n ns W (add2 A i j x) = test n ns W A + W i j * x.
Proof.
  intros Hi Hj. unfold test, dot.
  rewrite (rsum_ext n _ (fun a => rsum ns (fun b => W a b * A a b) + delta a i * (rsum ns (fun b => delta b j * (W a b * x))))).
  - rewrite rsum_plus, rsum_delta_r, rsum_delta_r by assumption. reflexivity.
  - intros a Ha. rewrite <- rsum_scal, <- rsum_plus. apply rsum_ext. intros b Hb. rewrite add2_eq. ring.
Qed.
Lemma test_zero n ns W : test n ns W zero2 = 0.
Proof. unfold test, dot, zero2. rewrite (rsum_ext n _ (fun _ => 0)); [apply rsum_0|]. intros a Ha. rewrite (rsum_ext ns _ (fun _ => 0)); [apply rsum_0|]. intros; ring. Qed.
Lemma test_point n ns A i m : (i < n)%nat -> (m < ns)%nat -> test n ns (fun a b => delta a i * delta b m) A = A i m.
Proof.
  intros Hi Hm. unfold test, dot. rewrite (rsum_ext n _ (fun a => delta a i * A a m)); [apply (rsum_delta_r n i (fun a => A a m) Hi)|].
  intros a Ha. rewrite (rsum_ext ns _ (fun b => delta b m * (delta a i * A a b))) by (intros; ring). apply (rsum_delta_r ns m (fun b => delta a i * A a b) Hm).
Qed.
Lemma test_ext n ns W A B : (forall i m, (i < n)%nat -> (m < ns)%nat -> A i m = B i m) -> test n ns W A = test n ns W B.
Proof. intros HE. apply rsum_ext. intros i Hi. apply rsum_ext. intros m Hm. rewrite HE by assumption. reflexivity. Qed.
Lemma test_scal n ns W c (A : mat) : test n ns W (fun i m => c * A i m) = c * test n ns W A.
Proof. unfold test, dot. rewrite <- rsum_scal. apply rsum_ext. intros i Hi. rewrite <- rsum_scal. apply rsum_ext. intros; ring. Qed.
(** sum of one state over the nodes *)
Lemma test_state n ns A m : (m < ns)%nat -> test n ns (fun _ b => delta b m) A = rsum n (fun i => A i m).
Proof. intros Hm. apply rsum_ext. intros i Hi. unfold dot. apply (rsum_delta_r ns m (fun b => A i b) Hm). Qed.

(** the same for Jacobians, applied to a direction v *)
Definition test4 (n ns : nat) (W : nat -> vec) (A : mat4) (v : nat -> vec) : R :=
  rsum n (fun i => rsum ns (fun m => W i m * rsum n (fun j => rsum ns (fun k => A m i k j * v j k)))).
Lemma add4_eq A m i k j x a b c e : add4 A m i k j x a b c e = A a b c e + delta a m * (delta b i * (delta c k * (delta e j * x))).
Proof. unfold add4, delta. destruct (Nat.eqb a m), (Nat.eqb b i), (Nat.eqb c k), (Nat.eqb e j); simpl; ring. Qed.
Lemma test4_add4 n ns W A v m i k j x : (m < ns)%nat -> (i < n)%nat -> (k < ns)%nat -> (j < n)%nat ->
  test4 n ns W (add4 A m i k j x) v = test4 n ns W A v + W i m * (x * v j k).
Proof.
  intros Hm Hi Hk Hj. unfold test4.
  assert (E1 : forall b a, rsum n (fun e => rsum ns (fun c => add4 A m i k j x a b c e * v e c)) =
     rsum n (fun e => rsum ns (fun c => A a b c e * v e c)) + delta a m * (delta b i * (x * v j k))).
  { intros b a. rewrite (rsum_ext n _ (fun e => rsum ns (fun c => A a b c e * v e c) + delta e j * (delta a m * (delta b i * (x * v e k))))).
    - rewrite rsum_plus, rsum_delta_r by exact Hj. reflexivity.
    - intros e He. rewrite (rsum_ext ns _ (fun c => A a b c e * v e c + delta c k * (delta e j * (delta a m * (delta b i * (x * v e c)))))).
      + rewrite rsum_plus, rsum_delta_r by exact Hk. reflexivity.
      + intros c Hc. rewrite add4_eq. ring. }
  rewrite (rsum_ext n _ (fun b => rsum ns (fun a => W b a * rsum n (fun e => rsum ns (fun c => A a b c e * v e c))) + delta b i * (W b m * (x * v j k)))).
  - rewrite rsum_plus, rsum_delta_r by exact Hi. reflexivity.
  - intros b Hb. rewrite (rsum_ext ns _ (fun a => W b a * rsum n (fun e => rsum ns (fun c => A a b c e * v e c)) + delta a m * (delta b i * (W b a * (x * v j k))))).
    + rewrite rsum_plus, rsum_delta_r by exact Hm. reflexivity.
    + intros a Ha. rewrite E1. ring.
Qed.
Lemma test4_zero n ns W v : test4 n ns W zero4 v = 0.
Proof.
  unfold test4, zero4. rewrite (rsum_ext n _ (fun _ => 0)); [apply rsum_0|]. intros i Hi.
  rewrite (rsum_ext ns _ (fun _ => 0)); [apply rsum_0|]. intros m Hm.
  rewrite (rsum_ext n _ (fun _ => 0)); [rewrite rsum_0; ring|]. intros j Hj.
  rewrite (rsum_ext ns _ (fun _ => 0)); [apply rsum_0|]. intros; ring.
Qed.
Lemma test4_scal n ns W c (A : mat4) v : test4 n ns W (fun m i k j => A m i k j * c) v = c * test4 n ns W A v.
Proof.
  unfold test4. rewrite <- rsum_scal. apply rsum_ext. intros i Hi. rewrite <- rsum_scal. apply rsum_ext. intros m Hm.
  rewrite (rsum_ext n (fun j => rsum ns (fun k => A m i k j * c * v j k)) (fun j => c * rsum ns (fun k => A m i k j * v j k))).
  - rewrite rsum_scal. ring.
  - intros j Hj. rewrite <- rsum_scal. apply rsum_ext. intros; ring.
Qed.
Lemma test4_point n ns A v i m : (i < n)%nat -> (m < ns)%nat ->
  test4 n ns (fun a b => delta a i * delta b m) A v = rsum n (fun j => rsum ns (fun k => A m i k j * v j k)).
Proof.
  intros Hi Hm. unfold test4. apply (test_point n ns (fun i m => rsum n (fun j => rsum ns (fun k => A m i k j * v j k))) i m Hi Hm).
Qed.
(** an inner double loop over the states *)
Lemma test4_states n ns W v (i j : nat) (X : mat) A : (i < n)%nat -> (j < n)%nat ->
  test4 n ns W (loop ns (fun m A => loop ns (fun k A => add4 A m i k j (X m k)) A) A) v =
  test4 n ns W A v + rsum ns (fun m => W i m * rsum ns (fun k => X m k * v j k)).
Proof.
  intros Hi Hj. apply (loop_read (fun A => test4 n ns W A v)). intros m t Hm.
  rewrite (loop_read (fun A => test4 n ns W A v) ns _ (fun k => W i m * (X m k * v j k))).
  - rewrite rsum_scal. reflexivity.
  - intros k t' Hk. apply test4_add4; assumption.
Qed.
Lemma test4_states' n ns W v (i j : nat) (X : mat) A : (i < n)%nat -> (j < n)%nat ->
  test4 n ns W (loop ns (fun k A => loop ns (fun m A => add4 A m i k j (X m k)) A) A) v =
  test4 n ns W A v + rsum ns (fun m => W i m * rsum ns (fun k => X m k * v j k)).
Proof.
  intros Hi Hj. rewrite (loop_read (fun A => test4 n ns W A v) ns _ (fun k => rsum ns (fun m => W i m * (X m k * v j k)))).
  - f_equal. rewrite rsum_swap. apply rsum_ext. intros m Hm. rewrite rsum_scal. reflexivity.
  - intros k t Hk. apply (loop_read (fun A => test4 n ns W A v)). intros m t' Hm. apply test4_add4; assumption.
Qed.

Lemma is_derive_rsum n (f : nat -> R -> R) (l : nat -> R) x : (forall i, (i < n)%nat -> is_derive (f i) x (l i)) ->
  is_derive (fun s => rsum n (fun i => f i s)) x (rsum n l).
Proof.
  induction n as [|n IH]; intros Hf; simpl; [apply (is_derive_const 0)|].
  apply (is_derive_plus (fun s => rsum n (fun i => f i s)) (f n)); [apply IH; intros; apply Hf; lia|apply Hf; lia].
Qed.
Lemma is_derive_scal' (f : R -> R) x l c : is_derive f x l -> is_derive (fun s => c * f s) x (c * l).
Proof. intros Hf. apply (is_derive_scal f x c l Hf). Qed.

(** * Operator algebra *)
Section Ops.
Variables (n d : nat) (H : vec) (Q : nat -> mat).
Lemma skew_antisym di i j A B : getSkewEntry d Q di i j A B = - getSkewEntry d Q di j i B A.
Proof. unfold getSkewEntry. rewrite <- rsum_opp. apply rsum_ext. intros; ring. Qed.
Lemma skew_rev di i j bar A B A' B' :
  bar * (getSkewEntry d Q di i j A' B' - getSkewEntry d Q di i j A B) =
  rsum d (fun k => fst (getSkewEntryRevDiff Q di i j bar) k * (A' k di - A k di) + snd (getSkewEntryRevDiff Q di i j bar) k * (B' k di - B k di)).
Proof. unfold getSkewEntry, getSkewEntryRevDiff. simpl. rewrite <- rsum_minus, <- rsum_scal. apply rsum_ext. intros; ring. Qed.
Lemma weak_nt di u Qu m i : multWeakOperator n Q di u Qu false m i = Qu m i + rsum n (fun j => getQ Q di i j * u m j).
Proof. reflexivity. Qed.
Lemma weak_t di u Qu m i : multWeakOperator n Q di u Qu true m i = Qu m i - rsum n (fun j => getQ Q di j i * u m j).
Proof. reflexivity. Qed.
Lemma strong_weak di i j : H i <> 0 -> getStrongOperator H Q di false i j * H i = getQ Q di i j.
Proof. intros Hi. unfold getStrongOperator, getQ. field. exact Hi. Qed.
Lemma strong_trans di i j : getStrongOperator H Q di true i j = getStrongOperator H Q di false j i.
Proof. unfold getStrongOperator. ring. Qed.
Lemma strong_at di i u m : multStrongOperator n H Q di i u m = rsum n (fun j => getStrongOperator H Q di false i j * u m j).
Proof. unfold multStrongOperator, getStrongOperator. rewrite <- rsum_scal. apply rsum_ext. intros; ring. Qed.
Variables (nv : nat) (V : mat).
Notation P := (getProjOperatorEntry H nv V).
Lemma proj_nt u m i : (i < n)%nat -> multProjOperator n H nv V u false m i = rsum n (fun j => P i j * u m j).
Proof.
  intros Hi. unfold multProjOperator, getProjOperatorEntry.
  transitivity (rsum n (fun j => delta i j * u m j - rsum nv (fun k => V i k * V j k * H j) * u m j)).
  - rewrite rsum_minus, rsum_delta_l by exact Hi. f_equal.
    rewrite (rsum_ext n _ (fun j => rsum nv (fun k => V i k * (V j k * H j * u m j)))).
    + rewrite rsum_swap. apply rsum_ext. intros k Hk. rewrite rsum_scal. reflexivity.
    + intros j Hj. rewrite <- rsum_scal_r. apply rsum_ext. intros; ring.
  - apply rsum_ext. intros j Hj. unfold delta. ring.
Qed.
Lemma proj_t u m i : (i < n)%nat -> multProjOperator n H nv V u true m i = rsum n (fun j => P j i * u m j).
Proof.
  intros Hi. unfold multProjOperator, getProjOperatorEntry.
  transitivity (rsum n (fun j => delta j i * u m j - rsum nv (fun k => V j k * V i k * H i) * u m j)).
  - rewrite rsum_minus, rsum_delta_r by exact Hi. f_equal.
    rewrite (rsum_ext n _ (fun j => rsum nv (fun k => V i k * H i * (V j k * u m j)))).
    + rewrite rsum_swap. apply rsum_ext. intros k Hk. rewrite rsum_scal. reflexivity.
    + intros j Hj. rewrite <- rsum_scal_r. apply rsum_ext. intros; ring.
  - apply rsum_ext. intros j Hj. unfold delta. ring.
Qed.
Lemma proj_selfadj i j : H i * P i j = P j i * H j.
Proof.
  unfold getProjOperatorEntry. rewrite (Nat.eqb_sym j i), Rmult_minus_distr_l, Rmult_minus_distr_r, <- rsum_scal, <- rsum_scal_r.
  f_equal; [destruct (Nat.eqb_spec i j) as [->|]; ring|]. apply rsum_ext. intros; ring.
Qed.
Hypothesis Hv : forall a b, (a < nv)%nat -> (b < nv)%nat -> rsum n (fun i => V i a * H i * V i b) = delta a b.
Lemma proj_annihilates a i : (a < nv)%nat -> (i < n)%nat -> rsum n (fun j => P i j * V j a) = 0.
Proof.
  intros Ha Hi. rewrite <- (proj_nt (fun _ j => V j a) 0 i Hi). unfold multProjOperator.
  rewrite (rsum_ext nv _ (fun k => delta a k * V i k)).
  - rewrite rsum_delta_l by exact Ha. ring.
  - intros k Hk. rewrite (Hv k a Hk Ha), delta_sym. ring.
Qed.
Lemma proj_idempotent i j : (i < n)%nat -> (j < n)%nat -> rsum n (fun k => P i k * P k j) = P i j.
Proof.
  intros Hi Hj. unfold getProjOperatorEntry at 2.
  rewrite (rsum_ext n _ (fun k => delta k j * P i k - rsum nv (fun a => V j a * H j * (P i k * V k a)))).
  - rewrite rsum_minus, rsum_delta_r by exact Hj. rewrite rsum_swap.
    rewrite (rsum_ext nv _ (fun _ => 0)); [rewrite rsum_0; ring|]. intros a Ha. rewrite rsum_scal, (proj_annihilates a i Ha Hi). ring.
  - intros k Hk. fold (delta k j). rewrite Rmult_minus_distr_l, <- rsum_scal. f_equal; [ring|]. apply rsum_ext. intros; ring.
Qed.
End Ops.

(** * Dyadic (two-point flux) volume integrator *)
Section Dyadic.
Variables (n d : nat) (Q : nat -> mat) (ns : nat) (alpha : R) (adj : nat -> mat).
Notation Sk di i j := (getSkewEntry d Q di i j (adj i) (adj j)).
Notation Sym di i := (getSymEntry d Q di i (adj i)).
Notation Qp di i j := (getQEntry d Q di i j (adj i) (adj j)).
Lemma dyadic_test W f u : test n ns W (dyadicVector n d Q ns alpha adj f u) =
  rsum n (fun i => rsum n (fun j => if Nat.ltb i j then rsum d (fun di => Sk di i j * alpha * dot ns (fun m => W i m - W j m) (f di (u i) (u j))) else 0)).
Proof.
  unfold dyadicVector. rewrite (loop_read (test n ns W) n _ (fun i => rsum n (fun j => if Nat.ltb i j then rsum d (fun di => Sk di i j * alpha * dot ns (fun m => W i m - W j m) (f di (u i) (u j))) else 0))).
  - rewrite test_zero. ring.
  - intros i t Hi. apply (loop_read (test n ns W)). intros j t' Hj. destruct (Nat.ltb i j); [|ring].
    apply (loop_read (test n ns W)). intros di t'' Hdi. cbv zeta. unfold dot.
    rewrite (loop_read (test n ns W) ns _ (fun m => Sk di i j * alpha * ((W i m - W j m) * f di (u i) (u j) m))); [rewrite rsum_scal; reflexivity|].
    intros m s Hm. rewrite !test_add2 by assumption. ring.
Qed.
Lemma dyadic_conservative f u m : (m < ns)%nat -> rsum n (fun i => dyadicVector n d Q ns alpha adj f u i m) = 0.
Proof.
  intros Hm. rewrite <- (test_state n ns _ m Hm), dyadic_test.
  rewrite (rsum_ext n _ (fun _ => 0)); [apply rsum_0|]. intros i Hi. rewrite (rsum_ext n _ (fun _ => 0)); [apply rsum_0|]. intros j Hj.
  destruct (Nat.ltb i j); [|reflexivity]. rewrite (rsum_ext d _ (fun _ => 0)); [apply rsum_0|]. intros di Hdi. unfold dot.
  rewrite (rsum_ext ns _ (fun _ => 0)); [rewrite rsum_0; ring|]. intros; ring.
Qed.
(** summation over ordered pairs *)
Lemma pair_sum (S : mat) (g : nat -> R) : (forall i j, S i j = - S j i) ->
  rsum n (fun i => rsum n (fun j => if Nat.ltb i j then S i j * (g i - g j) else 0)) = rsum n (fun i => g i * rsum n (fun j => if Nat.eqb i j then 0 else S i j)).
Proof.
  intros HS.
  transitivity (rsum n (fun i => rsum n (fun j => if Nat.ltb i j then S i j * g i else 0)) + rsum n (fun i => rsum n (fun j => if Nat.ltb j i then S i j * g i else 0))).
  - rewrite (rsum_swap n n (fun i j => if Nat.ltb j i then S i j * g i else 0)).
    rewrite <- rsum_plus. apply rsum_ext. intros i Hi. rewrite <- rsum_plus. apply rsum_ext. intros j Hj. destruct (Nat.ltb i j); [|ring]. rewrite (HS j i). ring.
  - rewrite <- rsum_plus. apply rsum_ext. intros i Hi. rewrite <- rsum_plus, <- rsum_scal. apply rsum_ext. intros j Hj.
    destruct (Nat.eqb_spec i j) as [->|Hne]; [rewrite Nat.ltb_irrefl; ring|].
    destruct (Nat.ltb_spec i j); destruct (Nat.ltb_spec j i); try lia; ring.
Qed.
Hypothesis Hrow : forall di i, (di < d)%nat -> (i < n)%nat -> rsum n (fun j => Qp di i j) = 0.
Lemma skew_row di i : (di < d)%nat -> (i < n)%nat -> rsum n (fun j => if Nat.eqb i j then 0 else Sk di i j) = - 2 * Sym di i.
Proof.
  intros Hdi Hi. pose proof (Hrow di i Hdi Hi) as E. unfold getQEntry in E.
  rewrite (rsum_ext n _ (fun j => delta i j * Sym di i + 1/2 * (if Nat.eqb i j then 0 else Sk di i j))) in E.
  - rewrite rsum_plus, (rsum_delta_l n i (fun _ => Sym di i) Hi), rsum_scal in E. lra.
  - intros j Hj. unfold delta. destruct (Nat.eqb_spec i j) as [->|]; ring.
Qed.
(** entropy: potentials psi di i, defects of Tadmor's condition e di i j *)
Lemma dyadic_entropy f u (W : nat -> vec) (psi : nat -> nat -> R) (e : nat -> nat -> nat -> R) :
  (forall di i j, (di < d)%nat -> (i < j)%nat -> (j < n)%nat -> dot ns (fun m => W i m - W j m) (f di (u i) (u j)) = psi di i - psi di j + e di i j) ->
  test n ns W (dyadicVector n d Q ns alpha adj f u) =
  - 2 * alpha * rsum d (fun di => rsum n (fun i => Sym di i * psi di i)) +
  alpha * rsum n (fun i => rsum n (fun j => if Nat.ltb i j then rsum d (fun di => Sk di i j * e di i j) else 0)).
Proof.
  intros HT. rewrite dyadic_test.
  transitivity (rsum d (fun di => alpha * rsum n (fun i => rsum n (fun j => if Nat.ltb i j then Sk di i j * (psi di i - psi di j) else 0))) +
     alpha * rsum n (fun i => rsum n (fun j => if Nat.ltb i j then rsum d (fun di => Sk di i j * e di i j) else 0))).
  - transitivity (rsum d (fun di => rsum n (fun i => rsum n (fun j => if Nat.ltb i j then alpha * (Sk di i j * (psi di i - psi di j)) else 0))) +
       rsum n (fun i => rsum n (fun j => if Nat.ltb i j then rsum d (fun di => alpha * (Sk di i j * e di i j)) else 0))).
    + rewrite (rsum_swap d n), <- rsum_plus. apply rsum_ext. intros i Hi. rewrite (rsum_swap d n), <- rsum_plus. apply rsum_ext. intros j Hj.
      destruct (Nat.ltb_spec i j) as [L|L]; [|rewrite rsum_0; ring]. rewrite <- rsum_plus. apply rsum_ext. intros di Hdi.
      rewrite (HT di i j Hdi L Hj). ring.
    + f_equal.
      * apply rsum_ext. intros di Hdi. rewrite <- rsum_scal. apply rsum_ext. intros i Hi. rewrite <- rsum_scal. apply rsum_ext. intros j Hj. destruct (Nat.ltb i j); ring.
      * rewrite <- rsum_scal. apply rsum_ext. intros i Hi. rewrite <- rsum_scal. apply rsum_ext. intros j Hj. destruct (Nat.ltb i j); [|ring]. rewrite rsum_scal. reflexivity.
  - f_equal. rewrite <- rsum_scal. apply rsum_ext. intros di Hdi.
    rewrite (pair_sum (fun i j => Sk di i j) (psi di)) by (intros; apply skew_antisym).
    replace (-2 * alpha * rsum n (fun i => Sym di i * psi di i)) with (alpha * rsum n (fun i => - 2 * (Sym di i * psi di i))) by (rewrite rsum_scal; ring).
    f_equal. apply rsum_ext. intros i Hi. rewrite (skew_row di i Hdi Hi). ring.
Qed.
(** uniform state *)
Lemma dyadic_uniform f q m i : (i < n)%nat -> (m < ns)%nat -> 
  dyadicVector n d Q ns alpha adj f (fun _ => q) i m = - 2 * alpha * rsum d (fun di => Sym di i * f di q q m).
Proof.
  intros Hi Hm. rewrite <- (test_point n ns _ i m Hi Hm), dyadic_test.
  transitivity (rsum d (fun di => alpha * f di q q m * rsum n (fun a => rsum n (fun j => if Nat.ltb a j then Sk di a j * (delta a i - delta j i) else 0)))).
  - rewrite (rsum_ext d _ (fun di => rsum n (fun a => rsum n (fun j => if Nat.ltb a j then alpha * f di q q m * (Sk di a j * (delta a i - delta j i)) else 0)))).
    2:{ intros di Hdi. rewrite <- rsum_scal. apply rsum_ext. intros a Ha. rewrite <- rsum_scal. apply rsum_ext. intros j Hj. destruct (Nat.ltb a j); ring. }
    rewrite (rsum_swap d n). apply rsum_ext. intros a Ha. rewrite (rsum_swap d n). apply rsum_ext. intros j Hj. destruct (Nat.ltb a j); [|rewrite rsum_0; reflexivity].
    apply rsum_ext. intros di Hdi. unfold dot. rewrite (rsum_ext ns _ (fun b => delta b m * ((delta a i - delta j i) * f di q q b))) by (intros; ring).
    rewrite (rsum_delta_r ns m (fun b => (delta a i - delta j i) * f di q q b) Hm). ring.
  - replace (-2 * alpha * rsum d (fun di => Sym di i * f di q q m)) with (rsum d (fun di => alpha * f di q q m * (-2 * Sym di i))).
    2:{ rewrite <- rsum_scal. apply rsum_ext. intros; ring. }
    apply rsum_ext. intros di Hdi. f_equal. rewrite (pair_sum (fun a j => Sk di a j) (fun a => delta a i)) by (intros; apply skew_antisym).
    rewrite (rsum_delta_r n i (fun a => rsum n (fun j => if Nat.eqb a j then 0 else Sk di a j)) Hi). apply skew_row; assumption.
Qed.
(** Jacobian *)
Lemma dyadic_jac f jacL jacR u v W :
  (forall di i j m, (di < d)%nat -> (i < j)%nat -> (j < n)%nat -> (m < ns)%nat ->
     is_derive (fun s => f di (axpy (u i) s (v i)) (axpy (u j) s (v j)) m) 0
       (rsum ns (fun k => jacL di (u i) (u j) m k * v i k) + rsum ns (fun k => jacR di (u i) (u j) m k * v j k))) ->
  is_derive (fun s => test n ns W (dyadicVector n d Q ns alpha adj f (fun j => axpy (u j) s (v j)))) 0
    (test4 n ns W (dyadicGrad n d Q ns alpha adj jacL jacR u) v).
Proof.
  intros HD.
  apply (is_derive_ext (fun s => rsum n (fun i => rsum n (fun j => if Nat.ltb i j then rsum d (fun di => Sk di i j * alpha * dot ns (fun m => W i m - W j m) (f di (axpy (u i) s (v i)) (axpy (u j) s (v j)))) else 0)))).
  { intros s. symmetry. apply dyadic_test. }
  assert (E : test4 n ns W (dyadicGrad n d Q ns alpha adj jacL jacR u) v =
    rsum n (fun i => rsum n (fun j => if Nat.ltb i j then rsum d (fun di => Sk di i j * alpha * rsum ns (fun m => (W i m - W j m) *
       (rsum ns (fun k => jacL di (u i) (u j) m k * v i k) + rsum ns (fun k => jacR di (u i) (u j) m k * v j k)))) else 0))).
  { unfold dyadicGrad.
    rewrite (loop_read (fun A => test4 n ns W A v) d _ (fun di => rsum n (fun i => rsum n (fun j => if Nat.ltb i j then Sk di i j * alpha * rsum ns (fun m => (W i m - W j m) *
       (rsum ns (fun k => jacL di (u i) (u j) m k * v i k) + rsum ns (fun k => jacR di (u i) (u j) m k * v j k))) else 0)))).
    - rewrite test4_zero, Rplus_0_l, (rsum_swap d n). apply rsum_ext. intros i Hi. rewrite (rsum_swap d n). apply rsum_ext. intros j Hj.
      destruct (Nat.ltb i j); [reflexivity|apply rsum_0].
    - intros di t Hdi. apply (loop_read (fun A => test4 n ns W A v)). intros i t' Hi. apply (loop_read (fun A => test4 n ns W A v)). intros j t'' Hj.
      destruct (Nat.ltb i j); [|ring]. cbv zeta. rewrite <- rsum_scal. apply (loop_read (fun A => test4 n ns W A v)). intros m s Hm.
      rewrite (loop_read (fun A => test4 n ns W A v) ns _ (fun k => Sk di i j * alpha * ((W i m - W j m) * (jacL di (u i) (u j) m k * v i k + jacR di (u i) (u j) m k * v j k)))).
      + rewrite !rsum_scal, rsum_plus. reflexivity.
      + intros k s' Hk. rewrite !test4_add4 by assumption. ring. }
  rewrite E. apply is_derive_rsum. intros i Hi. apply is_derive_rsum. intros j Hj.
  destruct (Nat.ltb_spec i j) as [L|L]; [|apply (is_derive_const 0)].
  apply is_derive_rsum. intros di Hdi. apply is_derive_scal'. unfold dot. apply is_derive_rsum. intros m Hm. apply is_derive_scal'. apply HD; assumption.
Qed.
End Dyadic.
