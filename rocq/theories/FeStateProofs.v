From Coq Require Import Reals ZArith List Bool Arith String Lra Lia.
From Coquelicot Require Import Coquelicot.
From Verif Require Import Num Vec Deriv SbpSpec FeState FeStateSpec.
Import ListNotations.
Local Open Scope R_scope.

(** ** powers *)
Lemma apow_nonneg x p : 0 <= apow x p.
Proof. unfold apow. destruct (Req_EM_T x 0); [lra|]. unfold Rpower. left. apply exp_pos. Qed.
Lemma apow_0 p : apow 0 p = 0.
Proof. unfold apow. destruct (Req_EM_T 0 0); [reflexivity|congruence]. Qed.
Lemma apow_pos x p : 0 < x -> apow x p = Rpower x p.
Proof. intros H. unfold apow. destruct (Req_EM_T x 0); [lra|]. rewrite Rabs_right by lra. reflexivity. Qed.
Lemma apow_abs x p : apow (Rabs x) p = apow x p.
Proof. unfold apow. destruct (Req_EM_T x 0) as [->|H]; [rewrite Rabs_R0; destruct (Req_EM_T 0 0); congruence|].
  destruct (Req_EM_T (Rabs x) 0) as [E|E]; [exfalso; now apply (Rabs_no_R0 x H)|]. rewrite Rabs_Rabsolu. reflexivity. Qed.
Lemma apow_gt0 x p : x <> 0 -> 0 < apow x p.
Proof. intros H. unfold apow. destruct (Req_EM_T x 0); [contradiction|]. apply exp_pos. Qed.
Lemma apow_zero x p : apow x p = 0 -> x = 0.
Proof. intros H. destruct (Req_EM_T x 0) as [E|E]; [exact E|]. assert (K := apow_gt0 x p E). lra. Qed.
Lemma apow_mul x y p : apow (x * y) p = apow x p * apow y p.
Proof.
  unfold apow. destruct (Req_EM_T x 0) as [->|Hx]; [rewrite Rmult_0_l; destruct (Req_EM_T 0 0); [ring|congruence]|].
  destruct (Req_EM_T y 0) as [->|Hy]; [rewrite Rmult_0_r; destruct (Req_EM_T 0 0); [ring|congruence]|].
  destruct (Req_EM_T (x * y) 0) as [E|E]; [exfalso; apply Rmult_integral in E; tauto|].
  rewrite Rabs_mult. symmetry. apply Rpower_mult_distr; now apply Rabs_pos_lt.
Qed.
Lemma apow_apow x p q : apow (apow x p) q = apow x (p * q).
Proof.
  unfold apow at 1. destruct (Req_EM_T (apow x p) 0) as [E|E].
  - rewrite (apow_zero _ _ E), apow_0. reflexivity.
  - rewrite Rabs_right by (apply Rle_ge, apow_nonneg). unfold apow in *. destruct (Req_EM_T x 0); [contradiction|]. apply Rpower_mult.
Qed.
Lemma apow_1 x : 0 <= x -> apow x 1 = x.
Proof. intros H. destruct (Req_EM_T x 0) as [->|E]; [apply apow_0|]. rewrite apow_pos by lra. apply Rpower_1. lra. Qed.
Lemma apow_le x y p : 0 < p -> 0 <= x -> x <= y -> apow x p <= apow y p.
Proof.
  intros Hp Hx H. destruct (Req_EM_T x 0) as [->|E]; [rewrite apow_0; apply apow_nonneg|].
  rewrite !apow_pos by lra. apply Rle_Rpower_l; lra.
Qed.
Lemma apow_inj x y p : 0 < p -> 0 <= x -> 0 <= y -> apow x p = apow y p -> x = y.
Proof.
  intros Hp Hx Hy H. assert (E : apow (apow x p) (1 / p) = apow (apow y p) (1 / p)) by now rewrite H.
  rewrite !apow_apow in E. replace (p * (1 / p)) with 1 in E by (field; lra). now rewrite !apow_1 in E.
Qed.
Lemma apow_le_inv x y p : 0 < p -> 0 <= x -> 0 <= y -> apow x p <= apow y p -> x <= y.
Proof.
  intros Hp Hx Hy H. destruct (Rle_dec x y) as [K|K]; [exact K|]. exfalso.
  assert (L := apow_le y x p Hp Hy ltac:(lra)). assert (E : apow x p = apow y p) by lra. assert (x = y) by (now apply (apow_inj x y p)). lra.
Qed.
Lemma apow_2 x : apow x 2 = x * x.
Proof.
  destruct (Req_EM_T x 0) as [->|E]; [rewrite apow_0; ring|]. unfold apow. destruct (Req_EM_T x 0); [contradiction|].
  replace 2 with (INR 2) by (cbn; ring). rewrite Rpower_pow by now apply Rabs_pos_lt. cbn. rewrite Rmult_1_r. rewrite <- Rabs_mult. apply Rabs_right. apply Rle_ge. nra.
Qed.
Lemma cpow_nonneg x p : 0 < p -> 0 <= x -> cpow x p = Some (apow x p).
Proof.
  intros Hp Hx. unfold cpow. destruct (Req_EM_T p 0); [lra|]. destruct (Rlt_dec 0 x) as [H|H].
  - now rewrite apow_pos.
  - assert (x = 0) by lra. subst x. destruct (Req_EM_T 0 0); [|congruence]. destruct (Rlt_dec 0 p); [|contradiction]. now rewrite apow_0.
Qed.
(** signed power *)
Definition sp (x p : R) : R := if Rlt_dec x 0 then - apow x p else apow x p.
Lemma apow_opp x p : apow (- x) p = apow x p.
Proof. rewrite <- apow_abs, Rabs_Ropp, apow_abs. reflexivity. Qed.
Lemma spow_eq x p : 0 < p -> spow x p = Some (sp x p).
Proof.
  intros Hp. unfold spow, sp. destruct (Rlt_dec x 0) as [H|H].
  - rewrite cpow_nonneg by lra. now rewrite apow_opp.
  - now rewrite cpow_nonneg by lra.
Qed.
Lemma sp_inv s p : 0 < p -> sp (sp s (1 / p)) p = s.
Proof.
  intros Hp. assert (P1 : 1 / p * p = 1) by (field; lra). unfold sp at 2. destruct (Rlt_dec s 0) as [H|H].
  - unfold sp. assert (K := apow_gt0 s (1 / p) ltac:(lra)). destruct (Rlt_dec (- apow s (1 / p)) 0); [|lra].
    rewrite apow_opp, apow_apow, P1, <- apow_abs, apow_1 by apply Rabs_pos. rewrite Rabs_left by lra. ring.
  - unfold sp. assert (K := apow_nonneg s (1 / p)). destruct (Rlt_dec (apow s (1 / p)) 0); [lra|]. rewrite apow_apow, P1, apow_1 by lra. reflexivity.
Qed.
Lemma sp_nonneg s p : 0 <= s -> sp s p = apow s p.
Proof. intros H. unfold sp. destruct (Rlt_dec s 0); [lra|reflexivity]. Qed.

(** ** value of the norm *)
Lemma fold_some {A : Type} (f : A -> option R) (g : A -> R) (op : R -> R -> R) l a :
  (forall x, In x l -> f x = Some (g x)) ->
  fold_left (fun acc x => match acc, f x with Some a, Some e => Some (op a e) | _, _ => None end) l (Some a) = Some (fold_left (fun a x => op a (g x)) l a).
Proof. revert a. induction l as [|x l IH]; intros a H; cbn; [reflexivity|]. rewrite (H x) by now left. apply IH. intros; apply H; now right. Qed.
Lemma fold_sum {A : Type} (g : A -> R) l a : fold_left (fun a x => a + g x) l a = a + lsum g l.
Proof. revert a. induction l as [|x l IH]; intros a; cbn; [ring|]. rewrite IH. unfold lsum. ring. Qed.
Lemma lp_local_value p err pts : 0 < p -> (forall q, 0 <= err q) -> lp_local (PFin p) err pts = Some (sp (quad pts (fun q => apow (err q) p)) (1 / p)).
Proof.
  intros Hp He. unfold lp_local.
  assert (E : fold_left (fun acc q => match acc, cpow (err q) p with Some a, Some e => Some (a + q_w q * e) | _, _ => None end) pts (Some 0) = Some (quad pts (fun q => apow (err q) p))).
  { enough (G : forall a, fold_left (fun acc q => match acc, cpow (err q) p with Some a, Some e => Some (a + q_w q * e) | _, _ => None end) pts (Some a) = Some (a + quad pts (fun q => apow (err q) p))) by (rewrite G; f_equal; ring).
    induction pts as [|q l IH]; intros a; [cbn; f_equal; unfold quad, lsum; cbn; ring|]. cbn [fold_left]. rewrite cpow_nonneg by (try apply He; lra). rewrite IH. f_equal. unfold quad, lsum. cbn. ring. }
  rewrite E. apply spow_eq. apply Rdiv_lt_0_compat; lra.
Qed.
Lemma quad_concat procs f : quad (List.concat procs) f = lsum (fun l => quad l f) procs.
Proof.
  induction procs as [|l ls IH]; [reflexivity|]. cbn [List.concat]. unfold lsum. cbn [fold_right]. unfold lsum in IH. rewrite <- IH. unfold quad, lsum.
  rewrite fold_right_app. generalize (fold_right (fun q s => q_w q * f q + s) 0 (List.concat ls)). intros r. induction l as [|q l IHl]; cbn; [ring|]. rewrite IHl. ring.
Qed.
Lemma global_value p err procs : 0 < p -> (forall q, 0 <= err q) ->
  global_lp (PFin p) (map (lp_local (PFin p) err) procs) = Some (sp (quad (List.concat procs) (fun q => apow (err q) p)) (1 / p)).
Proof.
  intros Hp He. unfold global_lp.
  assert (E : forall a, fold_left (fun acc l => match acc, l with Some a, Some x => match spow x p with Some y => Some (a + y) | None => None end | _, _ => None end) (map (lp_local (PFin p) err) procs) (Some a)
    = Some (a + quad (List.concat procs) (fun q => apow (err q) p))).
  { rewrite quad_concat. induction procs as [|l ls IH]; intros a; [cbn; f_equal; unfold lsum; cbn; ring|]. cbn [map fold_left]. rewrite lp_local_value by assumption. rewrite spow_eq, sp_inv by exact Hp.
    rewrite IH. f_equal. unfold lsum. cbn. ring. }
  rewrite E, Rplus_0_l. apply spow_eq. apply Rdiv_lt_0_compat; lra.
Qed.
Lemma quad_nonneg pts f : nonneg_weights pts -> (forall q, 0 <= f q) -> 0 <= quad pts f.
Proof.
  intros Hw Hf. unfold quad, lsum. induction pts as [|q l IH]; cbn; [lra|]. assert (0 <= q_w q * f q) by (apply Rmult_le_pos; [apply Hw; now left|apply Hf]).
  assert (0 <= fold_right (fun q s => q_w q * f q + s) 0 l) by (apply IH; intros x Hx; apply Hw; now right). lra.
Qed.
Lemma quad_ext pts f g : (forall q, In q pts -> f q = g q) -> quad pts f = quad pts g.
Proof. intros H. unfold quad, lsum. induction pts as [|q l IH]; cbn; [reflexivity|]. rewrite (H q) by now left. rewrite IH by (intros; apply H; now right). reflexivity. Qed.
Lemma quad_le pts f g : nonneg_weights pts -> (forall q, In q pts -> f q <= g q) -> quad pts f <= quad pts g.
Proof.
  intros Hw H. unfold quad, lsum. induction pts as [|q l IH]; cbn; [lra|].
  assert (q_w q * f q <= q_w q * g q) by (apply Rmult_le_compat_l; [apply Hw; now left|apply H; now left]).
  assert (fold_right (fun q s => q_w q * f q + s) 0 l <= fold_right (fun q s => q_w q * g q + s) 0 l) by (apply IH; [intros x Hx; apply Hw; now right|intros; apply H; now right]). lra.
Qed.
Lemma quad_lin pts a b f g : quad pts (fun q => a * f q + b * g q) = a * quad pts f + b * quad pts g.
Proof. unfold quad, lsum. induction pts as [|q l IH]; cbn; [ring|]. rewrite IH. ring. Qed.
Lemma quad_zero pts f : nonneg_weights pts -> (forall q, 0 <= f q) -> quad pts f = 0 -> forall q, In q pts -> 0 < q_w q -> f q = 0.
Proof.
  intros Hw Hf. induction pts as [|x l IH]; intros H q [].
  - subst x. intros Wq. unfold quad, lsum in H. cbn in H. assert (N := quad_nonneg l f ltac:(intros y Hy; apply Hw; now right) Hf). unfold quad, lsum in N.
    assert (0 <= q_w q * f q) by (apply Rmult_le_pos; [lra|apply Hf]). assert (Z : q_w q * f q = 0) by lra. apply Rmult_integral in Z. destruct Z; lra.
  - apply IH; [intros y Hy; apply Hw; now right| |assumption].
    unfold quad, lsum in H. cbn in H. assert (N := quad_nonneg l f ltac:(intros y Hy; apply Hw; now right) Hf). unfold quad, lsum in N.
    assert (0 <= q_w x * f x) by (apply Rmult_le_pos; [apply Hw; now left|apply Hf]). unfold quad, lsum. lra.
Qed.
(** the norm as a number *)
Definition lpn (pts : list qpt) (err : qpt -> R) (p : R) : R := apow (quad pts (fun q => apow (err q) p)) (1 / p).
Lemma lpn_is pts err p : 0 < p -> nonneg_weights pts -> is_lp pts err p (lpn pts err p).
Proof.
  intros Hp Hw. split; [apply apow_nonneg|]. unfold lpn. rewrite apow_apow. replace (1 / p * p) with 1 by (field; lra). apply apow_1.
  apply quad_nonneg; [exact Hw|]. intros; apply apow_nonneg.
Qed.
Lemma is_lp_unique pts err p N M : 0 < p -> is_lp pts err p N -> is_lp pts err p M -> N = M.
Proof. intros Hp [A B] [C D]. apply (apow_inj N M p); congruence. Qed.

(** ** infinity *)
Lemma fold_max_ge {A : Type} (f : A -> R) l a : a <= fold_left (fun a q => Rmax a (f q)) l a.
Proof. revert a. induction l as [|x l IH]; intros a; cbn; [lra|]. eapply Rle_trans; [apply Rmax_l|apply IH]. Qed.
Lemma fold_max {A : Type} (f : A -> R) l a : (forall q, In q l -> f q <= fold_left (fun a q => Rmax a (f q)) l a) /\
  (fold_left (fun a q => Rmax a (f q)) l a = a \/ exists q, In q l /\ f q = fold_left (fun a q => Rmax a (f q)) l a).
Proof.
  revert a. induction l as [|x l IH]; intros a; cbn; [split; [intros q []|now left]|]. destruct (IH (Rmax a (f x))) as [A1 A2]. split.
  - intros q [->|H]; [|now apply A1]. eapply Rle_trans; [apply Rmax_r|apply fold_max_ge].
  - destruct A2 as [A2|[q [Q1 Q2]]]; [|right; exists q; auto]. rewrite A2. unfold Rmax at 1. destruct (Rle_dec a (f x)) as [K|K].
    + right. exists x. split; [now left|]. unfold Rmax. destruct (Rle_dec a (f x)); [reflexivity|contradiction].
    + now left.
Qed.
Lemma fold_max_concat (f : qpt -> R) (procs : list (list qpt)) a : 0 <= a -> 
  fold_left (fun a q => Rmax a (f q)) (List.concat procs) a = fold_left (fun a l => Rmax a (fold_left (fun a q => Rmax a (f q)) l 0)) procs a.
Proof.
  assert (S : forall l a, 0 <= a -> fold_left (fun a q => Rmax a (f q)) l a = Rmax a (fold_left (fun a q => Rmax a (f q)) l 0)).
  { induction l as [|x l IH]; intros b Hb; cbn; [rewrite Rmax_left by lra; reflexivity|].
    assert (0 <= Rmax b (f x)) by (eapply Rle_trans; [exact Hb|apply Rmax_l]). assert (0 <= Rmax 0 (f x)) by apply Rmax_l.
    rewrite (IH (Rmax b (f x))), (IH (Rmax 0 (f x))) by assumption. rewrite !Rmax_assoc. f_equal.
    unfold Rmax. repeat destruct Rle_dec; lra. }
  revert a. induction procs as [|l ls IH]; intros a Ha; cbn; [reflexivity|]. rewrite fold_left_app, (S l a Ha). apply IH. eapply Rle_trans; [exact Ha|apply Rmax_l].
Qed.
Lemma global_inf err procs : procs <> [] -> global_lp PInf (map (lp_local PInf err) procs) = Some (fold_left (fun a q => Rmax a (err q)) (List.concat procs) 0).
Proof.
  destruct procs as [|l ls]; [congruence|]. intros _. cbn [map global_lp lp_local List.concat]. rewrite fold_left_app.
  assert (P0 : 0 <= fold_left (fun a q => Rmax a (err q)) l 0) by apply fold_max_ge. revert P0. generalize (fold_left (fun a q => Rmax a (err q)) l 0). intros a Ha.
  rewrite fold_max_concat by exact Ha. clear Ha. revert a. induction ls as [|x xs IH]; intros a; cbn; [reflexivity|]. apply IH.
Qed.

(** ** Minkowski *)
Lemma ln_concave a b l : 0 < a -> 0 < b -> 0 <= l <= 1 -> l * ln a + (1 - l) * ln b <= ln (l * a + (1 - l) * b).
Proof.
  intros Ha Hb Hl. set (m := l * a + (1 - l) * b). assert (Hm : 0 < m). { unfold m. destruct (Req_EM_T l 0) as [->|E]; [lra|]. assert (0 < l * a) by nra. assert (0 <= (1 - l) * b) by nra. lra. }
  assert (Q : forall x, 0 < x -> ln x <= ln m + (x / m - 1)).
  { intros x Hx. assert (K := ln_le (x / m) (exp (x / m - 1))). assert (D : 0 < x / m) by (apply Rdiv_lt_0_compat; lra).
    assert (Ex := exp_ineq1_le (x / m - 1)). specialize (K D ltac:(lra)). rewrite ln_exp in K. unfold Rdiv in K at 1. rewrite ln_mult, ln_Rinv in K; [lra|lra|lra|now apply Rinv_0_lt_compat]. }
  assert (A := Q a Ha). assert (B := Q b Hb).
  assert (S : l * (a / m - 1) + (1 - l) * (b / m - 1) = 0). { replace (l * (a / m - 1) + (1 - l) * (b / m - 1)) with ((l * a + (1 - l) * b) / m - 1) by (field; lra). fold m. field. lra. }
  nra.
Qed.
(** Bernoulli's inequality *)
Lemma bernoulli x p : 1 <= p -> 0 <= x -> 1 + p * (x - 1) <= apow x p.
Proof.
  intros Hp Hx. destruct (Rle_dec (1 + p * (x - 1)) 0) as [N|N]; [eapply Rle_trans; [exact N|apply apow_nonneg]|].
  destruct (Req_EM_T x 0) as [->|E]; [exfalso; nra|]. rewrite apow_pos by lra. set (y := 1 + p * (x - 1)) in *.
  assert (C := ln_concave y 1 (/ p) ltac:(lra) ltac:(lra)). assert (I : 0 < / p) by (apply Rinv_0_lt_compat; lra).
  assert (I1 : / p <= 1). { rewrite <- Rinv_1. apply Rinv_le_contravar; lra. }
  specialize (C ltac:(lra)). rewrite ln_1 in C. replace (/ p * y + (1 - / p) * 1) with x in C by (unfold y; field; lra).
  unfold Rpower. rewrite <- (exp_ln y) by lra. destruct (Req_EM_T (ln y) (p * ln x)) as [Q|Q]; [rewrite Q; lra|]. left. apply exp_increasing.
  assert (ln y <= p * ln x). { apply Rmult_le_reg_l with (/ p); [exact I|]. rewrite <- Rmult_assoc, Rinv_l, Rmult_1_l by lra. lra. } lra.
Qed.
Lemma apow_tangent x m p : 1 <= p -> 0 <= x -> 0 < m -> apow m p * (1 + p * (x / m - 1)) <= apow x p.
Proof.
  intros Hp Hx Hm. assert (B := bernoulli (x / m) p Hp ltac:(apply Rdiv_le_0_compat; lra)).
  assert (E : apow x p = apow m p * apow (x / m) p). { rewrite <- apow_mul. f_equal. field. lra. }
  rewrite E. apply Rmult_le_compat_l; [apply apow_nonneg|exact B].
Qed.
Lemma apow_convex a b l p : 1 <= p -> 0 <= a -> 0 <= b -> 0 <= l <= 1 -> apow (l * a + (1 - l) * b) p <= l * apow a p + (1 - l) * apow b p.
Proof.
  intros Hp Ha Hb Hl. set (m := l * a + (1 - l) * b). assert (Hm : 0 <= m) by (unfold m; nra). assert (Na := apow_nonneg a p). assert (Nb := apow_nonneg b p).
  destruct (Req_EM_T m 0) as [Z|Z]; [rewrite Z, apow_0; nra|].
  assert (A := apow_tangent a m p Hp Ha ltac:(lra)). assert (B := apow_tangent b m p Hp Hb ltac:(lra)).
  assert (S : l * (apow m p * (1 + p * (a / m - 1))) + (1 - l) * (apow m p * (1 + p * (b / m - 1))) = apow m p).
  { replace (l * (apow m p * (1 + p * (a / m - 1))) + (1 - l) * (apow m p * (1 + p * (b / m - 1)))) with (apow m p * (1 + p * ((l * a + (1 - l) * b) / m - 1))) by (field; lra). fold m. field. lra. }
  assert (l * (apow m p * (1 + p * (a / m - 1))) <= l * apow a p) by (apply Rmult_le_compat_l; lra).
  assert ((1 - l) * (apow m p * (1 + p * (b / m - 1))) <= (1 - l) * apow b p) by (apply Rmult_le_compat_l; lra). lra.
Qed.
Lemma minkowski pts p f g h A B C : 1 <= p -> nonneg_weights pts -> (forall q, In q pts -> 0 <= f q /\ 0 <= g q /\ 0 <= h q <= f q + g q) ->
  is_lp pts f p A -> is_lp pts g p B -> is_lp pts h p C -> C <= A + B.
Proof.
  intros Hp Hw H [A0 A1] [B0 B1] [C0 C1]. assert (Hp0 : 0 < p) by lra.
  assert (Zero : forall e N, apow N p = quad pts (fun q => apow (e q) p) -> N = 0 -> forall q, In q pts -> 0 < q_w q -> e q = 0).
  { intros e N E Z q Hq Wq. rewrite Z, apow_0 in E. symmetry in E. apply (apow_zero _ p). apply (quad_zero pts (fun q => apow (e q) p) Hw ltac:(intros; apply apow_nonneg) E q Hq Wq). }
  assert (Wcmp : forall e e', (forall q, In q pts -> 0 < q_w q -> e q <= e' q) -> quad pts e <= quad pts e').
  { intros e e' K. unfold quad, lsum. clear - Hw K. induction pts as [|q l IH]; cbn; [lra|].
    assert (q_w q * e q <= q_w q * e' q). { assert (W := Hw q (or_introl eq_refl)). destruct (Req_EM_T (q_w q) 0) as [->|E]; [lra|]. apply Rmult_le_compat_l; [exact W|]. apply K; [now left|lra]. }
    assert (fold_right (fun q s => q_w q * e q + s) 0 l <= fold_right (fun q s => q_w q * e' q + s) 0 l) by (apply IH; [intros x Hx; apply Hw; now right|intros; apply K; [now right|assumption]]). lra. }
  apply (apow_le_inv C (A + B) p); try lra. rewrite C1.
  destruct (Req_EM_T A 0) as [ZA|ZA].
  - rewrite ZA, Rplus_0_l, B1. apply Wcmp. intros q Hq Wq. destruct (H q Hq) as (F & G & Hh). rewrite (Zero f A A1 ZA q Hq Wq) in Hh. apply apow_le; lra.
  - destruct (Req_EM_T B 0) as [ZB|ZB].
    + rewrite ZB, Rplus_0_r, A1. apply Wcmp. intros q Hq Wq. destruct (H q Hq) as (F & G & Hh). rewrite (Zero g B B1 ZB q Hq Wq) in Hh. apply apow_le; lra.
    + set (l := A / (A + B)). assert (Hl : 0 <= l <= 1). { unfold l. split; [apply Rdiv_le_0_compat; lra|]. apply Rmult_le_reg_r with (A + B); [lra|]. unfold Rdiv. rewrite Rmult_assoc, Rinv_l, Rmult_1_l by lra. lra. }
      assert (L2 : 1 - l = B / (A + B)) by (unfold l; field; lra).
      apply Rle_trans with (quad pts (fun q => apow (A + B) p * (l * / apow A p) * apow (f q) p + apow (A + B) p * ((1 - l) * / apow B p) * apow (g q) p)).
      * apply quad_le; [exact Hw|]. intros q Hq. destruct (H q Hq) as (F & G & Hh).
        apply Rle_trans with (apow (f q + g q) p); [apply apow_le; lra|].
        replace (f q + g q) with ((A + B) * (l * (f q / A) + (1 - l) * (g q / B))) by (rewrite L2; unfold l; field; lra).
        rewrite apow_mul, !Rmult_assoc, <- Rmult_plus_distr_l. apply Rmult_le_compat_l; [apply apow_nonneg|].
        eapply Rle_trans; [apply apow_convex; [exact Hp|apply Rdiv_le_0_compat; lra|apply Rdiv_le_0_compat; lra|exact Hl]|].
        right. assert (D : forall x N, 0 < N -> apow (x / N) p = / apow N p * apow x p).
        { intros x N HN. assert (K := apow_gt0 N p ltac:(lra)). apply Rmult_eq_reg_l with (apow N p); [|lra]. rewrite <- apow_mul, <- Rmult_assoc, Rinv_r, Rmult_1_l by lra. f_equal. field. lra. }
        rewrite !D by lra. ring.
      * rewrite quad_lin, <- A1, <- B1. assert (KA := apow_gt0 A p ZA). assert (KB := apow_gt0 B p ZB). right. field. lra.
Qed.
