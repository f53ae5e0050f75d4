From Coq Require Import Reals List Arith Lia Lra.
From Verif Require Import Vec OrthoPoly OrthoPolySpec OrthoPolyProofs3 Interp.
Import ListNotations.
Local Open Scope R_scope.

Lemma Ok_inj (A : Type) (a b : A) : Ok a = Ok b -> a = b.
Proof. congruence. Qed.
(** coordinates of point i, zero beyond the dimension *)
Definition pt (dim : nat) (x : nat -> nat -> R) (a i : nat) : R := if Nat.ltb a dim then x a i else 0.
(** value of f at point i *)
Definition at_pt (dim : nat) (f : R -> R -> R -> R) (x : nat -> nat -> R) (i : nat) : R :=
  f (pt dim x 0 i) (pt dim x 1 i) (pt dim x 2 i).

Definition mono (e : nat * nat * nat) (dx dy dz : R) : R := let '(a, b, c) := e in dx ^ a * dy ^ b * dz ^ c.
Definition deg (e : nat * nat * nat) : nat := let '(a, b, c) := e in (a + b + c)%nat.

(** every polynomial of total degree <= n is a sum of monomials about any centre *)
Definition expand (n : nat) (cx cy cz : R) (f : R -> R -> R -> R) : Prop :=
  exists l : list (R * (nat * nat * nat)), (forall t, In t l -> (deg (snd t) <= n)%nat) /\
  forall x y z, f x y z = fold_right Rplus 0 (map (fun t => fst t * mono (snd t) (x - cx) (y - cy) (z - cz)) l).
Lemma fold_app l1 l2 : fold_right Rplus 0 (l1 ++ l2) = fold_right Rplus 0 l1 + fold_right Rplus 0 l2.
Proof. induction l1; simpl; lra. Qed.
Lemma fold_scal (A : Type) c (f : A -> R) l : fold_right Rplus 0 (map (fun t => c * f t) l) = c * fold_right Rplus 0 (map f l).
Proof. induction l as [|a l IH]; simpl; [lra|]. rewrite IH. ring. Qed.
Definition mul_term (t u : R * (nat * nat * nat)) : R * (nat * nat * nat) :=
  (fst t * fst u, (fst (fst (snd t)) + fst (fst (snd u)), snd (fst (snd t)) + snd (fst (snd u)), snd (snd t) + snd (snd u))%nat).
Lemma poly3_expand n f cx cy cz : poly3 n f -> expand n cx cy cz f.
Proof.
  induction 1 as [d c| | | |d f g _ [l1 [D1 E1]] _ [l2 [D2 E2]]|d e f g _ [l1 [D1 E1]] _ [l2 [D2 E2]]|d e f g Hd E _ [l1 [D1 E1]]].
  - exists [(c, (0, 0, 0)%nat)]. split; [intros t [<-|[]]; simpl; lia|]. intros. simpl. ring.
  - exists [(1, (1, 0, 0)%nat); (cx, (0,0,0)%nat)]. split; [intros t [<-|[<-|[]]]; simpl; lia|]. intros. simpl. ring.
  - exists [(1, (0, 1, 0)%nat); (cy, (0,0,0)%nat)]. split; [intros t [<-|[<-|[]]]; simpl; lia|]. intros. simpl. ring.
  - exists [(1, (0, 0, 1)%nat); (cz, (0,0,0)%nat)]. split; [intros t [<-|[<-|[]]]; simpl; lia|]. intros. simpl. ring.
  - exists (l1 ++ l2). split; [intros t H; apply in_app_iff in H as [H|H]; auto|].
    intros. rewrite E1, E2, map_app, fold_app. reflexivity.
  - exists (flat_map (fun t => map (mul_term t) l2) l1). split.
    + intros t H. apply in_flat_map in H as (t1 & H1 & H2). apply in_map_iff in H2 as (t2 & <- & H2).
      specialize (D1 _ H1). specialize (D2 _ H2). destruct t1 as [? [[? ?] ?]], t2 as [? [[? ?] ?]]. simpl in *. lia.
    + intros x y z. rewrite E1, E2. clear. induction l1 as [|t l1 IH]; simpl; [ring|].
      rewrite map_app, fold_app, <- IH, Rmult_plus_distr_r. f_equal.
      rewrite map_map, <- fold_scal. f_equal. apply map_ext. intros u.
      destruct t as [? [[? ?] ?]], u as [? [[? ?] ?]]. simpl. rewrite !pow_add. ring.
  - exists l1. split; [intros t H; specialize (D1 _ H); lia|]. intros. rewrite <- E. apply E1.
Qed.
Lemma pow_poly (sel : nat) (c : R) k : (sel < 3)%nat ->
  poly3 k (fun x y z => ((match sel with 0 => x | 1 => y | _ => z end) - c) ^ k).
Proof.
  intros H. induction k as [|k IH]; [simpl; apply (poly3_ext 0 0 (fun _ _ _ => 1)); [lia|reflexivity|constructor]|].
  assert (B : poly3 1 (fun x y z => (match sel with 0%nat => x | 1%nat => y | _ => z end) + - c)).
  { apply poly3_add; [|constructor]. destruct sel as [|[|sel]]; constructor. }
  apply (poly3_ext (1 + k) (S k) (fun x y z => ((match sel with 0%nat => x | 1%nat => y | _ => z end) + - c) * ((match sel with 0%nat => x | 1%nat => y | _ => z end) - c) ^ k)).
  - lia.
  - intros. simpl. ring.
  - now apply poly3_mul.
Qed.
Lemma mono_poly e cx cy cz : poly3 (deg e) (fun x y z => mono e (x - cx) (y - cy) (z - cz)).
Proof.
  destruct e as [[a b] c]. simpl. apply poly3_mul; [apply poly3_mul|]; [apply (pow_poly 0)|apply (pow_poly 1)|apply (pow_poly 2)]; lia.
Qed.

(** ** loops as traversals of an exponent list *)
Lemma nest {S I} (g : S -> I -> S) (f : nat -> list I) (l : list nat) (body : S -> nat -> S) :
  (forall s r, In r l -> body s r = fold_left g (f r) s) -> forall s, fold_left body l s = fold_left g (flat_map f l) s.
Proof.
  induction l as [|r l IH]; simpl; intros H s; [reflexivity|]. rewrite fold_left_app, H by auto. apply IH. auto.
Qed.
Lemma fold_map {S A B} (g : S -> B -> S) (h : A -> B) l : forall s, fold_left g (map h l) s = fold_left (fun s a => g s (h a)) l s.
Proof. induction l as [|a l IH]; simpl; intros; auto. Qed.

Section W.
Context {E : Type} (val : E -> R).
(** sequential writes of val to the columns following the current one *)
Definition wr (s : nat * (nat -> R)) (e : E) : nat * (nat -> R) := (fst s + 1, upd (snd s) (fst s) (val e))%nat.
Lemma wr_fold l : forall s, fst (fold_left wr l s) = (fst s + length l)%nat /\
  forall k d, snd (fold_left wr l s) k = if Nat.ltb k (fst s) then snd s k else if Nat.ltb k (fst s + length l) then val (nth (k - fst s) l d) else snd s k.
Proof.
  induction l as [|e l IH]; intros s; simpl.
  - split; [lia|]. intros k d. destruct (Nat.ltb_spec k (fst s)); [reflexivity|]. rewrite Nat.add_0_r.
    destruct (Nat.ltb_spec k (fst s)); [lia|reflexivity].
  - destruct (IH (wr s e)) as [F V]. split; [rewrite F; unfold wr; simpl; lia|]. intros k d. rewrite (V k d). unfold wr; simpl. unfold upd.
    destruct (Nat.ltb_spec k (fst s + 1)), (Nat.ltb_spec k (fst s)); try lia.
    + destruct (Nat.eqb_spec k (fst s)); [lia|reflexivity].
    + destruct (Nat.eqb_spec k (fst s)); [|lia]. destruct (Nat.ltb_spec k (fst s + S (length l))); [|lia].
      now replace (k - fst s)%nat with 0%nat by lia.
    + destruct (Nat.ltb_spec k (fst s + 1 + length l)), (Nat.ltb_spec k (fst s + S (length l))); try lia.
      * now replace (k - fst s)%nat with (S (k - (fst s + 1))) by lia.
      * destruct (Nat.eqb_spec k (fst s)); [lia|reflexivity].
Qed.
(** accumulation against the coefficients of the following columns *)
Context (c : nat -> R).
Definition ac (s : nat * R) (e : E) : nat * R := ((fst s + 1)%nat, snd s + val e * c (fst s)).
Lemma ac_fold l d : forall s, snd (fold_left ac l s) = snd s + rsum (length l) (fun k => val (nth k l d) * c (fst s + k)%nat).
Proof.
  induction l as [|e l IH]; intros s; simpl fold_left; [simpl; ring|]. rewrite IH. unfold ac at 1 2; simpl fst; simpl snd.
  cbn [length]. rewrite rsum_shift. cbn [nth]. rewrite Nat.add_0_r.
  rewrite (rsum_ext (length l) (fun k => val (nth k l d) * c (fst s + 1 + k)%nat) (fun k => val (nth k l d) * c (fst s + S k)%nat)); [ring|].
  intros k _. now replace (fst s + 1 + k)%nat with (fst s + S k)%nat by lia.
Qed.
End W.

(** exponents of the columns, in column order *)
Definition exps (dim degree : nat) : list (nat * nat * nat) :=
  match dim with
  | 1%nat => map (fun p => (p, 0, 0)%nat) (seq 0 (degree + 1))
  | 2%nat => flat_map (fun p => map (fun q => (p - q, q, 0)%nat) (seq 0 (p + 1))) (seq 0 (degree + 1))
  | 3%nat => flat_map (fun p => flat_map (fun q => map (fun r => (p - q - r, r, q)%nat) (seq 0 (p - q + 1))) (seq 0 (p + 1))) (seq 0 (degree + 1))
  | _ => []
  end.
Definition dim_ok (dim : nat) (e : nat * nat * nat) : Prop :=
  let '(a, b, c) := e in ((dim < 2 -> b = 0) /\ (dim < 3 -> c = 0))%nat.
Lemma exps_complete dim degree e : (1 <= dim <= 3)%nat -> In e (exps dim degree) <-> (deg e <= degree)%nat /\ dim_ok dim e.
Proof.
  intros Hd. destruct e as [[a b] c]. destruct dim as [|[|[|[|]]]]; try lia; simpl; clear Hd.
  - rewrite in_map_iff. split.
    + intros (p & E & H). apply in_seq in H. inversion E; subst. lia.
    + intros H. exists a. rewrite in_seq. split; [repeat f_equal; lia|lia].
  - rewrite in_flat_map. split.
    + intros (p & H & E). apply in_map_iff in E as (q & E & Hq). apply in_seq in H, Hq. inversion E; subst. lia.
    + intros H. exists (a + b)%nat. rewrite in_seq. split; [lia|]. apply in_map_iff. exists b. rewrite in_seq. split; [repeat f_equal; lia|lia].
  - rewrite in_flat_map. split.
    + intros (p & H & E). apply in_flat_map in E as (q & Hq & E). apply in_map_iff in E as (r & E & Hr). apply in_seq in H, Hq, Hr. inversion E; subst. lia.
    + intros H. exists (a + b + c)%nat. rewrite in_seq. split; [lia|]. apply in_flat_map. exists c. rewrite in_seq. split; [lia|].
      apply in_map_iff. exists b. rewrite in_seq. split; [repeat f_equal; lia|lia].
Qed.
Lemma exps_nodup dim degree : NoDup (exps dim degree).
Proof.
  destruct dim as [|[|[|[|]]]]; simpl; try constructor.
  - apply FinFun.Injective_map_NoDup; [|apply seq_NoDup]. intros x y E. congruence.
  - apply NoDup_flat_map; [apply seq_NoDup| |].
    + intros p _. apply FinFun.Injective_map_NoDup; [|apply seq_NoDup]. intros x y E. congruence.
    + intros x y b _ _ Hx Hy. apply in_map_iff in Hx as (p & <- & Hp). apply in_map_iff in Hy as (q & E & Hq). apply in_seq in Hp, Hq. inversion E. lia.
  - apply NoDup_flat_map; [apply seq_NoDup| |].
    + intros p _. apply NoDup_flat_map; [apply seq_NoDup| |].
      * intros q _. apply FinFun.Injective_map_NoDup; [|apply seq_NoDup]. intros x y E. congruence.
      * intros x y b _ _ Hx Hy. apply in_map_iff in Hx as (q & <- & Hq). apply in_map_iff in Hy as (q' & E & Hq'). congruence.
    + intros x y b _ _ Hx Hy. apply in_flat_map in Hx as (k1 & Hk1 & Hx). apply in_flat_map in Hy as (k2 & Hk2 & Hy).
      apply in_map_iff in Hx as (p & <- & Hp). apply in_map_iff in Hy as (q & E & Hq). apply in_seq in Hk1, Hk2, Hp, Hq. inversion E. lia.
Qed.
Lemma exps_length dim degree nb : ls_num_basis dim degree = Ok nb -> length (exps dim degree) = nb.
Proof.
  destruct dim as [|[|[|[|]]]]; cbn [ls_num_basis exps]; intros H; try discriminate; apply Ok_inj in H; subst.
  - now rewrite map_length, seq_length.
  - pose proof (tri_cols degree) as E. rewrite (len_of _ (tri_good degree)), tri_idx in E. unfold vander_tri_cols in E. rewrite <- E.
    rewrite <- (map_length (fun e : nat * nat => (fst e, snd e, 0%nat))). f_equal. clear.
    induction (seq 0 (degree + 1)) as [|r l IH]; simpl; [reflexivity|]. rewrite map_app, IH. f_equal. unfold tri_row. now rewrite map_map.
  - pose proof (tet_cols degree) as E. rewrite (len_of _ (tet_good degree)), tet_idx in E. unfold vander_tet_cols in E. rewrite <- E.
    f_equal. apply flat_map_ext. intros p. apply flat_map_ext. intros q. unfold tet_row. apply map_ext_in. intros r Hr. apply in_seq in Hr. replace (p - q - r)%nat with (p - r - q)%nat by lia. reflexivity.
Qed.

(** displacement of points *)
Definition dpt (dim : nat) (x y : nat -> nat -> R) (i j : nat) (e : nat * nat * nat) : R :=
  mono e (pt dim x 0 i - pt dim y 0 j) (pt dim x 1 i - pt dim y 1 j) (pt dim x 2 i - pt dim y 2 j).

Lemma fold_left_ext {A B} (f g : A -> B -> A) l : (forall a b, In b l -> f a b = g a b) -> forall a, fold_left f l a = fold_left g l a.
Proof. induction l as [|b l IH]; simpl; intros H a; [reflexivity|]. rewrite H by auto. apply IH. auto. Qed.
Lemma fold_upd (val : nat -> R) n : forall (s : nat -> R) i, (i < n)%nat -> fold_left (fun V p => upd V p (val p)) (seq 0 n) s i = val i.
Proof.
  induction n as [|n IH]; intros s i Hi; [lia|]. rewrite seq_S, fold_left_app. simpl. unfold upd at 1.
  destruct (Nat.eqb_spec i n) as [->|]; [reflexivity|]. apply IH. lia.
Qed.
Lemma ls_V dim degree x V0 i col d : (1 <= dim <= 3)%nat -> (col < length (exps dim degree))%nat ->
  ls_vandermonde dim degree x V0 i col = dpt dim x x i 0 (nth col (exps dim degree) d).
Proof.
  intros Hd Hc. destruct dim as [|[|[|[|]]]]; try lia; clear Hd; unfold ls_vandermonde, dpt; cbv zeta; cbn [pt Nat.ltb Nat.leb].
  - unfold for_upto. simpl in Hc. rewrite map_length, seq_length in Hc.
    rewrite fold_upd by assumption. simpl. rewrite (nth_indep _ d (0,0,0)%nat) by (now rewrite map_length, seq_length).
    rewrite (map_nth (fun p => (p, 0, 0)%nat) _ 0%nat), seq_nth by assumption. simpl. ring.
  - unfold for_upto.
    set (val := fun e : nat * nat * nat => mono e (x 0%nat i - x 0%nat 0%nat) (x 1%nat i - x 1%nat 0%nat) (0 - 0)).
    rewrite (nest (wr val) (fun p => map (fun q => (p - q, q, 0)%nat) (seq 0 (p + 1)))).
    + destruct (wr_fold val (exps 2 degree) (0%nat, V0)) as [_ W]. change (flat_map _ _) with (exps 2 degree). rewrite (W col d).
      cbn [fst]. destruct (Nat.ltb_spec col 0); [lia|]. destruct (Nat.ltb_spec col (0 + length (exps 2 degree))); [|lia].
      now rewrite Nat.sub_0_r.
    + intros s p _. rewrite fold_map. apply fold_left_ext. intros a q _. unfold wr, val. simpl. f_equal. f_equal. ring.
  - unfold for_upto.
    set (val := fun e : nat * nat * nat => mono e (x 0%nat i - x 0%nat 0%nat) (x 1%nat i - x 1%nat 0%nat) (x 2%nat i - x 2%nat 0%nat)).
    rewrite (nest (wr val) (fun p => flat_map (fun q => map (fun r => (p - q - r, r, q)%nat) (seq 0 (p - q + 1))) (seq 0 (p + 1)))).
    + destruct (wr_fold val (exps 3 degree) (0%nat, V0)) as [_ W]. change (flat_map _ _) with (exps 3 degree). rewrite (W col d).
      cbn [fst]. destruct (Nat.ltb_spec col 0); [lia|]. destruct (Nat.ltb_spec col (0 + length (exps 3 degree))); [|lia].
      now rewrite Nat.sub_0_r.
    + intros s p _. apply nest. intros s' q _. rewrite fold_map. apply fold_left_ext. intros a r _. unfold wr, val. simpl. reflexivity.
Qed.
Lemma ls_I dim degree x xq coeff j i d : (1 <= dim <= 3)%nat ->
  ls_interp dim degree x xq coeff j i = rsum (length (exps dim degree)) (fun k => dpt dim xq x j 0 (nth k (exps dim degree) d) * coeff k i).
Proof.
  intros Hd. destruct dim as [|[|[|[|]]]]; try lia; clear Hd; unfold ls_interp, dpt; cbv zeta; cbn [pt Nat.ltb Nat.leb].
  - unfold for_upto. simpl exps. rewrite map_length, seq_length.
    assert (G : forall n a, fold_left (fun acc p => acc + (xq 0%nat j - x 0%nat 0%nat) ^ p * coeff p i) (seq 0 n) a = a + rsum n (fun k => (xq 0%nat j - x 0%nat 0%nat) ^ k * coeff k i)).
    { induction n as [|n IH]; intros a; [simpl; ring|]. rewrite seq_S, fold_left_app, IH. simpl. ring. }
    rewrite G, Rplus_0_l. apply rsum_ext. intros k Hk.
    rewrite (nth_indep _ d (0,0,0)%nat) by (now rewrite map_length, seq_length).
    rewrite (map_nth (fun p => (p, 0, 0)%nat) _ 0%nat), seq_nth by assumption. simpl. ring.
  - unfold for_upto.
    set (val := fun e : nat * nat * nat => mono e (xq 0%nat j - x 0%nat 0%nat) (xq 1%nat j - x 1%nat 0%nat) (0 - 0)).
    rewrite (nest (ac val (fun k => coeff k i)) (fun p => map (fun q => (p - q, q, 0)%nat) (seq 0 (p + 1)))).
    + change (flat_map _ _) with (exps 2 degree). rewrite (ac_fold val (fun k => coeff k i) (exps 2 degree) d). simpl. now rewrite Rplus_0_l.
    + intros s p _. rewrite fold_map. apply fold_left_ext. intros a q _. unfold ac, val. simpl. f_equal. ring.
  - unfold for_upto.
    set (val := fun e : nat * nat * nat => mono e (xq 0%nat j - x 0%nat 0%nat) (xq 1%nat j - x 1%nat 0%nat) (xq 2%nat j - x 2%nat 0%nat)).
    rewrite (nest (ac val (fun k => coeff k i)) (fun p => flat_map (fun q => map (fun r => (p - q - r, r, q)%nat) (seq 0 (p - q + 1))) (seq 0 (p + 1)))).
    + change (flat_map _ _) with (exps 3 degree). rewrite (ac_fold val (fun k => coeff k i) (exps 3 degree) d). cbn [fst snd]. now rewrite Rplus_0_l.
    + intros s p _. apply nest. intros s' q _. rewrite fold_map. apply fold_left_ext. intros a r _. unfold ac, val. simpl. reflexivity.
Qed.

(** ** least squares *)
(** column i of c minimises the residual of V c = i-th unit vector (what dgels computes for ne >= nb) *)
Definition sqnorm (n : nat) (r : nat -> R) : R := rsum n (fun i => r i * r i).
Definition ls_residual (nb : nat) (V : nat -> nat -> R) (c : nat -> R) (i k : nat) : R :=
  rsum nb (fun col => V k col * c col) - (if Nat.eqb k i then 1 else 0).
Definition is_least_squares (ne nb : nat) (V coeff : nat -> nat -> R) : Prop :=
  forall i, (i < ne)%nat -> forall c, sqnorm ne (ls_residual nb V (fun col => coeff col i) i) <= sqnorm ne (ls_residual nb V c i).
(** the columns are linearly independent *)
Definition full_rank (ne nb : nat) (V : nat -> nat -> R) : Prop :=
  forall a, (forall i, (i < ne)%nat -> rsum nb (fun k => V i k * a k) = 0) -> forall k, (k < nb)%nat -> a k = 0.

Lemma quad_min a b : (forall t, 0 <= t * a + t * t * b) -> 0 <= b -> a = 0.
Proof.
  intros H Hb. destruct (Req_dec a 0) as [|Ha]; [assumption|exfalso].
  specialize (H (- a / (b + 1))). replace (- a / (b + 1) * a + - a / (b + 1) * (- a / (b + 1)) * b) with (- (a * a) / ((b + 1) * (b + 1))) in H by (field; lra).
  assert (0 < a * a / ((b + 1) * (b + 1))).
  { apply Rdiv_lt_0_compat; [|nra]. destruct (Rdichotomy _ _ Ha); nra. }
  unfold Rdiv in *. lra.
Qed.
Lemma ls_normal ne nb V coeff : is_least_squares ne nb V coeff -> forall i h, (i < ne)%nat ->
  rsum ne (fun k => rsum nb (fun col => V k col * h col) * ls_residual nb V (fun col => coeff col i) i k) = 0.
Proof.
  intros H i h Hi. set (r := ls_residual nb V (fun col => coeff col i) i). set (Vh := fun k => rsum nb (fun col => V k col * h col)).
  assert (E : forall t, sqnorm ne (ls_residual nb V (fun col => coeff col i + t * h col) i) = sqnorm ne r + (t * (2 * rsum ne (fun k => Vh k * r k)) + t * t * rsum ne (fun k => Vh k * Vh k))).
  { intros t. unfold sqnorm. rewrite <- !rsum_scal, <- !rsum_plus. apply rsum_ext. intros k _.
    assert (ls_residual nb V (fun col => coeff col i + t * h col) i k = r k + t * Vh k) as ->.
    { unfold r, ls_residual, Vh. rewrite (rsum_ext nb _ (fun col => V k col * coeff col i + t * (V k col * h col))) by (intros; ring).
      rewrite rsum_plus, rsum_scal. ring. }
    ring. }
  change (rsum ne (fun k => Vh k * r k) = 0). assert (2 * rsum ne (fun k => Vh k * r k) = 0); [|lra].
  apply (quad_min _ (rsum ne (fun k => Vh k * Vh k))); [|apply rsum_nonneg; intros; nra].
  intros t. specialize (H i Hi (fun col => coeff col i + t * h col)). rewrite E in H. fold r in H. lra.
Qed.
Lemma ls_inverse ne nb V coeff c0 : is_least_squares ne nb V coeff -> full_rank ne nb V -> (c0 < nb)%nat ->
  forall k, (k < nb)%nat -> rsum ne (fun i => coeff k i * V i c0) = if Nat.eqb k c0 then 1 else 0.
Proof.
  intros H F Hc. set (w := fun k => rsum ne (fun i => coeff k i * V i c0) - (if Nat.eqb k c0 then 1 else 0)).
  assert (N : forall h, rsum ne (fun k => rsum nb (fun col => V k col * h col) * rsum nb (fun col => V k col * w col)) = 0).
  { intros h.
    assert (E : forall k, (k < ne)%nat -> rsum nb (fun col => V k col * w col) = rsum ne (fun i => ls_residual nb V (fun col => coeff col i) i k * V i c0)).
    { intros k Hk. unfold w, ls_residual.
      rewrite (rsum_ext nb _ (fun col => rsum ne (fun i => V k col * coeff col i * V i c0) - (if Nat.eqb col c0 then V k col else 0))).
      2:{ intros col _. destruct (Nat.eqb col c0); rewrite <- ?rsum_scal; rewrite Rmult_minus_distr_l, <- rsum_scal; [rewrite Rmult_1_r|rewrite Rmult_0_r]; f_equal; apply rsum_ext; intros; ring. }
      rewrite rsum_minus, rsum_delta, (rsum_swap nb ne (fun col i => V k col * coeff col i * V i c0)) by assumption.
      rewrite (rsum_ext ne (fun i => (_ - _) * _) (fun i => rsum nb (fun col => V k col * coeff col i * V i c0) - (if Nat.eqb i k then V i c0 else 0))).
      2:{ intros i _. rewrite Rmult_minus_distr_r, <- rsum_scal_r. f_equal. rewrite (Nat.eqb_sym i k). destruct (Nat.eqb k i); ring. }
      rewrite rsum_minus, rsum_delta by assumption. reflexivity. }
    rewrite (rsum_ext ne _ (fun k => rsum ne (fun i => V i c0 * (rsum nb (fun col => V k col * h col) * ls_residual nb V (fun col => coeff col i) i k)))).
    2:{ intros k Hk. rewrite (E k Hk), <- rsum_scal. apply rsum_ext. intros; ring. }
    rewrite (rsum_swap ne ne (fun k i => V i c0 * (rsum nb (fun col => V k col * h col) * ls_residual nb V (fun col => coeff col i) i k))).
    rewrite (rsum_ext ne _ (fun _ => 0)); [apply rsum_0|]. intros i Hi. rewrite rsum_scal, (ls_normal ne nb V coeff H i h Hi). ring. }
  assert (Z : forall k, (k < nb)%nat -> w k = 0).
  { apply F. intros i Hi. pose proof (N w) as Nw.
    assert (Q : rsum nb (fun k => V i k * w k) * rsum nb (fun k => V i k * w k) = 0).
    { apply (rsum_nonneg_zero ne (fun k => rsum nb (fun col => V k col * w col) * rsum nb (fun col => V k col * w col))); [intros; nra|assumption|assumption]. }
    nra. }
  intros k Hk. specialize (Z k Hk). unfold w in Z. lra.
Qed.
Lemma fold_rsum {A} n (g : nat -> A -> R) (l : list A) : rsum n (fun i => fold_right Rplus 0 (map (g i) l)) = fold_right Rplus 0 (map (fun t => rsum n (fun i => g i t)) l).
Proof. induction l as [|a l IH]; simpl; [apply rsum_0|]. now rewrite rsum_plus, IH. Qed.
Lemma in_nth_ex {A} (x d : A) l : In x l -> exists n, (n < length l)%nat /\ nth n l d = x.
Proof. intros H. destruct (In_nth l x d H) as (n & H1 & H2). eauto. Qed.
(** terms whose exponent uses a coordinate beyond the dimension vanish *)
Lemma dpt_bad dim x y i j e : (1 <= dim <= 3)%nat -> ~ dim_ok dim e -> dpt dim x y i j e = 0.
Proof.
  intros Hd H. destruct e as [[a b] c]. unfold dpt, mono, pt. simpl in H.
  destruct dim as [|[|[|[|]]]]; try lia; cbn [Nat.ltb Nat.leb].
  - destruct b as [|b]; [destruct c as [|c]; [lia|]|]; simpl; ring.
  - destruct c as [|c]; [lia|]. simpl. ring.
Qed.
Lemma dim_ok_dec dim e : {dim_ok dim e} + {~ dim_ok dim e}.
Proof.
  destruct e as [[a b] c]. simpl. destruct (le_lt_dec 2 dim), (le_lt_dec 3 dim), (Nat.eq_dec b 0), (Nat.eq_dec c 0); (left; lia) || (right; lia).
Qed.

Lemma ls_reproduces dim degree nb ne x xq V0 coeff f j : ls_num_basis dim degree = Ok nb ->
  is_least_squares ne nb (fun i => ls_vandermonde dim degree x (V0 i) i) coeff ->
  full_rank ne nb (fun i => ls_vandermonde dim degree x (V0 i) i) -> poly3 degree f ->
  rsum ne (fun i => ls_interp dim degree x xq coeff j i * at_pt dim f x i) = at_pt dim f xq j.
Proof.
  intros Hn HL HF Hf. assert (Hd : (1 <= dim <= 3)%nat) by (destruct dim as [|[|[|[|]]]]; simpl in Hn; try discriminate; lia).
  pose proof (exps_length dim degree nb Hn) as EL.
  destruct (poly3_expand _ _ (pt dim x 0 0) (pt dim x 1 0) (pt dim x 2 0) Hf) as (l & Dl & El).
  unfold at_pt. rewrite El.
  rewrite (rsum_ext ne _ (fun i => fold_right Rplus 0 (map (fun t => ls_interp dim degree x xq coeff j i * (fst t * dpt dim x x i 0 (snd t))) l))).
  2:{ intros i _. rewrite El, fold_scal. reflexivity. }
  rewrite fold_rsum. f_equal. apply map_ext_in. intros [a e] Ht. cbn [fst snd].
  fold (dpt dim xq x j 0 e). specialize (Dl _ Ht). cbn [snd] in Dl.
  rewrite (rsum_ext ne _ (fun i => a * (ls_interp dim degree x xq coeff j i * dpt dim x x i 0 e))) by (intros; ring). rewrite rsum_scal. f_equal.
  destruct (dim_ok_dec dim e) as [Ho|Ho].
  2:{ rewrite (dpt_bad dim xq x j 0 e Hd Ho). rewrite (rsum_ext ne _ (fun _ => 0)); [apply rsum_0|]. intros i _. rewrite (dpt_bad dim x x i 0 e Hd Ho). ring. }
  destruct (in_nth_ex e e (exps dim degree)) as (c0 & Hc0 & Ec0); [now apply exps_complete|].
  rewrite EL in Hc0.
  rewrite (rsum_ext ne _ (fun i => rsum nb (fun k => dpt dim xq x j 0 (nth k (exps dim degree) e) * (coeff k i * ls_vandermonde dim degree x (V0 i) i c0)))).
  2:{ intros i _. rewrite (ls_I dim degree x xq coeff j i e Hd), EL, <- rsum_scal_r. apply rsum_ext. intros k _.
      rewrite (ls_V dim degree x (V0 i) i c0 e Hd) by lia. rewrite Ec0. ring. }
  rewrite (rsum_swap ne nb (fun i k => dpt dim xq x j 0 (nth k (exps dim degree) e) * (coeff k i * ls_vandermonde dim degree x (V0 i) i c0))).
  rewrite (rsum_ext nb _ (fun k => if Nat.eqb k c0 then dpt dim xq x j 0 (nth k (exps dim degree) e) else 0)).
  2:{ intros k Hk. rewrite rsum_scal.
      rewrite (ls_inverse ne nb (fun i => ls_vandermonde dim degree x (V0 i) i) coeff c0 HL HF Hc0 k Hk). destruct (Nat.eqb k c0); ring. }
  rewrite rsum_delta by assumption. now rewrite Ec0.
Qed.

(** ** buildInterpolation *)
Definition iexps (dim degree : nat) : list (nat * nat * nat) :=
  match dim with
  | 1%nat => map (fun p => (p, 0, 0)%nat) (seq 0 (degree + 1))
  | 2%nat => (0,0,0)%nat :: flat_map (fun o => map (fun c => (c, o - c, 0)%nat) (rev (seq 0 (o + 1)))) (seq 1 degree)
  | _ => []
  end.
Lemma iexps_complete dim degree e : (1 <= dim <= 2)%nat -> In e (iexps dim degree) <-> (deg e <= degree)%nat /\ dim_ok dim e.
Proof.
  intros Hd. destruct e as [[a b] c]. destruct dim as [|[|[|]]]; try lia; simpl; clear Hd.
  - rewrite in_map_iff. split.
    + intros (p & E & H). apply in_seq in H. inversion E; subst. lia.
    + intros H. exists a. rewrite in_seq. split; [repeat f_equal; lia|lia].
  - rewrite in_flat_map. split.
    + intros [E|(p & H & E)]; [inversion E; lia|]. apply in_map_iff in E as (q & E & Hq). apply in_rev, in_seq in Hq. apply in_seq in H. inversion E; subst. lia.
    + intros H. destruct (Nat.eq_dec (a + b) 0) as [Z|Z]; [left; repeat f_equal; lia|right]. exists (a + b)%nat. rewrite in_seq. split; [lia|].
      apply in_map_iff. exists a. rewrite <- in_rev, in_seq. split; [repeat f_equal; lia|lia].
Qed.
Lemma iexps_length dim degree m : interp_rows dim degree = Ok m -> length (iexps dim degree) = m.
Proof.
  destruct dim as [|[|[|]]]; cbn [interp_rows iexps length]; intros H; try discriminate; apply Ok_inj in H; subst.
  - now rewrite map_length, seq_length.
  - assert (G : forall n, (2 * length (flat_map (fun o => map (fun c => (c, o - c, 0)%nat) (rev (seq 0 (o + 1)))) (seq 1 n)) + 2 = (n + 1) * (n + 2))%nat).
    { induction n as [|n IH]; [reflexivity|]. rewrite seq_S, flat_map_app, app_length. cbn [flat_map]. rewrite app_nil_r, map_length, rev_length, seq_length. nia. }
    specialize (G degree). apply Nat.div_unique with 0%nat; [lia|]. lia.
Qed.
Lemma fold_upd1 (val : nat -> R) n : forall (s : nat -> R) i, (i < n + 1)%nat -> s 0%nat = val 0%nat ->
  fold_left (fun V p => upd V p (val p)) (seq 1 n) s i = val i.
Proof.
  induction n as [|n IH]; intros s i Hi H0; [replace i with 0%nat by lia; assumption|]. rewrite seq_S, fold_left_app. simpl. unfold upd at 1.
  destruct (Nat.eqb_spec i (S n)) as [->|]; [reflexivity|]. apply IH; [lia|assumption].
Qed.
Lemma interp_col dim degree m x xq i j row d : interp_rows dim degree = Ok m -> (row < m)%nat ->
  exists col, interp_column dim degree x xq i j = Ok col /\ col row = dpt dim x xq j i (nth row (iexps dim degree) d).
Proof.
  intros Hm Hr. pose proof (iexps_length dim degree m Hm) as EL. destruct dim as [|[|[|]]]; cbn [interp_rows] in Hm; try discriminate; eexists; (split; [reflexivity|]).
  - apply Ok_inj in Hm; subst m. unfold for_from. replace (degree + 1 - 1 + 1 - 1)%nat with degree by lia.
    rewrite (fold_upd1 (fun p => (x 0%nat j - xq 0%nat i) ^ p)) by (assumption || reflexivity).
    simpl. rewrite (nth_indep _ d (0,0,0)%nat) by (now rewrite map_length, seq_length).
    rewrite (map_nth (fun p => (p, 0, 0)%nat) _ 0%nat), seq_nth by assumption. unfold dpt, pt, mono. cbn [Nat.ltb Nat.leb Nat.add pow]. ring.
  - unfold for_from, for_down. replace (degree + 1 - 1)%nat with degree by lia.
    set (val := fun e : nat * nat * nat => mono e (x 0%nat j - xq 0%nat i) (x 1%nat j - xq 1%nat i) (0 - 0)).
    rewrite (nest (wr val) (fun o => map (fun c => (c, o - c, 0)%nat) (rev (seq 0 (o + 1))))).
    + match goal with |- snd (fold_left _ ?l _) _ = _ => destruct (wr_fold val l (1%nat, upd (fun _ => 0) 0 1)) as [_ W]; rewrite (W row d) end.
      unfold dpt. cbn [fst snd]. destruct (Nat.ltb_spec row 1).
      * replace row with 0%nat by lia. unfold upd, mono, pt. cbn [nth iexps Nat.eqb Nat.ltb Nat.leb pow]. ring.
      * cbn [iexps] in *. cbn [length] in EL. destruct (Nat.ltb_spec row (1 + length (flat_map (fun o => map (fun c => (c, o - c, 0)%nat) (rev (seq 0 (o + 1)))) (seq 1 degree)))); [|lia].
        unfold val. destruct row as [|row]; [lia|]. cbn [nth]. replace (S row - 1)%nat with row by lia. unfold pt. reflexivity.
    + intros s o _. rewrite fold_map. apply fold_left_ext. intros a q _. unfold wr, val. simpl. f_equal. f_equal. ring.
Qed.
(** w solves the system handed to dgels for quadrature point i *)
Definition solves (m n : nat) (r : nat -> nat -> R) (w : nat -> R) : Prop :=
  forall row, (row < m)%nat -> rsum n (fun j => r row j * w j) = interp_rhs row.
Lemma interp_reproduces dim degree m n x xq i w r : interp_rows dim degree = Ok m ->
  (forall j, (j < n)%nat -> interp_column dim degree x xq i j = Ok (fun row => r row j)) ->
  (solves m n r w <-> forall f, poly3 degree f -> rsum n (fun j => w j * at_pt dim f x j) = at_pt dim f xq i).
Proof.
  intros Hm Hr. assert (Hd : (1 <= dim <= 2)%nat) by (destruct dim as [|[|[|]]]; simpl in Hm; try discriminate; lia).
  pose proof (iexps_length dim degree m Hm) as EL.
  assert (RV : forall row j d, (row < m)%nat -> (j < n)%nat -> r row j = dpt dim x xq j i (nth row (iexps dim degree) d)).
  { intros row j d H1 H2. destruct (interp_col dim degree m x xq i j row d Hm H1) as (col & E1 & E2). rewrite (Hr j H2) in E1. inversion E1; subst col. assumption. }
  assert (Z0 : forall e, dpt dim xq xq i i e = if Nat.eqb (deg e) 0 then 1 else 0).
  { intros [[a b] c]. unfold dpt, mono. rewrite !Rminus_diag_eq by reflexivity. destruct a, b, c; simpl; ring. }
  assert (HN0 : nth 0 (iexps dim degree) (0,0,0)%nat = (0,0,0)%nat).
  { destruct dim as [|[|[|]]]; try lia; [|reflexivity]. simpl. rewrite Nat.add_1_r. reflexivity. }
  assert (ND : forall row, (row < m)%nat -> deg (nth row (iexps dim degree) (0,0,0)%nat) = 0%nat -> row = 0%nat).
  { intros row H1 H2. destruct dim as [|[|[|]]]; try lia; cbn [interp_rows iexps length] in *; apply Ok_inj in Hm; subst m.
    - rewrite (map_nth (fun p => (p, 0, 0)%nat) _ 0%nat), seq_nth in H2 by lia. simpl in H2. lia.
    - destruct row as [|row]; [reflexivity|exfalso].
      assert (I : In (nth row (flat_map (fun o => map (fun c => (c, o - c, 0)%nat) (rev (seq 0 (o + 1)))) (seq 1 degree)) (0,0,0)%nat) (flat_map (fun o => map (fun c => (c, o - c, 0)%nat) (rev (seq 0 (o + 1)))) (seq 1 degree))).
      { apply nth_In. lia. }
      apply in_flat_map in I as (o & Ho & I). apply in_map_iff in I as (c & E & Hc). apply in_rev, in_seq in Hc. apply in_seq in Ho. cbn [nth] in H2. rewrite <- E in H2. simpl in H2. lia. }
  split.
  - intros S f Hf. destruct (poly3_expand _ _ (pt dim xq 0 i) (pt dim xq 1 i) (pt dim xq 2 i) Hf) as (l & Dl & El).
    unfold at_pt. rewrite El.
    rewrite (rsum_ext n _ (fun j => fold_right Rplus 0 (map (fun t => w j * (fst t * dpt dim x xq j i (snd t))) l))).
    2:{ intros j _. rewrite El, fold_scal. reflexivity. }
    rewrite fold_rsum. f_equal. apply map_ext_in. intros [a e] Ht. cbn [fst snd]. fold (dpt dim xq xq i i e). specialize (Dl _ Ht). cbn [snd] in Dl.
    rewrite (rsum_ext n _ (fun j => a * (w j * dpt dim x xq j i e))) by (intros; ring). rewrite rsum_scal. f_equal.
    destruct (dim_ok_dec dim e) as [Ho|Ho].
    2:{ rewrite (dpt_bad dim xq xq i i e) by (assumption || lia). rewrite (rsum_ext n _ (fun _ => 0)); [apply rsum_0|]. intros j _. rewrite (dpt_bad dim x xq j i e) by (assumption || lia). ring. }
    destruct (in_nth_ex e (0,0,0)%nat (iexps dim degree)) as (row & Hrow & Erow); [now apply iexps_complete|]. rewrite EL in Hrow.
    rewrite (rsum_ext n _ (fun j => r row j * w j)).
    2:{ intros j Hj. rewrite (RV row j (0,0,0)%nat Hrow Hj), Erow. ring. }
    rewrite (S row Hrow), Z0. unfold interp_rhs. destruct (Nat.eqb_spec row 0) as [->|Hrow0].
    + rewrite HN0 in Erow. subst e. reflexivity.
    + destruct (Nat.eqb_spec (deg e) 0) as [He|]; [|reflexivity]. exfalso. apply Hrow0. apply ND; [assumption|]. now rewrite Erow.
  - intros H row Hrow. set (e := nth row (iexps dim degree) (0,0,0)%nat).
    assert (Hin : In e (iexps dim degree)) by (apply nth_In; lia). apply iexps_complete in Hin as [De Oe]; [|assumption].
    specialize (H (fun X Y Z => mono e (X - pt dim xq 0 i) (Y - pt dim xq 1 i) (Z - pt dim xq 2 i))). unfold at_pt in H.
    fold (dpt dim xq xq i i e) in H. rewrite Z0 in H.
    rewrite (rsum_ext n _ (fun j => w j * dpt dim x xq j i e)).
    2:{ intros j Hj. rewrite (RV row j (0,0,0)%nat Hrow Hj). unfold e. ring. }
    unfold dpt at 1. rewrite H by (apply (poly3_ext (deg e) degree _ _ De (fun _ _ _ => eq_refl)); apply mono_poly).
    unfold interp_rhs. destruct (Nat.eqb_spec row 0) as [->|Hr0].
    + unfold e. rewrite HN0. reflexivity.
    + destruct (Nat.eqb_spec (deg e) 0) as [He|]; [|reflexivity]. exfalso. apply Hr0. now apply ND.
Qed.
