(** Exactness of the Lobatto rule produced by a stationary Newton sweep. *)
From Coq Require Import Reals Lra Lia List Arith.
From Coquelicot Require Import Coquelicot.
From Verif Require Import OrthoPoly OrthoPolySpec OrthoPolyProofs OrthoPolyProofs2 OrthoPolyProofs3.
Import ListNotations.
Open Scope R_scope.

Notation L := legendre.
Lemma L_SS n x : L (S (S n)) x = ((2 * INR (n+1) + 1) * x * L (S n) x - INR (n+1) * L n x) / (INR (n+1) + 1).
Proof. reflexivity. Qed.
Lemma lob_col_L n x : lob_col n x = L n x.
Proof.
  assert (E : lob_cols n x = legendre_pair n x); [|unfold lob_col, legendre; now rewrite E].
  induction n as [|n IH]; [reflexivity|]. cbn [lob_cols legendre_pair]. rewrite IH. f_equal. cbv zeta.
  pose proof (pos_INR (n+1)). field. lra.
Qed.
Definition dL (n : nat) (x : R) : R := D 0 n x.
Lemma L_rel n x :
  (1 - x*x) * dL (S n) x = (INR n + 1) * (L n x - x * L (S n) x) /\
  (1 - x*x) * dL n x = (INR n + 1) * (x * L n x - L (S n) x).
Proof.
  destruct (P_rel 0 n x) as [E1 E2]. cbv zeta in *. rewrite !legendre_P in *. simpl (INR 0) in *. pose proof (pos_INR n).
  unfold dL. split; apply (Rmult_eq_reg_l (2 * (INR n + 1))); try lra.
Qed.
Lemma dL_rec n x : dL (S (S n)) x = ((2 * INR (n+1) + 1) * (L (S n) x + x * dL (S n) x) - INR (n+1) * dL n x) / (INR (n+1) + 1).
Proof.
  unfold dL. rewrite (D_SS 0). unfold nextD. rewrite legendre_P. simpl (INR 0). rewrite plus_INR. simpl (INR 1).
  pose proof (pos_INR n). cbv zeta. field. split; lra.
Qed.

Fixpoint ssum (n : nat) (f : nat -> R) : R := match n with O => 0 | S k => ssum k f + f k end.

(** Christoffel-Darboux; N = S n *)
Lemma CD n x y : (x - y) * ssum (S n) (fun k => (2 * INR k + 1) / 2 * (L k x * L k y))
  = (INR n + 1) / 2 * (L (S n) x * L n y - L n x * L (S n) y).
Proof.
  induction n as [|n IH].
  - cbn [ssum]. unfold legendre; simpl. field.
  - cbn [ssum] in *. rewrite Rmult_plus_distr_l, IH. rewrite !L_SS. rewrite !plus_INR, !S_INR. simpl (INR 0). pose proof (pos_INR n).
    field. lra.
Qed.
Lemma CDdiag n x : ssum (S n) (fun k => (2 * INR k + 1) / 2 * (L k x * L k x))
  = (INR n + 1) / 2 * (dL (S n) x * L n x - dL n x * L (S n) x).
Proof.
  induction n as [|n IH].
  - cbn [ssum]. unfold legendre, dL, D; simpl. field.
  - cbn [ssum] in *. rewrite IH. rewrite dL_rec, !L_SS. rewrite !plus_INR, !S_INR. simpl (INR 0). pose proof (pos_INR n).
    field. lra.
Qed.

Section Nodes.
Variable n : nat.   (* degree N = S n, num_nodes = S (S n) *)
Definition isnode (x : R) : Prop := x * L (S n) x = L n x.
Lemma L_nz x : isnode x -> L (S n) x <> 0.
Proof.
  intros H E. unfold isnode in H. rewrite E, Rmult_0_r in H. symmetry in H.
  assert (forall k, L k x = 0 -> L (S k) x = 0 -> False); [|eauto].
  induction k as [|k IH]; intros E0 E1.
  - unfold legendre in E0. simpl in E0. lra.
  - apply IH; [|assumption]. rewrite L_SS, E0 in E1. pose proof (pos_INR (k+1)).
    assert (1 <= INR (k+1)) by (rewrite plus_INR; simpl; pose proof (pos_INR k); lra).
    apply (Rmult_eq_compat_r (INR (k+1) + 1)) in E1. unfold Rdiv in E1. rewrite Rmult_assoc, Rinv_l in E1 by lra.
    ring_simplify in E1. apply Rmult_eq_reg_l with (- INR (k+1)); lra.
Qed.
Definition Ker (x y : R) : R :=
  ssum (S n) (fun k => (2 * INR k + 1) / 2 * (L k x * L k y)) + (INR n + 1) / 2 * (L (S n) x * L (S n) y).
Lemma Ker_off x y : isnode x -> isnode y -> x <> y -> Ker x y = 0.
Proof.
  intros Hx Hy Hne. unfold Ker. unfold isnode in *. pose proof (CD n x y) as E. rewrite <- Hx, <- Hy in E.
  apply (Rmult_eq_reg_l (x - y)); [|lra]. rewrite Rmult_plus_distr_l, E. ring.
Qed.
Lemma Ker_diag x : isnode x -> Ker x x = (INR n + 1) * (INR n + 2) / 2 * (L (S n) x * L (S n) x).
Proof.
  intros Hx. unfold Ker. destruct (Req_dec (1 - x*x) 0) as [H0|H0].
  - assert (Hs : forall k, L k x * L k x = 1).
    { assert (x = 1 \/ x = -1) as [->| ->].
      { assert (E : (1 - x) * (1 + x) = 0) by lra. apply Rmult_integral in E. destruct E; [left|right]; lra. }
      - intros k. destruct (legendre_ends k) as [-> _]. ring.
      - intros k. destruct (legendre_ends k) as [_ ->]. rewrite <- Rpow_mult_distr. replace (-1 * -1) with 1 by ring. apply pow1. }
    rewrite Hs.
    assert (E : forall m, ssum m (fun k => (2 * INR k + 1) / 2 * (L k x * L k x)) = INR m * INR m / 2).
    { induction m; [simpl; field|]. cbn [ssum]. rewrite IHm, Hs, S_INR. field. }
    rewrite E, S_INR. field.
  - rewrite CDdiag. destruct (L_rel n x) as [E1 E2]. unfold isnode in Hx.
    assert (D1 : dL (S n) x = 0).
    { apply (Rmult_eq_reg_l (1 - x*x)); [|assumption]. rewrite E1, <- Hx. ring. }
    assert (D0 : dL n x = - (INR n + 1) * L (S n) x).
    { apply (Rmult_eq_reg_l (1 - x*x)); [|assumption]. rewrite E2, <- Hx. ring. }
    rewrite D1, D0. field.
Qed.
End Nodes.

(** polynomials *)
Definition polyle (m : nat) (f : R -> R) : Prop := exists c, (length c <= m)%nat /\ forall x, f x = peval c x.
Lemma polyle_ext m f g : (forall x, f x = g x) -> polyle m f -> polyle m g.
Proof. intros E (c & Hc & H). exists c. split; [assumption|]. intros x. now rewrite <- E. Qed.
Lemma polyle_mono m k f : (m <= k)%nat -> polyle m f -> polyle k f.
Proof. intros Hm (c & Hc & H). exists c. split; [lia|assumption]. Qed.
Lemma polyle_add m f g : polyle m f -> polyle m g -> polyle m (fun x => f x + g x).
Proof.
  intros (c & Hc & H) (d & Hd & G). exists (padd c d). split; [rewrite padd_len; lia|].
  intros x. now rewrite padd_eval, H, G.
Qed.
Lemma polyle_scal m u f : polyle m f -> polyle m (fun x => u * f x).
Proof. intros (c & Hc & H). exists (map (Rmult u) c). split; [now rewrite map_length|]. intros x. now rewrite peval_scal, H. Qed.
Lemma polyle_0 m : polyle m (fun _ => 0).
Proof. exists []. split; [simpl; lia|reflexivity]. Qed.
Lemma polyle_pow k : polyle (S k) (fun x => x ^ k).
Proof.
  induction k as [|k (c & Hc & H)].
  - exists [1]. split; [simpl; lia|]. intros x; simpl; ring.
  - exists (0 :: c). split; [simpl; lia|]. intros x. simpl. rewrite H. unfold peval. ring.
Qed.
Lemma polyle_L k : polyle (S k) (L k).
Proof.
  destruct (P_degree 0 k) as (c & Hc & _ & H). exists c. split; [lia|]. intros x. now rewrite <- legendre_P.
Qed.

(** synthetic division *)
Fixpoint pdiv (c : list R) (r : R) : list R * R :=
  match c with
  | [] => ([], 0)
  | c0 :: c' => let (q, v) := pdiv c' r in (v :: q, c0 + r * v)
  end.
Lemma pdiv_spec c r x : peval c x = (x - r) * peval (fst (pdiv c r)) x + snd (pdiv c r) /\ snd (pdiv c r) = peval c r.
Proof.
  induction c as [|c0 c [IH1 IH2]]; simpl; [split; ring|].
  destruct (pdiv c r) as [q v] eqn:E. simpl in *. fold (peval c x) (peval c r) (peval q x). split; [rewrite IH1; ring|now rewrite IH2].
Qed.
Lemma pdiv_len c r : length (fst (pdiv c r)) = length c.
Proof. induction c as [|c0 c IH]; simpl; [reflexivity|]. destruct (pdiv c r). simpl in *. congruence. Qed.
Lemma pdiv_last c r : (0 < length c)%nat -> exists q, (length q < length c)%nat /\ forall x, peval (fst (pdiv c r)) x = peval q x.
Proof.
  induction c as [|c0 c IH]; simpl; [lia|]. intros _. destruct c as [|c1 c].
  - simpl. exists []. split; [simpl; lia|]. intros; simpl; ring.
  - destruct (IH ltac:(simpl; lia)) as (q & Hq & E). destruct (pdiv (c1 :: c) r) as [q' v]. simpl in *.
    exists (v :: q). split; [simpl; lia|]. intros x. simpl. fold (peval q x) (peval q' x). now rewrite E.
Qed.
Lemma poly_zero xs : NoDup xs -> forall c, (length c <= length xs)%nat ->
  (forall x, In x xs -> peval c x = 0) -> forall x, peval c x = 0.
Proof.
  induction 1 as [|r xs Hr Hxs IH]; intros c Hc Hz x.
  - destruct c; [reflexivity|simpl in Hc; lia].
  - destruct c as [|c0 c']; [reflexivity|]. set (c := c0 :: c') in *.
    destruct (pdiv_spec c r x) as [E E2].
    destruct (pdiv_last c r ltac:(simpl; lia)) as (q & Hq & Eq).
    assert (Z : snd (pdiv c r) = 0) by (rewrite E2; apply Hz; now left).
    rewrite E, Z, Eq, (IH q); [ring|simpl in *; lia|].
    intros y Hy. destruct (pdiv_spec c r y) as [F _]. rewrite Z, Eq in F. rewrite Hz in F by now right.
    symmetry in F. rewrite Rplus_0_r in F. apply Rmult_integral in F. destruct F as [F|F]; [|assumption].
    exfalso. apply Hr. replace r with y by lra. assumption.
Qed.

Lemma polyle_zero m f xs : NoDup xs -> (m <= length xs)%nat -> polyle m f -> (forall x, In x xs -> f x = 0) -> forall x, f x = 0.
Proof.
  intros Hn Hm (c & Hc & H) Hz x. rewrite H. apply (poly_zero xs Hn); [lia|]. intros y Hy. rewrite <- H. now apply Hz.
Qed.

(** integral *)
Definition I (f : R -> R) : R := Lam 0 f.
Lemma polyle_cont m f : polyle m f -> forall x, continuous f x.
Proof.
  intros (c & _ & H) x. apply (continuous_ext (fun x => peval c x)); [intros; now rewrite H|]. clear H.
  induction c as [|c0 c IH]; simpl; [apply cc_const|]. fold (peval c). 
  apply (cc_plus (fun _ => c0) (fun x => x * peval c x)); [apply cc_const|]. apply (cc_mult (fun x => x)); [apply cc_id|assumption].
Qed.
Lemma L_cont k x : continuous (L k) x.
Proof. apply (polyle_cont (S k) (L k)), polyle_L. Qed.
Lemma I_ext f g : (forall x, f x = g x) -> I f = I g. Proof. apply Lam_ext. Qed.
Lemma I_lin u v (f g : R -> R) : (forall x : R, continuous f x) -> (forall x : R, continuous g x) -> I (fun x => u * f x + v * g x) = u * I f + v * I g.
Proof. apply Lam_lin. Qed.
Lemma I_zero : I (fun _ => 0) = 0.
Proof. rewrite (I_ext _ (fun x => 0 * 0 + 0 * 0)) by (intros; ring). rewrite (I_lin 0 0 (fun _ => 0) (fun _ => 0)) by (intros; apply cc_const). ring. Qed.
Lemma I_add (f g : R -> R) : (forall x : R, continuous f x) -> (forall x : R, continuous g x) -> I (fun x => f x + g x) = I f + I g.
Proof. intros. rewrite (I_ext _ (fun x => 1 * f x + 1 * g x)) by (intros; ring). rewrite I_lin by assumption. ring. Qed.
Lemma I_scal u (f : R -> R) : (forall x : R, continuous f x) -> I (fun x => u * f x) = u * I f.
Proof. intros. rewrite (I_ext _ (fun x => u * f x + 0 * 0)) by (intros; ring). rewrite (I_lin u 0 f (fun _ => 0)); [ring|assumption|intros; apply cc_const]. Qed.
Lemma I_LL j k : I (fun x => L j x * L k x) = if Nat.eqb j k then 2 / (2 * INR k + 1) else 0.
Proof.
  rewrite (I_ext _ (fun x => P 0 j x * P 0 k x)) by (intros; now rewrite !legendre_P). unfold I.
  destruct (Nat.eqb_spec j k) as [->|Hne].
  - rewrite Q_norm. simpl (INR 0). simpl (2 ^ _). pose proof (pos_INR k). field. lra.
  - destruct (Nat.lt_ge_cases j k); [now apply Q_orth|]. rewrite Q_sym. apply Q_orth. lia.
Qed.

(** expansion in Legendre polynomials *)
Lemma expand m f : polyle m f -> exists e : nat -> R, forall x, f x = ssum m (fun k => e k * L k x).
Proof.
  revert f. induction m as [|m IH]; intros f (c & Hc & H).
  - exists (fun _ => 0). intros x. rewrite H. destruct c; [reflexivity|simpl in Hc; lia].
  - destruct (P_degree 0 m) as (d & Hd & Hpos & E).
    set (t := nth m c 0 / nth m d 0).
    assert (Q : polyle m (fun x => f x + (- t) * L m x)).
    { set (q := padd c (map (Rmult (-t)) d)).
      assert (Hq : (length q <= m + 1)%nat) by (unfold q; rewrite padd_len, map_length; lia).
      assert (Hl : nth m q 0 = 0).
      { unfold q. rewrite padd_nth. replace 0 with (- t * 0) at 2 by ring. rewrite (map_nth (Rmult (-t))). unfold t. field. lra. }
      assert (Ev : forall x, f x + - t * L m x = peval q x).
      { intros x. unfold q. rewrite padd_eval, peval_scal, <- H, <- E, legendre_P. reflexivity. }
      assert (G : forall (m : nat) (q : list R), (length q <= m + 1)%nat -> nth m q 0 = 0 -> exists q', (length q' <= m)%nat /\ forall x, peval q x = peval q' x).
      { clear. induction m as [|m IH]; intros q Hq Hl.
        - destruct q as [|q0 [|]]; simpl in *; [|subst; exists []|lia]; [exists []; split; [simpl; lia|reflexivity]|]. split; [simpl; lia|]. intros; simpl; ring.
        - destruct q as [|q0 q]; [exists []; split; [simpl; lia|reflexivity]|]. simpl in *.
          destruct (IH q ltac:(lia) Hl) as (q' & Hq' & E). exists (q0 :: q'). split; [simpl; lia|]. intros x. simpl.
          fold (peval q x) (peval q' x). now rewrite E. }
      destruct (G m q Hq Hl) as (q' & Hq' & E'). exists q'. split; [assumption|]. intros x. now rewrite Ev. }
    destruct (IH _ Q) as (e & He).
    exists (fun k => if Nat.eqb k m then t else e k). intros x. cbn [ssum]. rewrite Nat.eqb_refl.
    assert (S0 : forall k, (k <= m)%nat -> ssum k (fun k0 => (if (k0 =? m)%nat then t else e k0) * L k0 x) = ssum k (fun k0 => e k0 * L k0 x)).
    { induction k as [|k IHk]; intros Hk; [reflexivity|]. cbn [ssum]. rewrite IHk by lia.
      destruct (Nat.eqb_spec k m); [lia|reflexivity]. }
    rewrite S0 by lia. rewrite <- He. ring.
Qed.

Lemma ssum_cont m (f : nat -> R -> R) x : (forall k, continuous (f k) x) -> continuous (fun x => ssum m (fun k => f k x)) x.
Proof. intros H. induction m; cbn [ssum]; [apply cc_const|]. apply (cc_plus (fun x => ssum m (fun k => f k x)) (f m)); auto. Qed.
Lemma I_ssum m (f : nat -> R -> R) : (forall k (x : R), continuous (f k) x) -> I (fun x => ssum m (fun k => f k x)) = ssum m (fun k => I (f k)).
Proof.
  intros H. induction m; cbn [ssum]; [apply I_zero|].
  rewrite (I_add (fun x => ssum m (fun k => f k x)) (f m)); [|intros; apply ssum_cont; auto|auto]. rewrite IHm. reflexivity.
Qed.
Lemma ssum_ext m f g : (forall k, (k < m)%nat -> f k = g k) -> ssum m f = ssum m g.
Proof. intros H. induction m; cbn [ssum]; [reflexivity|]. rewrite IHm, H; auto. Qed.
Lemma ssum_delta m (f : nat -> R) j : (j < m)%nat -> ssum m (fun k => if Nat.eqb k j then f k else 0) = f j.
Proof.
  revert j. induction m as [|m IH]; intros j Hj; [lia|]. cbn [ssum]. destruct (Nat.eqb_spec m j) as [->|Hne].
  - rewrite (ssum_ext j _ (fun _ => 0)).
    + assert (Z : forall k, ssum k (fun _ => 0) = 0) by (induction k; cbn [ssum]; [reflexivity|rewrite IHk; ring]). rewrite Z. ring.
    + intros k Hk. destruct (Nat.eqb_spec k j); [lia|reflexivity].
  - rewrite IH by lia. ring.
Qed.
Lemma ssum_scal m u f : u * ssum m f = ssum m (fun k => u * f k).
Proof. induction m; cbn [ssum]; [ring|]. rewrite <- IHm. ring. Qed.

Section Exact.
Variable n : nat.
Lemma Ker_cont x y : continuous (Ker n x) y.
Proof.
  unfold Ker. apply (cc_plus (fun y => ssum (S n) (fun k => (2 * INR k + 1) / 2 * (L k x * L k y))) (fun y => (INR n + 1) / 2 * (L (S n) x * L (S n) y))).
  - apply (ssum_cont (S n) (fun k y => (2 * INR k + 1) / 2 * (L k x * L k y))). intros k. pose proof (L_cont k y). cc.
  - pose proof (L_cont (S n) y). cc.
Qed.
Lemma Ker_poly x : polyle (S (S n)) (Ker n x).
Proof.
  unfold Ker. apply polyle_add.
  - assert (G : forall m, (m <= S n)%nat -> polyle (S (S n)) (fun y => ssum m (fun k => (2 * INR k + 1) / 2 * (L k x * L k y)))).
    { induction m as [|m IH]; intros Hm; cbn [ssum]; [apply polyle_0|]. apply polyle_add; [apply IH; lia|].
      apply (polyle_ext _ (fun y => ((2 * INR m + 1) / 2 * L m x) * L m y)); [intros; ring|].
      apply polyle_scal, (polyle_mono (S m)); [lia|apply polyle_L]. }
    now apply G.
  - apply (polyle_ext _ (fun y => ((INR n + 1) / 2 * L (S n) x) * L (S n) y)); [intros; ring|]. apply polyle_scal, polyle_L.
Qed.
Lemma repr_L x j : (j < S n)%nat -> I (fun y => Ker n x y * L j y) = L j x.
Proof.
  intros Hj.
  rewrite (I_ext _ (fun y => ssum (S n) (fun k => (2 * INR k + 1) / 2 * L k x * (L k y * L j y)) + (INR n + 1) / 2 * L (S n) x * (L (S n) y * L j y))).
  2:{ intros y. unfold Ker. rewrite Rmult_plus_distr_r, Rmult_comm, ssum_scal. f_equal; [apply ssum_ext; intros; ring|ring]. }
  assert (C : forall p q y, continuous (fun y => L p y * L q y) y). { intros p q y. pose proof (L_cont p y). pose proof (L_cont q y). cc. }
  rewrite (I_add (fun y => ssum (S n) (fun k => (2 * INR k + 1) / 2 * L k x * (L k y * L j y))) (fun y => (INR n + 1) / 2 * L (S n) x * (L (S n) y * L j y))).
  - rewrite (I_ssum (S n) (fun k y => (2 * INR k + 1) / 2 * L k x * (L k y * L j y))).
    2:{ intros k y. apply (cc_mult (fun _ => _) (fun y => L k y * L j y)); [apply cc_const|apply C]. }
    rewrite (ssum_ext _ _ (fun k => if Nat.eqb k j then L k x else 0)).
    2:{ intros k _. rewrite (I_scal _ (fun y => L k y * L j y)) by apply C. rewrite I_LL. destruct (Nat.eqb_spec k j) as [->|]; [|ring].
        pose proof (pos_INR j). field. lra. }
    rewrite ssum_delta by assumption. rewrite (I_scal _ (fun y => L (S n) y * L j y)) by apply C. rewrite I_LL.
    destruct (Nat.eqb_spec (S n) j); [lia|]. ring.
  - intros y. apply (ssum_cont (S n) (fun k y => (2 * INR k + 1) / 2 * L k x * (L k y * L j y))). intros k.
    apply (cc_mult (fun _ => _) (fun y => L k y * L j y)); [apply cc_const|apply C].
  - intros y. apply (cc_mult (fun _ => _) (fun y => L (S n) y * L j y)); [apply cc_const|apply C].
Qed.
Lemma repr x g : polyle (S n) g -> I (fun y => Ker n x y * g y) = g x.
Proof.
  intros H. destruct (expand _ _ H) as (e & He).
  rewrite (I_ext _ (fun y => ssum (S n) (fun k => e k * (Ker n x y * L k y)))).
  2:{ intros y. rewrite He, ssum_scal. apply ssum_ext. intros; ring. }
  rewrite (I_ssum (S n) (fun k y => e k * (Ker n x y * L k y))).
  - rewrite He. apply ssum_ext. intros k Hk. rewrite (I_scal _ (fun y => Ker n x y * L k y)).
    + now rewrite repr_L.
    + intros y. pose proof (Ker_cont x y). pose proof (L_cont k y). cc.
  - intros k y. pose proof (Ker_cont x y). pose proof (L_cont k y). cc.
Qed.

Definition wt (x : R) : R := / ((INR n + 1) * (INR n + 2) / 2 * (L (S n) x * L (S n) x)).
Fixpoint lsumR (xs : list R) (f : R -> R) : R := match xs with [] => 0 | x :: xs' => f x + lsumR xs' f end.

Variable xs : list R.
Hypothesis Hnd : NoDup xs.
Hypothesis Hlen : length xs = S (S n).
Hypothesis Hnode : forall x, In x xs -> isnode n x.

Lemma wtK x : isnode n x -> wt x * Ker n x x = 1.
Proof.
  intros H. rewrite Ker_diag by assumption. unfold wt. pose proof (L_nz n x H). pose proof (pos_INR n).
  field. repeat split; try lra; assumption.
Qed.
Lemma interp f : polyle (S (S n)) f -> forall y, lsumR xs (fun x => wt x * f x * Ker n x y) = f y.
Proof.
  intros Hf y.
  assert (Z : forall y, lsumR xs (fun x => wt x * f x * Ker n x y) + -1 * f y = 0); [|specialize (Z y); lra].
  apply (polyle_zero (S (S n)) _ xs Hnd); [lia| |].
  - apply polyle_add; [|now apply polyle_scal].
    assert (G : forall l, polyle (S (S n)) (fun y => lsumR l (fun x => wt x * f x * Ker n x y))).
    { induction l as [|x l IH]; cbn [lsumR]; [apply polyle_0|]. apply polyle_add; [|assumption]. apply polyle_scal, Ker_poly. }
    apply G.
  - intros z Hz.
    assert (G : forall l, NoDup l -> (forall x, In x l -> isnode n x) ->
       lsumR l (fun x => wt x * f x * Ker n x z) = if in_dec Req_EM_T z l then f z else 0).
    { induction l as [|x l IH]; intros Hl Hn; [reflexivity|]. inversion Hl; subst. cbn [lsumR].
      rewrite IH by (auto; intros; apply Hn; now right).
      destruct (Req_dec x z) as [->|Hne].
      - destruct (in_dec Req_EM_T z l); [contradiction|]. destruct (in_dec Req_EM_T z (z :: l)) as [_|N]; [|exfalso; apply N; now left].
        replace (wt z * f z * Ker n z z) with (f z * (wt z * Ker n z z)) by ring. rewrite wtK; [ring|apply Hn; now left].
      - rewrite Ker_off; [|apply Hn; now left|now apply Hnode|assumption].
        destruct (in_dec Req_EM_T z l) as [Hin|Hin]; destruct (in_dec Req_EM_T z (x :: l)) as [H'|H'].
        + ring.
        + exfalso; apply H'; now right.
        + destruct H'; contradiction.
        + ring. }
    rewrite G by assumption. destruct (in_dec Req_EM_T z xs); [ring|contradiction].
Qed.
Lemma quad_prod f g : polyle (S (S n)) f -> polyle (S n) g -> lsumR xs (fun x => wt x * (f x * g x)) = I (fun x => f x * g x).
Proof.
  intros Hf Hg.
  rewrite (I_ext _ (fun y => lsumR xs (fun x => wt x * f x * Ker n x y) * g y)) by (intros; now rewrite interp).
  assert (G : forall l, I (fun y => lsumR l (fun x => wt x * f x * Ker n x y) * g y) = lsumR l (fun x => wt x * (f x * g x))).
  { induction l as [|x l IH]; cbn [lsumR].
    - rewrite (I_ext _ (fun _ => 0)) by (intros; ring). apply I_zero.
    - rewrite (I_ext _ (fun y => (wt x * f x) * (Ker n x y * g y) + lsumR l (fun x => wt x * f x * Ker n x y) * g y)) by (intros; ring).
      assert (C1 : forall y, continuous (fun y => Ker n x y * g y) y).
      { intros y. pose proof (Ker_cont x y). pose proof (polyle_cont _ _ Hg y). cc. }
      assert (C2 : forall y, continuous (fun y => lsumR l (fun x => wt x * f x * Ker n x y) * g y) y).
      { intros y. apply (cc_mult (fun y => lsumR l (fun x => wt x * f x * Ker n x y)) g); [|apply (polyle_cont _ _ Hg)].
        clear IH. induction l as [|x' l IH]; cbn [lsumR]; [apply cc_const|].
        apply (cc_plus (fun y => wt x' * f x' * Ker n x' y) (fun y => lsumR l (fun x => wt x * f x * Ker n x y))); [|assumption].
        pose proof (Ker_cont x' y). cc. }
      rewrite (I_add (fun y => wt x * f x * (Ker n x y * g y)) (fun y => lsumR l (fun x => wt x * f x * Ker n x y) * g y)); [|intros y; specialize (C1 y); apply (cc_mult (fun _ => _)); [apply cc_const|assumption]|assumption].
      rewrite (I_scal _ (fun y => Ker n x y * g y)) by assumption. rewrite repr by assumption. rewrite IH. ring. }
  now rewrite G.
Qed.
Lemma quad_pow k : (k <= 2 * n + 1)%nat -> lsumR xs (fun x => wt x * x ^ k) = I (fun x => x ^ k).
Proof.
  intros Hk. set (p := Nat.min k (S n)). 
  assert (E : k = (p + (k - p))%nat) by lia.
  transitivity (lsumR xs (fun x => wt x * (x ^ p * x ^ (k - p)))).
  - clear Hlen Hnode Hnd. induction xs; cbn [lsumR]; [reflexivity|]. now rewrite IHl, <- pow_add, <- E.
  - rewrite (quad_prod (fun x => x ^ p) (fun x => x ^ (k - p))).
    + apply I_ext. intros x. rewrite <- pow_add. now rewrite <- E.
    + apply (polyle_mono (S p)); [lia|apply polyle_pow].
    + apply (polyle_mono (S (k - p))); [lia|apply polyle_pow].
Qed.
Lemma lsum_lin u v f g (l : list R) : lsumR l (fun x => u * f x + v * g x) = u * lsumR l f + v * lsumR l g.
Proof. induction l; cbn [lsumR]; [ring|]. rewrite IHl. ring. Qed.
Lemma quad_exact c : (length c <= 2 * n + 2)%nat -> lsumR xs (fun x => wt x * peval c x) = I (peval c).
Proof.
  intros Hc.
  assert (G : forall c k, (k + length c <= 2 * n + 2)%nat -> lsumR xs (fun x => wt x * (x ^ k * peval c x)) = I (fun x => x ^ k * peval c x)).
  { clear c Hc. induction c as [|c0 c IH]; intros k Hk.
    - cbn [peval fold_right]. rewrite (I_ext _ (fun _ => 0)) by (intros; ring). rewrite I_zero.
      clear. induction xs; cbn [lsumR]; [reflexivity|]. rewrite IHl. ring.
    - simpl in Hk. 
      transitivity (lsumR xs (fun x => c0 * (wt x * x ^ k) + 1 * (wt x * (x ^ (S k) * peval c x)))).
      { clear. induction xs; cbn [lsumR]; [reflexivity|]. rewrite IHl. simpl. fold (peval c a). ring. }
      rewrite (lsum_lin c0 1 (fun x => wt x * x ^ k) (fun x => wt x * (x ^ (S k) * peval c x))), quad_pow, IH by lia.
      rewrite <- I_lin.
      + apply I_ext. intros x. simpl. fold (peval c x). ring.
      + intros x. pose proof (cc_id x). cc.
      + intros x. apply (cc_mult (fun x => x ^ S k) (peval c)); [pose proof (cc_id x); cc|].
        apply (polyle_cont (length c) (peval c)). exists c. split; [lia|reflexivity]. }
  generalize (G c 0%nat ltac:(lia)). simpl. intros E.
  transitivity (lsumR xs (fun x => wt x * (1 * peval c x))).
  - clear. induction xs; cbn [lsumR]; [reflexivity|]. rewrite IHl. ring.
  - rewrite E. apply I_ext. intros; ring.
Qed.
End Exact.

(** the code's rule *)
Lemma lob_exact (n : nat) xs :
  NoDup xs -> length xs = S (S n) ->
  (forall x, In x xs -> lob_col (S n) x <> 0 /\ lob_update (S (S n)) x = x) ->
  exact_to_degree xs (map (lob_weight (S (S n))) xs) (2 * n + 1).
Proof.
  intros Hnd Hlen Hst.
  assert (Hnode : forall x, In x xs -> isnode n x).
  { intros x Hx. destruct (Hst x Hx) as [H0 H1]. unfold lob_update in H1. replace (S (S n) - 1)%nat with (S n) in H1 by lia.
    replace (S n - 1)%nat with n in H1 by lia. rewrite !lob_col_L in *. unfold isnode.
    assert (HN : INR (S (S n)) <> 0) by (apply not_0_INR; lia).
    assert (E : (x * L (S n) x - L n x) / L (S n) x * (1 / INR (S (S n))) = 0) by lra.
    assert (E2 : x * L (S n) x - L n x = ((x * L (S n) x - L n x) / L (S n) x * (1 / INR (S (S n)))) * (L (S n) x * INR (S (S n)))) by (field; auto).
    rewrite E in E2. lra. }
  intros c Hc.
  assert (E : quad_sum xs (map (lob_weight (S (S n))) xs) (fun x => peval c x) = I (peval c)).
  { rewrite <- (quad_exact n xs Hnd Hlen Hnode c) by lia. unfold quad_sum.
    clear Hnd Hlen Hst Hnode. induction xs as [|x l IH]; [reflexivity|]. cbn [map combine fold_right fst snd lsumR]. rewrite IH.
    f_equal. f_equal. unfold lob_weight, wt. rewrite lob_col_L. replace (S (S n) - 1)%nat with (S n) by lia.
    f_equal. rewrite !S_INR. field. }
  rewrite E. unfold I, Lam.
  eapply is_RInt_eq; [apply (RInt_correct (V:=R_CompleteNormedModule))|].
  - apply ex_RInt_cont. apply (polyle_cont (length c)). exists c. split; [lia|reflexivity].
  - apply RInt_ext. intros x _. unfold w. rr. simpl. ring.
Qed.

Lemma eps_pos : 0 < dbl_epsilon. Proof. unfold dbl_epsilon. apply Rinv_0_lt_compat, pow_lt. lra. Qed.
Lemma eps_lt : dbl_epsilon < 1.
Proof. unfold dbl_epsilon. rewrite <- Rinv_1. apply Rinv_lt_contravar; [rewrite Rmult_1_l; apply pow_lt; lra|]. simpl. lra. Qed.
Lemma linf_le l i : Rabs (nth i l 0) <= linf l.
Proof.
  revert i. induction l as [|r l IH]; intros i; destruct i; simpl; rewrite ?Rabs_R0; try lra.
  - apply Rmax_l.
  - eapply Rle_trans; [apply IH|apply Rmax_r].
Qed.
Lemma vsub_nth u : forall v i, length u = length v -> nth i (vsub u v) 0 = nth i u 0 - nth i v 0.
Proof.
  induction u as [|a u IH]; intros [|b v] i H; simpl in *; try lia; destruct i; simpl; try ring. apply IH. lia.
Qed.
Lemma lob_loop_returns fuel num : forall xs xo r,
  length xs = length xo -> lob_loop fuel num xs xo = Some r ->
  (r = (xs, map (lob_weight num) xo) /\ linf (vsub xs xo) <= dbl_epsilon) \/
  exists x', length x' = length xs /\ fst r = map (lob_update num) x' /\ snd r = map (lob_weight num) x' /\
     linf (vsub (fst r) x') <= dbl_epsilon.
Proof.
  induction fuel as [|fuel IH]; intros xs xo r Hl; cbn [lob_loop]; destruct (Rgt_dec _ _) as [H|H].
  - discriminate.
  - intros E. inversion E; subst. left. split; [reflexivity|lra].
  - intros E. apply IH in E; [|now rewrite map_length]. right. destruct E as [[-> H']|(x' & L' & E1 & E2 & E3)].
    + exists xs. auto.
    + exists x'. rewrite map_length in L'. auto.
  - intros E. inversion E; subst. left. split; [reflexivity|lra].
Qed.
Lemma lob_returns fuel num nodes weights : (2 <= num)%nat -> getLobattoQuadrature fuel num = Some (nodes, weights) ->
  exists last, length last = num /\ nodes = map (lob_update num) last /\ weights = map (lob_weight num) last /\
    forall i, Rabs (nth i nodes 0 - nth i last 0) <= dbl_epsilon.
Proof.
  intros Hn H. unfold getLobattoQuadrature in H. apply lob_loop_returns in H; [|now rewrite map_length].
  assert (Ls : length (lob_start num) = num) by (unfold lob_start; now rewrite map_length, seq_length).
  destruct H as [[E H]|(x' & L' & E1 & E2 & E3)].
  - exfalso. pose proof (linf_le (vsub (lob_start num) (map (fun _ => 2) (lob_start num))) 0) as G.
    rewrite vsub_nth in G by now rewrite map_length.
    destruct num as [|num]; [lia|]. unfold lob_start in G. cbn [seq map nth] in G.
    assert (-1 <= cos (PI * INR 0 / INR (S num - 1)) <= 1) by apply COS_bound.
    pose proof eps_lt. rewrite Rabs_left1 in G by lra. unfold lob_start in H. cbn [seq map] in *. lra.
  - exists x'. simpl in *. rewrite L', Ls. repeat split; auto. intros i.
    pose proof (linf_le (vsub nodes x') i) as G. rewrite vsub_nth in G; [lra|]. rewrite E1, map_length. reflexivity.
Qed.
Lemma lob_exact_from_last num last : (2 <= num)%nat -> NoDup last -> length last = num ->
  (forall x, In x last -> lob_col (num - 1) x <> 0 /\ lob_update num x = x) ->
  exact_to_degree (map (lob_update num) last) (map (lob_weight num) last) (2 * num - 3).
Proof.
  intros Hn Hd Hl Hs. destruct num as [|[|n]]; try lia.
  replace (map (lob_update (S (S n))) last) with last.
  2:{ clear Hd Hl. induction last as [|x l IH]; [reflexivity|]. cbn [map].
      destruct (Hs x (or_introl eq_refl)) as [_ ->]. f_equal. apply IH. intros; apply Hs; now right. }
  replace (2 * S (S n) - 3)%nat with (2 * n + 1)%nat by lia.
  apply lob_exact; [assumption|assumption|]. intros x Hx. replace (S n) with (S (S n) - 1)%nat by lia. now apply Hs.
Qed.
Lemma lob_two fuel : getLobattoQuadrature (S fuel) 2 = Some ([-1; 1], [1; 1]).
Proof.
  assert (S0 : lob_start 2 = [-1; 1]).
  { unfold lob_start. cbn [seq map]. simpl (INR 0). simpl (INR (2 - 1)). simpl (INR 1).
    replace (PI * 0 / 1) with 0 by field. replace (PI * 1 / 1) with PI by field. rewrite cos_0, cos_PI. repeat f_equal; ring. }
  unfold getLobattoQuadrature. rewrite S0. cbn [map lob_loop vsub linf].
  pose proof eps_pos. pose proof eps_lt.
  destruct (Rgt_dec _ dbl_epsilon) as [H1|H1].
  2:{ exfalso. apply H1. apply Rlt_gt. eapply Rlt_le_trans; [|apply Rmax_l]. rewrite Rabs_left; lra. }
  assert (U1 : lob_update 2 (-1) = -1) by (unfold lob_update, lob_col; simpl; field).
  assert (U2 : lob_update 2 1 = 1) by (unfold lob_update, lob_col; simpl; field).
  cbn [map]. rewrite U1, U2.
  assert (E : lob_loop fuel 2 [-1; 1] [-1; 1] = Some ([-1; 1], map (lob_weight 2) [-1; 1])).
  { assert (Z : linf (vsub [-1;1] [-1;1]) = 0).
    { cbn [vsub linf]. replace (-1 - -1) with 0 by ring. replace (1 - 1) with 0 by ring. rewrite Rabs_R0. rewrite !(Rmax_left 0 0) by lra. reflexivity. }
    destruct fuel; cbn [lob_loop]; rewrite Z; destruct (Rgt_dec 0 dbl_epsilon); [lra|reflexivity|lra|reflexivity]. }
  rewrite E. repeat f_equal; cbn [map]; repeat f_equal; unfold lob_weight, lob_col; simpl; field.
Qed.
Lemma lob_three fuel : getLobattoQuadrature (S fuel) 3 = Some ([-1; 0; 1], [1/3; 4/3; 1/3]).
Proof.
  assert (S0 : lob_start 3 = [-1; 0; 1]).
  { unfold lob_start. cbn [seq map]. simpl (INR 0). simpl (INR (3 - 1)). simpl (INR 1). simpl (INR 2).
    replace (PI * 0 / (1+1)) with 0 by field. replace (PI * 1 / (1+1)) with (PI/2) by field. replace (PI * (1+1) / (1+1)) with PI by field.
    rewrite cos_0, cos_PI, cos_PI2. repeat f_equal; ring. }
  unfold getLobattoQuadrature. rewrite S0. cbn [map lob_loop vsub linf].
  pose proof eps_pos. pose proof eps_lt.
  destruct (Rgt_dec _ dbl_epsilon) as [H1|H1].
  2:{ exfalso. apply H1. apply Rlt_gt. eapply Rlt_le_trans; [|apply Rmax_l]. rewrite Rabs_left; lra. }
  assert (U1 : lob_update 3 (-1) = -1) by (unfold lob_update, lob_col; simpl; field).
  assert (U0 : lob_update 3 0 = 0) by (unfold lob_update, lob_col; simpl; field).
  assert (U2 : lob_update 3 1 = 1) by (unfold lob_update, lob_col; simpl; field).
  cbn [map]. rewrite U1, U0, U2.
  assert (E : lob_loop fuel 3 [-1; 0; 1] [-1; 0; 1] = Some ([-1; 0; 1], map (lob_weight 3) [-1; 0; 1])).
  { assert (Z : linf (vsub [-1;0;1] [-1;0;1]) = 0).
    { cbn [vsub linf]. replace (-1 - -1) with 0 by ring. replace (1 - 1) with 0 by ring. replace (0 - 0) with 0 by ring. rewrite Rabs_R0. rewrite !(Rmax_left 0 0) by lra. reflexivity. }
    destruct fuel; cbn [lob_loop]; rewrite Z; destruct (Rgt_dec 0 dbl_epsilon); [lra|reflexivity|lra|reflexivity]. }
  rewrite E. repeat f_equal; cbn [map]; repeat f_equal; unfold lob_weight, lob_col; simpl; field.
Qed.
