(** The triangle and tetrahedron basis functions are polynomials on the closed element. *)
From Coq Require Import Reals Lra Lia List Arith.
From Coquelicot Require Import Coquelicot.
From Verif Require Import OrthoPoly OrthoPolySpec OrthoPolyProofs OrthoPolyProofs2.
Open Scope R_scope.

Section Hom.
Variable a : nat.
Notation al := (INR a).
Definition nextH (n : nat) (u v p0 p1 : R) : R :=
  let N := INR n + 2 in
  ((2*N+al-1) * ((2*N+al)*(2*N+al-2)*u + al*al*v) * p1 - 2*(N+al-1)*(N-1)*(2*N+al) * (v*v) * p0)
  / (2*N*(N+al)*(2*N+al-2)).
Fixpoint HH (n : nat) (u v : R) : R * R :=
  match n with
  | O => (1, ((al+2)*u+al*v)/2)
  | S n' => let r := HH n' u v in (snd r, nextH n' u v (fst r) (snd r))
  end.
Definition H (n : nat) (u v : R) : R := fst (HH n u v).
Lemma H_SS n u v : H (S (S n)) u v = nextH n u v (H n u v) (H (S n) u v).
Proof. reflexivity. Qed.
Lemma H_hom n t v : H n (v * t) v = v ^ n * P a n t.
Proof.
  induction n as [| |n IH0 IH1] using two_ind.
  - unfold H, P; simpl. ring.
  - unfold H, P; simpl. field.
  - rewrite H_SS, IH0, IH1, (P_SS a). unfold nextH, nextP. simpl (v ^ S (S n)). simpl (v ^ S n). cbv zeta. unfold Rdiv. ring.
Qed.
Lemma H_00 n : H (S n) 0 0 = 0.
Proof.
  induction n as [| |n IH0 IH1] using two_ind.
  - unfold H; simpl. field.
  - rewrite H_SS. unfold nextH. unfold H at 2; simpl (HH 1 0 0). cbn [fst snd]. unfold Rdiv. ring.
  - rewrite H_SS, IH1. unfold nextH. unfold Rdiv. ring.
Qed.
Lemma p3_scal d c f : poly3 d f -> poly3 d (fun x y z => c * f x y z).
Proof. intros Hf. apply (poly3_mul 0 d (fun _ _ _ => c) f); [apply poly3_const|assumption]. Qed.
Lemma p3_up d e f : (d <= e)%nat -> poly3 d f -> poly3 e f.
Proof. intros Hd Hf. eapply poly3_ext; [exact Hd|reflexivity|exact Hf]. Qed.
Lemma H_poly n u v : poly3 1 u -> poly3 1 v -> poly3 n (fun x y z => H n (u x y z) (v x y z)).
Proof.
  intros Hu Hv. induction n as [| |n IH0 IH1] using two_ind.
  - apply (poly3_const 0 1).
  - apply (poly3_ext 1 1 (fun x y z => ((al+2)/2) * u x y z + (al/2) * v x y z)); [lia| |].
    + intros. unfold H; simpl. field.
    + apply poly3_add; now apply p3_scal.
  - set (N := INR n + 2). set (den := 2*N*(N+al)*(2*N+al-2)).
    eapply (poly3_ext _ _ (fun x y z =>
       (((2*N+al-1)*((2*N+al)*(2*N+al-2))/den) * u x y z + ((2*N+al-1)*(al*al)/den) * v x y z) * H (S n) (u x y z) (v x y z)
       + (-(2*(N+al-1)*(N-1)*(2*N+al))/den) * ((v x y z * v x y z) * H n (u x y z) (v x y z)))); [|intros|].
    2:{ rewrite H_SS. unfold nextH. fold N. fold den. unfold Rdiv. ring. }
    + apply Nat.le_refl.
    + apply poly3_add.
      * apply (poly3_mul 1 (S n)); [|assumption]. apply poly3_add; now apply p3_scal.
      * apply p3_scal. apply (p3_up (1 + 1 + n)); [lia|]. apply poly3_mul; [now apply poly3_mul|assumption].
Qed.
End Hom.

Section Poly.
Variable tg : R -> R.
Hypothesis Htg : is_gamma_function tg.

Lemma P_poly_z a n : poly3 n (fun _ _ z => P a n z).
Proof.
  apply (poly3_ext n n (fun x y z => H a n z 1)); [lia| |].
  - intros. rewrite <- (Rmult_1_l z) at 1. rewrite H_hom, pow1. ring.
  - apply H_poly; [apply poly3_z|apply poly3_const].
Qed.
Lemma leg_code n t : jacobiPoly tg t 0 0 n = P 0 n t * (s 0 n / cc0 0).
Proof. exact (jacobi_eq tg Htg 0 n t). Qed.
Lemma jac_code b r n t : r = INR b -> jacobiPoly tg t r 0 n = P b n t * (s b n / cc0 b).
Proof. intros ->. now apply jacobi_eq. Qed.

Lemma tri_poly i j : exists f, poly3 (i + j) f /\
  forall x y, (y <> 1 \/ x = -1) -> prorio2 tg x y i j = f x y 0.
Proof.
  set (b := (2*i+1)%nat).
  assert (Hb : 2 * INR i + 1 = INR b) by (unfold b; rewrite plus_INR, mult_INR; simpl; ring).
  exists (fun x y z => (sqrt 2 * (s 0 i / cc0 0) * (s b j / cc0 b)) * (H 0 i (2*(1+x) - (1-y)) (1-y) * P b j y)).
  split.
  - apply p3_scal, poly3_mul.
    + apply (H_poly 0 i (fun x y z => 2*(1+x) - (1-y)) (fun x y z => 1 - y)).
      * apply (poly3_ext 1 1 (fun x y z => 2 * x + y + 1)); [lia|intros; ring|].
        apply poly3_add; [apply poly3_add; [apply p3_scal, poly3_x|apply poly3_y]|apply poly3_const].
      * apply (poly3_ext 1 1 (fun x y z => 1 + (-1) * y)); [lia|intros; ring|].
        apply poly3_add; [apply poly3_const|apply p3_scal, poly3_y].
    + apply (poly3_ext j j (fun x y z => H b j y 1)); [lia| |].
      * intros. rewrite <- (Rmult_1_l y) at 1. rewrite H_hom, pow1. ring.
      * apply H_poly; [apply poly3_y|apply poly3_const].
  - intros x y Hxy. unfold prorio2. rewrite leg_code, (jac_code b) by assumption.
    destruct (Req_EM_T y 1) as [->|Hy].
    + destruct Hxy as [|Hx]; [congruence|]. subst x. replace (1 - 1) with 0 by ring.
      replace (2 * (1 + -1) - 0) with 0 by ring. destruct i as [|i].
      * unfold H, P; simpl. ring.
      * rewrite H_00. rewrite pow_ne_zero by lia. ring.
    + set (t := 2 * (1 + x) / (1 - y) - 1).
      replace (2 * (1 + x) - (1 - y)) with ((1 - y) * t) by (unfold t; field; lra).
      rewrite H_hom. ring.
Qed.

Lemma tet_poly i j k : exists f, poly3 (i + j + k) f /\
  forall x y z, (y + z <> 0 \/ x = -1) -> (z <> 1 \/ y = -1) -> prorio3 tg x y z i j k = f x y z.
Proof.
  set (b := (2*i+1)%nat). set (c := (2*i+2*j+2)%nat).
  assert (Hb : 2 * INR i + 1 = INR b) by (unfold b; rewrite plus_INR, mult_INR; simpl; ring).
  assert (Hc : 2 * INR i + 2 * INR j + 2 = INR c) by (unfold c; rewrite !plus_INR, !mult_INR; simpl; ring).
  exists (fun x y z => (sqrt 8 * (s 0 i / cc0 0) * (s b j / cc0 b) * (s c k / cc0 c)) *
            (H 0 i (4*(1+x) + 2*(y+z)) (-2*(y+z)) * H b j (2*(1+y) - (1-z)) (1-z) * P c k z)).
  split.
  - apply p3_scal, poly3_mul; [apply poly3_mul|apply P_poly_z].
    + apply (H_poly 0 i (fun x y z => 4*(1+x) + 2*(y+z)) (fun x y z => -2*(y+z))).
      * apply (poly3_ext 1 1 (fun x y z => 4 * x + 2 * y + (2 * z + 4))); [lia|intros; ring|].
        repeat apply poly3_add; try apply p3_scal; constructor.
      * apply p3_scal. apply poly3_add; constructor.
    + apply (H_poly b j (fun x y z => 2*(1+y) - (1-z)) (fun x y z => 1 - z)).
      * apply (poly3_ext 1 1 (fun x y z => 2 * y + (z + 1))); [lia|intros; ring|].
        repeat apply poly3_add; try apply p3_scal; constructor.
      * apply (poly3_ext 1 1 (fun x y z => 1 + (-1) * z)); [lia|intros; ring|].
        apply poly3_add; [apply poly3_const|apply p3_scal, poly3_z].
  - intros x y z Hx Hy. unfold prorio3. rewrite leg_code, (jac_code b _ j), (jac_code c _ k) by assumption.
    destruct (Req_EM_T z 1) as [->|Hz].
    + destruct Hy as [| ->]; [congruence|].
      assert (x = -1) as -> by (destruct Hx as [Hx|]; [exfalso; apply Hx; ring|assumption]).
      replace (1 - 1) with 0 by ring. replace (2 * (1 + -1) - 0) with 0 by ring.
      replace (4 * (1 + -1) + 2 * (-1 + 1)) with 0 by ring. replace (-2 * (-1 + 1)) with 0 by ring.
      destruct (Req_EM_T (-1 + 1) 0) as [_|N]; [|exfalso; apply N; ring].
      destruct i as [|i].
      * destruct j as [|j].
        -- unfold H, P; simpl. ring.
        -- rewrite H_00. rewrite (pow_ne_zero (0 + S j)) by lia. ring.
      * rewrite H_00. rewrite (pow_ne_zero (S i + j)) by lia. ring.
    + set (eta := 2 * (1 + y) / (1 - z) - 1).
      assert (E1 : (1 - eta) * (1 - z) = -2 * (y + z)) by (unfold eta; field; lra).
      replace (2 * (1 + y) - (1 - z)) with ((1 - z) * eta) by (unfold eta; field; lra). rewrite H_hom.
      rewrite pow_add.
      destruct (Req_EM_T (y + z) 0) as [E|Hne].
      * destruct Hx as [| ->]; [congruence|]. rewrite E in *. replace (4 * (1 + -1) + 2 * 0) with 0 by ring. replace (-2 * 0) with 0 by ring.
        assert (E0 : 1 - eta = 0). { apply (Rmult_eq_reg_r (1 - z)); [rewrite E1; ring|lra]. }
        destruct i as [|i]; [unfold H, P; simpl; ring|]. rewrite H_00, E0. rewrite (pow_ne_zero (S i)) by lia. ring.
      * set (t := -2 * (1 + x) / (y + z) - 1).
        replace (4 * (1 + x) + 2 * (y + z)) with ((-2 * (y + z)) * t) by (unfold t; field; lra). rewrite H_hom.
        rewrite <- E1, Rpow_mult_distr. ring.
Qed.
End Poly.
