(** Properties C37, C38, C53: orthogonal polynomials, Vandermonde matrices, Lobatto quadrature. *)
From Coq Require Import Reals List Arith Lia Lra.
From Coquelicot Require Import Coquelicot.
From Verif Require Import OrthoPoly OrthoPolySpec OrthoPolyProofs OrthoPolyProofs2 OrthoPolyProofs3 OrthoPolyProofs4 LobattoProofs.
Import ListNotations.
Local Open Scope R_scope.

(** C37.  jacobiPoly(alpha, 0, .): for every natural alpha the polynomials are orthonormal for the weight (1-x)^alpha
    on [-1,1] (all pairs of degrees), where tgamma is the gamma function at the positive integers. *)
Theorem C37_orthonormal :
  forall tgamma, is_gamma_function tgamma -> forall alpha m n,
  is_RInt (fun x => (1 - x) ^ alpha * (jacobiPoly tgamma x (INR alpha) 0 m * jacobiPoly tgamma x (INR alpha) 0 n))
          (-1) 1 (delta m n).
Proof. exact jacobi_orthonormal. Qed.
Print Assumptions C37_orthonormal.

(** ... and the n-th one is a polynomial of degree exactly n with positive leading coefficient: together with
    orthonormality this determines it. *)
Theorem C37_degree :
  forall tgamma, is_gamma_function tgamma -> forall alpha n,
  poly_degree (fun x => jacobiPoly tgamma x (INR alpha) 0 n) n.
Proof. exact jacobi_degree. Qed.
Print Assumptions C37_degree.

(** alpha = beta = 0: normalised Legendre polynomials *)
Theorem C37_legendre :
  forall tgamma n x, is_gamma_function tgamma ->
  jacobiPoly tgamma x 0 0 n = sqrt ((2 * INR n + 1) / 2) * legendre n x.
Proof. exact jacobi_legendre. Qed.
Print Assumptions C37_legendre.

Theorem C37_end_points :
  forall tgamma n, is_gamma_function tgamma ->
  jacobiPoly tgamma 1 0 0 n = sqrt ((2 * INR n + 1) / 2) /\
  jacobiPoly tgamma (-1) 0 0 n = (-1) ^ n * sqrt ((2 * INR n + 1) / 2).
Proof.
  intros tg n H. rewrite !jacobi_legendre by assumption. destruct (legendre_ends n) as [-> ->]. split; ring.
Qed.
Print Assumptions C37_end_points.

(** the triangle basis is orthonormal over the reference triangle ... *)
Theorem C37_triangle_orthonormal :
  forall tgamma, is_gamma_function tgamma -> forall i j k l,
  is_triangle_integral (fun x y => prorio2 tgamma x y i j * prorio2 tgamma x y k l) (delta i k * delta j l).
Proof. exact tri_orthonormal. Qed.
Print Assumptions C37_triangle_orthonormal.

(** ... and consists of polynomials of total degree i + j, also at the singular vertex *)
Theorem C37_triangle_polynomial :
  forall tgamma, is_gamma_function tgamma -> forall i j, exists f, poly3 (i + j) f /\
  forall x y, -1 <= x -> -1 <= y -> x + y <= 0 -> prorio2 tgamma x y i j = f x y 0.
Proof.
  intros tg H i j. destruct (tri_poly tg H i j) as (f & Hf & E). exists f. split; [assumption|].
  intros x y Hx Hy Hxy. apply E. destruct (Req_dec y 1); [right; lra|now left].
Qed.
Print Assumptions C37_triangle_polynomial.

Theorem C37_tetrahedron_orthonormal :
  forall tgamma, is_gamma_function tgamma -> forall i j k i' j' k',
  is_tet_integral (fun x y z => prorio3 tgamma x y z i j k * prorio3 tgamma x y z i' j' k')
    (delta i i' * delta j j' * delta k k').
Proof. exact tet_orthonormal. Qed.
Print Assumptions C37_tetrahedron_orthonormal.

Theorem C37_tetrahedron_polynomial :
  forall tgamma, is_gamma_function tgamma -> forall i j k, exists f, poly3 (i + j + k) f /\
  forall x y z, -1 <= x -> -1 <= y -> -1 <= z -> x + y + z <= -1 -> prorio3 tgamma x y z i j k = f x y z.
Proof.
  intros tg H i j k. destruct (tet_poly tg H i j k) as (f & Hf & E). exists f. split; [assumption|].
  intros x y z Hx Hy Hz Hs. apply E.
  - destruct (Req_dec (y + z) 0); [right; lra|now left].
  - destruct (Req_dec z 1); [right; lra|now left].
Qed.
Print Assumptions C37_tetrahedron_polynomial.

(** the general claim fails for beta <> 0: the degree-1 polynomial uses alpha + beta where the recurrence needs
    alpha - beta.  With alpha = 0, beta = 1 (weight 1 + x) degrees 0 and 1 are not orthogonal. *)
Theorem C37_beta_nonzero_refuted :
  forall tgamma, is_gamma_function tgamma -> exists v, v <> 0 /\
  is_RInt (fun x => (1 + x) * (jacobiPoly tgamma x 0 1 0 * jacobiPoly tgamma x 0 1 1)) (-1) 1 v.
Proof.
  intros tg H.
  assert (T1 : tg 1 = 1). { generalize (H 0%nat). simpl. now rewrite Rplus_0_l. }
  assert (T2 : tg 2 = 1). { generalize (H 1%nat). simpl. now replace (1 + 1) with 2 by ring. }
  assert (G : gamma0 tg 0 1 = 2).
  { unfold gamma0. replace (0 + 1 + 1) with 2 by ring. replace (0 + 1) with 1 by ring. replace (1 + 1) with 2 by ring.
    rewrite T1, T2. replace 2 with (INR 2) at 2 by (simpl; ring). rewrite Rpower_pow by lra. simpl. field. }
  set (c := poly_0 tg 0 1 * (5 / 10 / sqrt (gamma1 tg 0 1))).
  assert (Hc : 0 < c).
  { unfold c, poly_0, gamma1. rewrite G. apply Rmult_lt_0_compat; apply Rdiv_lt_0_compat; try lra; apply sqrt_lt_R0; lra. }
  exists (4 * c). split; [lra|].
  assert (I : is_RInt (fun x => c * ((1 + x) * (1 + 3 * x))) (-1) 1
    (minus ((fun x => c * (x + 2 * x^2 + x^3)) 1) ((fun x => c * (x + 2 * x^2 + x^3)) (-1)))).
  { apply (is_RInt_derive (fun x => c * (x + 2 * x^2 + x^3))).
    - intros x _. auto_derive; [easy|]. simpl. ring.
    - intros x _. pose proof (cc_id x). cc. }
  eapply is_RInt_eq; [eapply is_RInt_ext; [|exact I]|].
  - intros x _. unfold jacobiPoly, poly_1. unfold c.
    match goal with |- ?l = ?r => change (@eq R l r) end. ring.
  - unfold minus, plus, opp; simpl. ring.
Qed.
Print Assumptions C37_beta_nonzero_refuted.

(** hypothesis witness: the gamma function exists as a real function at the positive integers *)
Example C37_gamma_witness : exists tgamma, is_gamma_function tgamma.
Proof.
  exists (fun r => INR (fact (Z.to_nat (up (r - 1) - 1)))). intros n. do 2 f_equal.
  replace (INR n + 1 - 1) with (INR n) by ring. rewrite INR_IZR_INZ.
  rewrite <- (tech_up (IZR (Z.of_nat n)) (Z.of_nat n + 1)); rewrite ?plus_IZR; try lra. lia.
Qed.

(** C38.  Every one of the N columns is written exactly once (the write targets are 0..N-1 in order) and the
    columns hold each basis index of total degree <= degree exactly once. *)
Theorem C38_segment :
  forall degree, let ws := snd (vander_seg degree) in
  map fst ws = seq 0 (vander_seg_cols degree) /\ NoDup (map snd ws) /\
  forall i, In i (map snd ws) <-> (i <= degree)%nat.
Proof.
  intros d. cbv zeta. rewrite <- seg_cols, seg_idx. split; [apply seg_good|]. split; [apply seq_NoDup|].
  intros i. rewrite in_seq. lia.
Qed.
Print Assumptions C38_segment.

Theorem C38_triangle :
  forall degree, let ws := snd (vander_tri degree) in
  map fst ws = seq 0 (vander_tri_cols degree) /\ NoDup (map snd ws) /\
  forall i j, In (i, j) (map snd ws) <-> (i + j <= degree)%nat.
Proof.
  intros d. cbv zeta. rewrite <- tri_cols. split; [apply tri_good|]. split; [apply tri_nodup|]. apply tri_complete.
Qed.
Print Assumptions C38_triangle.

Theorem C38_tetrahedron :
  forall degree, let ws := snd (vander_tet degree) in
  map fst ws = seq 0 (vander_tet_cols degree) /\ NoDup (map snd ws) /\
  forall i j k, In (i, j, k) (map snd ws) <-> (i + j + k <= degree)%nat.
Proof.
  intros d. cbv zeta. rewrite <- tet_cols. split; [apply tet_good|]. split; [apply tet_nodup|]. apply tet_complete.
Qed.
Print Assumptions C38_tetrahedron.

(** the allocated column counts are the dimensions of the polynomial spaces *)
Theorem C38_column_counts :
  forall degree, (2 * vander_tri_cols degree = (degree + 1) * (degree + 2) /\
                  6 * vander_tet_cols degree = (degree + 1) * (degree + 2) * (degree + 3))%nat.
Proof. intros d. rewrite <- tri_cols, <- tet_cols. split; [apply tri_count|apply tet_count]. Qed.
Print Assumptions C38_column_counts.

Example C38_two : map snd (snd (vander_tri 2)) = [(0,0); (1,0); (0,1); (2,0); (1,1); (0,2)]%nat.
Proof. reflexivity. Qed.

(** C53.  What a return of the Lobatto routine guarantees: the nodes are one Newton sweep away from points that moved
    by at most the machine epsilon, and the weights were computed at those points. *)
Theorem C53_return :
  forall fuel num nodes weights, (2 <= num)%nat -> getLobattoQuadrature fuel num = Some (nodes, weights) ->
  exists last, length last = num /\ nodes = map (lob_update num) last /\ weights = map (lob_weight num) last /\
    forall i, Rabs (nth i nodes 0 - nth i last 0) <= dbl_epsilon.
Proof. exact lob_returns. Qed.
Print Assumptions C53_return.

(** If the last sweep did not move (distinct) nodes, the rule integrates every polynomial of degree <= 2 num - 3
    exactly.  Missing for the full claim: convergence of Newton's method from the Chebyshev start for every num. *)
Theorem C53_stationary_rule_exact_partial :
  forall num last, (2 <= num)%nat -> NoDup last -> length last = num ->
  (forall x, In x last -> lob_col (num - 1) x <> 0 /\ lob_update num x = x) ->
  exact_to_degree (map (lob_update num) last) (map (lob_weight num) last) (2 * num - 3).
Proof. exact lob_exact_from_last. Qed.
Print Assumptions C53_stationary_rule_exact_partial.

(** stationary points are exactly the roots of (1 - x^2) P'_{num-1} = 0, whatever num *)
Theorem C53_stationary_points :
  forall n x, let num := S (S n) in legendre (S n) x <> 0 ->
  (lob_update num x = x <-> (1 - x * x) * Derive (legendre (S n)) x = 0).
Proof.
  intros n x num H0. unfold lob_update. replace (num - 1)%nat with (S n) by (unfold num; lia).
  replace (S n - 1)%nat with n by lia. rewrite !lob_col_L.
  assert (ED : Derive (legendre (S n)) x = dL (S n) x).
  { apply is_derive_unique. apply (is_derive_ext (P 0 (S n))); [intros; apply legendre_P|]. apply P_derive. }
  rewrite ED. destruct (L_rel n x) as [E1 _]. rewrite E1.
  assert (HN : INR num <> 0) by (apply not_0_INR; unfold num; lia). pose proof (pos_INR n).
  assert (E2 : x * legendre (S n) x - legendre n x = ((x * legendre (S n) x - legendre n x) / legendre (S n) x * (1 / INR num)) * (legendre (S n) x * INR num)) by (field; auto).
  split; intros E.
  - assert (Z : (x * legendre (S n) x - legendre n x) / legendre (S n) x * (1 / INR num) = 0) by lra.
    rewrite Z in E2. replace (legendre n x - x * legendre (S n) x) with 0 by lra. ring.
  - apply Rmult_integral in E. destruct E as [E|E]; [lra|].
    replace (x * legendre (S n) x - legendre n x) with 0 by lra. unfold Rdiv. ring.
Qed.
Print Assumptions C53_stationary_points.

(** two and three nodes: the routine returns the exact rule after one sweep *)
Theorem C53_small_rules :
  forall fuel, getLobattoQuadrature (S fuel) 2 = Some ([-1; 1], [1; 1]) /\
               getLobattoQuadrature (S fuel) 3 = Some ([-1; 0; 1], [1/3; 4/3; 1/3]).
Proof. intros. split; [apply lob_two|apply lob_three]. Qed.
Print Assumptions C53_small_rules.

(** hypothesis witness for C53_stationary_rule_exact_partial: Simpson's rule, exact to degree 3 *)
Example C53_simpson : exact_to_degree [-1; 0; 1] [1/3; 4/3; 1/3] 3.
Proof.
  pose proof (C53_stationary_rule_exact_partial 3 [-1;0;1]) as H.
  assert (U1 : lob_update 3 (-1) = -1) by (unfold lob_update, lob_col; simpl; field).
  assert (U0 : lob_update 3 0 = 0) by (unfold lob_update, lob_col; simpl; field).
  assert (U2 : lob_update 3 1 = 1) by (unfold lob_update, lob_col; simpl; field).
  cbn [map] in H. rewrite U1, U0, U2 in H.
  replace (lob_weight 3 (-1)) with (1/3) in H by (unfold lob_weight, lob_col; simpl; field).
  replace (lob_weight 3 0) with (4/3) in H by (unfold lob_weight, lob_col; simpl; field).
  replace (lob_weight 3 1) with (1/3) in H by (unfold lob_weight, lob_col; simpl; field).
  apply H; [lia| |reflexivity|].
  - repeat constructor; simpl; intuition lra.
  - intros x [<-|[<-|[<-|[]]]]; (split; [unfold lob_col; simpl; lra|assumption]).
Qed.
