From Coq Require Import Reals List Bool Arith Lia Lra FunctionalExtensionality.
From Coquelicot Require Import Coquelicot.
From Verif Require Import Vec Deriv EmInteg EmIntegSpec EmMeshProofs SbpSpec SbpMeshProofs CommonFun CommonFunProofs Projector ProjectorSpec.
Import ListNotations.
Local Open Scope R_scope.

(** ** bilinear forms of assembled matrices *)
Lemma two_sums n m a b (h : nat -> nat) (g : nat -> nat) (K : mat) (u v : vec) :
  (forall i, (i < a)%nat -> (h i < n)%nat) -> (forall j, (j < b)%nat -> (g j < m)%nat) ->
  dot n u (mv m (fun I J => rsum a (fun i => rsum b (fun j => if Nat.eqb I (h i) && Nat.eqb J (g j) then K i j else 0))) v) =
  rsum a (fun i => rsum b (fun j => u (h i) * K i j * v (g j))).
Proof.
  intros Hh Hg. unfold dot, mv.
  rewrite (rsum_ext n _ (fun I => rsum a (fun i => rsum b (fun j => if Nat.eqb I (h i) then u I * K i j * v (g j) else 0)))).
  - rewrite rsum_swap. apply rsum_ext. intros i Hi. rewrite rsum_swap. apply rsum_ext. intros j Hj.
    exact (rsum_delta n (fun I => u I * K i j * v (g j)) (h i) (Hh i Hi)).
  - intros I _. rewrite <- rsum_scal.
    rewrite (rsum_ext m _ (fun J => rsum a (fun i => rsum b (fun j => if Nat.eqb J (g j) then (if Nat.eqb I (h i) then u I * K i j * v J else 0) else 0)))).
    + rewrite rsum_swap. apply rsum_ext. intros i Hi. rewrite rsum_swap. apply rsum_ext. intros j Hj.
      rewrite (rsum_delta m (fun J => if Nat.eqb I (h i) then u I * K i j * v J else 0) (g j) (Hg j Hj)). reflexivity.
    + intros J _. rewrite <- rsum_scal_r, <- rsum_scal. apply rsum_ext. intros i _. rewrite <- rsum_scal_r, <- rsum_scal. apply rsum_ext. intros j _.
      destruct (Nat.eqb I (h i)), (Nat.eqb J (g j)); cbn; ring.
Qed.
Lemma lsum_form n m u v {A} (K : A -> mat) (l : list A) : dot n u (mv m (fun I J => lsum (fun e => K e I J) l) v) = lsum (fun e => dot n u (mv m (K e) v)) l.
Proof.
  unfold dot, mv. rewrite <- (lsum_rsum n (fun e => fun i => u i * rsum m (fun j => K e i j * v j))) || rewrite lsum_rsum.
  apply rsum_ext. intros i _. rewrite (lsum_scal (u i)). f_equal. rewrite lsum_rsum. apply rsum_ext. intros j _. rewrite lsum_scal_r. reflexivity.
Qed.
Lemma dot_at_point a b dim (P Q : mat) (u v : vec) : dot dim (at_point a P u) (at_point b Q v) =
  rsum a (fun i => rsum b (fun j => u i * rsum dim (fun k => P i k * Q j k) * v j)).
Proof.
  unfold dot, at_point.
  rewrite (rsum_ext dim _ (fun k => rsum a (fun i => rsum b (fun j => P i k * u i * (Q j k * v j))))).
  - rewrite rsum_swap. apply rsum_ext. intros i _. rewrite rsum_swap. apply rsum_ext. intros j _.
    rewrite <- rsum_scal, <- rsum_scal_r. apply rsum_ext. intros k _. ring.
  - intros k _. rewrite <- rsum_scal_r. apply rsum_ext. intros i _. now rewrite <- rsum_scal.
Qed.
Lemma pull_point nq a b dim (w : nat -> R) (P Q : nat -> mat) (u v : vec) :
  rsum a (fun i => rsum b (fun j => u i * rsum nq (fun q => w q * rsum dim (fun k => P q i k * Q q j k)) * v j)) =
  rsum nq (fun q => w q * dot dim (at_point a (P q) u) (at_point b (Q q) v)).
Proof.
  rewrite (rsum_ext nq _ (fun q => rsum a (fun i => rsum b (fun j => w q * (u i * rsum dim (fun k => P q i k * Q q j k) * v j))))).
  - rewrite (rsum_swap nq a). apply rsum_ext. intros i _. rewrite (rsum_swap nq b). apply rsum_ext. intros j _. rewrite <- rsum_scal, <- rsum_scal_r.
    apply rsum_ext. intros q _. ring.
  - intros q _. rewrite dot_at_point, <- rsum_scal. apply rsum_ext. intros i _. now rewrite <- rsum_scal.
Qed.

Section Forms.
Variables (dim n m NN : nat) (M : list pelem).
Notation gr r e X psi := (at_point (p_nh e) (Dxt dim r (pnodes e X) psi)).
(** the two forms with the points of a rule *)
Definition dform (r : pelem -> rule) (X : mat) (psi lam : vec) : R :=
  lsum (fun e => rsum (r_nq (r e)) (fun q => r_pw (r e) q / r_W (r e) q (pnodes e X) *
    dot dim (at_point (p_nh e) (Dxt dim (r e) (pnodes e X) q) (h_el e psi)) (at_point (p_nh e) (Dxt dim (r e) (pnodes e X) q) (h_el e lam)))) M.
Definition bform (r : pelem -> rule) (X : mat) (x lam : vec) : R :=
  lsum (fun e => rsum (r_nq (r e)) (fun q => - (r_pw (r e) q / r_W (r e) q (pnodes e X)) *
    dot dim (at_point (p_nd e) (Vxt dim (r e) (pnodes e X) q) (d_el e x)) (at_point (p_nh e) (Dxt dim (r e) (pnodes e X) q) (h_el e lam)))) M.
Hypothesis HN : pnumbered n m NN M.
Lemma diffusion_form X lam psi : dot n lam (mv n (diffusion dim M X) psi) = dform p_rule X psi lam.
Proof.
  unfold diffusion. rewrite lsum_form. unfold dform. apply lsum_ext. intros e He. destruct (HN e He) as [H1 [H2 _]].
  rewrite two_sums by assumption. unfold el_diff.
  etransitivity; [exact (pull_point (r_nq (p_rule e)) (p_nh e) (p_nh e) dim (fun q => r_pw (p_rule e) q / r_W (p_rule e) q (pnodes e X)) (Dxt dim (p_rule e) (pnodes e X)) (Dxt dim (p_rule e) (pnodes e X)) (h_el e lam) (h_el e psi))|].
  apply rsum_ext. intros q _. now rewrite dot_comm.
Qed.
Lemma weak_div_form X lam x : dot n lam (mv m (weak_div dim M X) x) = bform p_rule X x lam.
Proof.
  unfold weak_div. rewrite lsum_form. unfold bform. apply lsum_ext. intros e He. destruct (HN e He) as [H1 [H2 _]].
  rewrite two_sums by assumption.
  rewrite <- (rsum_ext (r_nq (p_rule e)) (fun q => - (r_pw (p_rule e) q / r_W (p_rule e) q (pnodes e X)) *
     dot dim (at_point (p_nh e) (Dxt dim (p_rule e) (pnodes e X) q) (h_el e lam)) (at_point (p_nd e) (Vxt dim (p_rule e) (pnodes e X) q) (d_el e x)))).
  - rewrite <- (pull_point (r_nq (p_rule e)) (p_nh e) (p_nd e) dim (fun q => - (r_pw (p_rule e) q / r_W (p_rule e) q (pnodes e X))) (Dxt dim (p_rule e) (pnodes e X)) (Vxt dim (p_rule e) (pnodes e X)) (h_el e lam) (d_el e x)).
    apply rsum_ext. intros i _. apply rsum_ext. intros j _. unfold h_el, d_el, el_wdiv.
    rewrite (rsum_ext (r_nq (p_rule e)) (fun q => - r_pw (p_rule e) q * rsum dim (fun k => Dxt dim (p_rule e) (pnodes e X) q i k * (Vxt dim (p_rule e) (pnodes e X) q j k / r_W (p_rule e) q (pnodes e X))))
      (fun q => - (r_pw (p_rule e) q / r_W (p_rule e) q (pnodes e X)) * rsum dim (fun k => Dxt dim (p_rule e) (pnodes e X) q i k * Vxt dim (p_rule e) (pnodes e X) q j k))).
    + ring.
    + intros q _. rewrite <- !rsum_scal. apply rsum_ext. intros k _. unfold Rdiv. ring.
  - intros q _. now rewrite dot_comm.
Qed.

(** ** fields at the points *)
Lemma covariant_at r X a S u q c : covariant dim r X a S u q c = at_point a (dshapedxt dim S (r_Adj r) X q) u c / r_W r q X.
Proof.
  unfold covariant, at_point, dshapedxt. unfold Rdiv. rewrite <- rsum_scal_r. apply rsum_ext. intros i _.
  rewrite Rmult_comm. rewrite <- !rsum_scal_r. apply rsum_ext. intros k _. ring.
Qed.
Lemma dot_covariant r X a b S T u v q : r_W r q X <> 0 -> r_pw r q * r_W r q X * dot dim (covariant dim r X a S u q) (covariant dim r X b T v q) =
  r_pw r q / r_W r q X * dot dim (at_point a (dshapedxt dim S (r_Adj r) X q) u) (at_point b (dshapedxt dim T (r_Adj r) X q) v).
Proof.
  intros W. unfold dot. rewrite <- !rsum_scal. apply rsum_ext. intros k _. rewrite !covariant_at. field. exact W.
Qed.
Lemma grad_inner X psi lam : pvalid M X -> inner dim M X (fun e => grad_of dim e X psi) (fun e => grad_of dim e X lam) = dform p_rule X psi lam.
Proof.
  intros V. unfold inner, dform. apply lsum_ext. intros e He. apply rsum_ext. intros q Hq. unfold grad_of.
  rewrite dot_covariant; [reflexivity|]. apply Rgt_not_eq, (V e q He Hq).
Qed.
Lemma div_inner X x lam : pvalid M X -> inner dim M X (fun e => field_of dim e X x) (fun e => grad_of dim e X lam) = - bform p_rule X x lam.
Proof.
  intros V. unfold inner, bform. replace (- lsum _ M) with (-1 * lsum (fun e => rsum (r_nq (p_rule e)) (fun q => - (r_pw (p_rule e) q / r_W (p_rule e) q (pnodes e X)) *
    dot dim (at_point (p_nd e) (Vxt dim (p_rule e) (pnodes e X) q) (d_el e x)) (at_point (p_nh e) (Dxt dim (p_rule e) (pnodes e X) q) (h_el e lam)))) M) by ring.
  rewrite <- lsum_scal. apply lsum_ext. intros e He. rewrite <- rsum_scal. apply rsum_ext. intros q Hq. unfold grad_of, field_of.
  rewrite dot_covariant; [|apply Rgt_not_eq, (V e q He Hq)]. unfold Vxt, Dxt, d_el, h_el, pnodes. ring.
Qed.
Lemma field_gradient G X psi : takes_gradients dim n G M -> forall e q c, In e M -> (q < r_nq (p_rule e))%nat ->
  field_of dim e X (mv n G psi) q c = grad_of dim e X psi q c.
Proof.
  intros T e q c He Hq. unfold field_of, grad_of, covariant.
  assert (S : forall nd (u : vec) (S : mat), rsum nd (fun i => u i * rsum dim (fun a => S i a * (r_Adj (p_rule e) q (fun k j => X k (p_node e j)) a c / r_W (p_rule e) q (fun k j => X k (p_node e j))))) =
    rsum dim (fun a => rsum nd (fun i => u i * S i a) * (r_Adj (p_rule e) q (fun k j => X k (p_node e j)) a c / r_W (p_rule e) q (fun k j => X k (p_node e j))))).
  { intros nd u S. rewrite (rsum_ext nd _ (fun i => rsum dim (fun a => u i * S i a * (r_Adj (p_rule e) q (fun k j => X k (p_node e j)) a c / r_W (p_rule e) q (fun k j => X k (p_node e j)))))).
    - rewrite rsum_swap. apply rsum_ext. intros a _. now rewrite rsum_scal_r.
    - intros i _. rewrite <- rsum_scal. apply rsum_ext. intros; ring. }
  rewrite !S. apply rsum_ext. intros a Ha. now rewrite (T e q a psi He Hq Ha).
Qed.
Lemma inner_ext X f f' g g' : (forall e q c, In e M -> (q < r_nq (p_rule e))%nat -> (c < dim)%nat -> f e q c = f' e q c) ->
  (forall e q c, In e M -> (q < r_nq (p_rule e))%nat -> (c < dim)%nat -> g e q c = g' e q c) -> inner dim M X f g = inner dim M X f' g'.
Proof.
  intros Hf Hg. unfold inner. apply lsum_ext. intros e He. apply rsum_ext. intros q Hq. f_equal. apply rsum_ext. intros c Hc. now rewrite Hf, Hg.
Qed.
Lemma inner_comm X f g : inner dim M X f g = inner dim M X g f.
Proof. unfold inner. apply lsum_ext. intros e He. apply rsum_ext. intros q Hq. now rewrite dot_comm. Qed.
Lemma inner_axpy X f g h a : inner dim M X (fun e q c => f e q c + a * g e q c) h = inner dim M X f h + a * inner dim M X g h.
Proof.
  unfold inner. rewrite <- lsum_scal, <- lsum_plus. apply lsum_ext. intros e He. rewrite <- rsum_scal, <- rsum_plus. apply rsum_ext. intros q Hq.
  replace (dot dim (fun c => f e q c + a * g e q c) (h e q)) with (dot dim (axpy (f e q) a (g e q)) (h e q)) by reflexivity.
  rewrite dot_axpy_l. ring.
Qed.
Lemma inner_pos X f : pvalid M X -> 0 <= inner dim M X f f.
Proof.
  intros V. unfold inner. apply lsum_nonneg. intros e He. apply rsum_nonneg. intros q Hq. destruct (V e q He Hq) as [P Q].
  apply Rmult_le_pos; [|apply dot_pos]. apply Rlt_le, Rmult_lt_0_compat; assumption.
Qed.
Lemma inner_zero X f : pvalid M X -> inner dim M X f f = 0 -> forall e q c, In e M -> (q < r_nq (p_rule e))%nat -> (c < dim)%nat -> f e q c = 0.
Proof.
  intros V Z e q c He Hq Hc.
  set (t := fun e => rsum (r_nq (p_rule e)) (fun q => r_pw (p_rule e) q * r_W (p_rule e) q (fun k j => X k (p_node e j)) * dot dim (f e q) (f e q))).
  assert (Pq : forall e q, In e M -> (q < r_nq (p_rule e))%nat -> 0 <= r_pw (p_rule e) q * r_W (p_rule e) q (fun k j => X k (p_node e j)) * dot dim (f e q) (f e q)).
  { intros e' q' He' Hq'. destruct (V e' q' He' Hq') as [P Q]. apply Rmult_le_pos; [|apply dot_pos]. apply Rlt_le, Rmult_lt_0_compat; assumption. }
  assert (Pt : forall a, In a M -> 0 <= t a) by (intros a Ha; apply rsum_nonneg; intros; now apply Pq).
  assert (Te : t e = 0). { apply Rle_antisym; [|now apply Pt]. rewrite <- Z. apply (lsum_one t M e He Pt). }
  assert (D := rsum_nonneg_zero _ _ (fun q' Hq' => Pq e q' He Hq') Te q Hq). cbv beta in D. destruct (V e q He Hq) as [P Q].
  assert (D0 : dot dim (f e q) (f e q) = 0).
  { apply Rmult_integral in D. destruct D as [D|D]; [|exact D]. exfalso. apply Rmult_integral in D. lra. }
  assert (E := rsum_nonneg_zero dim _ (fun k _ => Rle_0_sqr (f e q k)) D0 c Hc). unfold Rsqr in E. nra.
Qed.
Lemma field_lin e X x a y q c : field_of dim e X (fun j => x j + a * y j) q c = field_of dim e X x q c + a * field_of dim e X y q c.
Proof. unfold field_of, covariant. rewrite <- rsum_scal, <- rsum_plus. apply rsum_ext. intros i _. ring. Qed.
Lemma grad_lin e X x a y q c : grad_of dim e X (fun j => x j + a * y j) q c = grad_of dim e X x q c + a * grad_of dim e X y q c.
Proof. unfold grad_of, covariant. rewrite <- rsum_scal, <- rsum_plus. apply rsum_ext. intros i _. ring. Qed.
End Forms.

(** ** linear algebra of the eliminated system *)
Section System.
Variables (n : nat) (ess : nat -> bool).
Lemma elim_row D z i : (i < n)%nat -> ess i = true -> mv n (eliminated ess D) z i = z i.
Proof.
  intros Hi E. unfold mv, eliminated. rewrite (rsum_ext n _ (fun j => if Nat.eqb j i then z j else 0)).
  - now rewrite (rsum_delta n z i Hi).
  - intros j _. rewrite E. cbn. rewrite Nat.eqb_sym. destruct (Nat.eqb j i); ring.
Qed.
Lemma elimT_row D z i : (i < n)%nat -> ess i = true -> mv n (transposed (eliminated ess D)) z i = z i.
Proof.
  intros Hi E. unfold mv, transposed, eliminated. rewrite (rsum_ext n _ (fun j => if Nat.eqb j i then z j else 0)).
  - now rewrite (rsum_delta n z i Hi).
  - intros j _. rewrite E, orb_true_r. destruct (Nat.eqb j i); ring.
Qed.
Lemma elim_free D z i : vanishes n ess z -> (i < n)%nat -> ess i = false -> mv n (eliminated ess D) z i = mv n D z i.
Proof.
  intros V Hi E. unfold mv, eliminated. apply rsum_ext. intros j Hj. rewrite E. cbn. destruct (ess j) eqn:Ej; [|reflexivity].
  rewrite (V j Hj Ej). ring.
Qed.
Lemma elimT_free D z i : vanishes n ess z -> (i < n)%nat -> ess i = false -> mv n (transposed (eliminated ess D)) z i = mvT n D z i.
Proof.
  intros V Hi E. unfold mv, mvT, transposed, eliminated. apply rsum_ext. intros j Hj. rewrite E, orb_false_r. destruct (ess j) eqn:Ej; [|reflexivity].
  rewrite (V j Hj Ej). ring.
Qed.
Lemma rhs_zero D b i : system_rhs n ess D zero_vec b i = if ess i then 0 else b i.
Proof.
  unfold system_rhs, zero_vec. destruct (ess i); [reflexivity|]. rewrite (rsum_ext n _ (fun _ => 0)); [rewrite rsum_0; ring|].
  intros j _. destruct (ess j); ring.
Qed.
(** solutions of the system: zero on the boundary, the equations hold tested with functions vanishing there *)
Lemma system_solution pcg D b : solves_system n pcg (eliminated ess D) ->
  let z := pcg (eliminated ess D) (system_rhs n ess D zero_vec b) in
  vanishes n ess z /\ forall phi, vanishes n ess phi -> dot n phi (mv n D z) = dot n phi b.
Proof.
  intros S z. assert (Sz := S (system_rhs n ess D zero_vec b)). fold z in Sz.
  assert (V : vanishes n ess z). { intros i Hi E. rewrite <- (elim_row D z i Hi E), (Sz i Hi), rhs_zero, E. reflexivity. }
  split; [exact V|]. intros phi P. apply rsum_ext. intros i Hi. destruct (ess i) eqn:E; [rewrite (P i Hi E); ring|].
  rewrite <- (elim_free D z i V Hi E), (Sz i Hi), rhs_zero, E. reflexivity.
Qed.
Lemma systemT_solution pcg D b : solves_system n pcg (transposed (eliminated ess D)) ->
  let z := pcg (transposed (eliminated ess D)) (system_rhs n ess D zero_vec b) in
  vanishes n ess z /\ forall phi, vanishes n ess phi -> dot n z (mv n D phi) = dot n b phi.
Proof.
  intros S z. assert (Sz := S (system_rhs n ess D zero_vec b)). fold z in Sz.
  assert (V : vanishes n ess z). { intros i Hi E. rewrite <- (elimT_row D z i Hi E), (Sz i Hi), rhs_zero, E. reflexivity. }
  split; [exact V|]. intros phi P. rewrite mv_adj. apply rsum_ext. intros i Hi. destruct (ess i) eqn:E; [rewrite (P i Hi E); ring|].
  rewrite <- (elimT_free D z i V Hi E), (Sz i Hi), rhs_zero, E. reflexivity.
Qed.
End System.

(** ** continuity of solutions of linear systems *)
Lemma cont_rsum n (f : nat -> R -> R) x : (forall i, (i < n)%nat -> continuous (f i) x) -> continuous (fun t => rsum n (fun i => f i t)) x.
Proof.
  induction n as [|n IH]; intros H; [apply continuous_const|]. cbn [rsum].
  apply (continuous_plus (fun t => rsum n (fun i => f i t)) (f n)); [apply IH; intros; apply H; lia|apply H; lia].
Qed.
Lemma cont_abs (f : R -> R) x : continuous f x -> continuous (fun t => Rabs (f t)) x.
Proof. intros H. apply (continuous_comp f Rabs); [exact H|]. apply continuity_pt_filterlim, Rcontinuity_abs. Qed.
Lemma cont_minus_const (f : R -> R) x c : continuous f x -> continuous (fun t => f t - c) x.
Proof. intros H. apply (continuous_minus f (fun _ => c)); [exact H|apply continuous_const]. Qed.
Lemma squeeze (z g : R -> R) : continuous g 0 -> g 0 = 0 -> locally 0 (fun t => Rabs (z t - z 0) <= g t) -> continuous z 0.
Proof.
  intros Cg G0 L. apply filterlim_locally. intros eps.
  assert (Cg' := proj1 (filterlim_locally g (g 0)) Cg eps).
  generalize (filter_and _ _ L Cg'). apply filter_imp. intros t [A B]. rewrite G0 in B.
  change (Rabs (z t - z 0) < eps). change (Rabs (g t - 0) < eps) in B. rewrite Rminus_0_r in B.
  eapply Rle_lt_trans; [exact A|]. eapply Rle_lt_trans; [apply Rle_abs|exact B].
Qed.
Definition size (n : nat) (z : vec) : R := rsum n (fun i => Rabs (z i)).
Lemma size_pos n z : 0 <= size n z. Proof. apply rsum_nonneg. intros; apply Rabs_pos. Qed.
Lemma size_entry n z i : (i < n)%nat -> Rabs (z i) <= size n z.
Proof.
  intros Hi. unfold size. induction n as [|n IH]; [lia|]. cbn. destruct (Nat.eq_dec i n) as [->|Ne].
  - assert (P := size_pos n z). unfold size in P. lra.
  - assert (K := IH ltac:(lia)). assert (P := Rabs_pos (z n)). lra.
Qed.
Lemma size_add n a b : size n (fun i => a i + b i) <= size n a + size n b.
Proof. unfold size. rewrite <- rsum_plus. apply rsum_le. intros; apply Rabs_triang. Qed.
Lemma size_ext n a b : veq n a b -> size n a = size n b.
Proof. intros H. apply rsum_ext. intros i Hi. now rewrite H. Qed.
Definition msize (n : nat) (A : mat) : R := rsum n (fun i => rsum n (fun j => Rabs (A i j))).
Lemma msize_pos n A : 0 <= msize n A. Proof. apply rsum_nonneg. intros; apply rsum_nonneg. intros; apply Rabs_pos. Qed.
Lemma size_mv n A z : size n (mv n A z) <= msize n A * size n z.
Proof.
  unfold size at 1, msize. rewrite <- rsum_scal_r. apply rsum_le. intros i Hi. unfold mv.
  eapply Rle_trans; [apply rsum_abs|]. rewrite <- rsum_scal_r. apply rsum_le. intros j Hj. rewrite Rabs_mult.
  apply Rmult_le_compat_l; [apply Rabs_pos|now apply size_entry].
Qed.
Lemma mv_ext n A B z y i : (forall j, (j < n)%nat -> A i j = B i j) -> veq n z y -> mv n A z i = mv n B y i.
Proof. intros H K. apply rsum_ext. intros j Hj. now rewrite H, K. Qed.
Lemma mv_lin n A y a z i : mv n A (fun j => y j + a * z j) i = mv n A y i + a * mv n A z i.
Proof. unfold mv. rewrite <- rsum_scal, <- rsum_plus. apply rsum_ext. intros; ring. Qed.
Lemma solution_continuous n (A : R -> mat) (z b : R -> vec) (S : vec -> vec) :
  (forall i j, (i < n)%nat -> (j < n)%nat -> continuous (fun t => A t i j) 0) -> (forall i, (i < n)%nat -> continuous (fun t => b t i) 0) ->
  locally 0 (fun t => veq n (mv n (A t) (z t)) (b t)) ->
  (forall c, veq n (mv n (A 0) (S c)) c) -> (forall y, veq n (mv n (A 0) y) (fun _ => 0) -> veq n y (fun _ => 0)) ->
  forall i, (i < n)%nat -> continuous (fun t => z t i) 0.
Proof.
  intros CA Cb L HS HI.
  set (unit := fun j i : nat => if Nat.eqb i j then 1 else 0).
  set (T := fun i j => S (unit j) i).
  (* S applied to c is the sum of columns *)
  assert (Col : forall y, veq n y (mv n T (mv n (A 0) y))).
  { intros y i Hi. assert (Z := HI (fun i => mv n T (mv n (A 0) y) i + -1 * y i)). cbv beta in Z.
    assert (E : mv n T (mv n (A 0) y) i + -1 * y i = 0); [|lra]. apply Z; [|exact Hi].
    intros k Hk. rewrite (mv_lin n (A 0) (mv n T (mv n (A 0) y)) (-1) y).
    assert (F : mv n (A 0) (mv n T (mv n (A 0) y)) k = mv n (A 0) y k); [|rewrite F; ring].
    set (c := mv n (A 0) y). unfold mv at 1. rewrite (rsum_ext n _ (fun l => rsum n (fun j => A 0 k l * S (unit j) l * c j))).
    - rewrite rsum_swap. rewrite (rsum_ext n _ (fun j => if Nat.eqb j k then c j else 0)); [now rewrite (rsum_delta n c k Hk)|].
      intros j Hj. rewrite rsum_scal_r. change (rsum n (fun l => A 0 k l * S (unit j) l)) with (mv n (A 0) (S (unit j)) k). rewrite (HS (unit j) k Hk).
      unfold unit. rewrite Nat.eqb_sym. destruct (Nat.eqb j k); ring.
    - intros l _. unfold mv. rewrite <- rsum_scal. apply rsum_ext. intros j _. unfold T. ring. }
  set (C := msize n T). assert (PC := msize_pos n T). fold C in PC.
  assert (Bound : forall y, size n y <= C * size n (mv n (A 0) y)).
  { intros y. rewrite (size_ext n y _ (Col y)). apply size_mv. }
  set (del := fun t => msize n (fun i j => A t i j - A 0 i j)).
  assert (Cdel : continuous del 0).
  { unfold del, msize. apply (cont_rsum n (fun i t => rsum n (fun j => Rabs (A t i j - A 0 i j)))). intros i Hi.
    apply (cont_rsum n (fun j t => Rabs (A t i j - A 0 i j))). intros j Hj. apply (cont_abs (fun t => A t i j - A 0 i j)), (cont_minus_const (fun t => A t i j)). now apply CA. }
  assert (del0 : del 0 = 0). { unfold del, msize. rewrite (rsum_ext n _ (fun _ => 0)); [apply rsum_0|]. intros i _. rewrite (rsum_ext n _ (fun _ => 0)); [apply rsum_0|]. intros j _. rewrite Rminus_eq_0. apply Rabs_R0. }
  set (nb := fun t => size n (b t)). set (db := fun t => size n (fun i => b t i - b 0 i)).
  assert (Cnb : continuous nb 0). { unfold nb, size. apply (cont_rsum n (fun i t => Rabs (b t i))). intros i Hi. apply (cont_abs (fun t => b t i)). now apply Cb. }
  assert (Cdb : continuous db 0). { unfold db, size. apply (cont_rsum n (fun i t => Rabs (b t i - b 0 i))). intros i Hi. apply (cont_abs (fun t => b t i - b 0 i)), (cont_minus_const (fun t => b t i)). now apply Cb. }
  assert (db0 : db 0 = 0). { unfold db, size. rewrite (rsum_ext n _ (fun _ => 0)); [apply rsum_0|]. intros i _. rewrite Rminus_eq_0. apply Rabs_R0. }
  assert (Small : locally 0 (fun t => C * del t <= 1 / 2)).
  { assert (PC1 : 0 < / (2 * (C + 1))) by (apply Rinv_0_lt_compat; lra).
    assert (K := proj1 (filterlim_locally del (del 0)) Cdel (mkposreal _ PC1)). revert K. apply filter_imp. intros t B.
    change (Rabs (del t - del 0) < / (2 * (C + 1))) in B. rewrite del0, Rminus_0_r in B.
    assert (P := Rle_abs (del t)). assert (Pd := msize_pos n (fun i j => A t i j - A 0 i j)). fold (del t) in Pd.
    apply Rle_trans with ((C + 1) * del t); [nra|]. apply Rle_trans with ((C + 1) * / (2 * (C + 1))); [apply Rmult_le_compat_l; lra|]. right. field. lra. }
  assert (E0 := locally_singleton _ _ L). cbv beta in E0.
  intros i Hi.
  apply (squeeze (fun t => z t i) (fun t => C * (del t * (2 * C * nb t) + db t))).
  - apply (continuous_mult (fun _ => C) (fun t => del t * (2 * C * nb t) + db t)); [apply continuous_const|].
    apply (continuous_plus (fun t => del t * (2 * C * nb t)) db); [|exact Cdb]. apply (continuous_mult del (fun t => 2 * C * nb t)); [exact Cdel|].
    apply (continuous_mult (fun _ => 2 * C) nb); [apply continuous_const|exact Cnb].
  - rewrite del0, db0. ring.
  - generalize (filter_and _ _ L Small). apply filter_imp. intros t [Et Sm].
    assert (Dz : forall k, (k < n)%nat -> mv n (A 0) (z t) k = b t k + - mv n (fun i j => A t i j - A 0 i j) (z t) k).
    { intros k Hk. rewrite <- (Et k Hk). unfold mv. rewrite <- rsum_opp, <- rsum_plus. apply rsum_ext. intros; ring. }
    assert (Dm : size n (fun k => - mv n (fun i j => A t i j - A 0 i j) (z t) k) <= del t * size n (z t)).
    { assert (Q : size n (fun k => - mv n (fun i j => A t i j - A 0 i j) (z t) k) = size n (mv n (fun i j => A t i j - A 0 i j) (z t))).
      { apply rsum_ext. intros; apply Rabs_Ropp. }
      rewrite Q. apply size_mv. }
    assert (Nz : size n (z t) <= 2 * C * nb t).
    { assert (B1 := Bound (z t)). rewrite (size_ext n _ _ Dz) in B1.
      assert (B2 := size_add n (b t) (fun k => - mv n (fun i j => A t i j - A 0 i j) (z t) k)). fold (nb t) in B2.
      assert (B3 : size n (z t) <= C * (nb t + del t * size n (z t))) by (eapply Rle_trans; [exact B1|]; apply Rmult_le_compat_l; lra).
      assert (Pz := size_pos n (z t)). assert (C * del t * size n (z t) <= 1 / 2 * size n (z t)) by (apply Rmult_le_compat_r; lra). nra. }
    assert (Dd : forall k, (k < n)%nat -> mv n (A 0) (fun j => z t j + -1 * z 0 j) k = (b t k - b 0 k) + - mv n (fun i j => A t i j - A 0 i j) (z t) k).
    { intros k Hk. rewrite mv_lin, (Dz k Hk), (E0 k Hk). ring. }
    assert (F := Bound (fun j => z t j + -1 * z 0 j)). rewrite (size_ext n _ _ Dd) in F.
    assert (F2 := size_add n (fun k => b t k - b 0 k) (fun k => - mv n (fun i j => A t i j - A 0 i j) (z t) k)). cbv beta in F2. fold (db t) in F2.
    assert (F3 := size_entry n (fun j => z t j + -1 * z 0 j) i Hi). cbv beta in F3.
    replace (z t i - z 0 i) with (z t i + -1 * z 0 i) by ring.
    assert (Pd := msize_pos n (fun i j => A t i j - A 0 i j)). fold (del t) in Pd.
    eapply Rle_trans; [exact F3|]. eapply Rle_trans; [exact F|]. apply Rmult_le_compat_l; [exact PC|].
    eapply Rle_trans; [exact F2|]. rewrite Rplus_comm. apply Rplus_le_compat_r. eapply Rle_trans; [exact Dm|]. apply Rmult_le_compat_l; assumption.
Qed.

(** ** mesh derivative of a form at a point: c pw / W (sum u S A) . (sum v T A) *)
Section MeshPoint.
Variables (dim nn a b : nat) (S T : mat) (A : mat -> mat) (ARev : mat -> mat -> mat) (W : mat -> R) (WRev : mat -> R -> mat).
Variables (X V : mat) (u v : vec) (c pw : R).
Hypothesis HA : rev_matrix dim nn A ARev.
Hypothesis HW : rev_scalar dim nn W WRev.
Hypothesis W0 : W X <> 0.
Notation xt S0 Y := (fun i k => rsum dim (fun l => S0 i l * A Y l k)).
Notation su Y := (at_point a (xt S Y) u).
Notation tv Y := (at_point b (xt T Y) v).
Notation w := (c * (pw / W X)).
Lemma mesh_point :
  is_derive (fun t => c * (pw / W (moved X V t)) * dot dim (su (moved X V t)) (tv (moved X V t))) 0
   (pairing dim nn (fun k j => WRev X 1 k j * (- (c * dot dim (su X) (tv X)) * pw / W X ^ 2) +
      ARev X (fun l k => rsum a (fun i => S i l * (u i * (w * tv X k))) + rsum b (fun i => T i l * (v i * (w * su X k)))) k j) V).
Proof.
  destruct (rev_matrix_entries dim nn A ARev X V HA) as [dA [D1 D2]].
  destruct (rev_scalar_entries dim nn W WRev X V HW) as [dW [D3 D4]].
  assert (Dxt : forall n0 (S0 : mat) (z : vec) k, (k < dim)%nat -> is_derive (fun t => at_point n0 (xt S0 (moved X V t)) z k) 0 (at_point n0 (fun i k => rsum dim (fun l => S0 i l * dA l k)) z k)).
  { intros n0 S0 z k Hk. unfold at_point. apply (DV_sum n0 (fun i t => rsum dim (fun l => S0 i l * A (moved X V t) l k) * z i)). intros i Hi.
    apply (DV_scal_r (z i) (fun t => rsum dim (fun l => S0 i l * A (moved X V t) l k))). apply (DV_sum dim (fun l t => S0 i l * A (moved X V t) l k)). intros l Hl. apply DV_scal. now apply D1. }
  assert (Dd := DV_dot dim (fun t => su (moved X V t)) (fun t => tv (moved X V t)) _ _ 0 (Dxt a S u) (Dxt b T v)). cbv beta in Dd.
  assert (Dw : is_derive (fun t => c * (pw / W (moved X V t))) 0 (c * ((0 * W X - pw * dW) / (W X * W X)))).
  { apply (DV_scal c (fun t => pw / W (moved X V t))). assert (K := DV_div (fun _ => pw) (fun t => W (moved X V t)) 0 0 dW (DV_const pw 0) D3). cbv beta in K. rewrite moved_0' in K. now apply K. }
  assert (DD := DV_mult _ _ 0 _ _ Dw Dd). cbv beta in DD. rewrite moved_0' in DD.
  eapply DV_eq; [exact DD|]. rewrite pairing_plus, pairing_scal_r, D2, D4.
  assert (P : forall B1 B2 : mat, pairing dim dim (fun l k => B1 l k + B2 l k) dA = pairing dim dim B1 dA + pairing dim dim B2 dA) by (intros; apply pairing_plus).
  rewrite P.
  assert (Q : forall n0 (S0 : mat) (z r : vec), pairing dim dim (fun l k => rsum n0 (fun i => S0 i l * (z i * (w * r k)))) dA =
     w * dot dim r (at_point n0 (fun i k => rsum dim (fun l => S0 i l * dA l k)) z)).
  { intros n0 S0 z r. assert (K := adj_bar_pair n0 dim (fun _ => S0) 0%nat (fun i k => z i * (w * r k)) dA). cbv beta in K. rewrite K.
    unfold dot, at_point. rewrite <- rsum_scal. apply rsum_ext. intros k _. rewrite <- !rsum_scal. apply rsum_ext. intros i _. ring. }
  rewrite !Q. rewrite (dot_comm dim (at_point a (fun i k => rsum dim (fun l => S i l * dA l k)) u)). field. exact W0.
Qed.
End MeshPoint.

Section FormDerivative.
Variables (dim n m NN : nat) (M : list pelem) (X V : mat).
Hypothesis HN : pnumbered n m NN M.
Notation dform := (dform dim M). Notation bform := (bform dim M).
Lemma pnodes_moved e t : pnodes e (moved X V t) = moved (pnodes e X) (pnodes e V) t. Proof. reflexivity. Qed.
Lemma dform_element e r u psi : (forall q, (q < r_nq r)%nat -> r_W r q (pnodes e X) <> 0) -> rule_rev dim (p_nn e) r ->
  is_derive (fun t => rsum (r_nq r) (fun q => r_pw r q / r_W r q (pnodes e (moved X V t)) *
    dot dim (at_point (p_nh e) (Dxt dim r (pnodes e (moved X V t)) q) u) (at_point (p_nh e) (Dxt dim r (pnodes e (moved X V t)) q) psi))) 0
   (pairing dim (p_nn e) (diff_mesh dim (p_nh e) r (pnodes e X) u psi) (pnodes e V)).
Proof.
  intros W HR. unfold diff_mesh. rewrite pairing_sum.
  apply (DV_sum (r_nq r) (fun q t => r_pw r q / r_W r q (pnodes e (moved X V t)) *
    dot dim (at_point (p_nh e) (Dxt dim r (pnodes e (moved X V t)) q) u) (at_point (p_nh e) (Dxt dim r (pnodes e (moved X V t)) q) psi))). intros q Hq. destruct (HR q Hq) as [H1 H2].
  assert (K := mesh_point dim (p_nn e) (p_nh e) (p_nh e) (r_dN r q) (r_dN r q) (r_Adj r q) (r_AdjRev r q) (r_W r q) (r_WRev r q) (pnodes e X) (pnodes e V) u psi 1 (r_pw r q) H1 H2 (W q Hq)).
  eapply DV_eq; [eapply DV_ext; [|exact K]|].
  - intros t. unfold Vxt, Dxt, dshapedxt, pnodes. change (fun k j => moved X V t k (p_node e j)) with (moved (fun k j => X k (p_node e j)) (fun k j => V k (p_node e j)) t). ring.
  - apply pairing_ext. intros k j _ _. f_equal.
    + f_equal. 
    + f_equal. extensionality l. extensionality c. rewrite <- rsum_plus. apply rsum_ext. intros i _. unfold Dxt, dshapedxt. ring.
Qed.
Lemma bform_element e r x psi : (forall q, (q < r_nq r)%nat -> r_W r q (pnodes e X) <> 0) -> rule_rev dim (p_nn e) r ->
  is_derive (fun t => rsum (r_nq r) (fun q => - (r_pw r q / r_W r q (pnodes e (moved X V t))) *
    dot dim (at_point (p_nd e) (Vxt dim r (pnodes e (moved X V t)) q) x) (at_point (p_nh e) (Dxt dim r (pnodes e (moved X V t)) q) psi))) 0
   (pairing dim (p_nn e) (div_mesh dim (p_nh e) (p_nd e) r (pnodes e X) x psi) (pnodes e V)).
Proof.
  intros W HR. unfold div_mesh. rewrite pairing_sum.
  apply (DV_sum (r_nq r) (fun q t => - (r_pw r q / r_W r q (pnodes e (moved X V t))) *
    dot dim (at_point (p_nd e) (Vxt dim r (pnodes e (moved X V t)) q) x) (at_point (p_nh e) (Dxt dim r (pnodes e (moved X V t)) q) psi))). intros q Hq. destruct (HR q Hq) as [H1 H2].
  assert (K := mesh_point dim (p_nn e) (p_nd e) (p_nh e) (r_V r q) (r_dN r q) (r_Adj r q) (r_AdjRev r q) (r_W r q) (r_WRev r q) (pnodes e X) (pnodes e V) x psi (-1) (r_pw r q) H1 H2 (W q Hq)).
  eapply DV_eq; [eapply DV_ext; [|exact K]|].
  - intros t. unfold Vxt, Dxt, dshapedxt, pnodes. change (fun k j => moved X V t k (p_node e j)) with (moved (fun k j => X k (p_node e j)) (fun k j => V k (p_node e j)) t). ring.
  - apply pairing_ext. intros k j _ _. f_equal.
Qed.
Lemma dform_derive r u psi : (forall e q, In e M -> (q < r_nq (r e))%nat -> r_W (r e) q (pnodes e X) <> 0) -> (forall e, In e M -> rule_rev dim (p_nn e) (r e)) ->
  is_derive (fun t => dform r (moved X V t) u psi) 0
    (lsum (fun e => pairing dim (p_nn e) (diff_mesh dim (p_nh e) (r e) (pnodes e X) (h_el e u) (h_el e psi)) (pnodes e V)) M).
Proof. intros W HR. unfold ProjectorProofs.dform. apply lsum_derive. intros e He. apply dform_element; [intros; now apply W|now apply HR]. Qed.
Lemma bform_derive r x psi : (forall e q, In e M -> (q < r_nq (r e))%nat -> r_W (r e) q (pnodes e X) <> 0) -> (forall e, In e M -> rule_rev dim (p_nn e) (r e)) ->
  is_derive (fun t => bform r (moved X V t) x psi) 0
    (lsum (fun e => pairing dim (p_nn e) (div_mesh dim (p_nh e) (p_nd e) (r e) (pnodes e X) (d_el e x) (h_el e psi)) (pnodes e V)) M).
Proof. intros W HR. unfold ProjectorProofs.bform. apply lsum_derive. intros e He. apply bform_element; [intros; now apply W|now apply HR]. Qed.
Lemma mesh_sens_pair psi psi_bar x : pairing dim NN (mesh_sens dim M X psi psi_bar x) V =
  lsum (fun e => pairing dim (p_nn e) (diff_mesh dim (p_nh e) (p_diff_rule e) (pnodes e X) (h_el e psi) (h_el e psi_bar)) (pnodes e V)) M +
  lsum (fun e => pairing dim (p_nn e) (div_mesh dim (p_nh e) (p_nd e) (p_div_rule e) (pnodes e X) (d_el e x) (h_el e psi_bar)) (pnodes e V)) M.
Proof.
  rewrite <- lsum_plus. unfold mesh_sens, pairing at 1.
  rewrite (rsum_ext dim _ (fun k => lsum (fun e => rsum (p_nn e) (fun j =>
    (diff_mesh dim (p_nh e) (p_diff_rule e) (pnodes e X) (h_el e psi) (h_el e psi_bar) k j + div_mesh dim (p_nh e) (p_nd e) (p_div_rule e) (pnodes e X) (d_el e x) (h_el e psi_bar) k j) * V k (p_node e j))) M)).
  - rewrite <- lsum_rsum. apply lsum_ext. intros e He. rewrite <- pairing_plus. reflexivity.
  - intros k _.
    rewrite (rsum_ext NN _ (fun J => lsum (fun e => rsum (p_nn e) (fun j => if Nat.eqb J (p_node e j) then
     (diff_mesh dim (p_nh e) (p_diff_rule e) (pnodes e X) (h_el e psi) (h_el e psi_bar) k j + div_mesh dim (p_nh e) (p_nd e) (p_div_rule e) (pnodes e X) (d_el e x) (h_el e psi_bar) k j) * V k J else 0)) M)).
    + rewrite <- lsum_rsum. apply lsum_ext. intros e He. rewrite rsum_swap. apply rsum_ext. intros j Hj.
      rewrite (rsum_delta NN (fun J => (diff_mesh dim (p_nh e) (p_diff_rule e) (pnodes e X) (h_el e psi) (h_el e psi_bar) k j + div_mesh dim (p_nh e) (p_nd e) (p_div_rule e) (pnodes e X) (d_el e x) (h_el e psi_bar) k j) * V k J) (p_node e j)); [reflexivity|].
      now apply (HN e He).
    + intros J _. rewrite <- lsum_scal_r. apply lsum_ext. intros e He. rewrite <- rsum_scal_r. apply rsum_ext. intros j _. destruct (Nat.eqb J (p_node e j)); ring.
Qed.
Lemma dform_lin r Y u v a psi : dform r Y (fun i => u i + a * v i) psi = dform r Y u psi + a * dform r Y v psi.
Proof.
  unfold ProjectorProofs.dform. rewrite <- lsum_scal, <- lsum_plus. apply lsum_ext. intros e _. rewrite <- rsum_scal, <- rsum_plus. apply rsum_ext. intros q _.
  replace (at_point (p_nh e) (Dxt dim (r e) (pnodes e Y) q) (h_el e (fun i => u i + a * v i))) with
    (axpy (at_point (p_nh e) (Dxt dim (r e) (pnodes e Y) q) (h_el e u)) a (at_point (p_nh e) (Dxt dim (r e) (pnodes e Y) q) (h_el e v))).
  - rewrite dot_axpy_l. ring.
  - extensionality k. unfold axpy, at_point, h_el. rewrite <- rsum_scal, <- rsum_plus. apply rsum_ext. intros; ring.
Qed.
Lemma dform_sum r Y psi lam : dform r Y psi lam = rsum n (fun j => psi j * dform r Y (fun i => if Nat.eqb i j then 1 else 0) lam).
Proof.
  assert (Z : forall k u, dform r Y (fun i => rsum k (fun j => u j * (if Nat.eqb i j then 1 else 0))) lam = rsum k (fun j => u j * dform r Y (fun i => if Nat.eqb i j then 1 else 0) lam)).
  { induction k as [|k IH]; intros u; cbn [rsum].
    - unfold ProjectorProofs.dform. rewrite (lsum_ext _ (fun _ => 0)); [apply lsum_0|]. intros e _. rewrite (rsum_ext _ _ (fun _ => 0)); [apply rsum_0|]. intros q _.
      replace (at_point (p_nh e) (Dxt dim (r e) (pnodes e Y) q) (h_el e (fun _ => 0))) with (fun _ : nat => 0).
      + unfold dot. rewrite (rsum_ext _ _ (fun _ => 0)); [rewrite rsum_0; ring|intros; ring].
      + extensionality c. unfold at_point, h_el. rewrite (rsum_ext _ _ (fun _ => 0)); [symmetry; apply rsum_0|intros; ring].
    - rewrite (dform_lin r Y (fun i => rsum k (fun j => u j * (if Nat.eqb i j then 1 else 0))) (fun i => if Nat.eqb i k then 1 else 0) (u k)) . now rewrite IH. }
  rewrite <- Z. unfold ProjectorProofs.dform. apply lsum_ext. intros e He. apply rsum_ext. intros q _. f_equal. apply rsum_ext. intros c _. f_equal.
  unfold at_point. apply rsum_ext. intros i Hi. f_equal. unfold h_el.
  rewrite (rsum_ext n _ (fun j => if Nat.eqb j (p_h e i) then psi j else 0)).
  - symmetry. apply rsum_delta. now apply (HN e He).
  - intros j _. rewrite Nat.eqb_sym. destruct (Nat.eqb j (p_h e i)); ring.
Qed.
End FormDerivative.

Lemma mv_adj_rect n m (A : mat) u v : dot m u (mv n A v) = dot n (mvT m A u) v.
Proof.
  unfold dot, mv, mvT.
  rewrite (rsum_ext m _ (fun i => rsum n (fun j => u i * (A i j * v j)))) by (intros; rewrite rsum_scal; reflexivity).
  rewrite rsum_swap. apply rsum_ext. intros j Hj. rewrite <- rsum_scal_r. apply rsum_ext; intros; ring.
Qed.

Section Projection.
Variables (dim n m NN : nat) (M : list pelem) (ess : nat -> bool) (G : mat) (pcg : mat -> vec -> vec).
Hypothesis HN : pnumbered n m NN M.
Notation dform := (dform dim M p_rule). Notation bform := (bform dim M p_rule).
Notation fresh X := (refresh dim M X new_projector).
Notation pot X x := (potential n m ess pcg (fresh X) x).
Notation adj X bar := (adjoint_potential n m ess G pcg (fresh X) bar).
Notation sys X := (eliminated ess (diffusion dim M X)).
Lemma pot_ok X x : solves_system n pcg (sys X) -> vanishes n ess (pot X x) /\ forall phi, vanishes n ess phi -> dform X (pot X x) phi = - bform X x phi.
Proof.
  intros S. destruct (system_solution n ess pcg (diffusion dim M X) (fun i => -1 * mv m (weak_div dim M X) x i) S) as [A B]. split; [exact A|].
  intros phi P. rewrite <- (diffusion_form dim n m NN M HN X phi). etransitivity; [exact (B phi P)|].
  rewrite <- (weak_div_form dim n m NN M HN X phi x). unfold dot. rewrite <- rsum_opp. apply rsum_ext. intros; ring.
Qed.
Lemma adj_ok X bar : solves_system n pcg (transposed (sys X)) -> vanishes n ess (adj X bar) /\ forall phi, vanishes n ess phi -> dform X phi (adj X bar) = - dot m bar (mv n G phi).
Proof.
  intros S. destruct (systemT_solution n ess pcg (diffusion dim M X) (fun i => -1 * mvT m G bar i) S) as [A B]. split; [exact A|].
  intros phi P. rewrite <- (diffusion_form dim n m NN M HN X (adj X bar)). etransitivity; [exact (B phi P)|].
  rewrite mv_adj_rect. unfold dot. rewrite <- rsum_opp. apply rsum_ext. intros; ring.
Qed.
Lemma vanish_lin psi a phi : vanishes n ess psi -> vanishes n ess phi -> vanishes n ess (fun i => psi i + a * phi i).
Proof. intros A B i Hi E. rewrite (A i Hi E), (B i Hi E). ring. Qed.
Lemma energy_injective X psi : pvalid M X -> rule_sees_gradients dim n ess M X -> vanishes n ess psi -> dform X psi psi = 0 -> veq n psi (fun _ => 0).
Proof.
  intros V R P E. rewrite <- (grad_inner dim M X psi psi V) in E. apply R; [exact P|]. intros e q c He Hq Hc.
  exact (inner_zero dim M X (fun e => grad_of dim e X psi) V E e q c He Hq Hc).
Qed.
Lemma sys_injective X : pvalid M X -> rule_sees_gradients dim n ess M X -> forall y, veq n (mv n (sys X) y) (fun _ => 0) -> veq n y (fun _ => 0).
Proof.
  intros V R y H. assert (Vy : vanishes n ess y). { intros i Hi E. rewrite <- (elim_row n ess (diffusion dim M X) y i Hi E). now apply H. }
  apply (energy_injective X y V R Vy). rewrite <- (diffusion_form dim n m NN M HN X y y). unfold dot. rewrite (rsum_ext n _ (fun _ => 0)); [apply rsum_0|].
  intros i Hi. destruct (ess i) eqn:E; [rewrite (Vy i Hi E); ring|]. rewrite <- (elim_free n ess (diffusion dim M X) y i Vy Hi E), (H i Hi). ring.
Qed.
Lemma pot_unique X x psi : solves_system n pcg (sys X) -> pvalid M X -> rule_sees_gradients dim n ess M X -> vanishes n ess psi ->
  (forall phi, vanishes n ess phi -> dform X psi phi = - bform X x phi) -> veq n (pot X x) psi.
Proof.
  intros S V R P E. destruct (pot_ok X x S) as [A B].
  assert (D : vanishes n ess (fun i => pot X x i + -1 * psi i)) by (now apply vanish_lin).
  assert (K := energy_injective X _ V R D). intros i Hi. assert (Z : pot X x i + -1 * psi i = 0); [|lra]. apply K; [|exact Hi].
  rewrite (dform_lin dim M p_rule X (pot X x) psi (-1)). rewrite (B _ D), (E _ D). ring.
Qed.

(** the mesh derivative *)
Section MeshDerivative.
Variables (X V : mat) (x bar : vec).
Hypothesis VX : pvalid M X.
Hypothesis RX : rule_sees_gradients dim n ess M X.
Hypothesis SX : locally 0 (fun t => solves_system n pcg (sys (moved X V t))).
Hypothesis TX : solves_system n pcg (transposed (sys X)).
Hypothesis WD : forall e q, In e M -> (q < r_nq (p_diff_rule e))%nat -> r_W (p_diff_rule e) q (pnodes e X) <> 0.
Hypothesis WB : forall e q, In e M -> (q < r_nq (p_div_rule e))%nat -> r_W (p_div_rule e) q (pnodes e X) <> 0.
Hypothesis RD : forall e, In e M -> rule_rev dim (p_nn e) (p_diff_rule e).
Hypothesis RB : forall e, In e M -> rule_rev dim (p_nn e) (p_div_rule e).
Hypothesis AD : forall Y psi lam, ProjectorProofs.dform dim M p_diff_rule Y psi lam = dform Y psi lam.
Hypothesis AB : forall Y z lam, ProjectorProofs.bform dim M p_div_rule Y z lam = bform Y z lam.
Notation P t := (pot (moved X V t) x).
Definition unit (j i : nat) : R := if Nat.eqb i j then 1 else 0.
Lemma dot_unit k j (u : vec) : (j < k)%nat -> dot k (unit j) u = u j.
Proof. intros H. unfold dot, unit. rewrite (rsum_ext k _ (fun i => if Nat.eqb i j then u i else 0)); [now apply rsum_delta|]. intros i _. destruct (Nat.eqb i j); ring. Qed.
Lemma mv_unit k (A : mat) i j : (j < k)%nat -> mv k A (unit j) i = A i j.
Proof. intros H. unfold mv, unit. rewrite (rsum_ext k _ (fun l => if Nat.eqb l j then A i l else 0)); [now apply rsum_delta|]. intros l _. destruct (Nat.eqb l j); ring. Qed.
Lemma dform_d psi lam : is_derive (fun t => dform (moved X V t) psi lam) 0
  (lsum (fun e => pairing dim (p_nn e) (diff_mesh dim (p_nh e) (p_diff_rule e) (pnodes e X) (h_el e psi) (h_el e lam)) (pnodes e V)) M).
Proof. apply (DV_ext (fun t => ProjectorProofs.dform dim M p_diff_rule (moved X V t) psi lam)); [intros; apply AD|]. now apply dform_derive. Qed.
Lemma bform_d z lam : is_derive (fun t => bform (moved X V t) z lam) 0
  (lsum (fun e => pairing dim (p_nn e) (div_mesh dim (p_nh e) (p_nd e) (p_div_rule e) (pnodes e X) (d_el e z) (h_el e lam)) (pnodes e V)) M).
Proof. apply (DV_ext (fun t => ProjectorProofs.bform dim M p_div_rule (moved X V t) z lam)); [intros; apply AB|]. now apply bform_derive. Qed.
Lemma pot_continuous i : (i < n)%nat -> continuous (fun t => P t i) 0.
Proof.
  apply (solution_continuous n (fun t => sys (moved X V t)) (fun t => P t) (fun t => system_rhs n ess (diffusion dim M (moved X V t)) zero_vec (fun i => -1 * mv m (weak_div dim M (moved X V t)) x i)) (pcg (sys X))).
  - intros k j Hk Hj. unfold eliminated. destruct (ess k || ess j); [apply continuous_const|].
    apply (continuous_ext (fun t => dform (moved X V t) (unit j) (unit k))).
    + intros t. rewrite <- (diffusion_form dim n m NN M HN). rewrite dot_unit by exact Hk. now apply mv_unit.
    + eapply DV_continuous, dform_d.
  - intros k Hk. apply (continuous_ext (fun t => if ess k then 0 else -1 * bform (moved X V t) x (unit k))).
    + intros t. rewrite rhs_zero. destruct (ess k); [reflexivity|]. f_equal. rewrite <- (weak_div_form dim n m NN M HN). now apply dot_unit.
    + destruct (ess k); [apply continuous_const|]. eapply DV_continuous. apply (DV_scal (-1) (fun t => bform (moved X V t) x (unit k))). apply bform_d.
  - revert SX. apply filter_imp. intros t S. exact (S _).
  - cbv beta. rewrite moved_0'. assert (K := locally_singleton _ _ SX). cbv beta in K. rewrite moved_0' in K. exact K.
  - cbv beta. rewrite moved_0'. now apply sys_injective.
Qed.
Lemma projection_mesh_derive : is_derive (fun t => dot m bar (mv n G (P t))) 0 (pairing dim NN (mesh_sens dim M X (pot X x) (adj X bar) x) V).
Proof.
  destruct (adj_ok X bar TX) as [VL EL]. set (lam := adj X bar) in *.
  assert (S0 := locally_singleton _ _ SX). cbv beta in S0. rewrite moved_0' in S0.
  destruct (pot_ok X x S0) as [V0 E0].
  rewrite (mesh_sens_pair dim n m NN M X V HN).
  set (g := fun t => dot m bar (mv n G (pot X x)) + (dform (moved X V t) (P t) lam - dform X (P t) lam) + (bform (moved X V t) x lam - bform X x lam)).
  apply (is_derive_ext_loc g).
  { revert SX. apply filter_imp. intros t S. unfold g. destruct (pot_ok (moved X V t) x S) as [Vt Et].
    assert (A1 := EL (P t) Vt). assert (A2 := EL (pot X x) V0). assert (A3 := Et lam VL). assert (A4 := E0 lam VL). lra. }
  unfold g. apply (DV_eq _ 0 (0 + (lsum (fun e => pairing dim (p_nn e) (diff_mesh dim (p_nh e) (p_diff_rule e) (pnodes e X) (h_el e (pot X x)) (h_el e lam)) (pnodes e V)) M) +
    ((lsum (fun e => pairing dim (p_nn e) (div_mesh dim (p_nh e) (p_nd e) (p_div_rule e) (pnodes e X) (d_el e x) (h_el e lam)) (pnodes e V)) M) - 0))); [|ring].
  apply (DV_plus (fun t => dot m bar (mv n G (pot X x)) + (dform (moved X V t) (P t) lam - dform X (P t) lam)) (fun t => bform (moved X V t) x lam - bform X x lam)).
  - apply (DV_plus (fun _ => dot m bar (mv n G (pot X x))) (fun t => dform (moved X V t) (P t) lam - dform X (P t) lam)); [apply DV_const|].
    apply (DV_ext (fun t => rsum n (fun j => P t j * (dform (moved X V t) (unit j) lam - dform X (unit j) lam)))).
    { intros t. rewrite (dform_sum dim n m NN M HN p_rule (moved X V t)), (dform_sum dim n m NN M HN p_rule X), <- rsum_minus. apply rsum_ext. intros j _. unfold unit. ring. }
    set (d := fun j => lsum (fun e => pairing dim (p_nn e) (diff_mesh dim (p_nh e) (p_diff_rule e) (pnodes e X) (h_el e (unit j)) (h_el e lam)) (pnodes e V)) M).
    apply (DV_eq _ 0 (rsum n (fun j => pot X x j * d j))).
    + apply (DV_sum n (fun j t => P t j * (dform (moved X V t) (unit j) lam - dform X (unit j) lam))). intros j Hj.
      assert (K := DV_zero_mult (fun t => P t j) (fun t => dform (moved X V t) (unit j) lam - dform X (unit j) lam) 0 (d j) (pot_continuous j Hj)). cbv beta in K. rewrite moved_0' in K.
      apply K; [|ring]. apply (DV_eq _ 0 (d j - 0)); [|ring]. apply (DV_minus (fun t => dform (moved X V t) (unit j) lam) (fun _ => dform X (unit j) lam)); [apply dform_d|apply DV_const].
    + apply (DV_unique (fun t => dform (moved X V t) (pot X x) lam) 0); [|apply dform_d].
      apply (DV_ext (fun t => rsum n (fun j => pot X x j * dform (moved X V t) (unit j) lam))); [intros t; symmetry; apply (dform_sum dim n m NN M HN p_rule (moved X V t))|].
      apply (DV_sum n (fun j t => pot X x j * dform (moved X V t) (unit j) lam)). intros j Hj. apply DV_scal. apply dform_d.
  - apply (DV_minus (fun t => bform (moved X V t) x lam) (fun _ => bform X x lam)); [apply bform_d|apply DV_const].
Qed.
End MeshDerivative.
End Projection.
