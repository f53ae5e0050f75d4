(** Differentiability of functions of finitely many coordinates, and gradients by algorithmic differentiation.
    adept's stack.jacobian / compute_adjoint (an external library) is modelled by the partial derivatives of the very
    function that is recorded: what the integrators obtain from it is [partial]. *)
From Coq Require Import Reals Arith Lia Lra.
From Coquelicot Require Import Coquelicot.
From Verif Require Import Num Vec SbpSpec.
Local Open Scope R_scope.

Lemma rsum_single n k (f : nat -> R) : (k < n)%nat -> (forall j, (j < n)%nat -> j <> k -> f j = 0) -> rsum n f = f k.
Proof.
  intros Hk H. rewrite <- (rsum_delta n f k Hk). apply rsum_ext. intros j Hj. destruct (Nat.eqb_spec j k) as [->|E]; [reflexivity|apply H; assumption].
Qed.
Section Smooth.
Context {X : Type} (N : nat) (pi : nat -> X -> R).
(** a differentiable curve through x whose k-th coordinate has velocity v k *)
Definition xcurve (c : R -> X) (x : X) (v : nat -> R) : Prop :=
  c 0 = x /\ forall k, (k < N)%nat -> is_derive (fun s => pi k (c s)) 0 (v k).
(** g is the gradient of f at x: the derivative along every curve *)
Definition has_grad (f : X -> R) (x : X) (g : nat -> R) : Prop :=
  forall c v, xcurve c x v -> is_derive (fun s => f (c s)) 0 (rsum N (fun k => g k * v k)).
Definition smooth (f : X -> R) (x : X) : Prop := exists g, has_grad f x g.

Lemma grad_eq f x g h : (forall k, (k < N)%nat -> g k = h k) -> has_grad f x g -> has_grad f x h.
Proof. intros E H c v Hc. rewrite (rsum_ext _ _ (fun k => g k * v k)); [auto|]. intros k Hk. rewrite E by exact Hk. reflexivity. Qed.
Lemma smooth_ext f g x : (forall y, f y = g y) -> smooth f x -> smooth g x.
Proof. intros E [h H]. exists h. intros c v Hc. apply (is_derive_ext (fun s => f (c s))); [intros; apply E|auto]. Qed.
Lemma sm_const a x : smooth (fun _ => a) x.
Proof. exists (fun _ => 0). intros c v _. rewrite (rsum_ext _ _ (fun _ => 0)) by (intros; ring). rewrite rsum_0. apply (is_derive_const a 0). Qed.
Lemma sm_coord k x : (k < N)%nat -> smooth (pi k) x.
Proof.
  intros Hk. exists (fun j => if Nat.eqb j k then 1 else 0). intros c v [_ Hc].
  replace (rsum N (fun j => (if Nat.eqb j k then 1 else 0) * v j)) with (v k); [auto|].
  symmetry. rewrite (rsum_single N k) by (try exact Hk; intros j _ Hj; apply Nat.eqb_neq in Hj; rewrite Hj; ring).
  rewrite Nat.eqb_refl. ring.
Qed.
Lemma sm_plus f g x : smooth f x -> smooth g x -> smooth (fun y => f y + g y) x.
Proof.
  intros [a A] [b B]. exists (fun k => a k + b k). intros c v Hc.
  rewrite (rsum_ext _ _ (fun k => a k * v k + b k * v k)) by (intros; ring). rewrite rsum_plus.
  apply (is_derive_plus (fun s => f (c s)) (fun s => g (c s))); auto.
Qed.
(** composition with a differentiable function of one variable *)
Lemma sm_comp (h : R -> R) d f x : is_derive h (f x) d -> smooth f x -> smooth (fun y => h (f y)) x.
Proof.
  intros Hh [a A]. exists (fun k => d * a k). intros c v Hc.
  rewrite (rsum_ext _ _ (fun k => d * (a k * v k))) by (intros; ring). rewrite rsum_scal, Rmult_comm.
  apply (is_derive_comp h (fun s => f (c s))); [|auto]. destruct Hc as [-> _]. exact Hh.
Qed.
Lemma sm_opp f x : smooth f x -> smooth (fun y => - f y) x.
Proof. apply (sm_comp Ropp (-1)). auto_derive; [exact I|ring]. Qed.
Lemma sm_minus f g x : smooth f x -> smooth g x -> smooth (fun y => f y - g y) x.
Proof. intros A B. apply (sm_plus f (fun y => - g y)); [exact A|apply sm_opp; exact B]. Qed.
Lemma sm_mult f g x : smooth f x -> smooth g x -> smooth (fun y => f y * g y) x.
Proof.
  intros [a A] [b B]. exists (fun k => a k * g x + f x * b k). intros c v Hc.
  rewrite (rsum_ext _ _ (fun k => g x * (a k * v k) + f x * (b k * v k))) by (intros; ring). rewrite rsum_plus, !rsum_scal.
  replace (g x * rsum N (fun k => a k * v k) + f x * rsum N (fun k => b k * v k))
    with (rsum N (fun k => a k * v k) * g (c 0) + f (c 0) * rsum N (fun k => b k * v k)) by (destruct Hc as [-> _]; ring).
  apply (is_derive_mult (fun s => f (c s)) (fun s => g (c s)) 0); [auto|auto|intros; apply Rmult_comm].
Qed.
Lemma sm_inv f x : f x <> 0 -> smooth f x -> smooth (fun y => / f y) x.
Proof. intros H. apply (sm_comp Rinv (- / (f x * f x))). auto_derive; [exact H|field; exact H]. Qed.
Lemma sm_div f g x : g x <> 0 -> smooth f x -> smooth g x -> smooth (fun y => f y / g y) x.
Proof. intros H A B. unfold Rdiv. apply (sm_mult f (fun y => / g y)); [exact A|apply sm_inv; assumption]. Qed.
Lemma sm_sqrt f x : 0 < f x -> smooth f x -> smooth (fun y => sqrt (f y)) x.
Proof. intros H. apply (sm_comp sqrt (/ (2 * sqrt (f x)))). auto_derive; [exact H|field; apply Rgt_not_eq, sqrt_lt_R0; exact H]. Qed.
Lemma sm_ln f x : 0 < f x -> smooth f x -> smooth (fun y => ln (f y)) x.
Proof. intros H. apply (sm_comp ln (/ f x)). auto_derive; [exact H|field; apply Rgt_not_eq; exact H]. Qed.
Lemma sm_exp f x : smooth f x -> smooth (fun y => exp (f y)) x.
Proof. apply (sm_comp exp (exp (f x))). auto_derive; [exact I|ring]. Qed.
Lemma sm_Rpower f a x : 0 < f x -> smooth f x -> smooth (fun y => Rpower (f y) a) x.
Proof. intros H A. unfold Rpower. apply sm_exp. apply sm_mult; [apply sm_const|]. apply sm_ln; assumption. Qed.
Lemma sm_abs f x : f x <> 0 -> smooth f x -> smooth (fun y => Rabs (f y)) x.
Proof.
  intros H. apply (sm_comp Rabs (sign (f x))). replace (sign (f x)) with (1 * sign (f x)) by ring. rewrite Rmult_comm.
  apply (is_derive_Rabs (fun y => y) (f x) 1); [apply (is_derive_id (f x))|exact H].
Qed.
Lemma sm_rsum m (f : nat -> X -> R) x : (forall i, (i < m)%nat -> smooth (f i) x) -> smooth (fun y => rsum m (fun i => f i y)) x.
Proof.
  induction m as [|m IH]; intros H; cbn [rsum]; [apply sm_const|]. apply sm_plus; [apply IH; intros; apply H; lia|apply H; lia].
Qed.
Lemma sm_dot m (a b : X -> vec) x : (forall i, (i < m)%nat -> smooth (fun y => a y i) x) -> (forall i, (i < m)%nat -> smooth (fun y => b y i) x) ->
  smooth (fun y => dot m (a y) (b y)) x.
Proof. intros A B. apply (smooth_ext (fun y => rsum m (fun i => a y i * b y i))); [reflexivity|]. apply sm_rsum. intros i Hi. apply sm_mult; auto. Qed.
(** smooth functions are continuous along curves, so strict inequalities persist *)
Lemma curve_locally h x c v : smooth h x -> xcurve c x v -> 0 < h x -> locally 0 (fun s => 0 < h (c s)).
Proof.
  intros [g Hg] Hc Hx. specialize (Hg c v Hc).
  assert (C : continuous (fun s => h (c s)) 0) by (apply (ex_derive_continuous (fun s => h (c s)) 0); eexists; exact Hg).
  apply (C (fun y => 0 < y)). destruct Hc as [-> _]. apply (open_gt 0). exact Hx.
Qed.
Lemma sm_local h f g x : smooth h x -> 0 < h x -> (forall y, 0 < h y -> f y = g y) -> smooth g x -> smooth f x.
Proof.
  intros Hh Hx E [a A]. exists a. intros c v Hc. apply (is_derive_ext_loc (fun s => g (c s))); [|auto].
  generalize (curve_locally h x c v Hh Hc Hx). apply filter_imp. intros s Hs. symmetry. apply E. exact Hs.
Qed.
End Smooth.

(** ** vectors of n entries *)
Definition vcoord (k : nat) (q : vec) : R := q k.
Definition bump (q : vec) (k : nat) (t : R) : vec := fun j => if Nat.eqb j k then q j + t else q j.
(** the k-th partial derivative: what adept returns *)
Definition partial (f : vec -> R) (q : vec) (k : nat) : R := Derive (fun t => f (bump q k t)) 0.
Notation vsmooth n := (smooth n vcoord).
Lemma vcurve n c q v : xcurve n vcoord c q v <-> curve n c q v.
Proof. unfold xcurve, curve, vcoord. tauto. Qed.
Lemma bump_curve n q k : xcurve n vcoord (bump q k) q (fun j => if Nat.eqb j k then 1 else 0).
Proof.
  split; [|].
  - apply FunctionalExtensionality.functional_extensionality. intros j. unfold bump. destruct (Nat.eqb j k); ring.
  - intros j Hj. unfold bump, vcoord. destruct (Nat.eqb j k); auto_derive; trivial; ring.
Qed.
Lemma partial_of n f q g k : (k < n)%nat -> has_grad n vcoord f q g -> partial f q k = g k.
Proof.
  intros Hk H. unfold partial. apply is_derive_unique. specialize (H _ _ (bump_curve n q k)).
  rewrite (rsum_single n k) in H; [|exact Hk|intros j _ Hj; apply Nat.eqb_neq in Hj; rewrite Hj; ring].
  rewrite Nat.eqb_refl, Rmult_1_r in H. exact H.
Qed.
Lemma smooth_partial n f q : vsmooth n f q -> has_grad n vcoord f q (partial f q).
Proof. intros [g Hg]. apply (grad_eq n vcoord f q g); [|exact Hg]. intros k Hk. symmetry. apply (partial_of n); assumption. Qed.
(** vector-valued functions: the Jacobian by algorithmic differentiation is the Jacobian *)
Lemma smooth_jac ns (f : vec -> vec) u : (forall m, (m < ns)%nat -> vsmooth ns (fun q => f q m) u) ->
  has_jac ns f u (fun m k => partial (fun q => f q m) u k).
Proof. intros H c v Hc m Hm. apply (smooth_partial ns (fun q => f q m) u); [apply H; exact Hm|apply vcurve; exact Hc]. Qed.

(** ** pairs of vectors *)
Definition pcoord (n : nat) (k : nat) (z : vec * vec) : R := if Nat.ltb k n then fst z k else snd z (k - n)%nat.
Notation psmooth n := (smooth (n + n) (pcoord n)).
Lemma pcurve n c1 v1 c2 v2 u1 u2 : curve n c1 u1 v1 -> curve n c2 u2 v2 ->
  xcurve (n + n) (pcoord n) (fun s => (c1 s, c2 s)) (u1, u2) (fun k => if Nat.ltb k n then v1 k else v2 (k - n)%nat).
Proof.
  intros [A0 A] [B0 B]. split; [rewrite A0, B0; reflexivity|]. intros k Hk. unfold pcoord. cbn [fst snd].
  destruct (Nat.ltb_spec k n) as [L|L]; [apply A; exact L|apply B; lia].
Qed.
Lemma rsum_split n (f : nat -> R) : rsum (n + n) f = rsum n f + rsum n (fun k => f (n + k)%nat).
Proof.
  assert (G : forall m, rsum (n + m) f = rsum n f + rsum m (fun k => f (n + k)%nat)).
  { induction m as [|m IH]; [rewrite Nat.add_0_r; cbn; ring|]. rewrite Nat.add_succ_r. cbn [rsum]. rewrite IH. ring. }
  apply G.
Qed.
Lemma smooth_jac2 ns (f : vec -> vec -> vec) u1 u2 : (forall m, (m < ns)%nat -> psmooth ns (fun z => f (fst z) (snd z) m) (u1, u2)) ->
  has_jac2 ns f u1 u2 (fun m k => partial (fun q => f q u2 m) u1 k) (fun m k => partial (fun q => f u1 q m) u2 k).
Proof.
  intros H c1 v1 c2 v2 H1 H2 m Hm. destruct (H m Hm) as [g Hg].
  assert (G1 : has_grad ns vcoord (fun q => f q u2 m) u1 g).
  { intros c v Hc. apply (proj1 (vcurve ns c _ v)) in Hc.
    assert (C2 : curve ns (fun _ => u2) u2 (fun _ => 0)) by (split; [reflexivity|intros kk _; exact (is_derive_const (K:=R_AbsRing) (V:=R_NormedModule) _ 0)]).
    specialize (Hg _ _ (pcurve ns c v _ _ u1 u2 Hc C2)). cbn [fst snd] in Hg. rewrite rsum_split in Hg.
    rewrite (rsum_ext ns (fun k => g (ns + k)%nat * _) (fun _ => 0)) in Hg.
    2:{ intros k Hk. destruct (Nat.ltb_spec (ns + k) ns); [lia|ring]. }
    rewrite rsum_0, Rplus_0_r in Hg. rewrite (rsum_ext ns _ (fun k => g k * v k)) in Hg; [exact Hg|].
    intros k Hk. destruct (Nat.ltb_spec k ns); [reflexivity|lia]. }
  assert (G2 : has_grad ns vcoord (fun q => f u1 q m) u2 (fun k => g (ns + k)%nat)).
  { intros c v Hc. apply (proj1 (vcurve ns c _ v)) in Hc.
    assert (C1 : curve ns (fun _ => u1) u1 (fun _ => 0)) by (split; [reflexivity|intros kk _; exact (is_derive_const (K:=R_AbsRing) (V:=R_NormedModule) _ 0)]).
    specialize (Hg _ _ (pcurve ns _ _ c v u1 u2 C1 Hc)). cbn [fst snd] in Hg. rewrite rsum_split in Hg.
    rewrite (rsum_ext ns _ (fun _ => 0)) in Hg.
    2:{ intros k Hk. destruct (Nat.ltb_spec k ns); [ring|lia]. }
    rewrite rsum_0, Rplus_0_l in Hg. rewrite (rsum_ext ns _ (fun k => g (ns + k)%nat * v k)) in Hg; [exact Hg|].
    intros k Hk. destruct (Nat.ltb_spec (ns + k) ns); [lia|]. repeat f_equal. lia. }
  specialize (Hg _ _ (pcurve ns c1 v1 c2 v2 u1 u2 H1 H2)). cbn [fst snd] in Hg. rewrite rsum_split in Hg.
  replace (rsum ns (fun k => partial (fun q => f q u2 m) u1 k * v1 k) + rsum ns (fun k => partial (fun q => f u1 q m) u2 k * v2 k))
    with (rsum ns (fun k => g k * (if Nat.ltb k ns then v1 k else v2 (k - ns)%nat)) +
          rsum ns (fun k => g (ns + k)%nat * (if Nat.ltb (ns + k) ns then v1 (ns + k)%nat else v2 (ns + k - ns)%nat))); [exact Hg|].
  f_equal; apply rsum_ext; intros k Hk.
  - destruct (Nat.ltb_spec k ns); [|lia]. rewrite (partial_of ns _ _ g k Hk G1). reflexivity.
  - destruct (Nat.ltb_spec (ns + k) ns); [lia|]. rewrite (partial_of ns _ _ _ k Hk G2). do 2 f_equal. lia.
Qed.

(** ** a vector and d columns *)
Definition ccoord (n d : nat) (k : nat) (z : vec * (nat -> vec)) : R :=
  if Nat.ltb k n then fst z k else snd z ((k - n) / n)%nat ((k - n) mod n)%nat.
Notation csmooth n d := (smooth (n + d * n) (ccoord n d)).
Lemma rsum_prod d n (f : nat -> R) : rsum (d * n) f = rsum d (fun e => rsum n (fun k => f (e * n + k)%nat)).
Proof.
  induction d as [|d IH]; [reflexivity|]. cbn [rsum]. rewrite <- IH, <- rsum_app. f_equal. lia.
Qed.
Lemma ccurve n d c v (cD : R -> nat -> vec) vD u D : curve n c u v -> cD 0 = D -> (forall k, (k < d)%nat -> curve n (fun s => cD s k) (D k) (vD k)) ->
  xcurve (n + d * n) (ccoord n d) (fun s => (c s, cD s)) (u, D) (fun k => if Nat.ltb k n then v k else vD ((k - n) / n)%nat ((k - n) mod n)%nat).
Proof.
  intros [A0 A] B0 B. split; [rewrite A0, B0; reflexivity|]. intros k Hk. unfold ccoord. cbn [fst snd].
  destruct (Nat.ltb_spec k n) as [L|L]; [apply A; exact L|].
  assert (Hn : (0 < n)%nat) by (destruct n; [rewrite Nat.mul_0_r in Hk; lia|lia]).
  apply (B ((k - n) / n)%nat); [apply Nat.div_lt_upper_bound; lia|apply Nat.mod_upper_bound; lia].
Qed.
(** the e-th column replaced *)
Definition setcol (D : nat -> vec) (e : nat) (q : vec) : nat -> vec := fun j => if Nat.eqb j e then q else D j.
Lemma smooth_jac_cols ns d (f : vec -> (nat -> vec) -> vec) u D :
  (forall m, (m < ns)%nat -> csmooth ns d (fun z => f (fst z) (snd z) m) (u, D)) ->
  has_jac_cols ns d f u D (fun m k => partial (fun q => f q D m) u k) (fun e m k => partial (fun q => f u (setcol D e q) m) (D e) k).
Proof.
  intros H c v cD vD H1 H2 H3 m Hm. destruct (H m Hm) as [g Hg].
  assert (DM : forall e k, (k < ns)%nat -> ((e * ns + k) / ns)%nat = e /\ ((e * ns + k) mod ns)%nat = k).
  { intros e k Hk. rewrite Nat.add_comm. split; [rewrite Nat.div_add by lia; rewrite Nat.div_small by lia; lia|rewrite Nat.mod_add by lia; apply Nat.mod_small; lia]. }
  assert (Gen : forall c v cD vD, curve ns c u v -> cD 0 = D -> (forall k, (k < d)%nat -> curve ns (fun s => cD s k) (D k) (vD k)) ->
    is_derive (fun s => f (c s) (cD s) m) 0 (rsum ns (fun k => g k * v k) + rsum d (fun e => rsum ns (fun k => g (ns + (e * ns + k))%nat * vD e k)))).
  { intros c' v' cD' vD' A B C. specialize (Hg _ _ (ccurve ns d c' v' cD' vD' u D A B C)). cbn [fst snd] in Hg.
    rewrite rsum_app, rsum_prod in Hg.
    replace (rsum ns (fun k => g k * v' k)) with (rsum ns (fun k => g k * (if Nat.ltb k ns then v' k else vD' ((k - ns) / ns)%nat ((k - ns) mod ns)%nat))).
    2:{ apply rsum_ext. intros k Hk. destruct (Nat.ltb_spec k ns); [reflexivity|lia]. }
    replace (rsum d (fun e => rsum ns (fun k => g (ns + (e * ns + k))%nat * vD' e k))) with
      (rsum d (fun e => rsum ns (fun k => g (ns + (e * ns + k))%nat * (if Nat.ltb (ns + (e * ns + k)) ns then v' (ns + (e * ns + k))%nat else vD' ((ns + (e * ns + k) - ns) / ns)%nat ((ns + (e * ns + k) - ns) mod ns)%nat)))); [exact Hg|].
    apply rsum_ext. intros e He. apply rsum_ext. intros k Hk. destruct (Nat.ltb_spec (ns + (e * ns + k)) ns); [lia|].
    replace (ns + (e * ns + k) - ns)%nat with (e * ns + k)%nat by lia. destruct (DM e k Hk) as [-> ->]. reflexivity. }
  assert (CC : forall e, curve ns (fun _ : R => D e) (D e) (fun _ => 0)) by (intros e; split; [reflexivity|intros kk _; exact (is_derive_const (K:=R_AbsRing) (V:=R_NormedModule) _ 0)]).
  assert (CU : curve ns (fun _ : R => u) u (fun _ => 0)) by (split; [reflexivity|intros kk _; exact (is_derive_const (K:=R_AbsRing) (V:=R_NormedModule) _ 0)]).
  assert (G1 : has_grad ns vcoord (fun q => f q D m) u g).
  { intros c' v' Hc. apply (proj1 (vcurve ns c' _ v')) in Hc. specialize (Gen c' v' (fun _ => D) (fun _ _ => 0) Hc eq_refl (fun k _ => CC k)).
    rewrite (rsum_ext d _ (fun _ => 0)), rsum_0, Rplus_0_r in Gen; [exact Gen|]. intros e He. rewrite (rsum_ext ns _ (fun _ => 0)) by (intros; ring). apply rsum_0. }
  assert (G2 : forall e, (e < d)%nat -> has_grad ns vcoord (fun q => f u (setcol D e q) m) (D e) (fun k => g (ns + (e * ns + k))%nat)).
  { intros e He c' v' Hc. apply vcurve in Hc. destruct Hc as [C0 C1].
    specialize (Gen (fun _ => u) (fun _ => 0) (fun s => setcol D e (c' s)) (fun j => if Nat.eqb j e then v' else (fun _ => 0)) CU).
    assert (E0 : setcol D e (c' 0) = D).
    { apply FunctionalExtensionality.functional_extensionality. intros j. unfold setcol. destruct (Nat.eqb_spec j e) as [->|]; [exact C0|reflexivity]. }
    specialize (Gen E0).
    assert (CD : forall k, (k < d)%nat -> curve ns (fun s => setcol D e (c' s) k) (D k) (if Nat.eqb k e then v' else (fun _ => 0))).
    { intros k Hk. unfold setcol. destruct (Nat.eqb_spec k e) as [->|]; [split; assumption|apply CC]. }
    specialize (Gen CD). cbv beta in Gen. rewrite (rsum_ext ns (fun k => g k * _) (fun _ => 0)), rsum_0, Rplus_0_l in Gen by (intros; ring).
    rewrite (rsum_single d e) in Gen; [rewrite Nat.eqb_refl in Gen; exact Gen|exact He|].
    intros j _ Hj. apply Nat.eqb_neq in Hj. rewrite Hj. rewrite (rsum_ext ns _ (fun _ => 0)) by (intros; ring). apply rsum_0. }
  specialize (Gen c v cD vD H1 H2 H3).
  replace (rsum ns (fun k => partial (fun q => f q D m) u k * v k)) with (rsum ns (fun k => g k * v k)).
  2:{ apply rsum_ext. intros k Hk. rewrite (partial_of ns _ _ g k Hk G1). reflexivity. }
  rewrite (rsum_ext d _ (fun e => rsum ns (fun k => g (ns + (e * ns + k))%nat * vD e k))); [exact Gen|].
  intros e He. apply rsum_ext. intros k Hk. rewrite (partial_of ns _ _ _ k Hk (G2 e He)). reflexivity.
Qed.
