(** C89 - C93: the irrotational and the divergence-free projector. *)
From Coq Require Import Reals List Bool Arith Lia Lra FunctionalExtensionality.
From Coquelicot Require Import Coquelicot.
From Verif Require Import Vec Deriv EmInteg EmIntegSpec EmMeshProofs IsoGeom SbpSpec SbpMeshProofs CommonFun CommonFunProofs Projector ProjectorSpec ProjectorProofs.
Import ListNotations.
Local Open Scope R_scope.

(** *** the example mesh: a quadrilateral with corners 0..3 and an inner vertex 4, cut into the triangles (k, k+1, 4); edge k
    goes from corner k to the next, edge 4+k from corner k to the inner vertex; lowest-order elements, one-point rule *)
Definition nxt (k : nat) : nat := match k with 3 => 0 | k => S k end%nat.
Definition lam_grad (i a : nat) : R := match i, a with O, _ => -1 | S O, O => 1 | S (S O), S O => 1 | _, _ => 0 end.
(** Whitney functions of the local edges 0-1, 1-2, 2-0 at the barycentre *)
Definition whitney (i a : nat) : R := match i with O => / 3 * (lam_grad 1 a - lam_grad 0 a) | S O => / 3 * (lam_grad 2 a - lam_grad 1 a) | _ => / 3 * (lam_grad 0 a - lam_grad 2 a) end.
Definition fan_rule : rule := {| r_nq := 1; r_pw := fun _ => 1 / 2; r_dN := fun _ => lam_grad; r_V := fun _ => whitney;
  r_Adj := fun _ => adjm2 3 lam_grad; r_AdjRev := fun _ => adjm2_rev lam_grad; r_W := fun _ => wt2 3 lam_grad; r_WRev := fun _ => wt2_rev 3 lam_grad |}.
Definition fan (k : nat) : pelem := {| p_nn := 3; p_node := fun j => match j with O => k | S O => nxt k | _ => 4%nat end;
  p_nh := 3; p_h := fun j => match j with O => k | S O => nxt k | _ => 4%nat end;
  p_nd := 3; p_d := fun j => match j with O => k | S O => 4 + nxt k | _ => 4 + k end%nat; p_sg := fun j => match j with S (S _) => -1 | _ => 1 end;
  p_rule := fan_rule; p_diff_rule := fan_rule; p_div_rule := fan_rule |}.
Definition fans : list pelem := map fan [0; 1; 2; 3]%nat.
Definition fan_ess (i : nat) : bool := Nat.ltb i 4.
Definition fan_G (e v : nat) : R := if Nat.ltb e 4 then (if Nat.eqb v (nxt e) then 1 else if Nat.eqb v e then -1 else 0)
  else (if Nat.eqb v 4 then 1 else if Nat.eqb v (e - 4) then -1 else 0).
Definition fan_pcg (A : mat) (b : vec) : vec := fun i => b i / A i i.
(** the square with corners (0,0), (1,0), (1,1), (0,1), inner vertex (1/2, 1/2) *)
Definition box : mat := fun k j => match j with O => 0 | S O => match k with O => 1 | _ => 0 end | 2%nat => 1 | 3%nat => match k with O => 0 | _ => 1 end | _ => 1 / 2 end.
Lemma fans_in e : In e fans -> exists k, (k < 4)%nat /\ e = fan k.
Proof. intros H. apply in_map_iff in H. destruct H as [k [E K]]. exists k. split; [|now symmetry]. cbn in K. lia. Qed.
Lemma fans_numbered : pnumbered 5 8 5 fans.
Proof.
  intros e H. destruct (fans_in e H) as [k [Hk ->]].
  destruct k as [|[|[|[|k]]]]; try lia; (split; [|split]); intros [|[|[|i]]] Hi; cbn in *; lia.
Qed.
Lemma fans_gradients : takes_gradients 2 5 fan_G fans.
Proof.
  intros e q c psi H Hq Hc. destruct (fans_in e H) as [k [Hk ->]]. unfold mv, fan_G.
  destruct k as [|[|[|[|k]]]]; try lia; destruct c as [|[|c]]; try lia; cbn; unfold whitney, lam_grad; cbn; field.
Qed.
Lemma fans_box : pvalid fans box.
Proof.
  intros e q H Hq. destruct (fans_in e H) as [k [Hk ->]]. cbn in Hq. cbn. unfold wt2, det2, iso_jac, lam_grad, box.
  destruct k as [|[|[|[|k]]]]; try lia; cbn; split; lra.
Qed.
Lemma fans_sees : rule_sees_gradients 2 5 fan_ess fans box.
Proof.
  intros psi V H. assert (K0 := H (fan 0) 0%nat 1%nat ltac:(now left) ltac:(cbn; lia) ltac:(lia)).
  assert (Z0 := V 0%nat ltac:(lia) eq_refl). assert (Z1 := V 1%nat ltac:(lia) eq_refl). assert (Z2 := V 2%nat ltac:(lia) eq_refl). assert (Z3 := V 3%nat ltac:(lia) eq_refl).
  unfold grad_of, covariant in K0. cbn in K0. unfold adjm2, adj2, wt2, det2, iso_jac, lam_grad, box in K0. cbn in K0. rewrite Z0, Z1 in K0.
  intros [|[|[|[|[|i]]]]] Hi; auto; try lia. field_simplify in K0. lra.
Qed.
Lemma fans_sys X i j : (i < 5)%nat -> (j < 5)%nat -> i <> j -> eliminated fan_ess (diffusion 2 fans X) i j = 0.
Proof.
  intros Hi Hj N. unfold eliminated, fan_ess. destruct (Nat.ltb_spec i 4), (Nat.ltb_spec j 4); cbn; try (destruct (Nat.eqb_spec i j); [lia|reflexivity]). lia.
Qed.
Lemma fans_solve X : diffusion 2 fans X 4%nat 4%nat <> 0 ->
  solves_system 5 fan_pcg (eliminated fan_ess (diffusion 2 fans X)) /\ solves_system 5 fan_pcg (transposed (eliminated fan_ess (diffusion 2 fans X))).
Proof.
  intros N.
  assert (D : forall i, (i < 5)%nat -> eliminated fan_ess (diffusion 2 fans X) i i <> 0).
  { intros i Hi. unfold eliminated, fan_ess. destruct (Nat.ltb_spec i 4); cbn; [rewrite Nat.eqb_refl; lra|]. replace i with 4%nat by lia. exact N. }
  split; intros b i Hi; unfold mv, transposed, fan_pcg.
  - rewrite (rsum_ext 5 _ (fun j => if Nat.eqb j i then b j else 0)); [now apply (rsum_delta 5 b)|].
    intros j Hj. destruct (Nat.eqb_spec j i) as [->|E]; [field; now apply D|]. rewrite fans_sys by (auto; lia). ring.
  - rewrite (rsum_ext 5 _ (fun j => if Nat.eqb j i then b j else 0)); [now apply (rsum_delta 5 b)|].
    intros j Hj. destruct (Nat.eqb_spec j i) as [->|E]; [field; now apply D|]. rewrite fans_sys by (auto; lia). ring.
Qed.
Lemma fans_box_D : diffusion 2 fans box 4%nat 4%nat = 4.
Proof.
  unfold diffusion, fans, lsum. cbn -[el_diff]. rewrite ?Rplus_0_l, ?Rplus_0_r. unfold el_diff, Dxt, dshapedxt, pnodes. cbn.
  unfold adjm2, adj2, wt2, det2, iso_jac, lam_grad, box. cbn. field.
Qed.
Lemma fans_box_solve : solves_system 5 fan_pcg (eliminated fan_ess (diffusion 2 fans box)) /\ solves_system 5 fan_pcg (transposed (eliminated fan_ess (diffusion 2 fans box))).
Proof. apply fans_solve. rewrite fans_box_D. lra. Qed.

Section Claims.
Variables (dim n m NN : nat) (M : list pelem) (ess : nat -> bool) (G : mat) (pcg : mat -> vec -> vec) (X : mat).
(** what a new projector returns when applied to x with the mesh at X *)
Notation irrotational x := (snd (irrot_mult dim M n m ess G pcg X new_projector x)).
Notation divergence_free x := (snd (divfree_mult dim M n m ess G pcg X new_projector x false)).
Notation length2 x := (nd_inner dim M X x x).
Hypothesis HN : pnumbered n m NN M.
Hypothesis HV : pvalid M X.
Hypothesis HG : takes_gradients dim n G M.
Hypothesis HS : solves_system n pcg (eliminated ess (diffusion dim M X)).

(** ** C89 *)
(** the result is the gradient of a function that vanishes on the boundary, so whatever matrix maps gradients to zero (the
    discrete curl) maps the result to zero; what is left is weakly divergence free *)
Theorem C89_irrotational : forall x,
  (exists psi, vanishes n ess psi /\ irrotational x = mv n G psi) /\
  (forall k C, (forall psi, veq k (mv m C (mv n G psi)) (fun _ => 0)) -> veq k (mv m C (irrotational x)) (fun _ => 0)) /\
  weakly_divergence_free dim n ess M X (fun j => x j - irrotational x j).
Proof.
  intros x. destruct (pot_ok dim n m NN M ess pcg HN X x HS) as [A B]. split; [|split].
  - exists (potential n m ess pcg (refresh dim M X new_projector) x). split; [exact A|reflexivity].
  - intros k C H. apply H.
  - intros phi P. set (psi := potential n m ess pcg (refresh dim M X new_projector) x) in *.
    rewrite (inner_ext dim M X _ (fun e q c => field_of dim e X x q c + -1 * grad_of dim e X psi q c) _ (fun e => grad_of dim e X phi)); [|intros e q c He Hq Hc|reflexivity].
    + rewrite (inner_axpy dim M X (fun e => field_of dim e X x) (fun e => grad_of dim e X psi) (fun e => grad_of dim e X phi) (-1)), (div_inner dim M X x phi HV), (grad_inner dim M X psi phi HV), (B phi P). ring.
    + rewrite <- (field_gradient dim n M G X psi HG e q c He Hq). rewrite <- field_lin. f_equal. extensionality j. change (x j - mv n G psi j = x j + -1 * mv n G psi j). ring.
Qed.

(** of all gradients of functions that vanish on the boundary the result is the closest to x; squared lengths add up *)
Theorem C89_closest : forall x,
  (forall phi, vanishes n ess phi -> length2 (fun j => x j - irrotational x j) <= length2 (fun j => x j - mv n G phi j)) /\
  length2 x = length2 (irrotational x) + length2 (fun j => x j - irrotational x j).
Proof.
  intros x. destruct (C89_irrotational x) as [[psi [A E]] [_ W]]. rewrite E in *.
  assert (Orth : forall phi, vanishes n ess phi -> nd_inner dim M X (fun j => x j - mv n G psi j) (mv n G phi) = 0).
  { intros phi P. rewrite <- (W phi P). unfold nd_inner. apply inner_ext; [reflexivity|]. intros e q c He Hq _. now apply (field_gradient dim n M G X). }
  assert (Lin : forall u a v w, nd_inner dim M X (fun j => u j + a * v j) w = nd_inner dim M X u w + a * nd_inner dim M X v w).
  { intros u a v w. unfold nd_inner. rewrite <- inner_axpy. apply inner_ext; [|reflexivity]. intros; apply field_lin. }
  assert (Com : forall u v, nd_inner dim M X u v = nd_inner dim M X v u) by (intros; apply inner_comm).
  assert (Sq : forall u a v, nd_inner dim M X (fun j => u j + a * v j) (fun j => u j + a * v j) = nd_inner dim M X u u + 2 * a * nd_inner dim M X u v + a * a * nd_inner dim M X v v).
  { intros u a v. rewrite Lin, (Com u), (Com v), !Lin, (Com v u). ring. }
  assert (Pos : forall u, 0 <= nd_inner dim M X u u) by (intros; now apply inner_pos).
  split.
  - intros phi P. assert (D : vanishes n ess (fun i => psi i + -1 * phi i)) by (now apply vanish_lin).
    set (r := fun j => x j - mv n G psi j) in *.
    replace (fun j => x j - mv n G phi j) with (fun j => r j + 1 * mv n G (fun i => psi i + -1 * phi i) j).
    + rewrite Sq, (Orth _ D). assert (K := Pos (mv n G (fun i => psi i + -1 * phi i))). lra.
    + extensionality j. rewrite mv_lin. unfold r. ring.
  - assert (O := Orth psi A). set (r := fun j => x j - mv n G psi j) in *.
    replace (nd_inner dim M X x x) with (nd_inner dim M X (fun j => r j + 1 * mv n G psi j) (fun j => r j + 1 * mv n G psi j)).
    + rewrite Sq, O. ring.
    + f_equal; extensionality j; unfold r; ring.
Qed.

(** gradients of functions that vanish on the boundary are left alone; hence the projection is idempotent; it is linear *)
Theorem C89_projection : rule_sees_gradients dim n ess M X -> forall x,
  (forall phi, vanishes n ess phi -> forall j, irrotational (mv n G phi) j = mv n G phi j) /\
  (forall j, irrotational (irrotational x) j = irrotational x j) /\
  (forall a y j, irrotational (fun i => x i + a * y i) j = irrotational x j + a * irrotational y j).
Proof.
  intros R x.
  assert (Fix : forall phi, vanishes n ess phi -> forall j, irrotational (mv n G phi) j = mv n G phi j).
  { intros phi P j. apply mv_ext; [reflexivity|]. apply (pot_unique dim n m NN M ess pcg HN X (mv n G phi) phi HS HV R P).
    intros chi C. rewrite <- (grad_inner dim M X phi chi HV), <- (div_inner dim M X _ chi HV). apply inner_ext; [|reflexivity].
    intros e q c He Hq _. symmetry. now apply (field_gradient dim n M G X). }
  split; [exact Fix|split].
  - intros j. destruct (C89_irrotational x) as [[psi [A E]] _]. rewrite E. now apply Fix.
  - intros a y j. cbn [irrot_mult snd]. rewrite <- mv_lin. apply mv_ext; [reflexivity|].
    destruct (pot_ok dim n m NN M ess pcg HN X x HS) as [Ax Bx]. destruct (pot_ok dim n m NN M ess pcg HN X y HS) as [Ay By].
    apply (pot_unique dim n m NN M ess pcg HN X (fun i => x i + a * y i) _ HS HV R); [now apply vanish_lin|].
    intros chi C. rewrite dform_lin, (Bx chi C), (By chi C), <- !(div_inner dim M X _ chi HV).
    rewrite (inner_ext dim M X (fun e => field_of dim e X (fun i => x i + a * y i)) (fun e q c => field_of dim e X x q c + a * field_of dim e X y q c) _ (fun e => grad_of dim e X chi)); [|intros; apply field_lin|reflexivity].
    rewrite (inner_axpy dim M X (fun e => field_of dim e X x) (fun e => field_of dim e X y) (fun e => grad_of dim e X chi) a). ring.
Qed.

(** ** C90 *)
(** the result is weakly divergence free, has the curl of x, and with the irrotational part adds up to x *)
Theorem C90_divergence_free : forall x,
  weakly_divergence_free dim n ess M X (divergence_free x) /\
  (forall k C, (forall psi, veq k (mv m C (mv n G psi)) (fun _ => 0)) -> veq k (mv m C (divergence_free x)) (mv m C x)) /\
  (forall j, irrotational x j + divergence_free x j = x j) /\
  length2 (divergence_free x) <= length2 x.
Proof.
  intros x. destruct (C89_irrotational x) as [_ [C W]].
  assert (E : divergence_free x = fun j => x j - irrotational x j) by (extensionality j; cbn; ring).
  rewrite E. split; [exact W|split; [|split]].
  - intros k K HK i Hi. replace (fun j => x j - irrotational x j) with (fun j => x j + -1 * irrotational x j) by (extensionality j; ring).
    rewrite mv_lin, (C k K HK i Hi). ring.
  - intros j. ring.
  - destruct (C89_closest x) as [_ P]. rewrite P. assert (K := inner_pos dim M X (fun e => field_of dim e X (irrotational x)) HV). unfold nd_inner in *. lra.
Qed.
(** fields that are weakly divergence free are left alone, gradients of functions that vanish on the boundary are removed,
    projecting again changes nothing *)
Theorem C90_projection : rule_sees_gradients dim n ess M X -> forall x,
  (weakly_divergence_free dim n ess M X x -> forall j, divergence_free x j = x j) /\
  (forall phi, vanishes n ess phi -> forall j, divergence_free (mv n G phi) j = 0) /\
  (forall j, divergence_free (divergence_free x) j = divergence_free x j).
Proof.
  intros R.
  assert (Fix : forall x, weakly_divergence_free dim n ess M X x -> forall j, divergence_free x j = x j).
  { intros x W j. assert (Z : irrotational x j = 0); [|cbn in *; rewrite Z; ring].
    assert (Q : veq n (potential n m ess pcg (refresh dim M X new_projector) x) (fun _ => 0)).
    { apply (pot_unique dim n m NN M ess pcg HN X x (fun _ => 0) HS HV R); [intros i _ _; reflexivity|]. intros phi P.
      rewrite <- (div_inner dim M X x phi HV), (W phi P). rewrite (dform_sum dim n m NN M HN p_rule X). rewrite (rsum_ext n _ (fun _ => 0)); [apply rsum_0|intros; ring]. }
    cbn [irrot_mult snd]. unfold mv. rewrite (rsum_ext n _ (fun _ => 0)); [apply rsum_0|]. intros i Hi. rewrite (Q i Hi). ring. }
  intros x. split; [apply Fix|split].
  - intros phi P j. destruct (C89_projection R x) as [A _]. assert (K := A phi P j). cbn in *. rewrite K. ring.
  - intros j. apply Fix. apply C90_divergence_free.
Qed.

(** ** C91: the products with respect to "in" are the transposes, added to what the argument held *)
Theorem C91_transposed : solves_system n pcg (transposed (eliminated ess (diffusion dim M X))) -> forall x bar acc,
  dot m (snd (irrot_vjp_in dim M n m ess G pcg X new_projector bar acc)) x = dot m acc x + dot m bar (irrotational x) /\
  dot m (snd (divfree_vjp_in dim M n m ess G pcg X new_projector bar acc)) x = dot m acc x + dot m bar (divergence_free x).
Proof.
  intros HT.
  assert (Base : forall x bar acc, dot m (snd (irrot_vjp_in dim M n m ess G pcg X new_projector bar acc)) x = dot m acc x + dot m bar (irrotational x)).
  { intros x bar acc. cbn [irrot_vjp_in irrot_mult snd].
    destruct (pot_ok dim n m NN M ess pcg HN X x HS) as [A B]. destruct (adj_ok dim n m NN M ess G pcg HN X bar HT) as [AT BT].
    set (psi := potential n m ess pcg (refresh dim M X new_projector) x) in *. set (lam := adjoint_potential n m ess G pcg (refresh dim M X new_projector) bar) in *.
    assert (E1 := BT psi A). assert (E2 := B lam AT). assert (E3 := weak_div_form dim n m NN M HN X lam x).
    rewrite mv_adj_rect in E3. change (dot m (vadd acc (mvT n (weak_div dim M X) lam)) x = dot m acc x + dot m bar (mv n G psi)). rewrite dot_plus_l, E3. lra. }
  intros x bar acc. split; [apply Base|]. cbn [divfree_vjp_in].
  change (dot m (vadd (snd (irrot_vjp_in dim M n m ess G pcg X new_projector (fun j => -1 * bar j) acc)) bar) x = dot m acc x + dot m bar (divergence_free x)).
  rewrite dot_plus_l, Base.
  replace (dot m bar (divergence_free x)) with (dot m bar x - dot m bar (irrotational x)).
  - change (fun j => -1 * bar j) with (vscal (-1) bar). rewrite dot_scal_l. ring.
  - unfold dot. rewrite <- rsum_minus. apply rsum_ext. intros i _. cbn. ring.
Qed.
End Claims.
Print Assumptions C89_irrotational.
Print Assumptions C89_closest.
Print Assumptions C89_projection.
Print Assumptions C90_divergence_free.
Print Assumptions C90_projection.
Print Assumptions C91_transposed.

Example C89_nonvacuous : pnumbered 5 8 5 fans /\ pvalid fans box /\ takes_gradients 2 5 fan_G fans /\ rule_sees_gradients 2 5 fan_ess fans box /\
  solves_system 5 fan_pcg (eliminated fan_ess (diffusion 2 fans box)) /\ solves_system 5 fan_pcg (transposed (eliminated fan_ess (diffusion 2 fans box))).
Proof.
  split; [exact fans_numbered|]. split; [exact fans_box|]. split; [exact fans_gradients|]. split; [exact fans_sees|]. exact fans_box_solve.
Qed.
(** a field that is neither a gradient nor divergence free: one edge of the inner star *)
Definition one_edge : vec := fun j => if Nat.eqb j 4 then 1 else 0.
Example C89_values : snd (irrot_mult 2 fans 5 8 fan_ess fan_G fan_pcg box new_projector one_edge) 4%nat = 1 / 4 /\
  snd (divfree_mult 2 fans 5 8 fan_ess fan_G fan_pcg box new_projector one_edge false) 4%nat = 3 / 4.
Proof.
  assert (P : potential 5 8 fan_ess fan_pcg (refresh 2 fans box new_projector) one_edge 4%nat = 1 / 4 /\ forall i, (i < 4)%nat -> potential 5 8 fan_ess fan_pcg (refresh 2 fans box new_projector) one_edge i = 0).
  { split.
    - unfold potential, fan_pcg. rewrite rhs_zero. cbn [fan_ess Nat.ltb Nat.leb refresh new_projector dirty Dmat Bmat].
      replace (eliminated fan_ess (diffusion 2 fans box) 4%nat 4%nat) with 4 by (symmetry; exact fans_box_D).
      unfold mv, weak_div, fans, lsum, one_edge. cbn -[el_wdiv]. rewrite ?Rmult_0_r, ?Rplus_0_l, ?Rplus_0_r, ?Rmult_1_r.
      unfold el_wdiv, Dxt, Vxt, dshapedxt, pnodes. cbn. unfold adjm2, adj2, wt2, det2, iso_jac, whitney, lam_grad, box. cbn. field.
    - intros i Hi. unfold potential, fan_pcg. rewrite rhs_zero. unfold fan_ess. destruct (Nat.ltb_spec i 4); [|lia]. unfold Rdiv. ring. }
  destruct P as [P4 P0]. assert (E : snd (irrot_mult 2 fans 5 8 fan_ess fan_G fan_pcg box new_projector one_edge) 4%nat = 1 / 4).
  { cbn [irrot_mult snd]. unfold mv. cbn [rsum]. rewrite P4, !P0 by lia. unfold fan_G. cbn. field. }
  split; [exact E|]. cbn [divfree_mult]. change (-1 * (snd (irrot_mult 2 fans 5 8 fan_ess fan_G fan_pcg box new_projector one_edge) 4%nat - one_edge 4%nat) = 3 / 4). rewrite E. unfold one_edge. cbn. field.
Qed.

(** C90 is false of y.Mult in place: projecting a vector onto itself returns zero. *)
Theorem C90_in_place_refuted :
  (forall dim M n m ess G pcg X p x j, snd (divfree_mult dim M n m ess G pcg X p x true) j = 0) /\
  ~ (forall dim M n m ess G pcg X x j, snd (divfree_mult dim M n m ess G pcg X new_projector x true) j = snd (divfree_mult dim M n m ess G pcg X new_projector x false) j).
Proof.
  assert (Z : forall dim M n m ess G pcg X p x j, snd (divfree_mult dim M n m ess G pcg X p x true) j = 0) by (intros; cbn; ring).
  split; [exact Z|]. intros H. assert (K := H 2%nat fans 5%nat 8%nat fan_ess fan_G fan_pcg box one_edge 4%nat). rewrite Z in K. rewrite (proj2 C89_values) in K. lra.
Qed.
Print Assumptions C90_in_place_refuted.

(** ** C92: with respect to "mesh_coords" the products are derivatives along any movement V of the mesh, added to what the
    argument held, when the default rules of the two sensitivities give the element matrices of the rule of the projector
    (ir_order); x must be a grid function. *)
Section C92.
Variables (dim n m NN : nat) (M : list pelem) (ess : nat -> bool) (G : mat) (pcg : mat -> vec -> vec) (X V : mat).
Hypothesis HN : pnumbered n m NN M.
Hypothesis HV : pvalid M X.
Hypothesis HR : rule_sees_gradients dim n ess M X.
Hypothesis HS : exists d, 0 < d /\ forall t, Rabs t < d -> solves_system n pcg (eliminated ess (diffusion dim M (moved X V t))).
Hypothesis HT : solves_system n pcg (transposed (eliminated ess (diffusion dim M X))).
Hypothesis HD : forall e, In e M -> rule_rev dim (p_nn e) (p_diff_rule e) /\ (forall q, (q < r_nq (p_diff_rule e))%nat -> r_W (p_diff_rule e) q (pnodes e X) <> 0) /\
  (forall Y i j, el_diff dim (p_diff_rule e) Y i j = el_diff dim (p_rule e) Y i j).
Hypothesis HB : forall e, In e M -> rule_rev dim (p_nn e) (p_div_rule e) /\ (forall q, (q < r_nq (p_div_rule e))%nat -> r_W (p_div_rule e) q (pnodes e X) <> 0) /\
  (forall Y i j, el_wdiv dim (p_div_rule e) Y i j = el_wdiv dim (p_rule e) Y i j).
Lemma dform_rule r Y psi lam : dform dim M r Y psi lam = lsum (fun e => rsum (p_nh e) (fun i => rsum (p_nh e) (fun j => h_el e lam i * el_diff dim (r e) (pnodes e Y) i j * h_el e psi j))) M.
Proof.
  unfold dform. apply lsum_ext. intros e _. unfold el_diff.
  rewrite (pull_point (r_nq (r e)) (p_nh e) (p_nh e) dim (fun q => r_pw (r e) q / r_W (r e) q (pnodes e Y)) (Dxt dim (r e) (pnodes e Y)) (Dxt dim (r e) (pnodes e Y)) (h_el e lam) (h_el e psi)).
  apply rsum_ext. intros q _. now rewrite dot_comm.
Qed.
Lemma bform_rule r Y x lam : bform dim M r Y x lam = lsum (fun e => rsum (p_nh e) (fun i => rsum (p_nd e) (fun j => h_el e lam i * el_wdiv dim (r e) (pnodes e Y) i j * d_el e x j))) M.
Proof.
  unfold bform. apply lsum_ext. intros e _.
  rewrite <- (rsum_ext (r_nq (r e)) (fun q => - (r_pw (r e) q / r_W (r e) q (pnodes e Y)) *
     dot dim (at_point (p_nh e) (Dxt dim (r e) (pnodes e Y) q) (h_el e lam)) (at_point (p_nd e) (Vxt dim (r e) (pnodes e Y) q) (d_el e x)))); [|intros q _; now rewrite dot_comm].
  rewrite <- (pull_point (r_nq (r e)) (p_nh e) (p_nd e) dim (fun q => - (r_pw (r e) q / r_W (r e) q (pnodes e Y))) (Dxt dim (r e) (pnodes e Y)) (Vxt dim (r e) (pnodes e Y)) (h_el e lam) (d_el e x)).
  apply rsum_ext. intros i _. apply rsum_ext. intros j _. f_equal. f_equal. unfold el_wdiv. apply rsum_ext. intros q _. rewrite <- !rsum_scal. apply rsum_ext. intros k _. unfold Rdiv. ring.
Qed.
Theorem C92_mesh_partial : forall x bar acc,
  (exists r, snd (irrot_vjp_mesh dim M n m ess G pcg X new_projector true x bar acc) = Some r /\
   is_derive (fun t => dot m bar (snd (irrot_mult dim M n m ess G pcg (moved X V t) new_projector x))) 0 (pairing dim NN (fun k J => r k J - acc k J) V)) /\
  (exists r, snd (divfree_vjp_mesh dim M n m ess G pcg X new_projector true x bar acc) = Some r /\
   is_derive (fun t => dot m bar (snd (divfree_mult dim M n m ess G pcg (moved X V t) new_projector x false))) 0 (pairing dim NN (fun k J => r k J - acc k J) V)).
Proof.
  assert (L : locally 0 (fun t => solves_system n pcg (eliminated ess (diffusion dim M (moved X V t))))).
  { destruct HS as [d [Pd Hd]]. exists (mkposreal d Pd). intros t Ht. apply Hd. change (Rabs (t - 0) < d) in Ht. now rewrite Rminus_0_r in Ht. }
  assert (K : forall x bar, is_derive (fun t => dot m bar (mv n G (potential n m ess pcg (refresh dim M (moved X V t) new_projector) x))) 0
     (pairing dim NN (mesh_sens dim M X (potential n m ess pcg (refresh dim M X new_projector) x) (adjoint_potential n m ess G pcg (refresh dim M X new_projector) bar) x) V)).
  { intros x bar. apply projection_mesh_derive; auto.
    - intros e q He Hq. now apply (HD e He).
    - intros e q He Hq. now apply (HB e He).
    - intros e He. now apply (HD e He).
    - intros e He. now apply (HB e He).
    - intros Y psi lam. rewrite !dform_rule. apply lsum_ext. intros e He. destruct (HD e He) as [_ [_ E]]. apply rsum_ext. intros i _. apply rsum_ext. intros j _. now rewrite E.
    - intros Y z lam. rewrite !bform_rule. apply lsum_ext. intros e He. destruct (HB e He) as [_ [_ E]]. apply rsum_ext. intros i _. apply rsum_ext. intros j _. now rewrite E. }
  assert (A : forall (acc S : mat), pairing dim NN (fun k J => acc k J + S k J - acc k J) V = pairing dim NN S V) by (intros; apply pairing_ext; intros; ring).
  intros x bar acc. split.
  - eexists. split; [reflexivity|]. eapply DV_eq; [apply K|]. symmetry. apply A.
  - eexists. split; [reflexivity|].
    apply (DV_ext (fun t => dot m bar x + dot m (fun j => -1 * bar j) (mv n G (potential n m ess pcg (refresh dim M (moved X V t) new_projector) x)))).
    + intros t. unfold dot. rewrite <- rsum_plus. apply rsum_ext. intros j _. cbn. ring.
    + eapply DV_eq; [apply DV_plus; [apply DV_const|apply K]|]. rewrite Rplus_0_l. symmetry. apply A.
Qed.
(** any other vector is refused (std::bad_cast) *)
Theorem C92_refused : forall p x bar acc, snd (irrot_vjp_mesh dim M n m ess G pcg X p false x bar acc) = None /\ snd (divfree_vjp_mesh dim M n m ess G pcg X p false x bar acc) = None.
Proof. split; reflexivity. Qed.
End C92.
Print Assumptions C92_mesh_partial.
Print Assumptions C92_refused.
(** linear triangles: one point and three points give the same element matrices; here rules with any number of points *)
Lemma fan_rev e : In e fans -> rule_rev 2 (p_nn e) fan_rule.
Proof. intros H q _. destruct (fans_in e H) as [k [_ ->]]. split; [apply adjm2_ok|apply wt2_ok]. Qed.
Example C92_nonvacuous : (exists d, 0 < d /\ forall t, Rabs t < d -> solves_system 5 fan_pcg (eliminated fan_ess (diffusion 2 fans (moved box (fun k j => if Nat.eqb j 4 then 1 else 0) t)))) /\
  (forall e, In e fans -> rule_rev 2 (p_nn e) (p_diff_rule e) /\ (forall q, (q < r_nq (p_diff_rule e))%nat -> r_W (p_diff_rule e) q (pnodes e box) <> 0) /\
     (forall Y i j, el_diff 2 (p_diff_rule e) Y i j = el_diff 2 (p_rule e) Y i j)).
Proof.
  assert (W : forall e q, In e fans -> (q < r_nq (p_rule e))%nat -> r_W (p_rule e) q (pnodes e box) <> 0) by (intros e q He Hq; apply Rgt_not_eq, (fans_box e q He Hq)).
  split.
  - set (V := fun k j : nat => if Nat.eqb j 4 then 1 else 0).
    assert (RV : forall e, In e fans -> rule_rev 2 (p_nn e) (p_rule e)) by (intros e He; destruct (fans_in e He) as [k [_ ->]]; exact (fan_rev (fan k) He)).
    assert (D := dform_derive 2 fans box V p_rule (unit 4) (unit 4) W RV).
    assert (C := DV_continuous _ _ _ D). assert (C' := proj1 (filterlim_locally _ _) C (mkposreal 1 ltac:(lra))). destruct C' as [d Hd].
    exists d. split; [apply cond_pos|]. intros t Ht. apply fans_solve.
    assert (E : forall Y, diffusion 2 fans Y 4%nat 4%nat = dform 2 fans p_rule Y (unit 4) (unit 4)).
    { intros Y. rewrite <- (diffusion_form 2 5 8 5 fans fans_numbered). rewrite dot_unit by lia. now rewrite mv_unit by lia. }
    rewrite E. assert (B := Hd t ltac:(change (Rabs (t - 0) < d); now rewrite Rminus_0_r)).
    change (Rabs (dform 2 fans p_rule (moved box V t) (unit 4) (unit 4) - dform 2 fans p_rule (moved box V 0) (unit 4) (unit 4)) < 1) in B.
    rewrite moved_0', <- (E box), fans_box_D in B. intros Z. rewrite Z in B. rewrite Rabs_left in B; lra.
  - intros e He. split; [|split].
    + destruct (fans_in e He) as [k [_ ->]]. exact (fan_rev (fan k) He).
    + intros q Hq. destruct (fans_in e He) as [k [_ ->]]. now apply (W (fan k)).
    + intros. destruct (fans_in e He) as [k [_ ->]]. reflexivity.
Qed.

(** C92 is false when the rules differ, which nothing excludes: the sensitivities are not given the rule of the projector.  Two
    curved (quadratic) segments, two Gauss points for the projector, one point for the sensitivities; the middle node of the
    first segment is moved. *)
Definition gauss : R := / sqrt 3.
Lemma gauss_sq : gauss * gauss = 1 / 3.
Proof. unfold gauss. rewrite <- Rinv_mult. rewrite sqrt_sqrt by lra. lra. Qed.
Definition seg_slope (xi : R) (j : nat) : R := match j with O => 4 * xi - 3 | S O => 4 * xi - 1 | _ => 4 - 8 * xi end.
Definition seg_rule (np : nat) (xi : nat -> R) : rule := {| r_nq := np; r_pw := fun _ => / INR np; r_dN := fun _ i _ => match i with O => -1 | _ => 1 end; r_V := fun _ _ _ => 1;
  r_Adj := fun _ _ _ _ => 1; r_AdjRev := fun _ _ _ _ _ => 0; r_W := fun q X => rsum 3 (fun j => X 0%nat j * seg_slope (xi q) j); r_WRev := fun q X b k j => b * seg_slope (xi q) j |}.
Definition gauss2 : rule := seg_rule 2 (fun q => match q with O => (1 - gauss) / 2 | _ => (1 + gauss) / 2 end).
Definition gauss1 : rule := seg_rule 1 (fun _ => 1 / 2).
Definition seg (a b mid ed : nat) : pelem := {| p_nn := 3; p_node := fun j => match j with O => a | S O => b | _ => mid end; p_nh := 2; p_h := fun j => match j with O => a | _ => b end;
  p_nd := 1; p_d := fun _ => ed; p_sg := fun _ => 1; p_rule := gauss2; p_diff_rule := gauss1; p_div_rule := gauss1 |}.
Definition segs : list pelem := [seg 0 2 3 0; seg 2 1 4 1].
Definition seg_ess (i : nat) : bool := Nat.ltb i 2.
Definition seg_G (e v : nat) : R := match e, v with O, O => -1 | O, 2%nat => 1 | S O, 2%nat => -1 | S O, S O => 1 | _, _ => 0 end.
Definition line : mat := fun _ j => match j with O => 0 | S O => 2 | 2%nat => 1 | 3%nat => 1 / 4 | _ => 3 / 2 end.
Definition mid_moves : mat := fun _ j => if Nat.eqb j 3 then 1 else 0.
Definition e0 : vec := fun j => if Nat.eqb j 0 then 1 else 0.
Lemma seg_W t q : r_W gauss2 q (pnodes (seg 0 2 3 0) (moved line mid_moves t)) = match q with O => 1 - gauss * (1 - 4 * t) | _ => 1 + gauss * (1 - 4 * t) end.
Proof. unfold pnodes, moved, line, mid_moves. destruct q; cbn; field. Qed.
Lemma seg_W' t q : r_W gauss2 q (pnodes (seg 2 1 4 1) (moved line mid_moves t)) = 1.
Proof. unfold pnodes, moved, line, mid_moves. destruct q; cbn; field. Qed.
Lemma gauss_bounds : 0 < gauss /\ gauss < 3 / 5.
Proof.
  assert (P : 0 < gauss) by (apply Rinv_0_lt_compat, sqrt_lt_R0; lra). split; [exact P|]. assert (S := gauss_sq). nra.
Qed.
Lemma seg_small t : Rabs t < 1 / 10 -> 0 < 1 - gauss * (1 - 4 * t) /\ 0 < 1 + gauss * (1 - 4 * t) /\ 0 < 3 - (1 - 4 * t) ^ 2.
Proof.
  intros H. apply Rabs_def2 in H. destruct gauss_bounds as [A B]. split; [nra|split; nra].
Qed.
Definition inv_len (t : R) : R := 3 / (3 - (1 - 4 * t) ^ 2).
Lemma seg_sum t : Rabs t < 1 / 10 -> / 2 / (1 - gauss * (1 - 4 * t)) + / 2 / (1 + gauss * (1 - 4 * t)) = inv_len t.
Proof.
  intros H. destruct (seg_small t H) as [A [B C]]. unfold inv_len.
  replace (/ 2 / (1 - gauss * (1 - 4 * t)) + / 2 / (1 + gauss * (1 - 4 * t))) with (1 / (1 - (gauss * gauss) * (1 - 4 * t) ^ 2)).
  - rewrite gauss_sq. field. lra.
  - field. split; [|split]; try lra. intros Z. assert (0 < (1 - gauss * (1 - 4 * t)) * (1 + gauss * (1 - 4 * t))) by (now apply Rmult_lt_0_compat). lra.
Qed.
Lemma inv_len_pos t : Rabs t < 1 / 10 -> 0 < inv_len t.
Proof. intros H. destruct (seg_small t H) as [_ [_ C]]. unfold inv_len. apply Rdiv_lt_0_compat; lra. Qed.
Lemma seg_numbered : pnumbered 3 2 5 segs.
Proof. intros e [<-|[<-|[]]]; (split; [|split]); intros [|[|[|i]]] Hi; cbn in *; lia. Qed.
Lemma seg_D t : Rabs t < 1 / 10 -> diffusion 1 segs (moved line mid_moves t) 2%nat 2%nat = inv_len t + 1.
Proof.
  intros H. assert (K := seg_sum t H). unfold diffusion, segs, lsum. cbn -[el_diff pnodes]. rewrite ?Rplus_0_l, ?Rplus_0_r.
  unfold el_diff, Dxt, dshapedxt. cbn [p_rule seg r_nq gauss2 seg_rule rsum]. fold gauss2.
  change (r_W gauss2) with (r_W gauss2). 
  rewrite <- K. rewrite !seg_W, !seg_W'. cbn. replace (1 + 1) with 2 by ring. destruct (seg_small t H) as [A [B C]]. field. split; lra.
Qed.
Lemma seg_B t : Rabs t < 1 / 10 -> mv 2 (weak_div 1 segs (moved line mid_moves t)) e0 2%nat = - inv_len t.
Proof.
  intros H. assert (K := seg_sum t H). unfold mv, weak_div, segs, lsum, e0. cbn -[el_wdiv pnodes]. rewrite ?Rplus_0_l, ?Rplus_0_r, ?Rmult_0_r.
  unfold el_wdiv, Dxt, Vxt, dshapedxt. cbn [p_rule seg r_nq gauss2 seg_rule rsum]. fold gauss2.
  rewrite <- K. rewrite !seg_W. cbn. replace (1 + 1) with 2 by ring. destruct (seg_small t H) as [A [B C]]. field. split; lra.
Qed.
Lemma seg_solve t : Rabs t < 1 / 10 -> solves_system 3 fan_pcg (eliminated seg_ess (diffusion 1 segs (moved line mid_moves t))) /\
  solves_system 3 fan_pcg (transposed (eliminated seg_ess (diffusion 1 segs (moved line mid_moves t)))).
Proof.
  intros H. assert (N : diffusion 1 segs (moved line mid_moves t) 2%nat 2%nat <> 0) by (rewrite (seg_D t H); assert (K := inv_len_pos t H); lra).
  set (D := diffusion 1 segs (moved line mid_moves t)) in *.
  assert (Di : forall i, (i < 3)%nat -> eliminated seg_ess D i i <> 0).
  { intros i Hi. unfold eliminated, seg_ess. destruct (Nat.ltb_spec i 2); cbn; [rewrite Nat.eqb_refl; lra|]. replace i with 2%nat by lia. exact N. }
  assert (Do : forall i j, (i < 3)%nat -> (j < 3)%nat -> i <> j -> eliminated seg_ess D i j = 0).
  { intros i j Hi Hj Ne. unfold eliminated, seg_ess. destruct (Nat.ltb_spec i 2), (Nat.ltb_spec j 2); cbn; try (destruct (Nat.eqb_spec i j); [lia|reflexivity]). lia. }
  split; intros b i Hi; unfold mv, transposed, fan_pcg.
  - rewrite (rsum_ext 3 _ (fun j => if Nat.eqb j i then b j else 0)); [now apply (rsum_delta 3 b)|].
    intros j Hj. destruct (Nat.eqb_spec j i) as [->|E]; [field; now apply Di|]. rewrite Do by (auto; lia). ring.
  - rewrite (rsum_ext 3 _ (fun j => if Nat.eqb j i then b j else 0)); [now apply (rsum_delta 3 b)|].
    intros j Hj. destruct (Nat.eqb_spec j i) as [->|E]; [field; now apply Di|]. rewrite Do by (auto; lia). ring.
Qed.
Lemma seg_projection t : Rabs t < 1 / 10 -> dot 2 e0 (snd (irrot_mult 1 segs 3 2 seg_ess seg_G fan_pcg (moved line mid_moves t) new_projector e0)) = 3 / (6 - (1 - 4 * t) ^ 2).
Proof.
  intros H. cbn [irrot_mult snd]. unfold dot, e0 at 1. cbn [rsum]. cbn [Nat.eqb]. unfold mv at 1. cbn [rsum]. unfold seg_G at 1 2 3. 
  set (p := potential 3 2 seg_ess fan_pcg (refresh 1 segs (moved line mid_moves t) new_projector) e0).
  assert (P0 : p 0%nat = 0) by (unfold p, potential, fan_pcg; rewrite rhs_zero; cbn; unfold Rdiv; ring).
  assert (P2 : p 2%nat = inv_len t / (inv_len t + 1)).
  { unfold p, potential, fan_pcg. rewrite rhs_zero. cbn [seg_ess Nat.ltb Nat.leb refresh new_projector dirty Dmat Bmat].
    replace (eliminated seg_ess (diffusion 1 segs (moved line mid_moves t)) 2%nat 2%nat) with (inv_len t + 1) by (symmetry; exact (seg_D t H)).
    rewrite (seg_B t H). f_equal. ring. }
  rewrite P0, P2. destruct (seg_small t H) as [_ [_ C]]. assert (IP := inv_len_pos t H). unfold inv_len in *. cbn [e0 Nat.eqb]. unfold e0. cbn [Nat.eqb]. field. repeat split; lra.
Qed.
Theorem C92_rules_differ_refuted :
  ~ (forall dim n m NN M ess G pcg X V, pnumbered n m NN M -> pvalid M X -> takes_gradients dim n G M -> rule_sees_gradients dim n ess M X ->
      (exists d, 0 < d /\ forall t, Rabs t < d -> solves_system n pcg (eliminated ess (diffusion dim M (moved X V t)))) ->
      solves_system n pcg (transposed (eliminated ess (diffusion dim M X))) ->
      (forall e, In e M -> rule_rev dim (p_nn e) (p_rule e) /\ rule_rev dim (p_nn e) (p_diff_rule e) /\ rule_rev dim (p_nn e) (p_div_rule e)) ->
      (forall e q, In e M -> 0 < r_W (p_diff_rule e) q (pnodes e X) /\ 0 < r_W (p_div_rule e) q (pnodes e X)) ->
      forall x bar acc, exists r, snd (irrot_vjp_mesh dim M n m ess G pcg X new_projector true x bar acc) = Some r /\
      is_derive (fun t => dot m bar (snd (irrot_mult dim M n m ess G pcg (moved X V t) new_projector x))) 0 (pairing dim NN (fun k J => r k J - acc k J) V)).
Proof.
  intros H. assert (T0 : Rabs 0 < 1 / 10) by (rewrite Rabs_R0; lra).
  specialize (H 1%nat 3%nat 2%nat 5%nat segs seg_ess seg_G fan_pcg line mid_moves seg_numbered).
  assert (A1 : pvalid segs line).
  { intros e q He Hq. assert (L : line = moved line mid_moves 0) by (symmetry; apply moved_0'). rewrite L.
    destruct He as [<-|[<-|[]]]; cbn [p_rule seg]; (split; [cbn; apply Rinv_0_lt_compat; lra|]).
    - change (0 < r_W gauss2 q (pnodes (seg 0 2 3 0) (moved line mid_moves 0))). rewrite seg_W. destruct (seg_small 0 T0) as [A [B _]]. destruct q; lra.
    - change (0 < r_W gauss2 q (pnodes (seg 2 1 4 1) (moved line mid_moves 0))). rewrite seg_W'. lra. }
  assert (A2 : takes_gradients 1 3 seg_G segs).
  { intros e q c psi He Hq Hc. destruct He as [<-|[<-|[]]]; cbn; unfold mv; cbn; ring. }
  assert (A3 : rule_sees_gradients 1 3 seg_ess segs line).
  { intros psi V0 Z. assert (K := Z (seg 2 1 4 1) 0%nat 0%nat ltac:(right; now left) ltac:(cbn; lia) ltac:(lia)).
    assert (Z0 := V0 0%nat ltac:(lia) eq_refl). assert (Z1 := V0 1%nat ltac:(lia) eq_refl).
    unfold grad_of, covariant in K. cbn [p_rule seg p_nh rsum] in K.
    assert (W : r_W gauss2 0 (fun k j => line k (p_node (seg 2 1 4 1) j)) = 1).
    { assert (W := seg_W' 0 0). rewrite moved_0' in W. exact W. }
    change (fun k j => line k match j with 0%nat => 2%nat | 1%nat => 1%nat | S (S _) => 4%nat end) with (fun k j => line k (p_node (seg 2 1 4 1) j)) in K.
    rewrite W in K. cbn in K. rewrite Z1 in K.
    intros [|[|[|i]]] Hi; auto; try lia. lra. }
  assert (A4 : forall e, In e segs -> rule_rev 1 (p_nn e) (p_rule e) /\ rule_rev 1 (p_nn e) (p_diff_rule e) /\ rule_rev 1 (p_nn e) (p_div_rule e)).
  { assert (R0 : forall np xi, rule_rev 1 3 (seg_rule np xi)).
    { intros np xi q Hq. split.
      - intros Y V0 B. cbn. unfold pairing. cbn. apply (DV_eq _ 0 0); [|ring]. apply DV_const.
      - intros Y V0 b. cbn. unfold pairing, moved. cbn. auto_derive; [exact Logic.I|]. ring. }
    intros e He. destruct He as [<-|[<-|[]]]; (split; [|split]); apply R0. }
  assert (A5 : forall e q, In e segs -> 0 < r_W (p_diff_rule e) q (pnodes e line) /\ 0 < r_W (p_div_rule e) q (pnodes e line)).
  { intros e q He. destruct He as [<-|[<-|[]]]; unfold pnodes; cbn; unfold line; split; lra. }
  assert (S0 := proj2 (seg_solve 0 T0)). rewrite moved_0' in S0.
  assert (A6 : exists d, 0 < d /\ forall t, Rabs t < d -> solves_system 3 fan_pcg (eliminated seg_ess (diffusion 1 segs (moved line mid_moves t)))).
  { exists (1 / 10). split; [lra|]. intros t Ht. exact (proj1 (seg_solve t Ht)). }
  destruct (H A1 A2 A3 A6 S0 A4 A5 e0 e0 (fun _ _ => 0)) as [r [Er D]].
  injection Er as <-.
  assert (Z : pairing 1 5 (fun k J => 0 + mesh_sens 1 segs line (potential 3 2 seg_ess fan_pcg (refresh 1 segs line new_projector) e0) (adjoint_potential 3 2 seg_ess seg_G fan_pcg (refresh 1 segs line new_projector) e0) e0 k J - 0) mid_moves = 0).
  { set (psi := potential 3 2 seg_ess fan_pcg (refresh 1 segs line new_projector) e0). set (lam := adjoint_potential 3 2 seg_ess seg_G fan_pcg (refresh 1 segs line new_projector) e0).
    unfold pairing, mid_moves. cbn [rsum Nat.eqb].
    assert (M0 : mesh_sens 1 segs line psi lam e0 0%nat 3%nat = 0); [|rewrite M0; ring].
    unfold mesh_sens, segs, lsum, diff_mesh, div_mesh. cbn [p_nn seg rsum p_node Nat.eqb p_diff_rule p_div_rule gauss1 seg_rule r_nq r_WRev r_AdjRev fold_right seg_slope].
    replace (4 - 8 * (1 / 2)) with 0 by field. ring. }
  assert (D2 : is_derive (fun t => 3 / (6 - (1 - 4 * t) ^ 2)) 0 (- 24 / 25)).
  { auto_derive; [lra|]. field. }
  assert (D3 : is_derive (fun t => 3 / (6 - (1 - 4 * t) ^ 2)) 0 0).
  { eapply DV_eq; [eapply is_derive_ext_loc; [|exact D]|exact Z]. exists (mkposreal (1 / 10) ltac:(lra)). intros t Ht. apply seg_projection. change (Rabs (t - 0) < 1 / 10) in Ht. now rewrite Rminus_0_r in Ht. }
  assert (K := DV_unique _ _ _ _ D2 D3). lra.
Qed.
Print Assumptions C92_rules_differ_refuted.

(** ** C93: histories *)
Definition is_use (c : call) : Prop := match c with SetInputs _ | MoveMesh _ => False | _ => True end.
(** every movement of the mesh was announced afterwards by setInputs with "mesh_coords", or came before the first use *)
Definition announced (cs : list call) : Prop := forall pre Y post, cs = pre ++ MoveMesh Y :: post -> In (SetInputs true) post \/ forall c, In c pre -> ~ is_use c.
Section C93.
Variables (dim n m : nat) (M : list pelem) (ess : nat -> bool) (G : mat) (pcg : mat -> vec -> vec).
Notation hist := (history dim M n m ess G pcg).
(** the mesh after a history *)
Fixpoint final_mesh (X : mat) (cs : list call) : mat := match cs with [] => X | MoveMesh Y :: r => final_mesh Y r | _ :: r => final_mesh X r end.
Lemma hist_mesh cs : forall X p, fst (fold_left (step dim M n m ess G pcg) cs (X, p)) = final_mesh X cs.
Proof. induction cs as [|c cs IH]; intros X p; [reflexivity|]. cbn [fold_left final_mesh]. destruct c; cbn [step]; apply IH. Qed.
Lemma hist_snoc X cs c : hist X (cs ++ [c]) = step dim M n m ess G pcg (hist X cs) c.
Proof. unfold history. now rewrite fold_left_app. Qed.
Lemma refreshed X p : (dirty (refresh dim M X p) = false) /\ (dirty p = true \/ (Dmat p = diffusion dim M X /\ Bmat p = weak_div dim M X) -> Dmat (refresh dim M X p) = diffusion dim M X /\ Bmat (refresh dim M X p) = weak_div dim M X).
Proof. unfold refresh. destruct (dirty p) eqn:E; cbn; [auto|]. split; [exact E|]. intros [K|K]; [discriminate|exact K]. Qed.
Lemma unused_dirty X cs : (forall c, In c cs -> ~ is_use c) -> dirty (snd (hist X cs)) = true.
Proof.
  induction cs as [|c cs IH] using rev_ind; [reflexivity|]. intros H. rewrite hist_snoc. assert (Hc := H c ltac:(apply in_or_app; right; now left)).
  assert (K := IH (fun d Hd => H d (in_or_app _ _ _ (or_introl Hd)))). destruct (hist X cs) as [Y p]. cbn in K.
  destruct c as [b|Z| | | | | |]; try (exfalso; apply Hc; exact Logic.I); cbn; [|exact K]. unfold set_inputs. destruct b; [reflexivity|exact K].
Qed.
Lemma up_to_date X cs : announced cs -> let p := snd (hist X cs) in let Y := fst (hist X cs) in
  dirty p = true \/ (Dmat p = diffusion dim M Y /\ Bmat p = weak_div dim M Y).
Proof.
  induction cs as [|c cs IH] using rev_ind; intros A; [left; reflexivity|].
  assert (Use : forall X0 p0, (dirty p0 = true \/ (Dmat p0 = diffusion dim M X0 /\ Bmat p0 = weak_div dim M X0)) ->
     dirty (refresh dim M X0 p0) = true \/ (Dmat (refresh dim M X0 p0) = diffusion dim M X0 /\ Bmat (refresh dim M X0 p0) = weak_div dim M X0)).
  { intros X0 p0 K. right. now apply refreshed. }
  assert (Prev : c <> SetInputs true -> announced cs).
  { intros N pre Y post E. destruct (A pre Y (post ++ [c])) as [K|K]; [rewrite E, <- app_assoc; reflexivity| |right; exact K].
    apply in_app_or in K. destruct K as [K|[K|[]]]; [left; exact K|contradiction]. }
  rewrite hist_snoc. destruct c as [b|Z| | | | | |].
  2:{ destruct (A cs Z [] eq_refl) as [[]|K]. left. assert (U := unused_dirty X cs K). destruct (hist X cs) as [Y p]. exact U. }
  { destruct b; [left; destruct (hist X cs); reflexivity|]. assert (K := IH (Prev ltac:(discriminate))). destruct (hist X cs) as [Y p]. exact K. }
  all: assert (K := IH (Prev ltac:(discriminate))); destruct (hist X cs) as [Y p]; exact (Use Y p K).
Qed.
Theorem C93_current_mesh : forall X cs, announced cs -> let p := snd (hist X cs) in let Y := final_mesh X cs in
  fst (hist X cs) = Y /\
  (forall x, snd (irrot_mult dim M n m ess G pcg Y p x) = snd (irrot_mult dim M n m ess G pcg Y new_projector x)) /\
  (forall x a, snd (divfree_mult dim M n m ess G pcg Y p x a) = snd (divfree_mult dim M n m ess G pcg Y new_projector x a)) /\
  (forall bar acc, snd (irrot_vjp_in dim M n m ess G pcg Y p bar acc) = snd (irrot_vjp_in dim M n m ess G pcg Y new_projector bar acc)) /\
  (forall bar acc, snd (divfree_vjp_in dim M n m ess G pcg Y p bar acc) = snd (divfree_vjp_in dim M n m ess G pcg Y new_projector bar acc)) /\
  (forall g x bar acc, snd (irrot_vjp_mesh dim M n m ess G pcg Y p g x bar acc) = snd (irrot_vjp_mesh dim M n m ess G pcg Y new_projector g x bar acc)) /\
  (forall g x bar acc, snd (divfree_vjp_mesh dim M n m ess G pcg Y p g x bar acc) = snd (divfree_vjp_mesh dim M n m ess G pcg Y new_projector g x bar acc)).
Proof.
  intros X cs A p Y. assert (EY : fst (hist X cs) = Y) by apply hist_mesh. split; [exact EY|].
  assert (K := up_to_date X cs A). cbv zeta in K. fold p in K. rewrite EY in K. destruct (refreshed Y p) as [R1 R2]. destruct (R2 K) as [D B].
  assert (E : refresh dim M Y p = refresh dim M Y new_projector).
  { destruct (refresh dim M Y p) as [d0 D0 B0] eqn:Q. cbn in R1, D, B. subst. reflexivity. }
  repeat split; intros; unfold divfree_mult, divfree_vjp_in, divfree_vjp_mesh, irrot_mult, irrot_vjp_in, irrot_vjp_mesh; now rewrite E.
Qed.
(** without the announcement the old mesh is used: after a use, whatever moves follow *)
Theorem C93_stale_mesh : forall X cs x moves y, (forall c, In c moves -> exists Y, c = MoveMesh Y) -> announced cs ->
  snd (irrot_mult dim M n m ess G pcg (final_mesh X (cs ++ Irrot x :: moves)) (snd (hist X (cs ++ Irrot x :: moves))) y) =
  snd (irrot_mult dim M n m ess G pcg (final_mesh X cs) new_projector y).
Proof.
  intros X cs x moves y HM A.
  assert (E : snd (hist X (cs ++ Irrot x :: moves)) = refresh dim M (fst (hist X cs)) (snd (hist X cs))).
  { unfold history. rewrite fold_left_app. cbn [fold_left]. fold (hist X cs). destruct (hist X cs) as [Z q]. cbn [step fst snd irrot_mult].
    revert Z. generalize (refresh dim M). intros rf Z. set (p0 := rf Z q). clearbody p0. revert Z. induction moves as [|c r IH]; intros Z; [reflexivity|].
    destruct (HM c ltac:(now left)) as [Y ->]. cbn [fold_left step]. apply IH. intros d Hd. apply HM. now right. }
  rewrite E. assert (EY : fst (hist X cs) = final_mesh X cs) by apply hist_mesh. rewrite EY.
  assert (K := up_to_date X cs A). cbv zeta in K. rewrite EY in K. set (p := snd (hist X cs)) in *. destruct (refreshed (final_mesh X cs) p) as [R1 R2]. destruct (R2 K) as [D B].
  assert (E2 : refresh dim M (final_mesh X cs) p = refresh dim M (final_mesh X cs) new_projector).
  { destruct (refresh dim M (final_mesh X cs) p) as [d0 D0 B0] eqn:Q. cbn in R1, D, B. subst. reflexivity. }
  rewrite E2. reflexivity.
Qed.
End C93.
Print Assumptions C93_current_mesh.
Print Assumptions C93_stale_mesh.
Example C93_nonvacuous : announced [MoveMesh box; Irrot one_edge; MoveMesh line; SetInputs false; SetInputs true; DivFreeIn one_edge; SetInputs true] /\
  ~ announced [Irrot one_edge; MoveMesh box].
Proof.
  split.
  - intros pre Y post E. destruct pre as [|c pre]; [right; intros c []|]. left. cbn in E. injection E as _ E.
    destruct pre as [|c1 pre]; [discriminate|]. injection E as _ E. destruct pre as [|c2 pre].
    + injection E as _ <-. right. now left.
    + injection E as _ E. repeat (destruct pre as [|? pre]; [discriminate|injection E as _ E]). destruct pre; discriminate.
  - intros H. destruct (H [Irrot one_edge] box [] eq_refl) as [[]|K]. apply (K (Irrot one_edge)); [now left|exact Logic.I].
Qed.
