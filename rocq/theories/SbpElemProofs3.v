(** CalcDShape, CalcShape and the sharing of edge nodes (proof file). *)
From Coq Require Import Reals QArith Qreals List Arith ZArith Lia Lra Bool Psatz.
From Coquelicot Require Import Coquelicot.
From Verif Require Import Num Vec Sbp SbpTables SbpElem OrthoPoly OrthoPolySpec OrthoPolyProofs OrthoPolyProofs2 OrthoPolyProofs3 SbpPolySpec SbpIntegrals.
Import ListNotations.
Local Open Scope R_scope.

Fixpoint qsum (n : nat) (f : nat -> Q) : Q := match n with O => 0%Q | S k => (qsum k f + f k)%Q end.
Lemma Q2R_0 : Q2R 0 = 0. Proof. unfold Q2R; cbn; lra. Qed.
Lemma Q2R_qsum n f : Q2R (qsum n f) = rsum n (fun j => Q2R (f j)).
Proof. induction n as [|n IH]; [exact Q2R_0|]. cbn [qsum rsum]. rewrite Q2R_plus, IH. reflexivity. Qed.

(** CalcDShape row sums (the computed derivative of the constant field 1 at node i) *)
Definition hq (el : element) (j : nat) : Q := snd (nth j (enodes el) ([], 0%Q)).
Definition oq (el : element) (k a b : nat) : Q := nth (a + b * nnode el) (nth k (eops el) []) 0%Q.
Definition dshape_sum (el : element) (i : nat) : Q := qsum (nnode el) (fun j => Qdiv (oq el 0%nat j i) (hq el j)).
Definition dshape_bad (el : element) : bool :=
  andb (forallb (fun j => Z.ltb 0 (Qnum (hq el j))) (seq 0 (nnode el))) (Qle_bool 3 (dshape_sum el 1)).
Lemma dshape_bad_spec el : dshape_bad el = true -> 3 <= rsum (nnode el) (fun j => CalcDShape el 1%nat j 0%nat).
Proof.
  intros H. apply andb_prop in H. destruct H as [Hp Hs]. apply Qle_bool_iff, Qle_Rle in Hs. unfold dshape_sum in Hs. rewrite Q2R_qsum in Hs.
  replace (Q2R 3) with 3 in Hs by (unfold Q2R; cbn; lra). eapply Rle_trans; [exact Hs|]. apply Req_le, rsum_ext. intros j Hj.
  rewrite forallb_forall in Hp. specialize (Hp j ltac:(apply in_seq; lia)). apply Z.ltb_lt in Hp.
  rewrite Q2R_div.
  - reflexivity.
  - intros E. unfold Qeq in E. cbn in E. lia.
Qed.
Definition all_bad (els : list (option element)) : bool := forallb (fun o => match o with Some el => dshape_bad el | None => false end) els.
Lemma dshape_tables : all_bad [triElement 1; triElement 2; triElement 3; triElement 4; tetElement 1] = true.
Proof. vm_cast_no_check (eq_refl true). Qed.
Lemma all_bad_in els el : all_bad els = true -> In (Some el) els -> dshape_bad el = true.
Proof. unfold all_bad. rewrite forallb_forall. intros T Hi. exact (T _ Hi). Qed.

(** ** edges *)
Definition lamq (el : element) (i v : nat) : Q :=
  let x := nth 0 (fst (nth i (enodes el) ([], 0%Q))) 0%Q in
  let y := nth 1 (fst (nth i (enodes el) ([], 0%Q))) 0%Q in
  match v with 0%nat => (1 - x - y)%Q | 1%nat => x | _ => y end.
Definition qclose (a b : Q) : bool := andb (Qle_bool (a - b) (1 # 1000000000000000)) (Qle_bool (b - a) (1 # 1000000000000000)).
(** position of the j-th dof along an edge, read off edge 0 *)
Definition tq (el : element) (j : nat) : Q := lamq el (3 + j) 1.
Definition edge_ok (p : nat) (el : element) : bool :=
  forallb (fun j =>
    andb (andb (qclose (tq el (nth j (revNodeOrder p) 0%nat)) (1 - tq el j)) (Nat.ltb (nth j (revNodeOrder p) 0%nat) p))
    (andb (Nat.eqb (nth (nth j (revNodeOrder p) 0%nat) (revNodeOrder p) 0%nat) j)
    (forallb (fun e => andb (qclose (lamq el (3 + e * p + j) (eend e)) (tq el j)) (qclose (lamq el (3 + e * p + j) (eother e)) 0%Q)) [0; 1; 2]%nat)))
    (seq 0 p).
Definition all_edges : bool :=
  forallb (fun p => match triElement p with Some el => edge_ok p el | None => false end) [0; 1; 2; 3; 4]%nat.
Lemma edges_ok : all_edges = true.
Proof. vm_cast_no_check (eq_refl true). Qed.
Lemma qclose_spec a b : qclose a b = true -> Rabs (Q2R a - Q2R b) <= 1 / 10 ^ 15.
Proof.
  intros H. apply andb_prop in H. destruct H as [H1 H2]. apply Qle_bool_iff, Qle_Rle in H1, H2. rewrite Q2R_minus in H1, H2.
  replace (Q2R (1 # 1000000000000000)) with (1 / 10 ^ 15) in H1, H2 by (unfold Q2R; cbn; field).
  apply Rabs_le. lra.
Qed.
(** barycentric coordinates of node i *)
Definition lam (el : element) (i v : nat) : R :=
  match v with 0%nat => 1 - coord el i 0 - coord el i 1 | 1%nat => coord el i 0 | _ => coord el i 1 end.
Lemma lam_spec el i v : lam el i v = Q2R (lamq el i v).
Proof.
  unfold lam, lamq, coord. destruct v as [|[|v]]; try reflexivity. rewrite !Q2R_minus. f_equal. f_equal. unfold Q2R; cbn; lra.
Qed.
Lemma edge_facts p el j : triElement p = Some el -> (j < p)%nat ->
  let r := nth j (revNodeOrder p) 0%nat in
  (r < p)%nat /\ nth r (revNodeOrder p) 0%nat = j /\ Rabs (lam el (3 + r) 1 - (1 - lam el (3 + j) 1)) <= 1 / 10 ^ 15 /\
  forall e, (e < 3)%nat -> Rabs (lam el (3 + e * p + j) (eend e) - lam el (3 + j) 1) <= 1 / 10 ^ 15 /\
                           Rabs (lam el (3 + e * p + j) (eother e)) <= 1 / 10 ^ 15.
Proof.
  intros Hp Hj r. pose proof edges_ok as T. unfold all_edges in T. rewrite forallb_forall in T.
  assert (Ip : In p [0; 1; 2; 3; 4]%nat). { destruct p as [|[|[|[|[|p]]]]]; cbn [In]; auto 10. discriminate Hp. }
  specialize (T p Ip). rewrite Hp in T. unfold edge_ok in T. rewrite forallb_forall in T. specialize (T j ltac:(apply in_seq; lia)).
  fold r in T. apply andb_prop in T. destruct T as [T1 T2]. apply andb_prop in T1. destruct T1 as [T0 T1].
  apply andb_prop in T2. destruct T2 as [T2 T3]. apply Nat.ltb_lt in T1. apply Nat.eqb_eq in T2.
  split; [exact T1|]. split; [exact T2|]. split.
  - apply qclose_spec in T0. rewrite !lam_spec. rewrite Q2R_minus in T0. replace (Q2R 1) with 1 in T0 by (unfold Q2R; cbn; lra). exact T0.
  - intros e He. rewrite forallb_forall in T3. assert (Ie : In e [0; 1; 2]%nat) by (destruct e as [|[|[|e]]]; cbn [In]; auto; lia).
    specialize (T3 e Ie). apply andb_prop in T3. destruct T3 as [T3 T4]. apply qclose_spec in T3, T4. rewrite !lam_spec.
    rewrite Q2R_0, Rminus_0_r in T4. split; assumption.
Qed.
Lemma place_edge el A i e : (e < 3)%nat ->
  place el A i = A (estart e) + lam el i (eend e) * (A (eend e) - A (estart e)) + lam el i (eother e) * (A (eother e) - A (estart e)).
Proof.
  intros He. unfold place. destruct e as [|[|[|e]]]; try lia; cbn [estart eend eother lam]; ring.
Qed.
Lemma spread_edge A e : (e < 3)%nat -> Rabs (A (eend e) - A (estart e)) + Rabs (A (eother e) - A (estart e)) <= spread A.
Proof.
  intros He. unfold spread. pose proof (Rabs_pos (A 1%nat - A 0%nat)). pose proof (Rabs_pos (A 2%nat - A 0%nat)). pose proof (Rabs_pos (A 2%nat - A 1%nat)).
  destruct e as [|[|[|e]]]; try lia; cbn [estart eend eother].
  - lra.
  - rewrite (Rabs_minus_sym (A 0%nat) (A 1%nat)). lra.
  - rewrite (Rabs_minus_sym (A 0%nat) (A 2%nat)), (Rabs_minus_sym (A 1%nat) (A 2%nat)). lra.
Qed.
Lemma edge_place p el A e j : triElement p = Some el -> (j < p)%nat -> (e < 3)%nat ->
  Rabs (place el A (3 + e * p + j) - (A (estart e) + lam el (3 + j) 1 * (A (eend e) - A (estart e)))) <= 1 / 10 ^ 15 * spread A.
Proof.
  intros Hp Hj He. destruct (edge_facts p el j Hp Hj) as (_ & _ & _ & F). destruct (F e He) as [F1 F2]. rewrite (place_edge el A _ e He).
  set (l1 := lam el (3 + e * p + j) (eend e)) in *. set (l2 := lam el (3 + e * p + j) (eother e)) in *. set (t := lam el (3 + j) 1) in *.
  replace (A (estart e) + l1 * (A (eend e) - A (estart e)) + l2 * (A (eother e) - A (estart e)) - (A (estart e) + t * (A (eend e) - A (estart e))))
    with ((l1 - t) * (A (eend e) - A (estart e)) + l2 * (A (eother e) - A (estart e))) by ring.
  eapply Rle_trans; [apply Rabs_triang|]. rewrite !Rabs_mult.
  apply Rle_trans with (1 / 10 ^ 15 * Rabs (A (eend e) - A (estart e)) + 1 / 10 ^ 15 * Rabs (A (eother e) - A (estart e))).
  - apply Rplus_le_compat; apply Rmult_le_compat_r; auto using Rabs_pos.
  - rewrite <- Rmult_plus_distr_l. apply Rmult_le_compat_l; [|apply spread_edge; exact He].
    unfold Rdiv. rewrite Rmult_1_l. left. apply Rinv_0_lt_compat. apply pow_lt. lra.
Qed.
Lemma nodeOrder_id p j : (p <= 4)%nat -> (j < p)%nat -> nth j (nodeOrder p) 0%nat = j.
Proof. intros Hp Hj. destruct p as [|[|[|[|[|p]]]]]; try lia; destruct j as [|[|[|[|j]]]]; try lia; reflexivity. Qed.
Lemma tri_p4 p el : triElement p = Some el -> (p <= 4)%nat.
Proof. destruct p as [|[|[|[|[|p]]]]]; try lia. discriminate. Qed.
Lemma lt_div (a : R) : 0 <= 1 / 10 ^ 15. Proof. unfold Rdiv. rewrite Rmult_1_l. left. apply Rinv_0_lt_compat, pow_lt. lra. Qed.
(** same global dof => same point *)
Lemma edge_shared p el A B e1 e2 o1 o2 j1 j2 : triElement p = Some el -> (e1 < 3)%nat -> (e2 < 3)%nat -> (j1 < p)%nat -> (j2 < p)%nat ->
  nth j1 (segDofOrder p o1) 0%nat = nth j2 (segDofOrder p o2) 0%nat ->
  ((A (estart e1) = B (estart e2) /\ A (eend e1) = B (eend e2) /\ Z.ltb 0 o1 = Z.ltb 0 o2) \/
   (A (estart e1) = B (eend e2) /\ A (eend e1) = B (estart e2) /\ Z.ltb 0 o1 = negb (Z.ltb 0 o2))) ->
  Rabs (place el A (3 + e1 * p + j1) - place el B (3 + e2 * p + j2)) <= 2 / 10 ^ 15 * (spread A + spread B).
Proof.
  intros Hp He1 He2 Hj1 Hj2 Hn Hor.
  pose proof (edge_place p el A e1 j1 Hp Hj1 He1) as PA. pose proof (edge_place p el B e2 j2 Hp Hj2 He2) as PB.
  pose proof (tri_p4 p el Hp) as H4. destruct (edge_facts p el j1 Hp Hj1) as (R1 & R2 & R3 & _). destruct (edge_facts p el j2 Hp Hj2) as (R1' & R2' & R3' & _).
  set (t1 := lam el (3 + j1) 1) in *. set (t2 := lam el (3 + j2) 1) in *.
  assert (SA : 0 <= spread A) by (unfold spread; pose proof (Rabs_pos (A 1%nat - A 0%nat)); pose proof (Rabs_pos (A 2%nat - A 0%nat)); pose proof (Rabs_pos (A 2%nat - A 1%nat)); lra).
  assert (SB : 0 <= spread B) by (unfold spread; pose proof (Rabs_pos (B 1%nat - B 0%nat)); pose proof (Rabs_pos (B 2%nat - B 0%nat)); pose proof (Rabs_pos (B 2%nat - B 1%nat)); lra).
  pose proof (lt_div 0) as Eps. set (eps := 1 / 10 ^ 15) in *. replace (2 / 10 ^ 15) with (2 * eps) by (unfold eps; field).
  assert (ED : Rabs (A (eend e1) - A (estart e1)) <= spread A).
  { pose proof (spread_edge A e1 He1). pose proof (Rabs_pos (A (eother e1) - A (estart e1))). lra. }
  set (a := A (estart e1)) in *. set (b := A (eend e1)) in *.
  set (XA := place el A (3 + e1 * p + j1)) in *. set (XB := place el B (3 + e2 * p + j2)) in *.
  assert (M : Rabs ((a + t1 * (b - a)) - (B (estart e2) + t2 * (B (eend e2) - B (estart e2)))) <= eps * spread A).
  { destruct Hor as [(<- & <- & Ho)|(E1 & E2 & Ho)].
    - assert (E : j1 = j2).
      { unfold segDofOrder in Hn. rewrite Ho in Hn. destruct (Z.ltb 0 o2).
        - rewrite !nodeOrder_id in Hn by assumption. exact Hn.
        - rewrite <- R2, <- R2', Hn. reflexivity. }
      unfold t1, t2. rewrite E. replace (a + lam el (3 + j2) 1 * (b - a) - (a + lam el (3 + j2) 1 * (b - a))) with 0 by ring. rewrite Rabs_R0.
      apply Rmult_le_pos; assumption.
    - rewrite <- E1, <- E2.
      assert (C : Rabs (t1 - (1 - t2)) <= eps).
      { unfold segDofOrder in Hn. rewrite Ho in Hn. destruct (Z.ltb 0 o2); cbn [negb] in Hn.
        - rewrite (nodeOrder_id p j2) in Hn by assumption. rewrite Hn in R3. fold t2 in R3.
          replace (t1 - (1 - t2)) with (t2 - (1 - t1)) by ring. exact R3.
        - rewrite (nodeOrder_id p j1) in Hn by assumption. rewrite <- Hn in R3'. exact R3'. }
      replace (a + t1 * (b - a) - (b + t2 * (a - b))) with ((t1 - (1 - t2)) * (b - a)) by ring. rewrite Rabs_mult.
      apply Rmult_le_compat; auto using Rabs_pos. }
  replace (XA - XB) with ((XA - (a + t1 * (b - a))) + (((a + t1 * (b - a)) - (B (estart e2) + t2 * (B (eend e2) - B (estart e2)))) -
     (XB - (B (estart e2) + t2 * (B (eend e2) - B (estart e2)))))) by ring.
  eapply Rle_trans; [apply Rabs_triang|]. eapply Rle_trans; [apply Rplus_le_compat_l; apply Rabs_triang|]. rewrite Rabs_Ropp.
  assert (0 <= eps * spread B) by (apply Rmult_le_pos; assumption). lra.
Qed.

(** ** shape functions *)
Lemma is_RInt_valR (f : R -> R) (a b v w : R) : v = w -> is_RInt f a b v -> is_RInt f a b w.
Proof. intros <-. auto. Qed.
Section Shape.
Variable tg : R -> R.
Hypothesis Htg : is_gamma_function tg.
Lemma J0 x : jacobiPoly tg x 0 0 0 = sqrt (1 / 2).
Proof. rewrite (jacobi_legendre tg 0 x Htg). cbn [INR]. replace ((2 * 0 + 1) / 2) with (1 / 2) by lra. cbn. ring. Qed.
Lemma J_int i : is_RInt (fun x => jacobiPoly tg (2 * x - 1) 0 0 i) 0 1 (if Nat.eqb i 0 then sqrt (1 / 2) else 0).
Proof.
  pose proof (jacobi_orthonormal tg Htg 0 i 0) as O. cbn [INR] in O.
  assert (P : is_RInt (fun x => jacobiPoly tg x 0 0 i) (-1) 1 (if Nat.eqb i 0 then sqrt 2 else 0)).
  { assert (S1 : sqrt 2 * sqrt (1 / 2) = 1) by (rewrite <- sqrt_mult by lra; replace (2 * (1 / 2)) with 1 by field; apply sqrt_1).
    apply (is_RInt_valR _ _ _ (sqrt 2 * delta i 0)).
    { unfold delta. destruct (Nat.eqb i 0); ring. }
    apply (is_RInt_extR (fun x => sqrt 2 * ((1 - x) ^ 0 * (jacobiPoly tg x 0 0 i * jacobiPoly tg x 0 0 0)))).
    { intros x. rewrite J0. transitivity (sqrt 2 * sqrt (1 / 2) * jacobiPoly tg x 0 0 i); [cbn; ring|]. rewrite S1. ring. }
    apply is_RInt_scalR. exact O. }
  assert (C : is_RInt (fun y => scal 2 (jacobiPoly tg (2 * y + -1) 0 0 i)) 0 1 (if Nat.eqb i 0 then sqrt 2 else 0)).
  { apply (is_RInt_comp_lin (fun x => jacobiPoly tg x 0 0 i) 2 (-1) 0 1). replace (2 * 0 + -1) with (-1) by ring. replace (2 * 1 + -1) with 1 by ring. exact P. }
  apply (is_RInt_valR _ _ _ (/ 2 * (if Nat.eqb i 0 then sqrt 2 else 0))).
  { destruct (Nat.eqb i 0); [|ring]. rewrite sqrt_div by lra. rewrite sqrt_1.
      assert (S2 : sqrt 2 * sqrt 2 = 2) by (apply sqrt_sqrt; lra). assert (N : sqrt 2 <> 0) by (intros E; rewrite E in S2; lra).
      apply (Rmult_eq_reg_r (sqrt 2)); [|exact N]. transitivity (/ 2 * (sqrt 2 * sqrt 2)); [ring|]. rewrite S2. field. exact N. }
  apply (is_RInt_extR (fun y => / 2 * scal 2 (jacobiPoly tg (2 * y + -1) 0 0 i))).
  { intros y. unfold scal; cbn -[jacobiPoly]; unfold mult; cbn -[jacobiPoly]. replace (2 * y + -1) with (2 * y - 1) by ring. field. }
  apply is_RInt_scalR. exact C.
Qed.
Lemma seg_sum order n xs H x :
  (forall i, (i <= order)%nat -> is_RInt (fun t => jacobiPoly tg (2 * t - 1) 0 0 i) 0 1 (rsum n (fun k => H k * jacobiPoly tg (2 * xs k - 1) 0 0 i))) ->
  rsum n (segCalcShape tg order xs H None x) = sqrt 2.
Proof.
  intros HQ. cbn [segCalcShape]. rewrite (rsum_swap n (S order) (fun k i => jacobiPoly tg (2 * x - 1) 0 0 i * 2 * segV tg xs k i * H k)).
  rewrite (rsum_ext (S order) _ (fun i => if Nat.eqb i 0 then sqrt 2 else 0)).
  - rewrite (rsum_delta (S order) (fun _ => sqrt 2)) by lia. reflexivity.
  - intros i Hi. rewrite (rsum_ext n _ (fun k => jacobiPoly tg (2 * x - 1) 0 0 i * 2 * sqrt 2 * (H k * jacobiPoly tg (2 * xs k - 1) 0 0 i))).
    2:{ intros k _. unfold segV. ring. }
    rewrite rsum_scal.
    replace (rsum n (fun k => H k * jacobiPoly tg (2 * xs k - 1) 0 0 i)) with (if Nat.eqb i 0 then sqrt (1 / 2) else 0).
    2:{ exact (is_RInt_uniq _ _ 0 1 _ _ (fun t => eq_refl) (J_int i) (HQ i ltac:(lia))). }
    destruct (Nat.eqb_spec i 0) as [->|N]; [|ring]. rewrite J0.
    transitivity (sqrt 2 * (2 * (sqrt (1 / 2) * sqrt (1 / 2)))); [ring|]. rewrite sqrt_sqrt by lra. field.
Qed.
End Shape.

Definition lsumi {A : Type} (f : A -> R) (l : list A) : R := fold_right (fun a s => f a + s) 0 l.
Lemma fold_left_lsumi {A} (f : A -> R) l : forall s, fold_left (fun s a => s + f a) l s = s + lsumi f l.
Proof. induction l as [|a l IH]; intros s; cbn; [ring|]. rewrite IH. unfold lsumi. ring. Qed.
Lemma rsum_lsumi {A} n (f : nat -> A -> R) l : rsum n (fun k => lsumi (f k) l) = lsumi (fun a => rsum n (fun k => f k a)) l.
Proof. induction l as [|a l IH]; cbn [lsumi fold_right]; [apply rsum_0|]. rewrite rsum_plus. f_equal. exact IH. Qed.
Lemma lsumi_scal {A} c (f : A -> R) l : lsumi (fun a => c * f a) l = c * lsumi f l.
Proof. induction l as [|a l IH]; cbn [lsumi fold_right]; [ring|]. change (c * f a + lsumi (fun a => c * f a) l = c * (f a + lsumi f l)). rewrite IH. ring. Qed.
Lemma lsumi_ext {A} (f g : A -> R) l : (forall a, In a l -> f a = g a) -> lsumi f l = lsumi g l.
Proof. induction l as [|a l IH]; intros E; [reflexivity|]. cbn [lsumi fold_right]. rewrite E by (left; reflexivity). f_equal. apply IH. intros; apply E; right; assumption. Qed.
Lemma lsumi_minus {A} (f g : A -> R) l : lsumi f l - lsumi g l = lsumi (fun a => f a - g a) l.
Proof. induction l as [|a l IH]; cbn [lsumi fold_right]; [ring|]. fold (lsumi f l). fold (lsumi g l). fold (lsumi (fun a => f a - g a) l). rewrite <- IH. ring. Qed.
Lemma lsumi_abs {A} (f g : A -> R) l : (forall a, In a l -> Rabs (f a) <= g a) -> Rabs (lsumi f l) <= lsumi g l.
Proof.
  induction l as [|a l IH]; intros E; cbn [lsumi fold_right]; [rewrite Rabs_R0; lra|].
  eapply Rle_trans; [apply Rabs_triang|]. apply Rplus_le_compat; [apply E; left; reflexivity|apply IH; intros; apply E; right; assumption].
Qed.
Lemma lsumi_delta {A} (f : A -> R) (eqd : A -> A -> bool) l a : (forall x y, eqd x y = true <-> x = y) -> NoDup l -> In a l ->
  lsumi (fun b => (if eqd a b then 1 else 0) * f b) l = f a.
Proof.
  intros E Hn. induction Hn as [|b l Hb Hn IH]; [contradiction|]. intros [->|Hi]; cbn [lsumi fold_right].
  - rewrite (proj2 (E a a) eq_refl). fold (lsumi (fun b => (if eqd a b then 1 else 0) * f b) l).
    rewrite (lsumi_ext _ (fun _ => 0 * 0)).
    + rewrite lsumi_scal. ring.
    + intros c Hc. destruct (eqd a c) eqn:Q; [|ring]. apply E in Q. subst. contradiction.
  - fold (lsumi (fun b => (if eqd a b then 1 else 0) * f b) l). rewrite (IH Hi).
    destruct (eqd a b) eqn:Q; [|ring]. apply E in Q. subst. contradiction.
Qed.
Definition ideq (a b : nat * nat) : bool := andb (Nat.eqb (fst a) (fst b)) (Nat.eqb (snd a) (snd b)).
Lemma ideq_spec a b : ideq a b = true <-> a = b.
Proof.
  destruct a as [a1 a2], b as [b1 b2]. unfold ideq; cbn. rewrite andb_true_iff, !Nat.eqb_eq. split; [intros [-> ->]; reflexivity|intros E; injection E; auto].
Qed.
(** the projection branch applied to a combination of the basis functions *)
Lemma tri_repro tg order n xs ys H x y eps (c : nat * nat -> R) :
  (forall a b, In a (tri_basis order) -> In b (tri_basis order) ->
     Rabs (rsum n (fun k => H k * triV tg xs ys k a * triV tg xs ys k b) - (if ideq a b then 1 else 0)) <= eps) ->
  let phi a := prorio2 tg (2 * x - 1) (2 * y - 1) (fst a) (snd a) * 2 in
  Rabs (rsum n (fun k => triCalcShape tg order xs ys H None x y k * lsumi (fun b => c b * triV tg xs ys k b) (tri_basis order)) -
        lsumi (fun b => c b * phi b) (tri_basis order))
  <= eps * lsumi (fun a => Rabs (phi a)) (tri_basis order) * lsumi (fun b => Rabs (c b)) (tri_basis order).
Proof.
  intros HM phi. set (L := tri_basis order) in *.
  assert (ND : NoDup L). { unfold L, tri_basis. apply tri_nodup. }
  set (M := fun a b => rsum n (fun k => H k * triV tg xs ys k a * triV tg xs ys k b)) in *.
  assert (E : rsum n (fun k => triCalcShape tg order xs ys H None x y k * lsumi (fun b => c b * triV tg xs ys k b) L) =
              lsumi (fun a => phi a * lsumi (fun b => c b * M a b) L) L).
  { rewrite (rsum_ext n _ (fun k => lsumi (fun a => phi a * lsumi (fun b => c b * (H k * triV tg xs ys k a * triV tg xs ys k b)) L) L)).
    - rewrite rsum_lsumi. apply lsumi_ext. intros a _. rewrite rsum_scal. f_equal. rewrite rsum_lsumi. apply lsumi_ext. intros b _. rewrite rsum_scal. reflexivity.
    - intros k _. cbn [triCalcShape]. rewrite fold_left_lsumi, Rplus_0_l. fold L. rewrite Rmult_comm, <- lsumi_scal. apply lsumi_ext. intros a _.
      fold (phi a). rewrite (lsumi_ext (fun b => c b * (H k * triV tg xs ys k a * triV tg xs ys k b)) (fun b => H k * triV tg xs ys k a * (c b * triV tg xs ys k b)) L) by (intros; ring).
      rewrite lsumi_scal. ring. }
  rewrite E. rewrite (lsumi_ext (fun b => c b * phi b) (fun a => phi a * lsumi (fun b => (if ideq a b then 1 else 0) * c b) L)).
  2:{ intros a Ha. rewrite (lsumi_delta c ideq L a ideq_spec ND Ha). ring. }
  rewrite lsumi_minus. 
  eapply Rle_trans; [apply (lsumi_abs _ (fun a => eps * lsumi (fun b => Rabs (c b)) L * Rabs (phi a)))|].
  - intros a Ha. rewrite <- Rmult_minus_distr_l, Rabs_mult, Rmult_comm. apply Rmult_le_compat_r; [apply Rabs_pos|].
    rewrite lsumi_minus, <- lsumi_scal. apply lsumi_abs. intros b Hb.
    replace (c b * M a b - (if ideq a b then 1 else 0) * c b) with ((M a b - (if ideq a b then 1 else 0)) * c b) by ring.
    rewrite Rabs_mult. apply Rmult_le_compat_r; [apply Rabs_pos|]. apply HM; assumption.
  - rewrite lsumi_scal. apply Req_le. ring.
Qed.
