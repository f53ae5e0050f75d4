(** Lemmas about Warp.v. *)
From Coq Require Import Reals Lra Lia List String Bool Arith.
From Verif Require Import Num Vec Form FormProofs Warp WarpSpec.
Import ListNotations.
Local Open Scope R_scope.

Lemma adj_left d J a c : (1 <= d <= 3)%nat -> (a < d)%nat -> (c < d)%nat ->
  rsum d (fun b => adj d J a b * J b c) = if Nat.eqb a c then det d J else 0.
Proof.
  intros Hd Ha Hc. destruct d as [|[|[|[|?]]]]; try lia; destruct a as [|[|[|?]]]; try lia; destruct c as [|[|[|?]]]; try lia;
    cbv [rsum adj det cyc Nat.eqb]; ring.
Qed.
Lemma adj_right d J a c : (1 <= d <= 3)%nat -> (a < d)%nat -> (c < d)%nat ->
  rsum d (fun b => J a b * adj d J b c) = if Nat.eqb a c then det d J else 0.
Proof.
  intros Hd Ha Hc. destruct d as [|[|[|[|?]]]]; try lia; destruct a as [|[|[|?]]]; try lia; destruct c as [|[|[|?]]]; try lia;
    cbv [rsum adj det cyc Nat.eqb]; ring.
Qed.

Lemma rsum_block nd d f : rsum (nd * d) f = rsum d (fun c => rsum nd (fun k => f (c * nd + k)%nat)).
Proof.
  induction d as [|d IH]; [now rewrite Nat.mul_0_r|]. rewrite Nat.mul_succ_r, rsum_app, IH. simpl. f_equal.
  apply rsum_ext. intros. f_equal. lia.
Qed.
Lemma blk_mod nd c k : (k < nd)%nat -> ((c * nd + k) mod nd = k)%nat.
Proof. intros. rewrite Nat.add_comm, Nat.mod_add by lia. now apply Nat.mod_small. Qed.
Lemma blk_div nd c k : (k < nd)%nat -> ((c * nd + k) / nd = c)%nat.
Proof. intros. rewrite Nat.add_comm, Nat.div_add by lia. now rewrite Nat.div_small. Qed.

Section W.
Variable M : wmesh.
Notation D := (dim M).

(** gradient of an element vector *)
Definition Gr (X : coords) (e : elem) (q : nat) (v : vec) (c a : nat) : R := rsum (nd e) (fun k => v (c * nd e + k)%nat * gsh M X e q k a).
Definition dens (G H : nat -> nat -> R) : R :=
  rsum D (fun c => G c c) * rsum D (fun c => H c c)
  + rsum D (fun c => rsum D (fun a => G c a * H c a)) + rsum D (fun c => rsum D (fun a => G c a * H a c)).

Lemma elmat_mv X e v c k : (k < nd e)%nat -> (c < D)%nat ->
  mv (nd e * D) (elmat M X e) v (c * nd e + k)%nat =
  rsum (nq e) (fun q => wq M X e q * (gsh M X e q k c * rsum D (fun a => Gr X e q v a a)
     + rsum D (fun a => gsh M X e q k a * Gr X e q v c a) + rsum D (fun a => gsh M X e q k a * Gr X e q v a c))).
Proof.
  intros Hk Hc. unfold mv. rewrite rsum_block.
  rewrite (rsum_ext D _ (fun c' => rsum (nq e) (fun q => rsum (nd e) (fun k' =>
     wq M X e q * (gsh M X e q k c * (v (c' * nd e + k')%nat * gsh M X e q k' c'))
     + (if Nat.eqb c' c then wq M X e q * rsum D (fun a => gsh M X e q k a * (v (c' * nd e + k')%nat * gsh M X e q k' a)) else 0)
     + wq M X e q * (gsh M X e q k c' * (v (c' * nd e + k')%nat * gsh M X e q k' c)))))).
  2:{ intros c' Hc'. rewrite rsum_swap. apply rsum_ext. intros k' Hk'. unfold elmat. cbv zeta. rewrite !blk_mod, !blk_div by auto.
      rewrite <- rsum_scal_r. apply rsum_ext. intros q _. unfold lambda_c, mu_c. rewrite (Nat.eqb_sym c c').
      destruct (Nat.eqb c' c).
      - rewrite (rsum_ext D (fun a => _ * (_ * _)) (fun a => v (c' * nd e + k')%nat * (gsh M X e q k a * gsh M X e q k' a))) by (intros; ring).
        rewrite rsum_scal. ring.
      - ring. }
  rewrite rsum_swap. apply rsum_ext. intros q _.
  rewrite (rsum_ext D _ (fun c' => wq M X e q * (gsh M X e q k c * Gr X e q v c' c')
     + (if Nat.eqb c' c then wq M X e q * rsum D (fun a => gsh M X e q k a * Gr X e q v c' a) else 0)
     + wq M X e q * (gsh M X e q k c' * Gr X e q v c' c))).
  - rewrite !rsum_plus, !rsum_scal.
    rewrite (rsum_delta D (fun c' => wq M X e q * rsum D (fun a => gsh M X e q k a * Gr X e q v c' a)) c Hc). ring.
  - intros c' _. rewrite !rsum_plus, !rsum_scal. unfold Gr. f_equal. f_equal.
    destruct (Nat.eqb c' c); [|now rewrite rsum_0]. rewrite rsum_scal. f_equal. rewrite rsum_swap. apply rsum_ext. intros a _.
    now rewrite rsum_scal.
Qed.

Lemma elmat_pair X e r v :
  rsum (nd e * D) (fun p => r p * mv (nd e * D) (elmat M X e) v p) =
  rsum (nq e) (fun q => wq M X e q * dens (Gr X e q r) (Gr X e q v)).
Proof.
  rewrite rsum_block.
  rewrite (rsum_ext D _ (fun c => rsum (nq e) (fun q => wq M X e q * (Gr X e q r c c * rsum D (fun a => Gr X e q v a a)
     + rsum D (fun a => Gr X e q r c a * Gr X e q v c a) + rsum D (fun a => Gr X e q r c a * Gr X e q v a c))))).
  - rewrite rsum_swap. apply rsum_ext. intros q _. rewrite rsum_scal. f_equal. unfold dens. now rewrite !rsum_plus, rsum_scal_r.
  - intros c Hc.
    rewrite (rsum_ext (nd e) _ (fun k => rsum (nq e) (fun q => wq M X e q * (r (c * nd e + k)%nat * gsh M X e q k c * rsum D (fun a => Gr X e q v a a)
     + rsum D (fun a => r (c * nd e + k)%nat * gsh M X e q k a * Gr X e q v c a)
     + rsum D (fun a => r (c * nd e + k)%nat * gsh M X e q k a * Gr X e q v a c))))).
    2:{ intros k Hk. rewrite elmat_mv by auto. rewrite <- rsum_scal. apply rsum_ext. intros q _.
        rewrite (rsum_ext D (fun a => r _ * _ * Gr X e q v c a) (fun a => r (c * nd e + k)%nat * (gsh M X e q k a * Gr X e q v c a))) by (intros; ring).
        rewrite (rsum_ext D (fun a => r _ * _ * Gr X e q v a c) (fun a => r (c * nd e + k)%nat * (gsh M X e q k a * Gr X e q v a c))) by (intros; ring).
        rewrite !rsum_scal. ring. }
    rewrite rsum_swap. apply rsum_ext. intros q _. rewrite rsum_scal. f_equal. rewrite !rsum_plus, rsum_scal_r. unfold Gr. f_equal; [f_equal|];
      rewrite rsum_swap; apply rsum_ext; intros a _; now rewrite rsum_scal_r.
Qed.

(** assembled action of the stiffness matrix *)
Definition kvec (X : coords) (v : vec) : vec := fun i =>
  rsum (ne M) (fun m => rsum (nd (el M m) * D) (fun p =>
    if Nat.eqb i (edof M (el M m) p) then mv (nd (el M m) * D) (elmat M X (el M m)) (fun p' => v (edof M (el M m) p')) p else 0)).
Definition form (X : coords) (r v : vec) : R :=
  rsum (ne M) (fun m => rsum (nq (el M m)) (fun q => wq M X (el M m) q *
    dens (Gr X (el M m) q (fun p => r (edof M (el M m) p))) (Gr X (el M m) q (fun p => v (edof M (el M m) p))))).

Hypothesis SS : same_space M.
Notation NN := (n M).
Lemma pos_dim : (0 < D)%nat. Proof. apply SS. Qed.
Lemma edof_lt m p : (m < ne M)%nat -> (p < nd (el M m) * D)%nat -> (edof M (el M m) p < NN)%nat.
Proof.
  intros Hm Hp. destruct SS as [HD H]. destruct (H m Hm) as [H0 [_ [H1 _]]].
  unfold edof, vdof, n. assert ((p mod nd (el M m)) < nd (el M m))%nat as K by (apply Nat.mod_upper_bound; lia).
  assert ((p / nd (el M m)) < D)%nat as Q by (apply Nat.div_lt_upper_bound; lia).
  destruct (H1 _ K) as [_ L]. nia.
Qed.
Lemma undeformed_edof X m p : (m < ne M)%nat -> (p < nd (el M m) * D)%nat ->
  point_vec X (el M m) p = undeformed M X (edof M (el M m) p).
Proof.
  intros Hm Hp. destruct SS as [HD H]. destruct (H m Hm) as [H0 [Hn [H1 _]]].
  unfold point_vec, undeformed, edof, vdof. rewrite Hn.
  assert ((p mod nd (el M m)) < nd (el M m))%nat as K by (apply Nat.mod_upper_bound; lia).
  assert ((p / nd (el M m)) < D)%nat as Q by (apply Nat.div_lt_upper_bound; lia).
  destruct (H1 _ K) as [E _]. rewrite E, blk_mod, blk_div by auto. reflexivity.
Qed.
Lemma stiff_mv X u v i : (i < NN)%nat -> mv NN (stiff M X u) v i = kvec X v i.
Proof.
  intros Hi. unfold mv, stiff, kvec. cbv zeta.
  rewrite (rsum_ext NN _ (fun j => rsum (ne M) (fun m => rsum (nd (el M m) * D) (fun p => rsum (nd (el M m) * D) (fun p' =>
    if Nat.eqb i (edof M (el M m) p) then if Nat.eqb j (edof M (el M m) p') then elmat M X (el M m) p p' * v j else 0 else 0))))).
  2:{ intros j _. rewrite <- rsum_scal_r. apply rsum_ext; intros m _. rewrite <- rsum_scal_r. apply rsum_ext; intros p _.
      rewrite <- rsum_scal_r. apply rsum_ext; intros p' _. destruct (Nat.eqb i _); [destruct (Nat.eqb j _)|]; ring. }
  rewrite rsum_swap. apply rsum_ext; intros m Hm. rewrite rsum_swap. apply rsum_ext; intros p Hp. rewrite rsum_swap.
  destruct (Nat.eqb i _).
  - unfold mv. apply rsum_ext; intros p' Hp'. exact (rsum_delta NN (fun j => elmat M X (el M m) p p' * v j) _ (edof_lt m p' Hm Hp')).
  - rewrite (rsum_ext _ _ (fun _ => 0)); [apply rsum_0|]. intros. apply rsum_0.
Qed.
Lemma raw_kvec X u i : raw_res M X u i = kvec X (fun j => u j - undeformed M X j) i.
Proof.
  unfold raw_res, kvec. cbv zeta. apply rsum_ext; intros m Hm. apply rsum_ext; intros p Hp. destruct (Nat.eqb i _); [|reflexivity].
  unfold elvect, mv. apply rsum_ext; intros p' Hp'. now rewrite undeformed_edof.
Qed.
Lemma kvec_pair X r v : dot NN r (kvec X v) = form X r v.
Proof.
  unfold dot, kvec, form.
  rewrite (rsum_ext NN _ (fun i => rsum (ne M) (fun m => rsum (nd (el M m) * D) (fun p =>
    if Nat.eqb i (edof M (el M m) p) then r i * mv (nd (el M m) * D) (elmat M X (el M m)) (fun p' => v (edof M (el M m) p')) p else 0)))).
  2:{ intros i _. rewrite <- rsum_scal. apply rsum_ext; intros m _. rewrite <- rsum_scal. apply rsum_ext; intros p _. destruct (Nat.eqb i _); ring. }
  rewrite rsum_swap. apply rsum_ext; intros m Hm. rewrite rsum_swap.
  etransitivity; [|apply elmat_pair]. apply rsum_ext; intros p Hp.
  exact (rsum_delta NN (fun i => r i * mv (nd (el M m) * D) (elmat M X (el M m)) (fun p' => v (edof M (el M m) p')) p) _ (edof_lt m p Hm Hp)).
Qed.
Lemma Gr_lin X e q v w s c a : Gr X e q (fun p => v p + s * w p) c a = Gr X e q v c a + s * Gr X e q w c a.
Proof. unfold Gr. rewrite <- rsum_scal, <- rsum_plus. apply rsum_ext; intros; ring. Qed.
Lemma dens_sym G H : dens G H = dens H G.
Proof.
  unfold dens. f_equal; [f_equal|].
  - ring.
  - apply rsum_ext; intros; apply rsum_ext; intros; ring.
  - rewrite rsum_swap. apply rsum_ext; intros; apply rsum_ext; intros; ring.
Qed.
Lemma form_sym X r v : form X r v = form X v r.
Proof. unfold form. apply rsum_ext; intros; apply rsum_ext; intros. now rewrite dens_sym. Qed.
Lemma dens_sq G : dens G G = 2 * (1 / 2 * (rsum D (fun c => G c c)) ^ 2 + rsum D (fun c => rsum D (fun a => ((G c a + G a c) / 2) ^ 2))).
Proof.
  unfold dens. rewrite Rmult_plus_distr_l, <- (rsum_scal D 2).
  rewrite (rsum_ext D (fun c => 2 * rsum D (fun a => ((G c a + G a c) / 2) ^ 2)) (fun c => 1/2 * rsum D (fun a => G c a * G c a) + 1/2 * rsum D (fun a => G a c * G a c) + rsum D (fun a => G c a * G a c))).
  - rewrite !rsum_plus, !rsum_scal. rewrite (rsum_swap D D (fun c a => G a c * G a c)). field.
  - intros c _. rewrite <- !rsum_scal, <- !rsum_plus. apply rsum_ext; intros; field.
Qed.
Lemma dens_pos G : 0 <= dens G G.
Proof.
  rewrite dens_sq. apply Rmult_le_pos; [lra|]. apply Rplus_le_le_0_compat.
  - apply Rmult_le_pos; [lra|apply pow2_ge_0].
  - apply rsum_nonneg; intros; apply rsum_nonneg; intros; apply pow2_ge_0.
Qed.
Lemma form_pos X v : (forall m q, (m < ne M)%nat -> (q < nq (el M m))%nat -> 0 <= wq M X (el M m) q) -> 0 <= form X v v.
Proof. intros H. apply rsum_nonneg; intros; apply rsum_nonneg; intros. apply Rmult_le_pos; [now apply H|apply dens_pos]. Qed.
Lemma kvec_lin X v w s i : kvec X (fun j => v j + s * w j) i = kvec X v i + s * kvec X w i.
Proof.
  unfold kvec. rewrite <- rsum_scal, <- rsum_plus. apply rsum_ext; intros m _. rewrite <- rsum_scal, <- rsum_plus.
  apply rsum_ext; intros p _. destruct (Nat.eqb i _); [|ring]. unfold mv. rewrite <- rsum_scal, <- rsum_plus. apply rsum_ext; intros; ring.
Qed.
Lemma kvec_ext X v w i : veq NN v w -> kvec X v i = kvec X w i.
Proof.
  intros H. unfold kvec. apply rsum_ext; intros m Hm. apply rsum_ext; intros p Hp. destruct (Nat.eqb i _); [|reflexivity].
  unfold mv. apply rsum_ext; intros p' Hp'. now rewrite H by now apply edof_lt.
Qed.

(** geometry *)
Lemma Jac_map X m q d b : (m < ne M)%nat -> (q < nq (el M m))%nat -> (b < D)%nat -> Jac X (el M m) q d b = map_grad X (el M m) q d b.
Proof.
  intros Hm Hq Hb. destruct SS as [HD H]. destruct (H m Hm) as [H0 [Hn [H1 H2]]]. unfold Jac, map_grad. rewrite Hn. apply rsum_ext.
  intros k Hk. destruct (H1 k Hk) as [-> _]. now rewrite H2.
Qed.
Definition nondegenerate (X : coords) : Prop := (1 <= D <= 3)%nat /\
  forall m q, (m < ne M)%nat -> (q < nq (el M m))%nat -> det D (Jac X (el M m) q) <> 0.

Lemma Gr_physical X m q v : nondegenerate X -> (m < ne M)%nat -> (q < nq (el M m))%nat ->
  physical_gradient M X (el M m) q (fun k c => at_node M v k c) (Gr X (el M m) q (fun p => v (edof M (el M m) p))).
Proof.
  intros [HD ND] Hm Hq c b Hc Hb. specialize (ND m q Hm Hq). set (e := el M m) in *. unfold Gr.
  rewrite (rsum_ext D _ (fun a => rsum (nd e) (fun k => at_node M v (node e k) c * (gsh M X e q k a * Jac X e q a b)))).
  2:{ intros a Ha. rewrite <- rsum_scal_r. apply rsum_ext. intros k Hk. unfold edof, vdof. rewrite blk_mod, blk_div by auto.
      pose proof (Jac_map X m q a b Hm Hq Hb) as JM. fold e in JM. rewrite <- JM. unfold at_node. ring. }
  rewrite rsum_swap. apply rsum_ext. intros k Hk. rewrite rsum_scal. f_equal.
  unfold gsh. rewrite (rsum_ext D _ (fun a => rsum D (fun b' => dsh e q k b' * (Jinv M X e q b' a * Jac X e q a b)))).
  2:{ intros a _. rewrite <- rsum_scal_r. apply rsum_ext; intros; ring. }
  rewrite rsum_swap. rewrite (rsum_ext D _ (fun b' => if Nat.eqb b' b then dsh e q k b' else 0)).
  - exact (rsum_delta D (fun b' => dsh e q k b') b Hb).
  - intros b' Hb'. rewrite rsum_scal. unfold Jinv.
    rewrite (rsum_ext D _ (fun a => / det D (Jac X e q) * (adj D (Jac X e q) b' a * Jac X e q a b))) by (intros; unfold Rdiv; ring).
    rewrite rsum_scal, adj_left by auto. destruct (Nat.eqb b' b); [field; assumption|ring].
Qed.
Lemma physical_unique X m q v G G' : nondegenerate X -> (m < ne M)%nat -> (q < nq (el M m))%nat ->
  physical_gradient M X (el M m) q v G -> physical_gradient M X (el M m) q v G' ->
  forall c a, (c < D)%nat -> (a < D)%nat -> G c a = G' c a.
Proof.
  intros [HD ND] Hm Hq H H' c a Hc Ha. specialize (ND m q Hm Hq). set (e := el M m) in *.
  assert (forall F, (forall c b, (c < D)%nat -> (b < D)%nat -> rsum D (fun a => F c a * map_grad X e q a b) = rsum (nd e) (fun k => v (node e k) c * dsh e q k b)) ->
     F c a = rsum D (fun b => rsum (nd e) (fun k => v (node e k) c * dsh e q k b) * Jinv M X e q b a)) as K.
  { intros F HF. rewrite (rsum_ext D _ (fun b => rsum D (fun a' => F c a' * (Jac X e q a' b * Jinv M X e q b a)))).
    2:{ intros b Hb. rewrite <- (HF c b Hc Hb), <- rsum_scal_r. apply rsum_ext. intros a' _. pose proof (Jac_map X m q a' b Hm Hq Hb) as JM. fold e in JM. rewrite JM. ring. }
    rewrite rsum_swap. rewrite (rsum_ext D _ (fun a' => if Nat.eqb a' a then F c a' else 0)).
    - symmetry. exact (rsum_delta D (fun a' => F c a') a Ha).
    - intros a' Ha'. rewrite rsum_scal. unfold Jinv.
      rewrite (rsum_ext D _ (fun b => / det D (Jac X e q) * (Jac X e q a' b * adj D (Jac X e q) b a))) by (intros; unfold Rdiv; ring).
      rewrite rsum_scal, adj_right by auto. destruct (Nat.eqb a' a); [field; assumption|ring]. }
  now rewrite (K G), (K G').
Qed.

(** elastic energy of a displacement *)
Lemma energy_form X u G : nondegenerate X -> displacement_gradient M X u G ->
  elastic_energy M (fun m q => wq M X (el M m) q) G = 1 / 2 * form X (fun j => u j - undeformed M X j) (fun j => u j - undeformed M X j).
Proof.
  intros ND H. unfold elastic_energy, form. rewrite <- rsum_scal. apply rsum_ext; intros m Hm. rewrite <- rsum_scal. apply rsum_ext; intros q Hq.
  set (H1 := Gr X (el M m) q (fun p => u (edof M (el M m) p) - undeformed M X (edof M (el M m) p))).
  assert (forall c a, (c < D)%nat -> (a < D)%nat -> G m q c a = H1 c a) as E.
  { apply (physical_unique X m q (fun k c => at_node M u k c - X k c)); auto.
    intros c b Hc Hb. unfold H1. rewrite (Gr_physical X m q (fun j => u j - undeformed M X j) ND Hm Hq c b Hc Hb). apply rsum_ext. intros k Hk.
    unfold at_node, undeformed. rewrite blk_div, blk_mod by exact Hc. reflexivity. }
  rewrite dens_sq.
  rewrite (rsum_ext D (fun c => G m q c c) (fun c => H1 c c)) by (intros; apply E; auto).
  rewrite (rsum_ext D (fun c => rsum D (fun a => ((G m q c a + G m q a c) / 2) ^ 2)) (fun c => rsum D (fun a => ((H1 c a + H1 a c) / 2) ^ 2))).
  - field.
  - intros c Hc. apply rsum_ext. intros a Ha. now rewrite !E.
Qed.

Lemma form_lin_l X r r' s v : form X (fun j => r j + s * r' j) v = form X r v + s * form X r' v.
Proof. rewrite <- !kvec_pair. unfold dot. rewrite <- rsum_scal, <- rsum_plus. apply rsum_ext; intros; ring. Qed.
Lemma form_lin_r X r v v' s : form X r (fun j => v j + s * v' j) = form X r v + s * form X r v'.
Proof. rewrite (form_sym X r), (form_sym X r v), (form_sym X r v'). apply form_lin_l. Qed.

Lemma kvec_zero X v i : (forall j, (j < NN)%nat -> v j = 0) -> kvec X v i = 0.
Proof.
  intros H. rewrite (kvec_ext X v (fun j => 0 + 0 * 0)) by (intros j Hj; rewrite H by auto; ring).
  unfold kvec. rewrite (rsum_ext (ne M) _ (fun _ => 0)); [apply rsum_0|]. intros m _.
  rewrite (rsum_ext _ _ (fun _ => 0)); [apply rsum_0|]. intros p _. destruct (Nat.eqb i _); [|reflexivity].
  unfold mv. rewrite (rsum_ext _ _ (fun _ => 0)); [apply rsum_0|]. intros; ring.
Qed.
Lemma form_ext X r r' v v' : veq NN r r' -> veq NN v v' -> form X r v = form X r' v'.
Proof. intros H H'. rewrite <- !kvec_pair. apply dot_ext; [assumption|]. intros i _. now apply kvec_ext. Qed.

Lemma equilibrium X E u : nondegenerate X ->
  (forall m q, (m < ne M)%nat -> (q < nq (el M m))%nat -> 0 <= wq M X (el M m) q) ->
  (forall i, (i < NN)%nat -> ~ List.In i E -> raw_res M X u i = 0) ->
  in_equilibrium M X (fun m q => wq M X (el M m) q) E u.
Proof.
  intros ND W H u' G G' Hu HG HG'. rewrite (energy_form X u G ND HG), (energy_form X u' G' ND HG').
  set (d := fun j => u j - undeformed M X j). set (v := fun j => u' j - u j).
  rewrite (form_ext X (fun j => u' j - undeformed M X j) (fun j => d j + 1 * v j) (fun j => u' j - undeformed M X j) (fun j => d j + 1 * v j))
    by (intros j _; unfold d, v; ring).
  rewrite form_lin_l, !form_lin_r. rewrite (form_sym X d v).
  assert (form X v d = 0) as Z.
  { rewrite <- kvec_pair. unfold dot. rewrite (rsum_ext NN _ (fun _ => 0)); [apply rsum_0|]. intros i Hi.
    destruct (in_dec Nat.eq_dec i E) as [I|I]; [unfold v; rewrite Hu by auto; ring|].
    unfold d. rewrite <- raw_kvec, H by auto. ring. }
  rewrite Z. pose proof (form_pos X v W). lra.
Qed.
End W.
