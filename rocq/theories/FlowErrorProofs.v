(** Lemmas about the reported solution error. *)
From Coq Require Import Reals Arith List ZArith Bool Lia Lra Psatz Permutation.
From Verif Require Import Num Vec Euler EulerSpec Sbp SbpSpec SbpMesh SbpMeshSpec SbpMeshProofs FlowJacSpec FluxSmooth2 ViscWallProofs2 EntropyRateSpec EntropyRateProofs2 FlowError FlowErrorSpec.
Import ListNotations.
Local Open Scope R_scope.

Lemma describes_conserved d entvar q g i m : 0 < g_rho g i -> 0 < g_p g i -> describes d entvar q (g_rho g i) (g_u g i) (g_p g i) -> (m < d + 2)%nat ->
  calcConservativeVars d entvar q m = conserved d g i m.
Proof.
  intros Hr Hp D Hm. destruct (describes_cons d entvar q _ _ _ Hr Hp D) as (_ & A & B & C). unfold conserved. destruct m as [|m]; [exact A|].
  destruct (Nat.ltb_spec m d); [apply B; assumption|]. replace m with d by lia. exact C.
Qed.
Lemma conserved_inj d g g' i : 0 < g_rho g i /\ 0 < g_p g i /\ True -> 0 < g_rho g' i /\ 0 < g_p g' i /\ True -> (forall m, (m < d + 2)%nat -> conserved d g i m = conserved d g' i m) ->
  g_rho g i = g_rho g' i /\ (forall c, (c < d)%nat -> g_u g i c = g_u g' i c) /\ g_p g i = g_p g' i.
Proof.
  intros (Hr & Hp & _) (Hr' & Hp' & _) Q. pose proof (Q 0%nat ltac:(lia)) as A. cbn in A.
  assert (B : forall c, (c < d)%nat -> g_u g i c = g_u g' i c).
  { intros c Hc. pose proof (Q (S c) ltac:(lia)) as B. unfold conserved in B. destruct (Nat.ltb_spec c d) as [_|?]; [|exfalso; lia]. rewrite A in B. apply (Rmult_eq_reg_l (g_rho g' i)); lra. }
  split; [exact A|]. split; [exact B|]. pose proof (Q (S d) ltac:(lia)) as C. unfold conserved in C. rewrite Nat.ltb_irrefl in C.
  assert (E : dot d (g_u g i) (g_u g i) = dot d (g_u g' i) (g_u g' i)) by (unfold dot; apply rsum_ext; intros c Hc; rewrite B by exact Hc; reflexivity).
  rewrite A, E in C. lra.
Qed.

(** * The loops *)
Definition nodeErr (d : nat) (entry : Z) (g g' : gas) (i : nat) : R :=
  let diff m := conserved d g i m - conserved d g' i m in
  if (entry <? 0)%Z then rsum (d + 2) (fun m => diff m * diff m) else diff (Z.to_nat entry) * diff (Z.to_nat entry).
Lemma nodeError_value d entvar entry q q' g g' i : 0 < g_rho g i /\ 0 < g_p g i /\ describes d entvar q (g_rho g i) (g_u g i) (g_p g i) ->
  0 < g_rho g' i /\ 0 < g_p g' i /\ describes d entvar q' (g_rho g' i) (g_u g' i) (g_p g' i) -> (entry < Z.of_nat (d + 2))%Z ->
  nodeError d entvar entry q q' = Some (nodeErr d entry g g' i).
Proof.
  intros (Hr & Hp & D) (Hr' & Hp' & D') HE. unfold nodeError, nodeErr. cbv zeta. destruct (Z.ltb_spec entry 0).
  - apply f_equal. apply rsum_ext. intros m Hm. rewrite (describes_conserved d entvar q g i m Hr Hp D Hm), (describes_conserved d entvar q' g' i m Hr' Hp' D' Hm). reflexivity.
  - destruct (Z.ltb_spec entry (Z.of_nat (d + 2))); [|lia]. rewrite (describes_conserved d entvar q g i _ Hr Hp D), (describes_conserved d entvar q' g' i _ Hr' Hp' D') by lia. reflexivity.
Qed.
Lemma loop_value d entvar entry e n (u u' : nat -> vec) (f : nat -> R) a : (forall i, (i < n)%nat -> nodeError d entvar entry (u i) (u' i) = Some (f i)) ->
  loop n (fun i acc => addNode d entvar entry e i (u i) (u' i) acc) (Some a) = Some (a + rsum n (fun i => e_H e i * e_detJ e i * f i)).
Proof.
  induction n as [|n IH]; intros H; cbn [loop rsum]; [apply f_equal; ring|]. rewrite IH by (intros; apply H; lia). unfold addNode. rewrite (H n) by lia. apply f_equal. ring.
Qed.
Lemma locNorm_value d entvar entry es xg u ue (f : nat -> R) : (forall e i, In e es -> (i < e_n e)%nat -> nodeError d entvar entry (u (e_glob e i)) (ue (xg (e_glob e i))) = Some (f (e_glob e i))) ->
  locNorm d entvar entry es xg u ue = Some (lsum (fun e => rsum (e_n e) (fun i => e_H e i * e_detJ e i * f (e_glob e i))) es).
Proof.
  unfold locNorm. intros H.
  assert (G : forall a, fold_left (fun acc e => loop (e_n e) (fun i acc => addNode d entvar entry e i (u (e_glob e i)) (ue (xg (e_glob e i))) acc) acc) es (Some a) =
    Some (a + lsum (fun e => rsum (e_n e) (fun i => e_H e i * e_detJ e i * f (e_glob e i))) es)).
  { induction es as [|e es IH]; intros a; cbn [fold_left]; [unfold lsum; cbn; apply f_equal; ring|].
    rewrite (loop_value d entvar entry e (e_n e) (fun i => u (e_glob e i)) (fun i => ue (xg (e_glob e i))) (fun i => f (e_glob e i))) by (intros; apply H; [left; reflexivity|assumption]).
    rewrite IH by (intros; apply H; [right; assumption|assumption]). apply f_equal. unfold lsum. cbn. ring. }
  rewrite G. apply f_equal. ring.
Qed.
Lemma sumAll_value (l : list (list element)) (h : list element -> option R) f : (forall es, In es l -> h es = Some (lsum f es)) -> sumAll (map h l) = Some (lsum f (concat l)).
Proof.
  intros H. unfold sumAll.
  assert (G : forall a, fold_left (fun a x => match a, x with Some a, Some x => Some (a + x) | _, _ => None end) (map h l) (Some a) = Some (a + lsum f (concat l))).
  { induction l as [|es l IH]; intros a; cbn [map fold_left concat]; [unfold lsum; cbn; apply f_equal; ring|].
    rewrite (H es) by (left; reflexivity). rewrite IH by (intros; apply H; right; assumption). rewrite lsum_app. apply f_equal. ring. }
  rewrite G. apply f_equal. ring.
Qed.
Lemma lsum_perm {A} (f : A -> R) l l' : Permutation l l' -> lsum f l = lsum f l'.
Proof. unfold lsum. induction 1; cbn; lra. Qed.
Lemma integral_nonneg M f : positive_mesh M -> (forall i, 0 <= f i) -> 0 <= mesh_integral M f.
Proof. intros PM F. apply lsum_nonneg. intros e He. apply rsum_nonneg. intros i Hi. destruct (PM e He i Hi). apply Rmult_le_pos; [apply Rmult_le_pos; lra|apply F]. Qed.
Lemma lsum_zero {A} (f : A -> R) l : (forall a, In a l -> 0 <= f a) -> lsum f l = 0 -> forall a, In a l -> f a = 0.
Proof.
  induction l as [|b l IH]; intros P E a []; unfold lsum in E; cbn in E; fold (lsum f l) in E;
    assert (0 <= f b) by (apply P; left; reflexivity); assert (0 <= lsum f l) by (apply lsum_nonneg; intros; apply P; right; assumption).
  - subst. lra.
  - apply IH; [intros; apply P; right; assumption|lra|assumption].
Qed.
Lemma integral_zero N M f : positive_mesh M -> covered N M -> (forall i, 0 <= f i) -> mesh_integral M f = 0 -> forall i, (i < N)%nat -> f i = 0.
Proof.
  intros PM CV F E i Hi. destruct (CV i Hi) as (e & a & He & Ha & <-).
  assert (P : forall e j, In e (els M) -> (j < e_n e)%nat -> 0 <= e_H e j * e_detJ e j * f (e_glob e j)).
  { intros e' j He' Hj. destruct (PM e' He' j Hj). apply Rmult_le_pos; [apply Rmult_le_pos; lra|apply F]. }
  pose proof (lsum_zero _ _ (fun e He => rsum_nonneg _ _ (fun j Hj => P e j He Hj)) E e He) as Z. cbv beta in Z.
  pose proof (rsum_nonneg_zero _ _ (fun j Hj => P e j He Hj) Z a Ha) as Y. cbv beta in Y. destruct (PM e He a Ha). apply Rmult_integral in Y. destruct Y as [Y|Y]; [|exact Y]. apply Rmult_integral in Y. lra.
Qed.
Lemma error_value d entvar entry N M ranks xg u u_exact g g' : well_formed N M -> positive_mesh M -> Permutation (concat ranks) (els M) ->
  valid_gas d entvar N u g -> valid_gas d entvar N (fun i => u_exact (xg i)) g' -> (entry < Z.of_nat (d + 2))%Z ->
  l2Error d entvar entry ranks xg u u_exact = Some (sqrt (mesh_integral M (nodeErr d entry g g'))).
Proof.
  intros (We & _) PM PR VG VG' HE. unfold l2Error.
  rewrite (sumAll_value ranks _ (fun e => rsum (e_n e) (fun i => e_H e i * e_detJ e i * nodeErr d entry g g' (e_glob e i)))).
  - rewrite (lsum_perm _ _ _ PR). fold (mesh_integral M (nodeErr d entry g g')). destruct (Rltb_spec (mesh_integral M (nodeErr d entry g g')) 0) as [H|H]; [|reflexivity].
    exfalso. apply (Rlt_not_le _ _ H). apply integral_nonneg; [exact PM|]. intros i. unfold nodeErr. cbv zeta. destruct (entry <? 0)%Z; [apply rsum_nonneg; intros|]; apply Rle_0_sqr.
  - intros es Hes. apply locNorm_value. intros e i He Hi. assert (Hg : (e_glob e i < N)%nat). { apply We; [|exact Hi]. apply (Permutation_in _ PR). apply in_concat. exists es. split; assumption. }
    apply nodeError_value; [exact (VG _ Hg)|exact (VG' _ Hg)|exact HE].
Qed.
(** * Cauchy-Schwarz and Minkowski for the quadrature *)
Lemma minkowski M n (f g : nat -> nat -> R) : positive_mesh M ->
  sqrt (mesh_integral M (fun i => rsum n (fun m => (f i m + g i m) * (f i m + g i m)))) <=
  sqrt (mesh_integral M (fun i => rsum n (fun m => f i m * f i m))) + sqrt (mesh_integral M (fun i => rsum n (fun m => g i m * g i m))).
Proof.
  intros PM. set (a := mesh_integral M (fun i => rsum n (fun m => f i m * f i m))). set (c := mesh_integral M (fun i => rsum n (fun m => g i m * g i m))).
  set (b := mesh_integral M (fun i => rsum n (fun m => f i m * g i m))).
  assert (Q : forall t, mesh_integral M (fun i => rsum n (fun m => (f i m + t * g i m) * (f i m + t * g i m))) = a + 2 * t * b + t * t * c).
  { intros t. unfold a, b, c. rewrite <- !mesh_integral_scal. rewrite <- !mesh_integral_plus. unfold mesh_integral. apply lsum_ext. intros e _. apply rsum_ext. intros i _. f_equal.
    rewrite <- !rsum_scal, <- !rsum_plus. apply rsum_ext. intros; ring. }
  assert (P : forall t, 0 <= a + 2 * t * b + t * t * c) by (intros t; rewrite <- Q; apply integral_nonneg; [exact PM|]; intros; apply rsum_nonneg; intros; apply Rle_0_sqr).
  assert (A : 0 <= a) by (specialize (P 0); lra).
  assert (C : 0 <= c) by (apply integral_nonneg; [exact PM|]; intros; apply rsum_nonneg; intros; apply Rle_0_sqr).
  assert (B : b <= sqrt a * sqrt c).
  { rewrite <- sqrt_mult by assumption. destruct (Rle_lt_dec b 0) as [H|H]; [apply Rle_trans with 0; [exact H|apply sqrt_pos]|].
    rewrite <- (sqrt_Rsqr b) by lra. apply sqrt_le_1_alt. unfold Rsqr.
    destruct (Req_dec c 0) as [Z|Z].
    - specialize (P (- (a + 1) / (2 * b))). rewrite Z in P. replace (a + 2 * (- (a + 1) / (2 * b)) * b + _ * _ * 0) with (-1) in P by (field; lra). lra.
    - specialize (P (- b / c)). replace (a + 2 * (- b / c) * b + - b / c * (- b / c) * c) with ((a * c - b * b) / c) in P by (field; lra).
      assert (0 <= (a * c - b * b) / c * c) by (apply Rmult_le_pos; lra). replace ((a * c - b * b) / c * c) with (a * c - b * b) in H0 by (field; lra). lra. }
  replace (mesh_integral M (fun i => rsum n (fun m => (f i m + g i m) * (f i m + g i m)))) with (a + 2 * b + c).
  2:{ rewrite <- (Rmult_1_r 2) at 1. replace c with (1 * 1 * c) at 1 by ring. rewrite <- (Q 1). unfold mesh_integral. apply lsum_ext. intros e _. apply rsum_ext. intros i _. f_equal. apply rsum_ext. intros; ring. }
  pose proof (sqrt_pos a). pose proof (sqrt_pos c). rewrite <- (sqrt_Rsqr (sqrt a + sqrt c)) by lra. apply sqrt_le_1_alt. unfold Rsqr.
  pose proof (sqrt_sqrt a A). pose proof (sqrt_sqrt c C). nra.
Qed.
(** * A component number out of range *)
Lemma bad_entry d entvar entry ranks xg u u_exact : (Z.of_nat (d + 2) <= entry)%Z ->
  (l2Error d entvar entry ranks xg u u_exact = None <-> exists e, In e (concat ranks) /\ (0 < e_n e)%nat).
Proof.
  intros HE. assert (NE : forall q q', nodeError d entvar entry q q' = None).
  { intros. unfold nodeError. destruct (Z.ltb_spec entry 0); [lia|]. destruct (Z.ltb_spec entry (Z.of_nat (d + 2))); [lia|]. reflexivity. }
  assert (LN : forall e n acc, (0 < n)%nat -> loop n (fun i acc => addNode d entvar entry e i (u (e_glob e i)) (u_exact (xg (e_glob e i))) acc) acc = None).
  { intros e n acc Hn. destruct n; [lia|]. cbn [loop]. unfold addNode at 1. rewrite NE. destruct (loop _ _ _); reflexivity. }
  assert (NN : forall es, fold_left (fun acc e => loop (e_n e) (fun i acc => addNode d entvar entry e i (u (e_glob e i)) (u_exact (xg (e_glob e i))) acc) acc) es None = None).
  { induction es as [|e es IH]; [reflexivity|]. cbn [fold_left]. replace (loop (e_n e) _ None) with (@None R); [exact IH|]. symmetry. induction (e_n e) as [|n IHn]; [reflexivity|]. cbn [loop]. rewrite IHn. reflexivity. }
  assert (LL : forall es, locNorm d entvar entry es xg u u_exact = if existsb (fun e => (0 <? e_n e)%nat) es then None else Some 0).
  { intros es. unfold locNorm. induction es as [|e es IH]; [reflexivity|]. cbn [fold_left existsb]. destruct (Nat.ltb_spec 0 (e_n e)).
    - rewrite LN by assumption. apply NN.
    - replace (e_n e) with 0%nat by lia. exact IH. }
  assert (SA : forall l : list (list element), fold_left (fun a x => match a, x with Some a, Some x => Some (a + x) | _, _ => None end) (map (fun es => locNorm d entvar entry es xg u u_exact) l) None = None).
  { induction l as [|es l IH]; [reflexivity|]. exact IH. }
  assert (ST : forall l : list (list element), exists r, forall a, fold_left (fun a x => match a, x with Some a, Some x => Some (a + x) | _, _ => None end) (map (fun es => locNorm d entvar entry es xg u u_exact) l) (Some a) =
     if existsb (fun e => (0 <? e_n e)%nat) (concat l) then None else Some (a + r)).
  { induction l as [|es l (r & IH)]; [exists 0; intros; cbn; rewrite Rplus_0_r; reflexivity|]. exists r. intros a. cbn [map fold_left concat]. rewrite LL, existsb_app. destruct (existsb _ es); [apply SA|]. rewrite IH. cbn [orb]. rewrite Rplus_0_r. reflexivity. }
  unfold l2Error, sumAll. destruct (ST ranks) as (r & E). rewrite E. destruct (existsb (fun e => (0 <? e_n e)%nat) (concat ranks)) eqn:X.
  - split; [|reflexivity]. intros _. apply existsb_exists in X. destruct X as (e & A & B). exists e. split; [exact A|]. apply Nat.ltb_lt. exact B.
  - split; [discriminate|]. intros (e & A & B). exfalso. assert (existsb (fun e => (0 <? e_n e)%nat) (concat ranks) = true) by (apply existsb_exists; exists e; split; [exact A|apply Nat.ltb_lt; exact B]). congruence.
Qed.
