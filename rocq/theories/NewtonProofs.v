From Coq Require Import Reals ZArith Bool List Lra Lia Psatz.
From Verif Require Import Num Vec LineSearch LineSearchProofs Newton.
Local Open Scope R_scope.

Section P.
Context (n : nat) (F : vec -> vec) (J : vec -> vec -> vec) (solve : vec -> vec -> vec).
Context (o : inopts).

Lemma cs_loop_spec x c p0 p0p nrm rem : forall theta s eta s' eta',
  0 <= theta <= 1/2 -> 0 < s <= 1 ->
  cs_loop n F o x c p0 p0p nrm rem theta s eta (norm n (F (axpy x (- s) c))) = Step s' eta' ->
  0 < s' <= 1 /\ exists th, 0 <= th <= 1/2 /\ norm n (F (axpy x (- s') c)) <= (1 - tt o * (1 - th)) * nrm.
Proof.
  induction rem as [|rem IH]; intros theta s eta s' eta' Ht Hs; cbn [cs_loop];
  (destruct (Rltb_spec ((1 - tt o * (1 - theta)) * nrm) (norm n (F (axpy x (- s) c)))) as [H|H];
   [|intros E; injection E as <- <-; split; [exact Hs|exists theta; auto]]); [discriminate|].
  set (th0 := quadInterp Rnum 0 p0 p0p 1 _).
  set (th1 := if Rltb theta_min th0 then th0 else theta_min).
  set (th := if Rltb th1 theta_max then th1 else theta_max).
  assert (Hth : 1/10 <= th <= 1/2).
  { unfold th, th1, theta_max, theta_min in *. destruct (Rltb_spec (1/10) th0);
    match goal with |- context [Rltb ?a ?b] => destruct (Rltb_spec a b) end; lra. }
  apply IH; nra.
Qed.

Lemma ComputeStepSize_spec x r c nrm eta s eta' :
  ComputeStepSize n F J o x r c nrm eta = Step s eta' ->
  0 < s <= 1 /\ exists th, 0 <= th <= 1/2 /\ norm n (F (axpy x (- s) c)) <= (1 - tt o * (1 - th)) * nrm.
Proof. unfold ComputeStepSize. apply cs_loop_spec; lra. Qed.

Definition newton_history (x0 : vec) (res : inresult) (xs : nat -> vec) : Prop :=
  xs 0%nat = x0 /\ xs (final_iter res) = rx res /\
  forall k, (k < final_iter res)%nat ->
    exists s, 0 < s <= 1 /\ xs (S k) = axpy (xs k) (- s) (solve (xs k) (F (xs k))) /\
      norm n (F (xs (S k))) <= (1 - tt o / 2) * norm n (F (xs k)).

Lemma in_loop_spec goal rem : forall it x eta res,
  0 <= tt o ->
  in_loop n F J solve o goal rem it x eta = Some res ->
  final_norm res = norm n (F (rx res)) /\
  (converged res = true <-> final_norm res <= goal) /\
  (converged res = false -> final_iter res = (it + rem)%nat) /\
  (it <= final_iter res <= it + rem)%nat /\
  exists xs, xs 0%nat = x /\ xs (final_iter res - it)%nat = rx res /\
    forall k, (k < final_iter res - it)%nat ->
      goal < norm n (F (xs k)) /\
      exists s, 0 < s <= 1 /\ xs (S k) = axpy (xs k) (- s) (solve (xs k) (F (xs k))) /\
      norm n (F (xs (S k))) <= (1 - tt o / 2) * norm n (F (xs k)).
Proof.
  induction rem as [|rem IH]; intros it x eta res Ht; cbn [in_loop];
  (destruct (Rleb_spec (norm n (F x)) goal) as [Hc|Hc];
   [intros E; injection E as <-; cbn [final_norm rx converged final_iter];
    split; [reflexivity|]; split; [tauto|]; split; [discriminate|]; split; [lia|];
    exists (fun _ => x); repeat split; intros; lia|]).
  - intros E; injection E as <-. cbn [final_norm rx converged final_iter].
    split; [reflexivity|]. split; [split; [discriminate|intros; lra]|]. split; [lia|]. split; [lia|].
    exists (fun _ => x); repeat split; intros; lia.
  - destruct (ComputeStepSize n F J o x (F x) (solve x (F x)) (norm n (F x)) eta) as [s eta'|] eqn:E; [|discriminate].
    apply ComputeStepSize_spec in E. destruct E as (Hs & th & Hth & Hn).
    destruct (Reqb_spec s 0) as [H0|_]; [lra|].
    intros E. apply IH in E; [|exact Ht].
    destruct E as (H1 & H2 & H3 & H4 & xs & Hx0 & Hx1 & Hx2).
    split; [exact H1|]. split; [exact H2|]. split; [intros Hf; specialize (H3 Hf); lia|]. split; [lia|].
    exists (fun k => match k with O => x | S k' => xs k' end). split; [reflexivity|]. split.
    + replace (final_iter res - it)%nat with (S (final_iter res - S it)) by lia. exact Hx1.
    + intros [|k] Hk.
      * split; [exact Hc|]. exists s. rewrite Hx0. split; [exact Hs|]. split; [reflexivity|].
        eapply Rle_trans; [exact Hn|]. apply Rmult_le_compat_r; [apply norm_pos|]. nra.
      * apply Hx2. lia.
Qed.

Lemma in_mult_spec mode x0 eta res :
  0 <= tt o <= 2 ->
  in_mult n F J solve o mode x0 eta = Some res ->
  let start := if mode then x0 else (fun _ => 0) in
  let goal := Rmax (rel_tol o * norm n (F start)) (abs_tol o) in
  final_norm res = norm n (F (rx res)) /\
  (converged res = true <-> final_norm res <= goal) /\
  (converged res = false -> final_iter res = inmax_iter o) /\
  (final_iter res <= inmax_iter o)%nat /\
  final_norm res <= (1 - tt o / 2) ^ final_iter res * norm n (F start) /\
  exists xs, newton_history start res xs.
Proof.
  intros Ht H start goal. unfold in_mult in H. fold start in H. fold goal in H.
  apply in_loop_spec in H; [|lra]. destruct H as (H1 & H2 & H3 & H4 & xs & Hx0 & Hx1 & Hx2).
  rewrite Nat.sub_0_r in *. split; [exact H1|]. split; [exact H2|]. split; [exact H3|]. split; [lia|]. split.
  - rewrite H1, <- Hx1, <- Hx0.
    assert (G : forall k, (k <= final_iter res)%nat -> norm n (F (xs k)) <= (1 - tt o / 2)^k * norm n (F (xs 0%nat))).
    { induction k as [|k IH]; intros Hk; [simpl; lra|].
      destruct (Hx2 k ltac:(lia)) as (_ & s & _ & _ & Hle).
      specialize (IH ltac:(lia)). simpl.
      eapply Rle_trans; [exact Hle|]. rewrite Rmult_assoc. apply Rmult_le_compat_l; [lra|exact IH]. }
    apply G; lia.
  - exists xs. unfold newton_history. split; [exact Hx0|]. split; [exact Hx1|]. intros k Hk. apply Hx2; exact Hk.
Qed.
End P.

(** the correct slope for an affine residual F(x - s c) = r - s*(A c) *)
Lemma merit_derivative n r Ac :
  derivable_pt_lim (fun s => 1/2 * (norm n (axpy r (- s) Ac) * norm n (axpy r (- s) Ac))) 0 (- dot n Ac r).
Proof.
  assert (E : forall s, 1/2 * (norm n (axpy r (- s) Ac) * norm n (axpy r (- s) Ac)) =
     1/2 * dot n r r + (- dot n Ac r) * s + (1/2 * dot n Ac Ac) * (s * s)).
  { intros s. rewrite norm_sq, dot_axpy_l, !dot_axpy_r. rewrite (dot_comm n r Ac). lra. }
  intros eps Heps. set (q := 1/2 * dot n Ac Ac). assert (Hq : 0 <= q) by (unfold q; pose proof (dot_pos n Ac); lra).
  assert (Hd : 0 < eps / (q + 1)) by (apply Rdiv_lt_0_compat; lra).
  exists (mkposreal _ Hd). intros h Hh Hlt. cbn [pos] in Hlt. rewrite !E.
  replace (_ / h - _) with (q * h).
  2:{ fold q. field. exact Hh. }
  rewrite Rabs_mult, (Rabs_right q) by lra.
  apply Rle_lt_trans with (q * (eps / (q + 1))).
  - apply Rmult_le_compat_l; [exact Hq|lra].
  - apply (Rmult_lt_reg_r (q + 1)); [lra|]. unfold Rdiv. rewrite Rmult_assoc, Rmult_assoc, Rinv_l by lra. nra.
Qed.

Lemma slope_selfadjoint n (Jx : vec -> vec) r c :
  (forall u v, dot n u (Jx v) = dot n (Jx u) v) ->
  slope n (fun _ => Jx) r r c = - dot n (Jx c) r.
Proof. intros H. unfold slope. rewrite H. reflexivity. Qed.

(** rotation by 90 degrees *)
Definition rotA (i j : nat) : R := match i, j with 0%nat, 1%nat => 1 | 1%nat, 0%nat => -1 | _, _ => 0 end.
Lemma slope_wrong_sign :
  let r : vec := fun i => match i with 0%nat => 1 | _ => 0 end in
  let c : vec := fun i => match i with 1%nat => 1 | _ => 0 end in
  veq 2 (mv 2 rotA c) r /\                                   (* c is the exact Newton update *)
  derivable_pt_lim (fun s => 1/2 * (norm 2 (axpy r (- s) (mv 2 rotA c)) * norm 2 (axpy r (- s) (mv 2 rotA c)))) 0 (-1) /\
  slope 2 (fun _ => mv 2 rotA) r r c = 1.
Proof.
  intros r c. split; [|split].
  - intros i Hi. destruct i as [|[|i]]; [| |lia]; unfold mv, rsum, rotA, r, c; lra.
  - assert (E : - dot 2 (mv 2 rotA c) r = -1) by (unfold dot, mv, rsum, rotA, r, c; lra).
    pose proof (merit_derivative 2 r (mv 2 rotA c)) as D. rewrite E in D. exact D.
  - unfold slope, dot, mv, rsum, rotA, r, c. lra.
Qed.

(** ** RelaxedNewton merit function *)
Lemma Phi_dphi0_exact_solve n jac r c : 0 < norm n r -> veq n (jac c) r -> Phi_dphi0 n jac r c = - Phi_phi0 n r.
Proof.
  intros Hr H. unfold Phi_dphi0, Phi_phi0. rewrite (dot_ext n (jac c) r r r H (veq_refl n r)), <- norm_sq. field. lra.
Qed.

Lemma Phi_dphi0_is_derivative n (F : vec -> vec) (x c r Ac : vec) :
  0 < norm n r -> (forall s, veq n (F (axpy x (- s) c)) (axpy r (- s) Ac)) ->
  Phi_eval n F x c 0 = Phi_phi0 n r /\
  derivable_pt_lim (Phi_eval n F x c) 0 (Phi_dphi0 n (fun _ => Ac) r c).
Proof.
  intros Hr HF.
  assert (E0 : norm n (axpy r (- 0) Ac) = norm n r) by (apply norm_ext; intros i _; unfold axpy; ring).
  assert (Ev : forall s, Phi_eval n F x c s = sqrt (2 * (1/2 * (norm n (axpy r (- s) Ac) * norm n (axpy r (- s) Ac))))).
  { intros s. unfold Phi_eval. rewrite (norm_ext n _ _ (HF s)).
    replace (2 * (1/2 * (norm n (axpy r (- s) Ac) * norm n (axpy r (- s) Ac)))) with (Rsqr (norm n (axpy r (- s) Ac))) by (unfold Rsqr; field).
    rewrite sqrt_Rsqr; [reflexivity|apply norm_pos]. }
  split. { rewrite Ev. rewrite E0. unfold Phi_phi0.
    replace (2 * (1/2 * (norm n r * norm n r))) with (Rsqr (norm n r)) by (unfold Rsqr; field). apply sqrt_Rsqr; lra. }
  assert (D : derivable_pt_lim (fun s => sqrt (2 * (1/2 * (norm n (axpy r (- s) Ac) * norm n (axpy r (- s) Ac))))) 0
     (/ (2 * sqrt (2 * (1/2 * (norm n (axpy r (- 0) Ac) * norm n (axpy r (- 0) Ac))))) * (2 * - dot n Ac r))).
  { apply (derivable_pt_lim_comp (fun s => 2 * (1/2 * (norm n (axpy r (- s) Ac) * norm n (axpy r (- s) Ac)))) sqrt).
    - apply derivable_pt_lim_scal. apply merit_derivative.
    - apply derivable_pt_lim_sqrt. rewrite E0. nra. }
  rewrite E0 in D.
  replace (2 * (1/2 * (norm n r * norm n r))) with (Rsqr (norm n r)) in D by (unfold Rsqr; field).
  rewrite sqrt_Rsqr in D by lra.
  unfold Phi_dphi0, Phi_phi0.
  replace (- dot n Ac r / norm n r) with (/ (2 * norm n r) * (2 * - dot n Ac r)) by (field; lra).
  intros eps Heps. destruct (D eps Heps) as [d Hd]. exists d. intros h Hh Hl. rewrite !Ev. apply Hd; assumption.
Qed.

Lemma relaxed_newton_step n (o : ls_opts Rnum) F jac x r c :
  0 < rho_lo Rnum o <= rho_hi Rnum o -> rho_hi Rnum o < 1 ->
  0 < norm n r -> veq n (jac c) r ->
  let a := ComputeScalingFactor n o F jac x r c in
  a = 0 \/ (0 < a <= 1 /\ norm n (F (axpy x (- a) c)) <= (1 - mu Rnum o * a) * norm n r).
Proof.
  intros Hr H1 Hn Hj a. unfold a, ComputeScalingFactor.
  destruct (ls_search Rnum o (Phi_eval n F x c) (Phi_phi0 n r) (Phi_dphi0 n jac r c) 1) as [y tr] eqn:E. cbn [fst].
  apply ls_search_range in E; [|exact Hr|exact H1|lra].
  destruct E as [E|(_ & Hy & Hle)]; [left; exact E|right]. split; [exact Hy|].
  rewrite (Phi_dphi0_exact_solve n jac r c Hn Hj) in Hle. unfold Phi_eval, Phi_phi0 in Hle. lra.
Qed.
