(** Proofs about the boundary fluxes (euler_fluxes.hpp:81-103, 682-985, 1215-1250). *)
From Coq Require Import Reals Arith Lra Lia Psatz.
From Coquelicot Require Import Coquelicot.
From Verif Require Import Num Vec Euler EulerSpec EulerProofs EulerDeriv LogAvgProofs IsmailRoeProofs FluxProofs RoeProofs.
Local Open Scope R_scope.

Definition neg (l : R) : R := 1/2 * (Rabs l - l).
Lemma rmax_abs0 l r : Rmax (Rabs l) (0 * r) = Rabs l.
Proof. rewrite Rmult_0_l, Rmax_left; [reflexivity|apply Rabs_pos]. Qed.
Lemma upw_u_ext d dir u v H a dA l1 l2 l3 dq : (forall i, (i < d)%nat -> u i = v i) -> same d (upw d dir u H a dA l1 l2 l3 dq) (upw d dir v H a dA l1 l2 l3 dq).
Proof.
  intros E. unfold upw. cbv zeta. rewrite (dot_ext d u v u v E E), (dot_ext d dir dir u v (veq_refl d dir) E), (dot_ext d u v (mom dq) (mom dq) E (veq_refl d _)).
  apply same_intro; [reflexivity| |rewrite !mk_E; reflexivity]. intros i Hi. rewrite !mk_S by exact Hi. rewrite (E i Hi). reflexivity.
Qed.
Lemma bnd_split d dir qbnd q rho u p : 0 < rho -> 0 < p -> is_state d qbnd rho u p ->
  let a := sound rho p in let dA := sqrt (dot d dir dir) in let Un := dot d u dir in
  forall k, (k < d + 2)%nat -> calcBoundaryFlux d dir qbnd q k = calcEulerFlux d dir q k +
    upw d dir u (enthalpy d rho u p) a dA (neg (Un + dA * a)) (neg (Un - dA * a)) (neg Un) (fun i => q i - qbnd i) k.
Proof.
  intros Hr Hp S. cbv zeta. assert (Hr' : rho <> 0) by lra.
  assert (V : forall i, (i < d)%nat -> qbnd (Datatypes.S i) * (1 / qbnd 0%nat) = u i).
  { intros i Hi. rewrite <- (state_vel d qbnd rho u p i Hr' S Hi). unfold Rdiv. ring. }
  assert (PH : 1/2 * dot d (mom qbnd) (mom qbnd) * (1 / qbnd 0%nat) * (1 / qbnd 0%nat) = 1/2 * dot d u u).
  { rewrite (state_mom2 d qbnd rho u p S). destruct S as (-> & _). field. exact Hr'. }
  assert (HH : gamma * qbnd (Datatypes.S d) * (1 / qbnd 0%nat) - gami * (1/2 * dot d u u) = enthalpy d rho u p).
  { destruct S as (-> & _ & ->). unfold enthalpy, gamma, gami. field. exact Hr'. }
  assert (AA : sqrt (gami * (enthalpy d rho u p - 1/2 * dot d u u)) = sound rho p).
  { unfold sound, enthalpy, gami. f_equal. field. exact Hr'. }
  assert (UN : dot d (mom qbnd) dir * (1 / qbnd 0%nat) = dot d u dir).
  { rewrite (state_mom d qbnd rho u p dir S). destruct S as (-> & _). field. exact Hr'. }
  assert (UD : forall dq, dot d (mom qbnd) (mom dq) * (1 / qbnd 0%nat) = dot d u (mom dq)).
  { intros dq. rewrite (state_mom d qbnd rho u p _ S). destruct S as (-> & _). field. exact Hr'. }
  apply same_intro; unfold calcBoundaryFlux, upw; cbv zeta; rewrite !PH, !HH, !AA, !UN, !UD, !rmax_abs0, (dot_comm d dir u);
   fold (neg (dot d u dir)) (neg (dot d u dir + sqrt (dot d dir dir) * sound rho p)) (neg (dot d u dir - sqrt (dot d dir dir) * sound rho p)).
  - rewrite !mk_0. ring.
  - intros i Hi. rewrite !mk_S by exact Hi. rewrite <- (V i Hi). ring.
  - rewrite !mk_E. ring.
Qed.
Lemma sound_pos d rho u p : 0 < rho -> 0 < p -> 0 < sound rho p /\ sound rho p * sound rho p = gami * (enthalpy d rho u p - 1/2 * dot d u u).
Proof.
  intros Hr Hp. assert (0 < 7/5 * p / rho) by (apply Rdiv_lt_0_compat; lra). unfold sound. split; [apply sqrt_lt_R0; assumption|].
  rewrite sqrt_sqrt by lra. unfold enthalpy, gami. field. lra.
Qed.
Lemma bnd_consistent d dir qbnd q rho u p : 0 < rho -> 0 < p -> is_state d qbnd rho u p -> is_state d q rho u p -> euler_flux d dir rho u p (calcBoundaryFlux d dir qbnd q).
Proof.
  intros Hr Hp SB S. pose proof (euler_flux_prim d dir q rho u p Hr S) as (A0 & A1 & AE). pose proof (state_unique d q qbnd rho u p S SB) as E.
  assert (Z : same d (fun i => q i - qbnd i) (fun _ => 0)) by (intros i Hi; rewrite (E i Hi); ring).
  assert (K : forall k, (k < d + 2)%nat -> calcBoundaryFlux d dir qbnd q k = calcEulerFlux d dir q k).
  { intros k Hk. rewrite (bnd_split d dir qbnd q rho u p Hr Hp SB k Hk), (upw_zero d dir _ _ _ _ _ _ _ _ Z k Hk). ring. }
  split; [rewrite K by lia; exact A0|]. split.
  - intros i Hi. rewrite K by lia. exact (A1 i Hi).
  - rewrite K by lia. exact AE.
Qed.
Lemma neg_pos l : 0 <= l -> neg l = 0. Proof. intros. unfold neg. rewrite Rabs_pos_eq by assumption. field. Qed.
Lemma neg_neg l : l <= 0 -> neg l = - l. Proof. intros. unfold neg. rewrite Rabs_left1 by assumption. field. Qed.
Lemma bnd_outflow d dir qbnd q rho u p : 0 < rho -> 0 < p -> is_state d qbnd rho u p -> sqrt (dot d dir dir) * sound rho p <= dot d u dir ->
  same d (calcBoundaryFlux d dir qbnd q) (calcEulerFlux d dir q).
Proof.
  intros Hr Hp SB C k Hk. rewrite (bnd_split d dir qbnd q rho u p Hr Hp SB k Hk). destruct (sound_pos d rho u p Hr Hp) as (Pa & _). pose proof (sqrt_pos (dot d dir dir)).
  assert (0 <= sqrt (dot d dir dir) * sound rho p) by nra.
  rewrite !neg_pos by lra.
  assert (Z : forall dq, same d (upw d dir u (enthalpy d rho u p) (sound rho p) (sqrt (dot d dir dir)) 0 0 0 dq) (fun _ => 0)).
  { intros dq. unfold upw. cbv zeta. unfold Rdiv. apply same_intro; [rewrite mk_0; ring| |rewrite mk_E; ring]. intros i Hi. rewrite mk_S by exact Hi. ring. }
  rewrite (Z _ k Hk). ring.
Qed.
Lemma state_ind d (P : nat -> Prop) : P 0%nat -> (forall i, (i < d)%nat -> P (S i)) -> P (S d) -> forall k, (k < d + 2)%nat -> P k.
Proof. intros A B C k Hk. destruct k; [exact A|]. destruct (Nat.eq_dec k d) as [->|]; [exact C|]. apply B. lia. Qed.
(** ** the flux Jacobian *)
Definition jac_dir (d : nat) (dir u : vec) (H : R) (dq : vec) : vec :=
  let Un := dot d u dir in
  let Edq := 1/2 * dot d u u * dq 0%nat + dq (S d) - dot d u (mom dq) in
  let Fdq := - Un * dq 0%nat + dot d dir (mom dq) in
  mk d (Un * dq 0%nat + Fdq) (fun i => Un * dq (S i) + Fdq * u i + gami * Edq * dir i) (Un * dq (S d) + Fdq * H + gami * Edq * Un).
Lemma euler_derive d dir q v rho u p : 0 < rho -> is_state d q rho u p ->
  forall k, (k < d + 2)%nat -> is_derive (fun s => calcEulerFlux d dir (axpy q s v) k) 0 (jac_dir d dir u (enthalpy d rho u p) v k).
Proof.
  intros Hr SQ. assert (Hr' : rho <> 0) by lra. assert (Q0 : q 0%nat <> 0) by (destruct SQ as (-> & _); exact Hr').
  pose proof (pressure_derive d q v Q0) as DP. set (P := fun s => pressure d (axpy q s v)) in *.
  assert (P0 : P 0 = p). { unfold P. rewrite (pressure_same d (axpy q 0 v) q); [exact (state_pressure d q rho u p Hr' SQ)|]. intros i _. unfold axpy. ring. }
  assert (dp : dot (d + 2) (dpressdq d q) v = gami * (1/2 * dot d u u * v 0%nat + v (S d) - dot d u (mom v))).
  { rewrite dot_state. unfold dpressdq at 1 3. cbv zeta. rewrite mk_0, mk_E, (state_vel2 d q rho u p Hr' SQ).
    assert (X : dot d (mom (dpressdq d q)) (mom v) = - gami * dot d u (mom v)).
    { unfold dot. rewrite <- rsum_scal. apply rsum_ext. intros i Hi. unfold mom at 1, dpressdq. cbv zeta. rewrite mk_S by exact Hi. rewrite (state_vel d q rho u p i Hr' SQ Hi). ring. }
    rewrite X. ring. }
  rewrite dp in DP. set (ep := gami * _) in *.
  assert (UL : forall s, dot d (mom (axpy q s v)) dir = rho * dot d u dir + s * dot d dir (mom v)).
  { intros s. rewrite <- (state_mom d q rho u p dir SQ). unfold dot. rewrite <- rsum_scal, <- rsum_plus. apply rsum_ext. intros; unfold mom, axpy; ring. }
  assert (EP : ex_derive P 0) by (eexists; exact DP). assert (UP : Derive P 0 = ep) by (apply is_derive_unique; exact DP).
  assert (QQ : q 0%nat = rho) by (destruct SQ as (-> & _); reflexivity).
  assert (G : forall (j : nat) c l, 
     is_derive (fun s => (q j + s * v j) * ((rho * dot d u dir + s * dot d dir (mom v)) / (rho + s * v 0%nat)) + P s * c + P s * ((rho * dot d u dir + s * dot d dir (mom v)) / (rho + s * v 0%nat)) * l) 0
       (v j * dot d u dir + q j * (dot d dir (mom v) - dot d u dir * v 0%nat) / rho + ep * c + ep * dot d u dir * l + p * (dot d dir (mom v) - dot d u dir * v 0%nat) / rho * l)).
  { intros j c l. clearbody P ep. auto_derive.
    - repeat split; auto; rewrite Rmult_0_l, Rplus_0_r; exact Hr'.
    - replace (Derive (fun x => P x) 0) with (Derive P 0) by reflexivity. rewrite UP, P0, !Rmult_0_l, !Rplus_0_r. field. exact Hr'. }
  apply state_ind.
  - apply (is_derive_ext (fun s => rho * dot d u dir + s * dot d dir (mom v))). { intros s. unfold calcEulerFlux. cbv zeta. rewrite mk_0, UL. reflexivity. }
    unfold jac_dir. cbv zeta. rewrite mk_0. auto_derive; [trivial|]. ring.
  - intros i Hi. apply (is_derive_ext (fun s => (q (S i) + s * v (S i)) * ((rho * dot d u dir + s * dot d dir (mom v)) / (rho + s * v 0%nat)) + P s * dir i + P s * ((rho * dot d u dir + s * dot d dir (mom v)) / (rho + s * v 0%nat)) * 0)).
    { intros s. unfold calcEulerFlux. cbv zeta. rewrite mk_S by exact Hi. rewrite UL. unfold axpy at 1 2. rewrite QQ. change (pressure d (axpy q s v)) with (P s). match goal with |- ?a = ?b => change (@eq R a b) end. unfold Rdiv. ring. }
    match goal with |- is_derive _ _ ?x => replace x with (v (S i) * dot d u dir + q (S i) * (dot d dir (mom v) - dot d u dir * v 0%nat) / rho + ep * dir i + ep * dot d u dir * 0 + p * (dot d dir (mom v) - dot d u dir * v 0%nat) / rho * 0) end; [apply G|].
    unfold jac_dir. cbv zeta. rewrite mk_S by exact Hi. destruct SQ as (_ & Q1 & _). rewrite (Q1 i Hi). unfold ep. field. exact Hr'.
  - apply (is_derive_ext (fun s => (q (S d) + s * v (S d)) * ((rho * dot d u dir + s * dot d dir (mom v)) / (rho + s * v 0%nat)) + P s * 0 + P s * ((rho * dot d u dir + s * dot d dir (mom v)) / (rho + s * v 0%nat)) * 1)).
    { intros s. unfold calcEulerFlux. cbv zeta. rewrite mk_E. rewrite UL. unfold axpy at 1 3. rewrite QQ. change (pressure d (axpy q s v)) with (P s). match goal with |- ?a = ?b => change (@eq R a b) end. unfold Rdiv. ring. }
    match goal with |- is_derive _ _ ?x => replace x with (v (S d) * dot d u dir + q (S d) * (dot d dir (mom v) - dot d u dir * v 0%nat) / rho + ep * 0 + ep * dot d u dir * 1 + p * (dot d dir (mom v) - dot d u dir * v 0%nat) / rho * 1) end; [apply G|].
    unfold jac_dir. cbv zeta. rewrite mk_E. destruct SQ as (_ & _ & QE). rewrite QE. unfold ep, enthalpy. field. exact Hr'.
Qed.
Lemma bnd_inflow d dir qbnd q rho u p : 0 < rho -> 0 < p -> is_state d qbnd rho u p -> 0 < dot d dir dir -> dot d u dir <= - (sqrt (dot d dir dir) * sound rho p) ->
  forall k, (k < d + 2)%nat -> calcBoundaryFlux d dir qbnd q k = calcEulerFlux d dir q k - jac_dir d dir u (enthalpy d rho u p) (fun i => q i - qbnd i) k.
Proof.
  intros Hr Hp SB Hd C. destruct (sound_pos d rho u p Hr Hp) as (Pa & _). pose proof (sqrt_lt_R0 _ Hd) as PdA.
  pose proof (bnd_split d dir qbnd q rho u p Hr Hp SB) as BS. cbv zeta in BS. set (a := sound rho p) in *. set (dA := sqrt (dot d dir dir)) in *.
  assert (0 < dA * a) by nra. rewrite !neg_neg in BS by lra. set (dq := fun i => q i - qbnd i) in *.
  assert (X : same d (upw d dir u (enthalpy d rho u p) a dA (- (dot d u dir + dA * a)) (- (dot d u dir - dA * a)) (- dot d u dir) dq) (fun k => - jac_dir d dir u (enthalpy d rho u p) dq k)).
  { unfold upw, jac_dir. cbv zeta. rewrite (dot_comm d dir u). apply same_intro; [rewrite !mk_0; field; split; lra| |rewrite !mk_E; field; split; lra].
    intros i Hi. rewrite !mk_S by exact Hi. field. split; lra. }
  intros k Hk. rewrite (BS k Hk), (X k Hk). ring.
Qed.

(** ** entropy-constrained and control fluxes *)
Lemma bndEC d dir qbnd q e : physical d q -> dot (d + 2) (calcEntropyVars d false q) (calcBoundaryFluxEC d dir qbnd q e) = dot d (mom q) dir + e.
Proof.
  intros H. unfold calcBoundaryFluxEC. cbv zeta. set (w := calcEntropyVars d false q). set (f := calcBoundaryFlux d dir qbnd q). set (A := calcdQdWProduct d q w).
  assert (N : dot (d + 2) w A <> 0).
  { intros E. pose proof (same_E d _ _ (dqdw_definite d q w H E)) as Z. pose proof (ent_last_neg d q H) as L. unfold w in Z. lra. }
  set (c := (dot (d + 2) w f - dot d (mom q) dir - e) / dot (d + 2) w A).
  assert (E : dot (d + 2) w (fun i => f i - c * A i) = dot (d + 2) w f - c * dot (d + 2) w A).
  { unfold dot. rewrite <- rsum_scal, <- rsum_minus. apply rsum_ext. intros; ring. }
  rewrite E. unfold c. field. exact N.
Qed.
Lemma w_dot_q d q : physical d q -> dot (d + 2) (calcEntropyVars d false q) q = q 0%nat + entropy d false q.
Proof.
  intros (rho & u & p & Hr & Hp & H). rewrite (entropy_prim d q rho u p Hr Hp H). pose proof (entvars_prim d q rho u p Hr Hp H) as (W0 & W1 & WE).
  rewrite dot_state, W0, WE. assert (X : dot d (mom (calcEntropyVars d false q)) (mom q) = rho * rho / p * dot d u u).
  { rewrite dot_comm, (state_mom d q rho u p _ H). unfold dot. rewrite <- !rsum_scal. apply rsum_ext. intros i Hi. unfold mom. rewrite (W1 i Hi). field. lra. }
  rewrite X. destruct H as (-> & _ & ->). unfold math_entropy, thermo. field. lra.
Qed.
Lemma w_dot_n d q dir rho u p : 0 < rho -> 0 < p -> is_state d q rho u p -> p * dot d (mom (calcEntropyVars d false q)) dir = dot d (mom q) dir.
Proof.
  intros Hr Hp H. pose proof (entvars_prim d q rho u p Hr Hp H) as (_ & W1 & _). unfold dot. rewrite <- rsum_scal. apply rsum_ext. intros i Hi. unfold mom. rewrite (W1 i Hi).
  destruct H as (_ & H & _). rewrite (H i Hi). field. lra.
Qed.
Lemma control_entropy d dir q c : physical d q -> dot (d + 2) (calcEntropyVars d false q) (calcControlFlux d dir q c) = dot d (mom q) dir - c * sqrt (dot d dir dir) * entropy d false q.
Proof.
  intros H. pose proof (w_dot_q d q H) as WQ. destruct H as (rho & u & p & Hr & Hp & H). pose proof (w_dot_n d q dir rho u p Hr Hp H) as WN.
  pose proof (entvars_prim d q rho u p Hr Hp H) as (_ & _ & WE). set (w := calcEntropyVars d false q) in *. unfold calcControlFlux. cbv zeta.
  rewrite (state_pressure d q rho u p ltac:(lra) H). set (U := - c * sqrt (dot d dir dir)).
  assert (X : dot d (mom w) (mom (mk d (q 0%nat * U) (fun i => q (S i) * U + dir i * p) (q (S d) * U + p * U))) = U * dot d (mom w) (mom q) + p * dot d (mom w) dir).
  { unfold dot. rewrite <- !rsum_scal, <- rsum_plus. apply rsum_ext. intros i Hi. unfold mom at 2. rewrite mk_S by exact Hi. unfold mom. ring. }
  rewrite dot_state, X, mk_0, mk_E, WN. rewrite dot_state in WQ.
  replace (c * sqrt (dot d dir dir) * entropy d false q) with (- U * (entropy d false q)) by (unfold U; ring).
  replace (entropy d false q) with (w 0%nat * q 0%nat + dot d (mom w) (mom q) + w (S d) * q (S d) - q 0%nat) by lra.
  assert (PW : p * w (S d) = - rho) by (rewrite WE; field; lra). destruct H as (Q0 & _). rewrite Q0 in *. replace (w (S d) * (q (S d) * U + p * U)) with (U * (w (S d) * q (S d)) + U * (p * w (S d))) by ring. rewrite PW. ring.
Qed.
Lemma farfield2_consistent d dir qbnd q rho u p : 0 < rho -> is_state d qbnd rho u p -> is_state d q rho u p -> euler_flux d dir rho u p (calcFarFieldFlux2 d dir qbnd q).
Proof.
  intros Hr SB SQ. assert (Hr' : rho <> 0) by lra. unfold calcFarFieldFlux2. cbv zeta. rewrite (state_pressure d q rho u p Hr' SQ), (state_pressure d qbnd rho u p Hr' SB).
  rewrite (dot_comm d dir (mom qbnd)), (state_mom d qbnd rho u p dir SB). destruct SB as (B0 & B1 & BE), SQ as (Q0 & Q1 & QE). rewrite B0.
  replace (rho * dot d u dir / rho) with (dot d u dir) by (field; exact Hr'). split; [|split].
  - rewrite mk_0, Q0. field.
  - intros i Hi. rewrite mk_S by exact Hi. rewrite (Q1 i Hi), (B1 i Hi). field.
  - rewrite mk_E, QE, BE. field.
Qed.
(** upwinding of farfield2: outflow takes everything from inside but for the momentum pressure; inflow from outside *)
Lemma farfield2_outflow d dir qbnd q : 0 < qbnd 0%nat -> 0 <= dot d dir (mom qbnd) -> let U := dot d dir (mom qbnd) / qbnd 0%nat in
  same d (calcFarFieldFlux2 d dir qbnd q) (mk d (U * q 0%nat) (fun i => U * q (S i) + dir i * pressure d q) (U * (q (S d) + pressure d q))).
Proof.
  intros Hb HU. cbv zeta. unfold calcFarFieldFlux2. cbv zeta. set (U := dot d dir (mom qbnd) / qbnd 0%nat).
  assert (0 <= U) by (apply Rmult_le_pos; [exact HU|apply Rlt_le, Rinv_0_lt_compat, Hb]). rewrite (Rabs_pos_eq U) by assumption.
  apply same_intro; [rewrite !mk_0; field| |rewrite !mk_E; field]. intros i Hi. rewrite !mk_S by exact Hi. field.
Qed.
Lemma farfield2_inflow d dir qbnd q : 0 < qbnd 0%nat -> dot d dir (mom qbnd) <= 0 -> let U := dot d dir (mom qbnd) / qbnd 0%nat in
  same d (calcFarFieldFlux2 d dir qbnd q) (mk d (U * qbnd 0%nat) (fun i => U * qbnd (S i) + dir i * pressure d q) (U * (qbnd (S d) + pressure d qbnd))).
Proof.
  intros Hb HU. cbv zeta. unfold calcFarFieldFlux2. cbv zeta. set (U := dot d dir (mom qbnd) / qbnd 0%nat).
  assert (U <= 0). { unfold U, Rdiv. pose proof (Rinv_0_lt_compat _ Hb). nra. } rewrite (Rabs_left1 U) by assumption.
  apply same_intro; [rewrite !mk_0; field| |rewrite !mk_E; field]. intros i Hi. rewrite !mk_S by exact Hi. field.
Qed.
Lemma farfield_same d dir qbnd q q' : same d q q' -> same d (calcBoundaryFlux d dir qbnd q) (calcBoundaryFlux d dir qbnd q').
Proof.
  intros E. unfold calcBoundaryFlux, calcEulerFlux. cbv zeta. rewrite (same_0 d q q' E), (same_E d q q' E), (pressure_same d q q' E).
  assert (M : forall i, (i < d)%nat -> mom q i = mom q' i) by (intros i Hi; exact (same_S d q q' i E Hi)).
  rewrite (dot_ext d (mom q) (mom q') dir dir M (veq_refl d dir)).
  rewrite (dot_ext d (mom qbnd) (mom qbnd) (mom (fun i => q i - qbnd i)) (mom (fun i => q' i - qbnd i)) (veq_refl d _) (fun i Hi => f_equal (fun x => x - qbnd (S i)) (M i Hi))).
  rewrite (dot_ext d dir dir (mom (fun i => q i - qbnd i)) (mom (fun i => q' i - qbnd i)) (veq_refl d _) (fun i Hi => f_equal (fun x => x - qbnd (S i)) (M i Hi))).
  apply same_intro; [rewrite !mk_0; reflexivity| |rewrite !mk_E; reflexivity]. intros i Hi. rewrite !mk_S by exact Hi. rewrite (same_S d q q' i E Hi). reflexivity.
Qed.
Lemma farfield_ent d dir qbnd q : physical d q -> same d (calcFarFieldFlux d true dir qbnd (calcEntropyVars d false q)) (calcFarFieldFlux d false dir qbnd q).
Proof. intros H. unfold calcFarFieldFlux. apply farfield_same. apply cons_of_ent, H. Qed.

(** ** walls *)
Lemma wall_props d dir q : 0 < dot d dir dir -> let r := projectStateOntoWall d dir q in
  r 0%nat = q 0%nat /\ r (S d) = q (S d) /\ dot d dir (mom r) = 0 /\ (forall t, dot d dir t = 0 -> dot d t (mom r) = dot d t (mom q)) /\ same d (projectStateOntoWall d dir r) r /\ dot d (mom r) (mom r) = dot d (mom q) (mom q) - dot d dir (mom q) * dot d dir (mom q) / dot d dir dir.
Proof.
  intros Hd. cbv zeta. set (r := projectStateOntoWall d dir q). set (A := sqrt (dot d dir dir)). assert (PA : 0 < A) by (apply sqrt_lt_R0; exact Hd). assert (AA : dot d dir dir = A * A) by (symmetry; apply sqrt_sqrt; lra).
  assert (RS : forall x i, (i < d)%nat -> projectStateOntoWall d dir x (S i) = x (S i) - dir i * dot d dir (mom x) / (A * A)).
  { intros x i Hi. unfold projectStateOntoWall. cbv zeta. rewrite mk_S by exact Hi. fold A.
    replace (rsum d (fun j => dir j * (1 / A) * x (S j))) with (dot d dir (mom x) / A); [field; lra|]. unfold dot. rewrite <- rsum_div. apply rsum_ext. intros; unfold mom; field. lra. }
  assert (R0 : r 0%nat = q 0%nat) by reflexivity. assert (RE : r (S d) = q (S d)) by (unfold r, projectStateOntoWall; cbv zeta; rewrite mk_E; reflexivity).
  assert (T : forall t, dot d t (mom r) = dot d t (mom q) - dot d dir t * dot d dir (mom q) / (A * A)).
  { intros t. replace (dot d dir t * dot d dir (mom q) / (A * A)) with (dot d dir (mom q) / (A * A) * dot d dir t) by (unfold Rdiv; ring). unfold dot. rewrite <- rsum_scal, <- rsum_minus. apply rsum_ext.
    intros i Hi. unfold mom at 1. unfold r. rewrite (RS q i Hi). unfold mom, Rdiv, dot. ring. }
  assert (N : dot d dir (mom r) = 0). { rewrite T, AA. field. lra. }
  split; [exact R0|]. split; [exact RE|]. split; [exact N|]. split; [|split].
  - intros t Ht. rewrite T, Ht. unfold Rdiv. ring.
  - apply same_intro; [reflexivity| |unfold projectStateOntoWall at 1; cbv zeta; rewrite mk_E; reflexivity]. intros i Hi. rewrite (RS r i Hi), N. unfold Rdiv. ring.
  - rewrite (T (mom r)), N, dot_comm, T, AA. unfold Rdiv. ring.
Qed.
Lemma slip_prim d dir q rho u p : 0 < rho -> is_state d q rho u p -> same d (calcSlipWallFlux d false dir q) (mk d 0 (fun i => p * dir i) 0).
Proof.
  intros Hr H. unfold calcSlipWallFlux. cbv zeta. rewrite (state_pressure d q rho u p ltac:(lra) H). apply same_intro; [reflexivity| |rewrite !mk_E; reflexivity]. intros i Hi. rewrite !mk_S by exact Hi. ring.
Qed.
Lemma slip_ent d dir w rho u p : 0 < rho -> 0 < p -> ent_of d w rho u p -> same d (calcSlipWallFlux d true dir w) (mk d 0 (fun i => p * dir i) 0).
Proof.
  intros Hr Hp (W0 & W1 & W2). unfold calcSlipWallFlux. cbv zeta.
  assert (HV : dot d (mom w) (mom w) = rho * rho / (p * p) * dot d u u).
  { unfold dot. rewrite <- rsum_scal. apply rsum_ext. intros i Hi. unfold mom. rewrite W1 by exact Hi. field. lra. }
  assert (HS : gamma + gami * (1/2 * dot d (mom w) (mom w) / w (S d) - w 0%nat) = thermo rho p).
  { rewrite HV, W0, W2. unfold gamma, gami. field. lra. }
  assert (HQ : Rpower (- exp (- thermo rho p) / w (S d)) (1 / gami) = rho).
  { rewrite <- (rho_recover rho p) at 2 by assumption. f_equal. rewrite W2. field. lra. }
  rewrite HS, HQ. apply same_intro; [reflexivity| |rewrite !mk_E; reflexivity]. intros i Hi. rewrite !mk_S by exact Hi. rewrite W2. field. lra.
Qed.
Lemma slip_agree d dir q : physical d q -> same d (calcSlipWallFlux d true dir (calcEntropyVars d false q)) (calcSlipWallFlux d false dir q).
Proof.
  intros (rho & u & p & Hr & Hp & H). eapply same_trans; [apply (slip_ent d dir _ rho u p Hr Hp (entvars_prim d q rho u p Hr Hp H))|]. apply same_sym, (slip_prim d dir q rho u p Hr H).
Qed.
Lemma slip_entropy d dir q : physical d q -> dot (d + 2) (calcEntropyVars d false q) (calcSlipWallFlux d false dir q) = dot d (mom q) dir.
Proof.
  intros (rho & u & p & Hr & Hp & H). rewrite (dot_ext (d + 2) _ (calcEntropyVars d false q) _ _ (veq_refl _ _) (slip_prim d dir q rho u p Hr H)).
  rewrite dot_state, mk_0, mk_E. rewrite <- (w_dot_n d q dir rho u p Hr Hp H). rewrite !Rmult_0_r, Rplus_0_l, Rplus_0_r. unfold dot. rewrite <- rsum_scal. apply rsum_ext. intros i Hi. unfold mom at 2. rewrite mk_S by exact Hi. unfold mom. ring.
Qed.
(** ** free stream *)
Lemma fs_1d M aoa ir ip : is_state 1 (getFreeStreamQ 1 M aoa ir ip) 1 (fun _ => M) (5/7).
Proof. unfold getFreeStreamQ, is_state, gamma, gami, dot. cbn. repeat split; try lra. intros i Hi. destruct i; [cbn; ring|lia]. Qed.
Lemma fs_nd d M aoa ir ip : (2 <= d)%nat -> (ir < d)%nat -> (ip < d)%nat -> ir <> ip ->
  let u := fun i => if Nat.eqb i ir then M * cos aoa else if Nat.eqb i ip then M * sin aoa else 0 in
  is_state d (getFreeStreamQ d M aoa ir ip) 1 u (5/7) /\ dot d u u = M * M.
Proof.
  intros Hd Hr Hp N. cbv zeta. set (u := fun i => _).
  assert (UU : dot d u u = M * M).
  { unfold dot. rewrite (rsum_ext d _ (fun i => (if Nat.eqb i ir then (M * cos aoa) * (M * cos aoa) else 0) + (if Nat.eqb i ip then (M * sin aoa) * (M * sin aoa) else 0))).
    - rewrite rsum_plus, (rsum_delta d (fun _ => _) ir Hr), (rsum_delta d (fun _ => _) ip Hp). pose proof (sin2_cos2 aoa) as T. unfold Rsqr in T.
      replace (M * cos aoa * (M * cos aoa) + M * sin aoa * (M * sin aoa)) with (M * M * (sin aoa * sin aoa + cos aoa * cos aoa)) by ring. rewrite T. ring.
    - intros i Hi. unfold u. destruct (Nat.eqb_spec i ir), (Nat.eqb_spec i ip); try lra. congruence. }
  split; [|exact UU]. unfold is_state. rewrite UU. unfold getFreeStreamQ. cbv zeta. replace (Nat.eqb d 1) with false by (symmetry; apply Nat.eqb_neq; lia).
  cbn [Nat.eqb]. repeat split.
  - intros i Hi. replace (Nat.eqb i d) with false by (symmetry; apply Nat.eqb_neq; lia). unfold u. destruct (Nat.eqb_spec i ip), (Nat.eqb_spec i ir); subst; try congruence; ring.
  - rewrite Nat.eqb_refl. unfold gamma, gami. field.
Qed.
