(** Proofs about Steinmetz core losses. *)
From Coq Require Import Reals String List Bool Arith Lia Lra FunctionalExtensionality.
From Coquelicot Require Import Coquelicot.
From Verif Require Import Vec Deriv EmInteg EmIntegSpec EmMeshProofs SbpSpec SbpMeshProofs CommonFun CommonFunSpec CommonFunProofs Loss LossSpec LossProofs Outputs Steinmetz.
Import ListNotations.
Local Open Scope R_scope.

(** EvalRevDiff is the transposed derivative of Eval, at the points of the elements *)
Definition coef_ok (sdim : nat) (c : pcoef) (M : list elem) : Prop := forall e q, In e M -> (q < e_nq e)%nat ->
  rev_scalar sdim (e_nn e) (p_val c e q) (p_rev c e q).

Lemma cpow_pos x a : 0 < x -> cpow x a = Rpower x a.
Proof. intros H. unfold cpow. destruct (Rlt_dec 0 x); [reflexivity|lra]. Qed.
Lemma cpow_nonneg x a : 0 <= cpow x a.
Proof. unfold cpow. destruct (Rlt_dec 0 x); [left; apply exp_pos|]. destruct (Req_EM_T a 0); lra. Qed.
Lemma cpow_zero a : 0 < a -> cpow 0 a = 0.
Proof. intros H. unfold cpow. destruct (Rlt_dec 0 0); [lra|]. destruct (Req_EM_T a 0); lra. Qed.
Lemma cpow_base x a : 0 < x -> is_derive (fun y => cpow y a) x (a * cpow x (a - 1)).
Proof.
  intros H. rewrite (cpow_pos x) by exact H. apply (is_derive_ext_loc (fun y => Rpower y a)).
  - exists (mkposreal x H). intros y Hy. symmetry. apply cpow_pos. unfold ball in Hy. cbn in Hy. unfold AbsRing_ball, abs, minus, plus, opp in Hy. cbn in Hy.
    assert (K := Rle_abs (- (y + - x))). rewrite Rabs_Ropp in K. lra.
  - apply is_derive_Reals. now apply derivable_pt_lim_power.
Qed.
Lemma cpow_exponent x : 0 < x -> forall (f : R -> R) t d, is_derive f t d -> is_derive (fun s => cpow x (f s)) t (cpow x (f t) * ln x * d).
Proof.
  intros H f t d D. rewrite cpow_pos by exact H. apply (DV_ext (fun s => exp (f s * ln x))).
  - intros s. rewrite cpow_pos by exact H. reflexivity.
  - apply (DV_eq _ t (exp (f t * ln x) * (d * ln x))); [|unfold Rpower; ring].
    apply (DV_comp exp (fun s => f s * ln x)); [apply is_derive_exp|now apply DV_scal_r].
Qed.
Lemma cpow_mono x y a : 0 <= x <= y -> 0 <= a -> cpow x a <= cpow y a.
Proof.
  intros [H1 H2] A. destruct (Rlt_dec 0 x) as [P|N].
  - rewrite !cpow_pos by lra. apply Rle_Rpower_l; lra.
  - assert (x = 0) as -> by lra. destruct (Req_EM_T a 0) as [->|Na].
    + unfold cpow at 1. destruct (Rlt_dec 0 0); [lra|]. destruct (Req_EM_T 0 0); [|lra].
      unfold cpow. destruct (Rlt_dec 0 y); [rewrite Rpower_O; lra|]. destruct (Req_EM_T 0 0); lra.
    + rewrite cpow_zero by lra. apply cpow_nonneg.
Qed.
Lemma cpow_mult c x a : 0 < c -> 0 < x -> cpow (c * x) a = cpow c a * cpow x a.
Proof. intros. rewrite !cpow_pos; [symmetry; now apply Rpower_mult_distr|assumption|assumption|now apply Rmult_lt_0_compat]. Qed.

Section One.
Variable s : steinmetz.
Let M := st_elems s.
(** the loss density rho k_s f^alpha b^beta *)
Definition st_dens (s : steinmetz) (f b : R) (X : mat) (e : elem) (q : nat) : R :=
  p_val (st_rho s) e q (place e X) * p_val (st_ks s) e q (place e X) * cpow f (p_val (st_alpha s) e q (place e X)) * cpow b (p_val (st_beta s) e q (place e X)).

Lemma st_value X : st_energy s X = integral (measured (st_dens s (st_freq s) (st_flux s) X) M X).
Proof. unfold integral. rewrite (measured_sum (fun g w => g * w)). reflexivity. Qed.

Lemma st_freq_ok X f b : 0 < f ->
  is_derive (fun x => integral (measured (st_dens s x b X) M X)) f
    (st_freq_sens {| st_rho := st_rho s; st_ks := st_ks s; st_alpha := st_alpha s; st_beta := st_beta s; st_name := st_name s; st_elems := M; st_freq := f; st_flux := b |} X).
Proof.
  intros H. apply (DV_ext (fun x => lsum (fun e => rsum (e_nq e) (fun q => st_dens s x b X e q * (e_pw e q * e_W e q (nodes_of e X)))) M)).
  { intros x. unfold integral. now rewrite (measured_sum (fun g w => g * w)). }
  apply (points_derive M (fun e q x => st_dens s x b X e q * (e_pw e q * e_W e q (nodes_of e X)))). intros e q _ _. cbn [st_rho st_ks st_alpha st_beta st_freq st_flux]. cbv zeta.
  unfold st_dens. change (place e X) with (nodes_of e X).
  refine (DV_eq _ _ _ _ (DV_scal_r _ _ _ _ (DV_scal_r _ _ _ _ (DV_scal _ _ _ _ (cpow_base f _ H)))) _). ring.
Qed.
Lemma st_flux_ok X f b : 0 < b ->
  is_derive (fun x => integral (measured (st_dens s f x X) M X)) b
    (st_flux_sens {| st_rho := st_rho s; st_ks := st_ks s; st_alpha := st_alpha s; st_beta := st_beta s; st_name := st_name s; st_elems := M; st_freq := f; st_flux := b |} X).
Proof.
  intros H. apply (DV_ext (fun x => lsum (fun e => rsum (e_nq e) (fun q => st_dens s f x X e q * (e_pw e q * e_W e q (nodes_of e X)))) M)).
  { intros x. unfold integral. now rewrite (measured_sum (fun g w => g * w)). }
  apply (points_derive M (fun e q x => st_dens s f x X e q * (e_pw e q * e_W e q (nodes_of e X)))). intros e q _ _. cbn [st_rho st_ks st_alpha st_beta st_freq st_flux]. cbv zeta.
  unfold st_dens. change (place e X) with (nodes_of e X).
  refine (DV_eq _ _ _ _ (DV_scal_r _ _ _ _ (DV_scal _ _ _ _ (cpow_base b _ H))) _). ring.
Qed.
Lemma st_mesh_ok X V sdim NN : nodes_ok sdim NN M -> coef_ok sdim (st_rho s) M -> coef_ok sdim (st_ks s) M -> coef_ok sdim (st_alpha s) M -> coef_ok sdim (st_beta s) M ->
  0 < st_freq s -> 0 < st_flux s ->
  is_derive (fun t => st_energy s (moved X V t)) 0 (pairing sdim NN (st_mesh_sens s X) V).
Proof.
  intros H Hr Hk Ha Hb F B. apply quad_mesh_derive; [intros e Hi; apply (H e Hi)|]. intros e q Hi Hq. cbv zeta.
  destruct (rev_scalar_entries sdim (e_nn e) _ _ (nodes_of e X) (nodes_of e V) (proj2 (H e Hi) q Hq)) as (dW & DW & PW).
  destruct (rev_scalar_entries sdim (e_nn e) _ _ (nodes_of e X) (nodes_of e V) (Hr e q Hi Hq)) as (dr & Dr & Pr).
  destruct (rev_scalar_entries sdim (e_nn e) _ _ (nodes_of e X) (nodes_of e V) (Hk e q Hi Hq)) as (dk & Dk & Pk).
  destruct (rev_scalar_entries sdim (e_nn e) _ _ (nodes_of e X) (nodes_of e V) (Ha e q Hi Hq)) as (da & Da & Pa).
  destruct (rev_scalar_entries sdim (e_nn e) _ _ (nodes_of e X) (nodes_of e V) (Hb e q Hi Hq)) as (db & Db & Pb).
  rewrite !pairing_plus. rewrite PW, Pr, Pk, Pa, Pb.
  refine (DV_eq _ 0 _ _ (DV_mult _ _ 0 _ _ (DV_mult _ _ 0 _ _ (DV_mult _ _ 0 _ _ (DV_mult _ _ 0 _ _ Dr Dk) (cpow_exponent (st_freq s) F _ 0 _ Da)) (cpow_exponent (st_flux s) B _ 0 _ Db))
    (DV_scal (e_pw e q) _ 0 _ DW)) _).
  cbv beta. rewrite !moved_0'. ring.
Qed.
Lemma st_load_total TF X N : field_numbered TF N M -> partition_of_unity TF M ->
  dot N (st_load TF s X) (fun _ => 1) = st_energy s X.
Proof.
  intros H U. unfold st_load. fold M. rewrite dof_dot by exact H. unfold st_energy, quad_total. fold M. apply lsum_ext; intros e He. apply rsum_ext; intros q Hq.
  rewrite (fvalue_one TF e q M U He Hq). cbv zeta. ring.
Qed.
End One.
