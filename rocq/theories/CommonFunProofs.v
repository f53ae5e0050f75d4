From Coq Require Import Reals Lra Lia List String Psatz.
From Coquelicot Require Import Coquelicot.
From Verif Require Import Vec Deriv EmIntegSpec EmInteg EmMeshProofs SbpSpec SbpMeshProofs ThermalProofs CommonFun CommonFunSpec.
Import ListNotations.
Local Open Scope R_scope.

Lemma lsum_app {A} (f : A -> R) l r : lsum f (l ++ r) = lsum f l + lsum f r.
Proof. induction l as [|a l IH]; [cbn [app]; change (lsum f []) with 0; ring|]. change (f a + lsum f (l ++ r) = f a + lsum f l + lsum f r). rewrite IH. ring. Qed.
Lemma lsum_map {A B} (f : B -> R) (g : A -> B) l : lsum f (map g l) = lsum (fun a => f (g a)) l.
Proof. induction l as [|a l IH]; [reflexivity|]. change (f (g a) + lsum f (map g l) = f (g a) + lsum (fun a => f (g a)) l). now rewrite IH. Qed.
Lemma lsum_flat_map {A B} (f : B -> R) (g : A -> list B) l : lsum f (flat_map g l) = lsum (fun a => lsum f (g a)) l.
Proof. induction l as [|a l IH]; [reflexivity|]. cbn [flat_map]. rewrite lsum_app, IH. reflexivity. Qed.
Lemma lsum_seq (f : nat -> R) n : lsum f (seq 0 n) = rsum n f.
Proof. induction n as [|n IH]; [reflexivity|]. rewrite seq_S, lsum_app, IH. cbn. ring. Qed.
Lemma lsum_rsum {A} n (f : A -> nat -> R) l : lsum (fun a => rsum n (f a)) l = rsum n (fun i => lsum (fun a => f a i) l).
Proof. induction l as [|a l IH]; [cbn; now rewrite rsum_0|]. change (rsum n (f a) + lsum (fun a => rsum n (f a)) l = rsum n (fun i => f a i + lsum (fun a => f a i) l)). now rewrite IH, rsum_plus. Qed.
Lemma lsum_scal_r {A} c (f : A -> R) l : lsum (fun a => f a * c) l = lsum f l * c.
Proof. induction l as [|a l IH]; [cbn; ring|]. change (f a * c + lsum (fun a => f a * c) l = (f a + lsum f l) * c). rewrite IH. ring. Qed.

Lemma lsum_derive {A} (f : A -> R -> R) (d : A -> R) x (l : list A) :
  (forall a, In a l -> is_derive (f a) x (d a)) -> is_derive (fun t => lsum (fun a => f a t) l) x (lsum d l).
Proof.
  induction l as [|a r IH]; intros H; [exact (DV_const 0 x)|].
  apply (DV_plus (f a) (fun t => lsum (fun a => f a t) r)); [apply H; now left|]. apply IH. intros b Hb. apply H. now right.
Qed.
Lemma scatter_dot N n glob r v : (forall i, (i < n)%nat -> (glob i < N)%nat) ->
  rsum N (fun J => scatter_to n glob r J * v J) = rsum n (fun i => r i * v (glob i)).
Proof.
  intros H. unfold scatter_to.
  rewrite (rsum_ext N _ (fun J => rsum n (fun i => if Nat.eqb J (glob i) then r i * v J else 0))).
  - rewrite rsum_swap. apply rsum_ext. intros i Hi. now rewrite (rsum_delta N (fun J => r i * v J)) by auto.
  - intros J _. rewrite <- rsum_scal_r. apply rsum_ext. intros i _. destruct (Nat.eqb J (glob i)); ring.
Qed.
Lemma assembled_dot gr M X u v N : (forall e, In e M -> forall i, (i < e_ndof e)%nat -> (e_dof e i < N)%nat) ->
  dot N (assembled gr M X u) v = lsum (fun e => dot (e_ndof e) (gr e (nodes_of e X) (gather (e_ndof e) (e_dof e) u)) (gather (e_ndof e) (e_dof e) v)) M.
Proof.
  intros H. unfold dot at 1, assembled.
  rewrite (rsum_ext N _ (fun J => lsum (fun e => scatter_to (e_ndof e) (e_dof e) (gr e (nodes_of e X) (gather (e_ndof e) (e_dof e) u)) J * v J) M))
    by (intros; now rewrite lsum_scal_r).
  rewrite <- lsum_rsum. apply lsum_ext. intros e He. now rewrite scatter_dot by (apply H; exact He).
Qed.
Lemma assembled_pair ms M X u V sdim NN : (forall e, In e M -> forall j, (j < e_nn e)%nat -> (e_node e j < NN)%nat) ->
  pairing sdim NN (assembled_mesh ms M X u) V = lsum (fun e => pairing sdim (e_nn e) (ms e (nodes_of e X) (gather (e_ndof e) (e_dof e) u)) (nodes_of e V)) M.
Proof.
  intros H. unfold pairing. rewrite lsum_rsum. apply rsum_ext. intros k _. unfold assembled_mesh.
  rewrite (rsum_ext NN _ (fun J => lsum (fun e => scatter_to (e_nn e) (e_node e) (ms e (nodes_of e X) (gather (e_ndof e) (e_dof e) u) k) J * V k J) M))
    by (intros; now rewrite lsum_scal_r).
  rewrite <- lsum_rsum. apply lsum_ext. intros e He. now rewrite scatter_dot by (apply H; exact He).
Qed.
Lemma nodes_moved e X V t : nodes_of e (moved X V t) = moved (nodes_of e X) (nodes_of e V) t.
Proof. reflexivity. Qed.

Lemma total_state_derive (en : elem -> mat -> vec -> R) gr M X u v N : (forall e, In e M -> forall i, (i < e_ndof e)%nat -> (e_dof e i < N)%nat) ->
  (forall e X u v, In e M -> is_derive (fun t => en e X (along u v t)) 0 (dot (e_ndof e) (gr e X u) v)) ->
  is_derive (fun t => total en M X (along u v t)) 0 (dot N (assembled gr M X u) v).
Proof.
  intros H D. rewrite assembled_dot by exact H. unfold total.
  apply (lsum_derive (fun e t => en e (nodes_of e X) (gather (e_ndof e) (e_dof e) (along u v t)))). intros e He.
  exact (D e (nodes_of e X) (gather (e_ndof e) (e_dof e) u) (gather (e_ndof e) (e_dof e) v) He).
Qed.
Lemma total_mesh_derive (en : elem -> mat -> vec -> R) ms M X V u sdim NN : (forall e, In e M -> forall j, (j < e_nn e)%nat -> (e_node e j < NN)%nat) ->
  (forall e X V u, In e M -> is_derive (fun t => en e (moved X V t) u) 0 (pairing sdim (e_nn e) (ms e X u) V)) ->
  is_derive (fun t => total en M (moved X V t) u) 0 (pairing sdim NN (assembled_mesh ms M X u) V).
Proof.
  intros H D. rewrite assembled_pair by exact H. unfold total.
  apply (lsum_derive (fun e t => en e (nodes_of e (moved X V t)) (gather (e_ndof e) (e_dof e) u))). intros e He.
  exact (D e (nodes_of e X) (nodes_of e V) (gather (e_ndof e) (e_dof e) u) He).
Qed.

(** ** functionals of the value at the points *)
Section Points.
Variables (f df : R -> R).
Hypothesis Hf : forall g, is_derive f g (df g).
Lemma shape_derive n (N u v : vec) : is_derive (fun t => dot n N (along u v t)) 0 (dot n N v).
Proof.
  apply (DV_ext (fun t => dot n N u + t * dot n N v)); [|apply affine_derive].
  intros t. unfold dot, along. rewrite <- rsum_scal, <- rsum_plus. apply rsum_ext; intros; ring.
Qed.
Lemma point_state_derive n nq (N : nat -> vec) (w : nat -> R) (u v : vec) :
  is_derive (fun t => rsum nq (fun q => f (dot n (N q) (along u v t)) * w q)) 0
    (rsum nq (fun q => df (dot n (N q) u) * w q * dot n (N q) v)).
Proof.
  apply (DV_sum nq (fun q t => f (dot n (N q) (along u v t)) * w q)). intros q _.
  apply (DV_eq _ 0 (df (dot n (N q) (along u v 0)) * dot n (N q) v * w q)).
  - apply DV_scal_r. apply (DV_comp f (fun t => dot n (N q) (along u v t))); [apply Hf|apply shape_derive].
  - assert (E : dot n (N q) (along u v 0) = dot n (N q) u) by (unfold dot, along; apply rsum_ext; intros; ring). rewrite E. ring.
Qed.
End Points.
Lemma grad_dot n nq (a : nat -> R) (N : nat -> vec) v : dot n (fun i => rsum nq (fun q => a q * N q i)) v = rsum nq (fun q => a q * dot n (N q) v).
Proof.
  unfold dot at 1. rewrite (rsum_ext n _ (fun i => rsum nq (fun q => a q * (N q i * v i)))) by (intros; rewrite <- rsum_scal_r; apply rsum_ext; intros; ring).
  rewrite rsum_swap. apply rsum_ext. intros q _. unfold dot. now rewrite rsum_scal.
Qed.
Lemma weight_mesh_derive sdim e (a : nat -> R) X V : (forall q, (q < e_nq e)%nat -> rev_scalar sdim (e_nn e) (e_W e q) (e_WRev e q)) ->
  is_derive (fun t => rsum (e_nq e) (fun q => a q * e_W e q (moved X V t))) 0
    (pairing sdim (e_nn e) (fun k j => rsum (e_nq e) (fun q => e_WRev e q X (a q) k j)) V).
Proof. intros H. rewrite pairing_sum. apply (DV_sum (e_nq e) (fun q t => a q * e_W e q (moved X V t))). intros q Hq. now apply H. Qed.

Lemma exp_lin (rho tm g : R) : is_derive (fun g : R => exp (rho * (g - tm))) g (rho * exp (rho * (g - tm))).
Proof.
  apply (DV_eq _ g (exp (rho * (g - tm)) * (rho * (1 - 0)))); [|ring].
  apply (DV_comp exp (fun g => rho * (g - tm))); [apply is_derive_exp|]. apply DV_scal. apply DV_minus; [apply DV_id|apply DV_const].
Qed.
Lemma g_exp_lin (rho tm g : R) : is_derive (fun g : R => g * exp (rho * (g - tm))) g (exp (rho * (g - tm)) + g * (rho * exp (rho * (g - tm)))).
Proof.
  apply (DV_eq _ g (1 * exp (rho * (g - tm)) + g * (rho * exp (rho * (g - tm))))); [|ring].
  apply (DV_mult (fun g => g) (fun g => exp (rho * (g - tm)))); [apply DV_id|apply exp_lin].
Qed.
Lemma num_state rho tm e X u v : is_derive (fun t => num_energy rho tm e X (along u v t)) 0 (dot (e_ndof e) (num_grad rho tm e X u) v).
Proof.
  unfold num_energy, num_grad, ie_exp, ie_g. cbv zeta. rewrite grad_dot.
  apply (DV_eq _ 0 _ _ (point_state_derive (fun g => g * exp (rho * (g - tm))) (fun g => exp (rho * (g - tm)) + g * (rho * exp (rho * (g - tm))))
    (g_exp_lin rho tm)
    (e_ndof e) (e_nq e) (e_shape e) (fun q => e_pw e q * e_W e q X) u v)).
  apply rsum_ext. intros q _. ring.
Qed.
Lemma den_state rho tm e X u v : is_derive (fun t => den_energy rho tm e X (along u v t)) 0 (dot (e_ndof e) (den_grad rho tm e X u) v).
Proof.
  unfold den_energy, den_grad, ie_exp, ie_g. rewrite grad_dot.
  apply (DV_eq _ 0 _ _ (point_state_derive (fun g => exp (rho * (g - tm))) (fun g => rho * exp (rho * (g - tm)))
    (exp_lin rho tm)
    (e_ndof e) (e_nq e) (e_shape e) (fun q => e_pw e q * e_W e q X) u v)).
  apply rsum_ext. intros q _. ring.
Qed.
Lemma state_state e X u v : is_derive (fun t => state_energy e X (along u v t)) 0 (dot (e_ndof e) (state_grad e X u) v).
Proof.
  unfold state_energy, state_grad. rewrite grad_dot.
  apply (DV_ext (fun t => rsum (e_nq e) (fun q => dot (e_ndof e) (e_shape e q) (along u v t) * (e_pw e q * e_W e q X)))); [intros; apply rsum_ext; intros; ring|].
  apply (DV_eq _ 0 _ _ (point_state_derive (fun g => g) (fun _ => 1) (fun g => DV_id g) (e_ndof e) (e_nq e) (e_shape e) (fun q => e_pw e q * e_W e q X) u v)).
  apply rsum_ext. intros q _. ring.
Qed.
Section MeshDerive.
Variables (sdim : nat) (e : elem).
Hypothesis G : forall q, (q < e_nq e)%nat -> rev_scalar sdim (e_nn e) (e_W e q) (e_WRev e q).
Lemma num_mesh_derive rho tm X V u : is_derive (fun t => num_energy rho tm e (moved X V t) u) 0 (pairing sdim (e_nn e) (num_mesh rho tm e X u) V).
Proof.
  apply (DV_ext (fun t => rsum (e_nq e) (fun q => (1 * ie_g e u q * ie_exp rho tm e u q * e_pw e q) * e_W e q (moved X V t)))).
  - intros t. unfold num_energy. apply rsum_ext. intros; ring.
  - exact (weight_mesh_derive sdim e (fun q => 1 * ie_g e u q * ie_exp rho tm e u q * e_pw e q) X V G).
Qed.
Lemma den_mesh_derive rho tm X V u : is_derive (fun t => den_energy rho tm e (moved X V t) u) 0 (pairing sdim (e_nn e) (den_mesh rho tm e X u) V).
Proof.
  apply (DV_ext (fun t => rsum (e_nq e) (fun q => (1 * ie_exp rho tm e u q * e_pw e q) * e_W e q (moved X V t)))).
  - intros t. unfold den_energy. apply rsum_ext. intros; ring.
  - exact (weight_mesh_derive sdim e (fun q => 1 * ie_exp rho tm e u q * e_pw e q) X V G).
Qed.
Lemma state_mesh_derive X V u : is_derive (fun t => state_energy e (moved X V t) u) 0 (pairing sdim (e_nn e) (state_mesh e X u) V).
Proof.
  apply (DV_ext (fun t => rsum (e_nq e) (fun q => (1 * dot (e_ndof e) (e_shape e q) u * e_pw e q) * e_W e q (moved X V t)))).
  - intros t. unfold state_energy. apply rsum_ext. intros; ring.
  - exact (weight_mesh_derive sdim e (fun q => 1 * dot (e_ndof e) (e_shape e q) u * e_pw e q) X V G).
Qed.
Lemma vol_mesh_derive rho X V u : rho <> NullRho ->
  (forall v rev, rho = Rho v rev -> forall q, (q < e_nq e)%nat -> rev_scalar sdim (e_nn e) (v e q) (rev e q)) ->
  is_derive (fun t => vol_energy rho e (moved X V t) u) 0 (pairing sdim (e_nn e) (vol_mesh rho e X u) V).
Proof.
  intros NN HR. destruct rho as [| |v rev]; [| |].
  - apply (DV_ext (fun t => rsum (e_nq e) (fun q => (1 * e_pw e q) * e_W e q (moved X V t)))).
    + intros t. unfold vol_energy. apply rsum_ext. intros; ring.
    + exact (weight_mesh_derive sdim e (fun q => 1 * e_pw e q) X V G).
  - now elim NN.
  - unfold vol_mesh, vol_energy. cbv zeta. rewrite pairing_sum.
    apply (DV_sum (e_nq e) (fun q t => e_pw e q * e_W e q (moved X V t) * v e q (moved X V t))). intros q Hq.
    destruct (rev_scalar_entries _ _ _ _ X V (G q Hq)) as [dW [D1 D2]].
    destruct (rev_scalar_entries _ _ _ _ X V (HR v rev eq_refl q Hq)) as [ds [D3 D4]].
    rewrite pairing_plus, D2, D4.
    apply (DV_eq _ 0 (e_pw e q * dW * v e q (moved X V 0) + e_pw e q * e_W e q (moved X V 0) * ds)); [|rewrite !moved_0'; ring].
    apply (DV_mult (fun t => e_pw e q * e_W e q (moved X V t)) (fun t => v e q (moved X V t))); [now apply DV_scal|exact D3].
Qed.
End MeshDerive.

(** ** samples *)
Lemma samples_sum (F : R -> R -> R) M X u :
  lsum (fun p => F (fst p) (snd p)) (samples M X u) =
  lsum (fun e => rsum (e_nq e) (fun q => F (dot (e_ndof e) (e_shape e q) (gather (e_ndof e) (e_dof e) u)) (e_pw e q * e_W e q (nodes_of e X)))) M.
Proof.
  unfold samples. rewrite lsum_flat_map. apply lsum_ext. intros e _. rewrite lsum_map, lsum_seq. reflexivity.
Qed.
Lemma num_samples rho tm M X u : total (num_energy rho tm) M X u = lsum (fun p => fst p * exp (rho * (fst p - tm)) * snd p) (samples M X u).
Proof. rewrite (samples_sum (fun g w => g * exp (rho * (g - tm)) * w)). reflexivity. Qed.
Lemma den_samples rho tm M X u : total (den_energy rho tm) M X u = lsum (fun p => exp (rho * (fst p - tm)) * snd p) (samples M X u).
Proof. rewrite (samples_sum (fun g w => exp (rho * (g - tm)) * w)). reflexivity. Qed.
Lemma state_samples M X u : total state_energy M X u = lsum (fun p => fst p * snd p) (samples M X u).
Proof. rewrite (samples_sum (fun g w => g * w)). unfold total, state_energy. apply lsum_ext. intros e _. apply rsum_ext; intros; ring. Qed.
Lemma vol_samples M X u u' : total (vol_energy NoRho) M X u = measure (samples M X u').
Proof. unfold measure. rewrite (samples_sum (fun g w => w)). reflexivity. Qed.

Lemma shifted rho tm (l : list (R * R)) :
  lsum (fun p => fst p * exp (rho * (fst p - tm)) * snd p) l = exp (- (rho * tm)) * lsum (fun p => fst p * exp (rho * fst p) * snd p) l /\
  lsum (fun p => exp (rho * (fst p - tm)) * snd p) l = exp (- (rho * tm)) * lsum (fun p => exp (rho * fst p) * snd p) l.
Proof.
  rewrite <- !lsum_scal. split; apply lsum_ext; intros p _; replace (rho * (fst p - tm)) with (- (rho * tm) + rho * fst p) by ring; rewrite exp_plus; ring.
Qed.
Lemma lsum_le {A} (f g : A -> R) l : (forall a, In a l -> f a <= g a) -> lsum f l <= lsum g l.
Proof. induction l as [|a l IH]; intros H; [cbn; lra|]. change (f a + lsum f l <= g a + lsum g l). assert (f a <= g a) by (apply H; now left). assert (lsum f l <= lsum g l) by (apply IH; intros; apply H; now right). lra. Qed.
Lemma lsum_nonneg {A} (f : A -> R) l : (forall a, In a l -> 0 <= f a) -> 0 <= lsum f l.
Proof. intros H. rewrite <- (lsum_0 l). now apply lsum_le. Qed.
Lemma lsum_pos {A} (f : A -> R) l : l <> [] -> (forall a, In a l -> 0 < f a) -> 0 < lsum f l.
Proof.
  destruct l as [|a l]; intros N H; [now elim N|]. change (0 < f a + lsum f l). assert (0 < f a) by (apply H; now left).
  assert (0 <= lsum f l) by (apply lsum_nonneg; intros; apply Rlt_le, H; now right). lra.
Qed.
Lemma lsum_one {A} (f : A -> R) l b : In b l -> (forall a, In a l -> 0 <= f a) -> f b <= lsum f l.
Proof.
  induction l as [|a l IH]; intros I H; [elim I|]. change (f b <= f a + lsum f l). assert (0 <= f a) by (apply H; now left).
  assert (0 <= lsum f l) by (apply lsum_nonneg; intros; apply H; now right). destruct I as [->|I]; [lra|].
  assert (f b <= lsum f l) by (apply IH; [exact I|intros; apply H; now right]). lra.
Qed.
Lemma den_pos rho l : weights_positive l -> 0 < lsum (fun p => exp (rho * fst p) * snd p) l.
Proof. intros [N P]. apply lsum_pos; [exact N|]. intros [g w] I. cbn. apply Rmult_lt_0_compat; [apply exp_pos|now apply (P g w)]. Qed.
Lemma agg_shift M X u rho tm : agg_value M X u rho tm = induced_exponential rho (samples M X u).
Proof.
  unfold agg_value, induced_exponential. rewrite num_samples, den_samples. destruct (shifted rho tm (samples M X u)) as [-> ->].
  assert (E := exp_pos (- (rho * tm))). unfold Rdiv.
  destruct (Req_dec (lsum (fun p => exp (rho * fst p) * snd p) (samples M X u)) 0) as [Z|Z].
  - rewrite Z, Rmult_0_r, Rinv_0. ring.
  - field. split; [exact Z|lra].
Qed.
Lemma ie_bounds rho l lo hi : weights_positive l -> (forall g w, In (g, w) l -> lo <= g <= hi) -> lo <= induced_exponential rho l <= hi.
Proof.
  intros P B. assert (D := den_pos rho l P). unfold induced_exponential. set (d := lsum (fun p => exp (rho * fst p) * snd p) l) in *.
  assert (W : forall c, lsum (fun p => c * (exp (rho * fst p) * snd p)) l = c * d) by (intros; now rewrite lsum_scal).
  assert (K : forall g w, In (g, w) l -> 0 < exp (rho * g) * w) by (intros g w I; apply Rmult_lt_0_compat; [apply exp_pos|now apply (proj2 P g w)]).
  split.
  - apply Rmult_le_reg_r with d; [exact D|]. unfold Rdiv. rewrite Rmult_assoc, Rinv_l, Rmult_1_r by lra. rewrite <- W. apply lsum_le.
    intros [g w] I. cbn. specialize (K g w I). specialize (B g w I). nra.
  - apply Rmult_le_reg_r with d; [exact D|]. unfold Rdiv. rewrite Rmult_assoc, Rinv_l, Rmult_1_r by lra. rewrite <- W. apply lsum_le.
    intros [g w] I. cbn. specialize (K g w I). specialize (B g w I). nra.
Qed.
Lemma ie_gap rho l m w0 : 0 < rho -> weights_positive l -> In (m, w0) l -> (forall g w, In (g, w) l -> g <= m) ->
  m - induced_exponential rho l <= measure l / (w0 * rho).
Proof.
  intros R0 P I0 B. assert (W0 : 0 < w0) by now apply (proj2 P m w0).
  destruct (shifted rho m l) as [E1 E2]. set (d := lsum (fun p => exp (rho * fst p) * snd p) l) in *.
  assert (D : 0 < d) by (apply (den_pos rho l P)).
  assert (X := exp_pos (- (rho * m))).
  set (n' := lsum (fun p => fst p * exp (rho * (fst p - m)) * snd p) l) in *. set (d' := lsum (fun p => exp (rho * (fst p - m)) * snd p) l) in *.
  assert (Eq : induced_exponential rho l = n' / d'). { rewrite E1, E2. unfold induced_exponential. fold d. field. split; lra. }
  assert (D0 : w0 <= d').
  { unfold d'. replace w0 with ((fun p : R * R => exp (rho * (fst p - m)) * snd p) (m, w0)) by (cbn; replace (rho * (m - m)) with 0 by ring; rewrite exp_0; ring).
    apply (lsum_one (fun p : R * R => exp (rho * (fst p - m)) * snd p)); [exact I0|]. intros [g w] I. cbn. apply Rmult_le_pos; [left; apply exp_pos|left; now apply (proj2 P g w)]. }
  assert (N : m * d' - n' = lsum (fun p => (m - fst p) * exp (rho * (fst p - m)) * snd p) l).
  { unfold d', n'. rewrite <- lsum_scal. rewrite <- (Rmult_1_l (lsum (fun p : R * R => fst p * _ * _) l)).
    replace (lsum (fun a : R * R => m * (exp (rho * (fst a - m)) * snd a)) l - 1 * lsum (fun p => fst p * exp (rho * (fst p - m)) * snd p) l)
      with (lsum (fun a : R * R => m * (exp (rho * (fst a - m)) * snd a)) l + (-1) * lsum (fun p => fst p * exp (rho * (fst p - m)) * snd p) l) by ring.
    rewrite <- (lsum_scal (-1)), <- lsum_plus. apply lsum_ext. intros; ring. }
  assert (K : m * d' - n' <= measure l / rho).
  { rewrite N. unfold measure, Rdiv. rewrite <- lsum_scal_r. apply lsum_le. intros [g w] I. cbn. assert (W := proj2 P g w I). assert (g <= m) by now apply (B g w).
    assert (Y : rho * (m - g) * exp (rho * (g - m)) <= 1).
    { replace (rho * (g - m)) with (- (rho * (m - g))) by ring. set (y := rho * (m - g)). assert (0 <= y) by (unfold y; apply Rmult_le_pos; lra).
      rewrite exp_Ropp. assert (Q := exp_pos y). apply Rmult_le_reg_r with (exp y); [exact Q|]. rewrite Rmult_assoc, Rinv_l by lra.
      assert (1 + y <= exp y) by apply exp_ineq1_le. lra. }
    apply Rmult_le_reg_l with rho; [exact R0|]. replace (rho * (w * / rho)) with w by (field; lra). nra. }
  rewrite Eq. assert (D' : 0 < d') by lra.
  replace (m - n' / d') with ((m * d' - n') / d') by (field; lra).
  apply Rle_trans with (measure l / rho / d').
  - apply Rmult_le_compat_r; [left; now apply Rinv_0_lt_compat|exact K].
  - assert (0 <= measure l). { apply lsum_nonneg. intros [g w] I. left. now apply (proj2 P g w). }
    unfold Rdiv. rewrite (Rinv_mult w0 rho), (Rmult_comm (/ w0)), <- Rmult_assoc.
    apply Rmult_le_compat_l; [apply Rmult_le_pos; [assumption|left; now apply Rinv_0_lt_compat]|].
    apply Rinv_le_contravar; lra.
Qed.

(** monotone in rho: derivative is a variance *)
Lemma pairs_nonneg (f : R -> R) (l : list (R * R)) (rho1 rho2 : R) : rho1 <= rho2 -> (forall g w, In (g, w) l -> 0 < w) ->
  0 <= lsum (fun p => fst p * exp (rho2 * fst p) * snd p) l * lsum (fun p => exp (rho1 * fst p) * snd p) l
     - lsum (fun p => fst p * exp (rho1 * fst p) * snd p) l * lsum (fun p => exp (rho2 * fst p) * snd p) l.
Proof.
  intros H P.
  set (T := fun p q : R * R => snd p * snd q * ((fst p - fst q) * (exp (rho2 * fst p) * exp (rho1 * fst q) - exp (rho1 * fst p) * exp (rho2 * fst q)))).
  assert (S : 2 * (lsum (fun p => fst p * exp (rho2 * fst p) * snd p) l * lsum (fun p => exp (rho1 * fst p) * snd p) l
     - lsum (fun p => fst p * exp (rho1 * fst p) * snd p) l * lsum (fun p => exp (rho2 * fst p) * snd p) l) = lsum (fun p => lsum (T p) l) l).
  { assert (G : forall a b : R * R -> R, lsum (fun p => lsum (fun q => a p * b q) l) l = lsum a l * lsum b l).
    { intros a b. rewrite (lsum_ext _ (fun p => a p * lsum b l)) by (intros; now rewrite lsum_scal). now rewrite lsum_scal_r. }
    set (A2 := fun p : R * R => fst p * exp (rho2 * fst p) * snd p). set (A1 := fun p : R * R => fst p * exp (rho1 * fst p) * snd p).
    set (B2 := fun p : R * R => exp (rho2 * fst p) * snd p). set (B1 := fun p : R * R => exp (rho1 * fst p) * snd p).
    rewrite (lsum_ext (fun p => lsum (T p) l) (fun p => (lsum (fun q => A2 p * B1 q) l + lsum (fun q => B1 p * A2 q) l) + (-1) * (lsum (fun q => A1 p * B2 q) l + lsum (fun q => B2 p * A1 q) l))).
    - rewrite lsum_plus, lsum_scal, !lsum_plus, !G. ring.
    - intros p _. rewrite <- !lsum_plus, <- lsum_scal, <- lsum_plus. apply lsum_ext. intros q _. unfold T, A1, A2, B1, B2. ring. }
  assert (0 <= lsum (fun p => lsum (T p) l) l); [|lra].
  apply lsum_nonneg. intros [g w] I1. apply lsum_nonneg. intros [h z] I2. unfold T. cbn. assert (W1 := P g w I1). assert (W2 := P h z I2).
  apply Rmult_le_pos; [apply Rmult_le_pos; lra|]. rewrite <- !exp_plus.
  assert (M : forall a b, a <= b -> exp a <= exp b) by (intros a b [L|E]; [left; now apply exp_increasing|right; now rewrite E]).
  destruct (Rle_dec g h) as [L|L].
  - assert (rho2 * g + rho1 * h <= rho1 * g + rho2 * h) by nra. specialize (M _ _ H0). nra.
  - assert (rho1 * g + rho2 * h <= rho2 * g + rho1 * h) by nra. specialize (M _ _ H0). nra.
Qed.
Lemma ie_monotone l rho1 rho2 : weights_positive l -> rho1 <= rho2 -> induced_exponential rho1 l <= induced_exponential rho2 l.
Proof.
  intros P H. assert (D1 := den_pos rho1 l P). assert (D2 := den_pos rho2 l P). assert (K := pairs_nonneg exp l rho1 rho2 H (proj2 P)).
  unfold induced_exponential. set (a1 := lsum (fun p => fst p * exp (rho1 * fst p) * snd p) l) in *. set (a2 := lsum (fun p => fst p * exp (rho2 * fst p) * snd p) l) in *.
  set (d1 := lsum (fun p => exp (rho1 * fst p) * snd p) l) in *. set (d2 := lsum (fun p => exp (rho2 * fst p) * snd p) l) in *.
  apply Rmult_le_reg_r with (d1 * d2); [now apply Rmult_lt_0_compat|].
  replace (a1 / d1 * (d1 * d2)) with (a1 * d2) by (field; lra). replace (a2 / d2 * (d1 * d2)) with (a2 * d1) by (field; lra). lra.
Qed.
Lemma ie_zero l : induced_exponential 0 l = mean l.
Proof.
  unfold induced_exponential, mean, measure.
  rewrite (lsum_ext (fun p => fst p * exp (0 * fst p) * snd p) (fun p => fst p * snd p)) by (intros p _; rewrite Rmult_0_l, exp_0; ring).
  rewrite (lsum_ext (fun p => exp (0 * fst p) * snd p) (fun p => snd p)) by (intros p _; rewrite Rmult_0_l, exp_0; ring). reflexivity.
Qed.
Lemma quotient_vjp (a b : R -> R) (da db : R) : is_derive a 0 da -> is_derive b 0 db -> b 0 <> 0 ->
  is_derive (fun t => a t / b t) 0 (1 / b 0 * da + - a 0 / (b 0) ^ 2 * db).
Proof.
  intros A B N. apply (DV_eq _ 0 ((da * b 0 - a 0 * db) / (b 0 * b 0))); [now apply DV_div|]. field. exact N.
Qed.
