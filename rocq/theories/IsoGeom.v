(** An isoparametric transformation in two and three dimensions, as an instance of what the mesh sensitivities assume of
    MFEM (IsoparametricTransformation: J = PointMat * dN, Weight = det J, AdjugateJacobian = adj J).  The functions with
    suffix Rev are the transposed derivatives, which is what the RevDiff functions of the project's MFEM fork are documented
    to add; that fork is not part of /repo. *)
From Coq Require Import Reals Lra Lia.
From Coquelicot Require Import Coquelicot.
From Verif Require Import Vec Deriv EmIntegSpec EmInteg.
Local Open Scope R_scope.

Section Iso.
Variables (nn : nat) (dN : mat).        (* derivative of mesh shape function j in reference direction l *)
Definition iso_jac (X : mat) : mat := fun k l => rsum nn (fun j => X k j * dN j l).
(** d(f)/dX_kj when Jbar k l = df/dJ_kl *)
Definition to_nodes (dim : nat) (Jbar : mat) : mat := fun k j => rsum dim (fun l => Jbar k l * dN j l).
Definition det2 (J : mat) : R := J 0%nat 0%nat * J 1%nat 1%nat - J 0%nat 1%nat * J 1%nat 0%nat.
Definition adj2 (J : mat) : mat := fun a b =>
  match a, b with
  | O, O => J 1%nat 1%nat | O, _ => - J 0%nat 1%nat
  | _, O => - J 1%nat 0%nat | _, _ => J 0%nat 0%nat end.
Definition det3 (J : mat) : R :=
  J 0%nat 0%nat * (J 1%nat 1%nat * J 2%nat 2%nat - J 1%nat 2%nat * J 2%nat 1%nat) -
  J 0%nat 1%nat * (J 1%nat 0%nat * J 2%nat 2%nat - J 1%nat 2%nat * J 2%nat 0%nat) +
  J 0%nat 2%nat * (J 1%nat 0%nat * J 2%nat 1%nat - J 1%nat 1%nat * J 2%nat 0%nat).
(** minors with sign: d det / d J_kl *)
Definition cof3 (J : mat) : mat := fun k l =>
  match k, l with
  | O, O => J 1%nat 1%nat * J 2%nat 2%nat - J 1%nat 2%nat * J 2%nat 1%nat
  | O, S O => - (J 1%nat 0%nat * J 2%nat 2%nat - J 1%nat 2%nat * J 2%nat 0%nat)
  | O, _ => J 1%nat 0%nat * J 2%nat 1%nat - J 1%nat 1%nat * J 2%nat 0%nat
  | S O, O => - (J 0%nat 1%nat * J 2%nat 2%nat - J 0%nat 2%nat * J 2%nat 1%nat)
  | S O, S O => J 0%nat 0%nat * J 2%nat 2%nat - J 0%nat 2%nat * J 2%nat 0%nat
  | S O, _ => - (J 0%nat 0%nat * J 2%nat 1%nat - J 0%nat 1%nat * J 2%nat 0%nat)
  | _, O => J 0%nat 1%nat * J 1%nat 2%nat - J 0%nat 2%nat * J 1%nat 1%nat
  | _, S O => - (J 0%nat 0%nat * J 1%nat 2%nat - J 0%nat 2%nat * J 1%nat 0%nat)
  | _, _ => J 0%nat 0%nat * J 1%nat 1%nat - J 0%nat 1%nat * J 1%nat 0%nat
  end.
Definition wt2 (X : mat) : R := det2 (iso_jac X).
Definition wt2_rev (X : mat) (b : R) : mat := to_nodes 2 (fun k l => b * adj2 (iso_jac X) l k).
Definition adjm2 (X : mat) : mat := adj2 (iso_jac X).
Definition adjm2_rev (X : mat) (B : mat) : mat := to_nodes 2 (fun k l =>
  match k, l with
  | O, O => B 1%nat 1%nat | O, _ => - B 0%nat 1%nat
  | _, O => - B 1%nat 0%nat | _, _ => B 0%nat 0%nat end).
Definition jac_rev (dim : nat) (X : mat) (B : mat) : mat := to_nodes dim B.
Definition wt3 (X : mat) : R := det3 (iso_jac X).
Definition wt3_rev (X : mat) (b : R) : mat := to_nodes 3 (fun k l => b * cof3 (iso_jac X) k l).

Lemma jac_derive X V k l : is_derive (fun t => iso_jac (moved X V t) k l) 0 (iso_jac V k l).
Proof.
  unfold iso_jac, moved. apply (DV_sum nn (fun j t => (X k j + t * V k j) * dN j l)). intros j _. apply DV_scal_r.
  apply (DV_eq _ 0 (0 + 1 * V k j)); [apply DV_plus; [apply DV_const|apply DV_scal_r, DV_id]|ring].
Qed.
Lemma jac_moved X V t k l : iso_jac (moved X V t) k l = iso_jac X k l + t * iso_jac V k l.
Proof. unfold iso_jac, moved. rewrite <- rsum_scal, <- rsum_plus. apply rsum_ext; intros; ring. Qed.
Lemma to_nodes_pair dim B V : pairing dim nn (to_nodes dim B) V = pairing dim dim B (iso_jac V).
Proof.
  unfold pairing, to_nodes, iso_jac. apply rsum_ext. intros k _.
  rewrite (rsum_ext nn _ (fun j => rsum dim (fun l => B k l * (V k j * dN j l)))) by (intros; rewrite <- rsum_scal_r; apply rsum_ext; intros; ring).
  rewrite rsum_swap. apply rsum_ext. intros l _. now rewrite rsum_scal.
Qed.
Lemma jac_ok dim : rev_matrix dim nn iso_jac (jac_rev dim).
Proof.
  intros X V B. unfold jac_rev. rewrite to_nodes_pair. unfold pairing.
  apply (DV_sum dim (fun k t => rsum dim (fun l => B k l * iso_jac (moved X V t) k l))). intros k _.
  apply (DV_sum dim (fun l t => B k l * iso_jac (moved X V t) k l)). intros l _. apply DV_scal, jac_derive.
Qed.
Lemma wt2_ok : rev_scalar 2 nn wt2 wt2_rev.
Proof.
  intros X V b. unfold wt2_rev. rewrite to_nodes_pair. unfold wt2, det2.
  apply (DV_ext (fun t => b * ((iso_jac X 0%nat 0%nat + t * iso_jac V 0%nat 0%nat) * (iso_jac X 1%nat 1%nat + t * iso_jac V 1%nat 1%nat) -
     (iso_jac X 0%nat 1%nat + t * iso_jac V 0%nat 1%nat) * (iso_jac X 1%nat 0%nat + t * iso_jac V 1%nat 0%nat)))).
  { intros t. rewrite !jac_moved. reflexivity. }
  auto_derive; [exact Logic.I|]. unfold pairing, adj2. cbn [rsum]. ring.
Qed.
Lemma adjm2_ok : rev_matrix 2 nn adjm2 adjm2_rev.
Proof.
  intros X V B. unfold adjm2_rev. rewrite to_nodes_pair. unfold adjm2, adj2, pairing at 1. cbn [rsum].
  apply (DV_ext (fun t => 0 + (0 + B 0%nat 0%nat * (iso_jac X 1%nat 1%nat + t * iso_jac V 1%nat 1%nat) + B 0%nat 1%nat * - (iso_jac X 0%nat 1%nat + t * iso_jac V 0%nat 1%nat)) +
     (0 + B 1%nat 0%nat * - (iso_jac X 1%nat 0%nat + t * iso_jac V 1%nat 0%nat) + B 1%nat 1%nat * (iso_jac X 0%nat 0%nat + t * iso_jac V 0%nat 0%nat)))).
  { intros t. rewrite !jac_moved. reflexivity. }
  auto_derive; [exact Logic.I|]. unfold pairing. cbn [rsum]. ring.
Qed.
Lemma wt3_ok : rev_scalar 3 nn wt3 wt3_rev.
Proof.
  intros X V b. unfold wt3_rev. rewrite to_nodes_pair. unfold wt3, det3.
  set (Y := iso_jac V). set (J := iso_jac X).
  apply (DV_ext (fun t => b * ((J 0%nat 0%nat + t * Y 0%nat 0%nat) * ((J 1%nat 1%nat + t * Y 1%nat 1%nat) * (J 2%nat 2%nat + t * Y 2%nat 2%nat) - (J 1%nat 2%nat + t * Y 1%nat 2%nat) * (J 2%nat 1%nat + t * Y 2%nat 1%nat)) -
    (J 0%nat 1%nat + t * Y 0%nat 1%nat) * ((J 1%nat 0%nat + t * Y 1%nat 0%nat) * (J 2%nat 2%nat + t * Y 2%nat 2%nat) - (J 1%nat 2%nat + t * Y 1%nat 2%nat) * (J 2%nat 0%nat + t * Y 2%nat 0%nat)) +
    (J 0%nat 2%nat + t * Y 0%nat 2%nat) * ((J 1%nat 0%nat + t * Y 1%nat 0%nat) * (J 2%nat 1%nat + t * Y 2%nat 1%nat) - (J 1%nat 1%nat + t * Y 1%nat 1%nat) * (J 2%nat 0%nat + t * Y 2%nat 0%nat))))).
  { intros t. rewrite !jac_moved. reflexivity. }
  unfold pairing, cof3. cbn [rsum].
  generalize (J 0%nat 0%nat) (J 0%nat 1%nat) (J 0%nat 2%nat) (J 1%nat 0%nat) (J 1%nat 1%nat) (J 1%nat 2%nat) (J 2%nat 0%nat) (J 2%nat 1%nat) (J 2%nat 2%nat).
  generalize (Y 0%nat 0%nat) (Y 0%nat 1%nat) (Y 0%nat 2%nat) (Y 1%nat 0%nat) (Y 1%nat 1%nat) (Y 1%nat 2%nat) (Y 2%nat 0%nat) (Y 2%nat 1%nat) (Y 2%nat 2%nat).
  intros. auto_derive; [exact Logic.I|]. rewrite !Rmult_0_l, !Rplus_0_r. ring.
Qed.
End Iso.
