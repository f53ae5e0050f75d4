(** What the theorems about the projectors mean: Nedelec fields and gradients of H1 functions at the quadrature points, the
    inner product of the rule, and what is required of the mesh, the solver and the gradient matrix. *)
From Coq Require Import Reals List Bool.
From Coquelicot Require Import Coquelicot.
From Verif Require Import Vec EmIntegSpec SbpSpec Projector.
Import ListNotations.
Local Open Scope R_scope.

Section Fields.
Variable dim : nat.
(** component c, at point q of element e, of sum_i u_i S_i J^{-1} with J^{-1} = adj(J) / det(J) *)
Definition covariant (r : rule) (X : nat -> nat -> R) (ndof : nat) (S : nat -> nat -> nat -> R) (u : vec) (q c : nat) : R :=
  rsum ndof (fun i => u i * rsum dim (fun a => S q i a * (r_Adj r q X a c / r_W r q X))).
(** the field with Nedelec dofs x, the gradient of the function with H1 dofs psi *)
Definition field_of (e : pelem) (X : nat -> nat -> R) (x : vec) : nat -> vec :=
  covariant (p_rule e) (fun k j => X k (p_node e j)) (p_nd e) (r_V (p_rule e)) (fun i => p_sg e i * x (p_d e i)).
Definition grad_of (e : pelem) (X : nat -> nat -> R) (psi : vec) : nat -> vec :=
  covariant (p_rule e) (fun k j => X k (p_node e j)) (p_nh e) (r_dN (p_rule e)) (fun i => psi (p_h e i)).
(** the integral over the mesh of the product of two vector fields, by the rule *)
Definition inner (M : list pelem) (X : nat -> nat -> R) (f g : pelem -> nat -> vec) : R :=
  lsum (fun e => rsum (r_nq (p_rule e)) (fun q => r_pw (p_rule e) q * r_W (p_rule e) q (fun k j => X k (p_node e j)) * dot dim (f e q) (g e q))) M.
Definition nd_inner (M : list pelem) (X : nat -> nat -> R) (x y : vec) : R := inner M X (fun e => field_of e X x) (fun e => field_of e X y).

(** psi vanishes on the boundary *)
Definition vanishes (n : nat) (ess : nat -> bool) (psi : vec) : Prop := forall i, (i < n)%nat -> ess i = true -> psi i = 0.
(** x is divergence free in the weak sense: orthogonal to the gradients of functions that vanish on the boundary *)
Definition weakly_divergence_free (n : nat) (ess : nat -> bool) (M : list pelem) (X : nat -> nat -> R) (x : vec) : Prop :=
  forall phi, vanishes n ess phi -> inner M X (fun e => field_of e X x) (fun e => grad_of e X phi) = 0.

(** numbering in range *)
Definition pnumbered (n m NN : nat) (M : list pelem) : Prop := forall e, In e M ->
  (forall i, (i < p_nh e)%nat -> (p_h e i < n)%nat) /\ (forall i, (i < p_nd e)%nat -> (p_d e i < m)%nat) /\ (forall j, (j < p_nn e)%nat -> (p_node e j < NN)%nat).
(** positive weights, elements not inverted *)
Definition pvalid (M : list pelem) (X : nat -> nat -> R) : Prop := forall e q, In e M -> (q < r_nq (p_rule e))%nat ->
  0 < r_pw (p_rule e) q /\ 0 < r_W (p_rule e) q (fun k j => X k (p_node e j)).
(** the matrix G takes the dofs of a function to the Nedelec dofs of its gradient *)
Definition takes_gradients (n : nat) (G : nat -> nat -> R) (M : list pelem) : Prop := forall e q c psi, In e M -> (q < r_nq (p_rule e))%nat -> (c < dim)%nat ->
  rsum (p_nd e) (fun i => p_sg e i * mv n G psi (p_d e i) * r_V (p_rule e) q i c) = rsum (p_nh e) (fun i => psi (p_h e i) * r_dN (p_rule e) q i c).
(** a function that vanishes on the boundary and has no gradient at the points of the rule is zero *)
Definition rule_sees_gradients (n : nat) (ess : nat -> bool) (M : list pelem) (X : nat -> nat -> R) : Prop := forall psi, vanishes n ess psi ->
  (forall e q c, In e M -> (q < r_nq (p_rule e))%nat -> (c < dim)%nat -> grad_of e X psi q c = 0) -> veq n psi (fun _ => 0).
End Fields.
(** the solver solves A z = b *)
Definition solves_system (n : nat) (pcg : (nat -> nat -> R) -> vec -> vec) (A : nat -> nat -> R) : Prop :=
  forall b, veq n (mv n A (pcg A b)) b.
(** AdjugateJacobianRevDiff and WeightRevDiff are the transposed derivatives, at the points of a rule *)
Definition rule_rev (dim nn : nat) (r : rule) : Prop := forall q, (q < r_nq r)%nat ->
  rev_matrix dim nn (r_Adj r q) (r_AdjRev r q) /\ rev_scalar dim nn (r_W r q) (r_WRev r q).
