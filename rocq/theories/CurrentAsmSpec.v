(** What the theorems about the 3-D current load mean. *)
From Coq Require Import Reals ZArith List Bool.
From Coquelicot Require Import Coquelicot.
From Verif Require Import Vec EmIntegSpec SbpSpec Projector ProjectorSpec CurrentAsm.
Import ListNotations.
Local Open Scope R_scope.

Section Fields.
Variables (dim : nat) (M : list celem) (X : nat -> nat -> R).
Definition nodes_at (e : celem) : nat -> nat -> R := fun k j => X k (p_node (c_el e) j).
(** the field with Nedelec dofs y at point q of rule r on element e *)
Definition nedelec (e : celem) (r : rule) (y : vec) : nat -> vec :=
  covariant dim r (nodes_at e) (p_nd (c_el e)) (r_V r) (fun i => p_sg (c_el e) i * y (p_d (c_el e) i)).
(** the integrals of the product of two Nedelec fields, and of a current density times a Nedelec field *)
Definition field_product (y z : vec) : R :=
  lsum (fun e => rsum (r_nq (c_mass e)) (fun q => r_pw (c_mass e) q * r_W (c_mass e) q (nodes_at e) * dot dim (nedelec e (c_mass e) y q) (nedelec e (c_mass e) z q))) M.
Definition current_product (c : density) (y : vec) : R :=
  lsum (fun e => rsum (r_nq (c_lf e)) (fun q => r_pw (c_lf e) q * r_W (c_lf e) q (nodes_at e) *
    dot dim (d_eval c (c_attr e) (position e (nodes_at e) q)) (nedelec e (c_lf e) y q))) M.
(** positive weights, elements not inverted *)
Definition lvalid : Prop := forall e, In e M ->
  (forall q, (q < r_nq (c_mass e))%nat -> 0 < r_pw (c_mass e) q /\ 0 < r_W (c_mass e) q (nodes_at e)) /\
  (forall q, (q < r_nq (c_lf e))%nat -> r_W (c_lf e) q (nodes_at e) <> 0).
(** a Nedelec field that is zero at the points of the mass rule is zero *)
Definition rule_sees_fields (m : nat) : Prop := forall y,
  (forall e q c, In e M -> (q < r_nq (c_mass e))%nat -> (c < dim)%nat -> nedelec e (c_mass e) y q c = 0) -> veq m y (fun _ => 0).
(** the reverse function of the current density is the transpose of its derivative, at the points of the mesh *)
Definition density_rev (c : density) : Prop := forall e q b d, In e M -> (q < r_nq (c_lf e))%nat ->
  is_derive (fun t => dot dim b (d_eval c (c_attr e) (fun k => position e (nodes_at e) q k + t * d k))) 0
    (dot dim (d_rev c (c_attr e) (position e (nodes_at e) q) b) d).
End Fields.
(** what the caller has done: the mesh last given, and the current density last given *)
Fixpoint last_mesh (X : nat -> nat -> R) (cs : list lcall) : nat -> nat -> R :=
  match cs with [] => X | LInputs (Some Y) _ :: r => last_mesh Y r | _ :: r => last_mesh X r end.
Fixpoint last_density (c : density) (cs : list lcall) : density :=
  match cs with [] => c | LInputs _ (Some d) :: r => last_density d r | _ :: r => last_density c r end.
(** the iterative solver solves A z = b from every initial guess *)
Definition solves_from (m : nat) (gmres : (nat -> nat -> R) -> vec -> vec -> vec) (A : nat -> nat -> R) : Prop :=
  forall b guess, veq m (mv m A (gmres A b guess)) b.
(** the rule of the mass matrix and the rule of the projector give the same element mass matrices *)
Definition same_mass (dim : nat) (M : list celem) : Prop := forall e Y i j, In e M -> el_vmass dim (c_mass e) Y i j = el_vmass dim (p_rule (c_el e)) Y i j.
(** the rules of the mesh sensitivities of the projector give the matrices of its rule *)
Definition same_sensitivity_rules (dim : nat) (M : list celem) : Prop := forall e Y i j, In e M ->
  el_diff dim (p_diff_rule (c_el e)) Y i j = el_diff dim (p_rule (c_el e)) Y i j /\ el_wdiv dim (p_div_rule (c_el e)) Y i j = el_wdiv dim (p_rule (c_el e)) Y i j.
(** reverse functions of the geometry at all points *)
Definition geometry_rev (dim : nat) (M : list celem) (X : nat -> nat -> R) : Prop := forall e, In e M ->
  rule_rev dim (p_nn (c_el e)) (c_mass e) /\ rule_rev dim (p_nn (c_el e)) (c_lf e) /\
  rule_rev dim (p_nn (c_el e)) (p_diff_rule (c_el e)) /\ rule_rev dim (p_nn (c_el e)) (p_div_rule (c_el e)) /\
  (forall q, (q < r_nq (p_diff_rule (c_el e)))%nat -> r_W (p_diff_rule (c_el e)) q (fun k j => X k (p_node (c_el e) j)) <> 0) /\
  (forall q, (q < r_nq (p_div_rule (c_el e)))%nat -> r_W (p_div_rule (c_el e)) q (fun k j => X k (p_node (c_el e) j)) <> 0).
