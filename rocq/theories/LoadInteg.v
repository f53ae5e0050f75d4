(** Model of the linear-form integrators of the magnetostatic loads: miso::DomainLFIntegrator and
    miso::VectorFEDomainLFCurlIntegrator (src/physics/mfem_common_integ.hpp:1121-1292) with their mesh sensitivities
    (src/physics/mfem_common_integ.cpp:2987-3237), and of the forms that hold them: the 2-D current load
    (magnetostatic_residual.cpp:338-365) and the 3-D MagneticLoad (magnetic_load.cpp:11-36, magnetic_load.hpp).

    Simplifications: one process; exact arithmetic; coefficients are functions of element attribute and position with the
    reverse function of EvalRevDiff; CalcPhysCurlShape and its reverse function are MFEM's (C, CRev below); CalcPhysShape of
    an H1 element is the reference shape, so its reverse function adds nothing.  The MISOLinearForm is that of Form.v; its
    mesh is the node matrix, stored by dimension (byNODES). *)
From Coq Require Import Reals ZArith List Bool Arith String.
From Verif Require Import Vec Form EmInteg SbpSpec CommonFun Projector.
Import ListNotations.
Local Open Scope R_scope.

(** a rule with what the integrators need at its points: weights, Jacobian determinant, mesh shapes, H1 shapes, physical curls *)
Record lrule := { lr_nq : nat; lr_pw : nat -> R; lr_W : nat -> mat -> R; lr_WRev : nat -> mat -> R -> mat; lr_N : nat -> nat -> R;
  lr_S : nat -> nat -> R; lr_C : nat -> mat -> mat; lr_CRev : nat -> mat -> mat -> mat }.
Inductive space := Pk | Qk | rQk.
(** an element: nodes, dofs with signs, attribute, kind and order of its shape functions, the rules of its geometry by order
    (IntRules.Get, RefinedIntRules.Get) *)
Record lelem := { le_nn : nat; le_node : nat -> nat; le_nd : nat; le_dof : nat -> nat; le_sg : nat -> R; le_attr : Z; le_space : space; le_order : nat;
  le_rules : nat -> lrule; le_refined : nat -> lrule }.
(** coefficients: Eval and EvalRevDiff *)
Record scoef := { sc_eval : Z -> vec -> R; sc_rev : Z -> vec -> R -> vec }.
Record vcoef := { vc_eval : Z -> vec -> vec; vc_rev : Z -> vec -> vec -> vec }.

Definition le_nodes (e : lelem) (X : mat) : mat := fun k j => X k (le_node e j).
Definition le_vals (e : lelem) (v : vec) : vec := fun i => le_sg e i * v (le_dof e i).
(** trans.Transform: the position of point q *)
Definition le_pos (nn : nat) (r : lrule) (X : mat) (q : nat) : vec := fun k => rsum nn (fun j => X k j * lr_N r q j).
(** if (alpha != 1.0) elvect *= alpha (mfem_common_integ.hpp:1136-1139, 1213-1216) *)
Definition scaled (alpha : R) (v : vec) : vec := if Req_EM_T alpha 1 then v else fun i => v i * alpha.

(** mfem::DomainLFIntegrator(Q, 2, -2): order 2 p - 2 (mfem_common_integ.hpp:1204-1206); elvect += ip.weight Weight Q shape *)
Definition dom_rule (e : lelem) : lrule := le_rules e (2 * le_order e - 2).
Definition dom_elvect (e : lelem) (Q : scoef) (alpha : R) (X : mat) : vec :=
  scaled alpha (fun i => rsum (lr_nq (dom_rule e)) (fun q =>
    lr_pw (dom_rule e) q * lr_W (dom_rule e) q X * sc_eval Q (le_attr e) (le_pos (le_nn e) (dom_rule e) X q) * lr_S (dom_rule e) q i)).
(** DomainLFIntegratorMeshRevSens :3109-3237; the rule :3157-3180 *)
Definition dom_sens_rule (dim : nat) (e : lelem) : lrule :=
  let order := match le_space e with Pk => (2 * le_order e - 2)%nat | _ => (2 * le_order e + dim - 1)%nat end in
  match le_space e with rQk => le_refined e order | _ => le_rules e order end.
Definition dom_mesh (dim : nat) (e : lelem) (Q : scoef) (alpha : R) (X : mat) (psi : vec) : mat := fun k j =>
  let r := dom_sens_rule dim e in
  rsum (lr_nq r) (fun q =>
    let trans_weight := lr_W r q X in
    let w := alpha * lr_pw r q * trans_weight in
    let x := le_pos (le_nn e) r X q in
    let val := sc_eval Q (le_attr e) x in
    let psi_dot_shape := dot (le_nd e) psi (lr_S r q) in
    let val_bar := 1 * psi_dot_shape * w in
    let w_bar := 1 * val * psi_dot_shape in
    let trans_weight_bar := w_bar * alpha * lr_pw r q in
    sc_rev Q (le_attr e) x val_bar k * lr_N r q j + lr_WRev r q X trans_weight_bar k j).

(** mfem::VectorFEDomainLFCurlIntegrator: order 2 p; elvect += curlshape (ip.weight Weight F) *)
Definition curl_rule (e : lelem) : lrule := le_rules e (2 * le_order e).
Definition curl_elvect (dim : nat) (e : lelem) (F : vcoef) (alpha : R) (X : mat) : vec :=
  scaled alpha (fun i => rsum (lr_nq (curl_rule e)) (fun q => rsum dim (fun c =>
    lr_C (curl_rule e) q X i c * (lr_pw (curl_rule e) q * lr_W (curl_rule e) q X * vc_eval F (le_attr e) (le_pos (le_nn e) (curl_rule e) X q) c)))).
(** VectorFEDomainLFCurlIntegratorMeshSens :2987-3107 (three dimensions) *)
Definition curl_mesh (dim : nat) (e : lelem) (F : vcoef) (alpha : R) (X : mat) (psi : vec) : mat := fun k j =>
  let r := curl_rule e in
  rsum (lr_nq r) (fun q =>
    let w := lr_pw r q * lr_W r q X * alpha in
    let CT_psi := at_point (le_nd e) (lr_C r q X) psi in
    let x := le_pos (le_nn e) r X q in
    let vec := vc_eval F (le_attr e) x in
    let dot_bar := 1 * w in
    let w_bar := 1 * dot dim CT_psi vec in
    let CT_psi_bar := fun c => dot_bar * vec c in
    let vec_bar := fun c => dot_bar * CT_psi c in
    let curlshape_bar := fun i c => psi i * CT_psi_bar c in
    let weight_bar := w_bar * lr_pw r q * alpha in
    vc_rev F (le_attr e) x vec_bar k * lr_N r q j + lr_CRev r q X curlshape_bar k j + lr_WRev r q X weight_bar k j).

(** assembly over the marked elements *)
Section Forms.
Variables (dim NN : nat) (M : list lelem).
Definition assembled_vec (marked : Z -> bool) (el : lelem -> vec) : vec := fun I =>
  lsum (fun e => if marked (le_attr e) then rsum (le_nd e) (fun i => if Nat.eqb I (le_dof e i) then le_sg e i * el e i else 0) else 0) M.
Definition assembled_mat (marked : Z -> bool) (el : lelem -> mat) : mat := fun k J =>
  lsum (fun e => if marked (le_attr e) then rsum (le_nn e) (fun j => if Nat.eqb J (le_node e j) then el e k j else 0) else 0) M.
(** a node matrix as a vector, byNODES, and back *)
Definition mesh_vec (A : mat) : vec := fun i => A (i / NN)%nat (i mod NN)%nat.
Definition mesh_mat (v : vec) : mat := fun k J => v (k * NN + J)%nat.

(** the 2-D current load: addDomainIntegrator with attributes (miso_linearform.hpp:193-212) puts the marker on the integrator and
    on its sensitivity (mfem_common_integ.hpp:1264-1292) *)
Definition current_2d (marked : Z -> bool) (Q : scoef) (alpha : R) : lpieces mat :=
  {| Form.assembled := fun X => assembled_vec marked (fun e => dom_elvect e Q alpha (le_nodes e X));
     lsens := fun wrt => if String.eqb wrt "mesh_coords" then
         Some (fun X psi => mesh_vec (assembled_mat marked (fun e => dom_mesh dim e Q alpha (le_nodes e X) (le_vals e psi)))) else None;
     lssens := fun _ => None |}.
(** the 3-D magnet load: addDomainIntegrator calls addDomainSensitivityIntegrator; for a VectorFEDomainLFCurlIntegrator the only
    viable overload is the empty template (miso_integrator.hpp:139-150), because the function that registers its sensitivity is
    called addSensitivityIntegrator (mfem_common_integ.hpp:1186-1199) *)
Definition magnet_3d (F : vcoef) : lpieces mat :=
  {| Form.assembled := fun X => assembled_vec (fun _ => true) (fun e => curl_elvect dim e F (-1) (le_nodes e X));
     lsens := fun _ => None; lssens := fun _ => None |}.
(** what registering the sensitivity would give *)
Definition magnet_3d_registered (F : vcoef) : lpieces mat :=
  {| Form.assembled := Form.assembled mat (magnet_3d F);
     lsens := fun wrt => if String.eqb wrt "mesh_coords" then
         Some (fun X psi => mesh_vec (assembled_mat (fun _ => true) (fun e => curl_mesh dim e F (-1) (le_nodes e X) (le_vals e psi)))) else None;
     lssens := fun _ => None |}.
End Forms.
