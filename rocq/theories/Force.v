(** Force and torque outputs of the magnetostatic solver: ForceIntegrator3 and ForceIntegratorMeshSens3
    (src/physics/electromagnetics/electromag_integ.cpp:9689-10571), the options of ForceFunctional and TorqueFunctional
    (electromag_outputs.cpp:25-82, electromag_outputs.hpp:21-176) and their creation (magnetostatic.cpp:186-207).

    Two and three dimensions ([three]).  The element's transformation is isoparametric: J = PointMat * dN, Weight = det J,
    AdjugateJacobian = adj J, InverseJacobian = adj J / det J; the RevDiff functions of the project's MFEM fork, which is not
    part of /repo, add the transposed derivatives.  The displacement field v lives in the space of the mesh nodes.  Loops that
    add into zero are finite sums; a division by a norm that is 0 gives NaN, here None.  nu does not depend on the position
    inside a quadrature point: at point q it is the function pnu q of the flux density, pdnu q and pd2nu q are EvalStateDeriv
    and EvalState2ndDeriv.  One process. *)
From Coq Require Import Reals List Bool Arith String.
From Verif Require Import Num Vec EmIntegSpec EmInteg IsoGeom.
Import ListNotations.
Local Open Scope R_scope.

(** determinant and adjugate of a 2x2 or 3x3 matrix; the directional derivative of the adjugate *)
Definition gdim (three : bool) : nat := if three then 3 else 2.
Definition gdet (three : bool) (J : mat) : R := if three then det3 J else det2 J.
Definition gadj (three : bool) (J : mat) : mat := fun a b => if three then cof3 J b a else adj2 J a b.
Definition gdadj (three : bool) (J E : mat) : mat := fun a b =>
  if three then cof3 (fun k l => J k l + E k l) b a - cof3 J b a - cof3 E b a else adj2 E a b.
(** the matrix with a one at (k, l) *)
Definition unit_mat (k l : nat) : mat := fun i j => if andb (Nat.eqb i k) (Nat.eqb j l) then 1 else 0.

(** vfun.Normlinf(): largest absolute value of an n x m array *)
Fixpoint rmaxn (n : nat) (f : nat -> R) : R := match n with O => 0 | S n => Rmax (rmaxn n f) (f n) end.
Definition norm_inf (n m : nat) (V : mat) : R := rmaxn n (fun k => rmaxn m (fun j => Rabs (V k j))).

Section Element.
Variables (three : bool) (ndof nn nq : nat) (pw : nat -> R).
(** derivative of mesh shape function j in reference direction l; reference curl (gradient) of state shape function i *)
Variables (dN shape : nat -> mat).
Variables (pnu pdnu pd2nu : nat -> R -> R) (ns : nat) (sx sw : nat -> R).
Notation d := (gdim three).

Definition f_jac (q : nat) (X : mat) : mat := iso_jac nn (dN q) X.
Definition f_wt (q : nat) (X : mat) : R := gdet three (f_jac q X).
Definition f_adj (q : nat) (X : mat) : mat := gadj three (f_jac q X).
(** trans.InverseJacobian() *)
Definition f_inv (q : nat) (X : mat) : mat := fun a b => f_adj q X a b / f_wt q X.
(** JacobianRevDiff, WeightRevDiff, AdjugateJacobianRevDiff: what is added to PointMat_bar *)
Definition f_jac_rev (q : nat) (X B : mat) : mat := to_nodes (dN q) d B.
Definition f_wt_rev (q : nat) (X : mat) (b : R) : mat := to_nodes (dN q) d (fun k l => b * f_adj q X l k).
Definition f_adj_rev (q : nat) (X B : mat) : mat :=
  to_nodes (dN q) d (fun k l => pairing d d B (gdadj three (f_jac q X) (unit_mat k l))).
(** MultABt(curlshape, trans.Jacobian(), curlshape_dFt) or Mult(curlshape, trans.AdjugateJacobian(), curlshape_dFt), :9762-9773 *)
Definition f_S (X : mat) : nat -> mat := if three then curlshape_dFt d shape f_jac X else dshapedxt d shape f_adj X.

Section Eval.
Variables (X V : mat) (u : vec).      (* element coordinates, displacements (component, node), state *)
Section Point.
Variable q : nat.
Notation W := (f_wt q X).
(** b_vec, b_vec_norm, b_mag :9776-9778; b_hat :9787-9791 *)
Definition f_b : vec := flux ndof (f_S X) q u.
Definition f_n : R := norm d f_b.
Definition f_mag : R := f_n / W.
Definition f_bhat : vec := fun a => rsum ndof (fun i => shape q i a * u i).
(** b_adjJT, a :9805-9809 *)
Definition f_badj : vec := mv d (f_adj q X) f_b.
Definition f_a : R := -1 / (f_n * W ^ 2).
(** db_magdJ :9781-9812 *)
Definition f_dbdJ : mat := fun k l =>
  if three then - f_n / W ^ 2 * f_adj q X l k + 1 / (W * f_n) * (f_b k * f_bhat l)
  else f_a * f_b k * f_badj l.
(** dBdX, dBds :9815-9826 *)
Definition f_dBdX : mat := f_jac_rev q X f_dbdJ.
Definition f_dBds : R := rsum nn (fun j => rsum d (fun k => f_dBdX k j * V k j)).
(** energy_dot, energy :9827, 9840 *)
Definition f_E : R := calcMagneticEnergy ns sx sw (pnu q) f_mag.
Definition f_E1 : R := calcMagneticEnergyDot ns sx sw (pnu q) (pdnu q) f_mag.
Definition f_E2 : R := calcMagneticEnergyDoubleDot ns sx sw (pnu q) (pdnu q) (pd2nu q) f_mag.
(** dJds = dXds^T dshape; JinvdJdsTrace :9830-9838 *)
Definition f_dJds : mat := fun k l => rsum nn (fun j => V k j * dN q j l).
Definition f_tr : R := rsum d (fun a => rsum d (fun k => f_inv q X a k * f_dJds k a)).
(** (force + force2) * w :9828, 9841-9842 *)
Definition f_w : R := pw q * W.
Definition f_point : R := (f_dBds * f_E1 + f_E * f_tr) * f_w.

(** reverse pass of ForceIntegrator3::AssembleElementVector :10009-10147 and of ForceIntegratorMeshSens3 :10330-10556 *)
Definition v_force_bar : R := - (1 * f_w).
Definition v_energy_bar : R := v_force_bar * f_tr.
Definition v_dBds_bar : R := v_force_bar * f_E1.
Definition v_mag_bar : R := v_energy_bar * f_E1 + v_force_bar * f_dBds * f_E2.
(** dBdX_bar, db_magdJ_bar :10033-10048 *)
Definition v_dBdX_bar : mat := fun k j => v_dBds_bar * V k j.
Definition v_dbdJ_bar : mat := fun k l => rsum nn (fun j => v_dBdX_bar k j * dN q j l).
(** a_bar :10122-10131 *)
Definition v_a_bar : R := rsum d (fun j => rsum d (fun k => v_dbdJ_bar j k * f_dbdJ j k)) / f_a.
(** b_vec_norm_bar :10054-10104, 10134, 10142 *)
Definition v_n_bar : R :=
  (if three
   then - rsum d (fun j => rsum d (fun k => v_dbdJ_bar j k * (f_b j * f_bhat k) / (f_n ^ 2 * W)))
        - rsum d (fun j => rsum d (fun k => v_dbdJ_bar k j * f_adj q X j k / W ^ 2))
   else v_a_bar / (f_n * W) ^ 2) + v_mag_bar / W.
(** b_adjJT_bar :10119-10121 *)
Definition v_badj_bar : vec := fun l => f_a * rsum d (fun k => v_dbdJ_bar k l * f_b k).
(** b_vec_bar :10109, 10117-10118, 10139, 10147 *)
Definition v_b_bar : vec := fun k =>
  (if three then rsum d (fun l => 1 / (f_n * W) * v_dbdJ_bar k l * f_bhat l)
   else f_a * rsum d (fun l => v_dbdJ_bar k l * f_badj l) + rsum d (fun l => f_adj q X l k * v_badj_bar l)) +
  v_n_bar / f_n * f_b k.
(** b_hat_bar :10110 *)
Definition v_bhat_bar : vec := fun l => rsum d (fun k => 1 / (f_n * W) * v_dbdJ_bar k l * f_b k).
(** elfun_bar of one point :10113, 10150 *)
Definition v_elfun_bar : vec := fun i =>
  (if three then rsum d (fun a => shape q i a * v_bhat_bar a) else 0) + rsum d (fun k => f_S X q i k * v_b_bar k).

(** mesh sensitivity: bars of the trace, inverse, Jacobian :10345-10381 *)
Definition m_tr_bar : R := v_force_bar * f_E.
Definition m_inv_bar : mat := fun a k => m_tr_bar * f_dJds k a.
Definition m_jac_bar0 : mat := fun k l =>
  - rsum d (fun b => rsum d (fun a => f_inv q X a k * m_inv_bar a b) * f_inv q X l b).
(** trans_weight_bar :10416-10424, 10442-10444, 10493, 10506, 10548 *)
Definition m_W_bar : R :=
  (if three
   then - rsum d (fun j => rsum d (fun k => v_dbdJ_bar j k * (f_b j * f_bhat k) / (f_n * W ^ 2)))
        + rsum d (fun j => rsum d (fun k => 2 * v_dbdJ_bar k j * f_n * f_adj q X j k / W ^ 3))
   else 2 * v_a_bar / (f_n * W ^ 3))
  - v_mag_bar * f_n / W ^ 2 + - (1 * (f_dBds * f_E1 + f_E * f_tr)) * pw q.
(** curlshape_dFt_bar and what it adds: 3-D to jac_bar :10511-10521, 2-D to adj_jac_bar :10526-10534 *)
Definition m_jac_bar : mat := fun k l =>
  m_jac_bar0 k l + (if three then rsum ndof (fun i => v_b_bar k * u i * shape q i l) else 0).
Definition m_adj_bar : mat := fun a k =>
  if three then - f_n / W ^ 2 * v_dbdJ_bar k a
  else v_badj_bar a * f_b k + rsum ndof (fun i => shape q i a * (u i * v_b_bar k)).
(** PointMat_bar :10537-10550 *)
Definition m_point : mat := fun k j => f_adj_rev q X m_adj_bar k j + f_wt_rev q X m_W_bar k j + f_jac_rev q X m_jac_bar k j.
End Point.

(** the loop over the points; moving: attrs.count(trans.Attribute) == 1 :9693, 9861, 10173 *)
Definition f_skip (moving : bool) : bool := moving || Rltb (norm_inf d nn V) (/ 10 ^ 14).
Definition f_ok : bool := all_fluxes_nonzero ndof d (f_S X) nq u.
(** ForceIntegrator3::GetElementEnergy :9689-9846 *)
Definition element_force (moving : bool) : option R :=
  if f_skip moving then Some 0 else if f_ok then Some (- rsum nq f_point) else None.
(** ForceIntegrator3::AssembleElementVector :9848-10156 *)
Definition element_force_grad (moving : bool) : option vec :=
  if f_skip moving then Some (fun _ => 0) else if f_ok then Some (fun i => rsum nq (fun q => v_elfun_bar q i)) else None.
(** ForceIntegratorMeshSens3::AssembleRHSElementVect :10158-10571; entry (k, j) is mesh_coords_bar(k * mesh_ndof + j) *)
Definition element_force_mesh (moving : bool) : option mat :=
  if f_skip moving then Some (fun _ _ => 0) else if f_ok then Some (fun k j => rsum nq (fun q => m_point q k j)) else None.
End Eval.
(** MagneticEnergyIntegrator::GetElementEnergy on this element (EmInteg.v) *)
Definition f_energy (X : mat) (u : vec) : R := element_energy ndof d nq pw (fun q => f_wt q X) (f_S X) pnu ns sx sw u.
End Element.

(** * The mesh.  Coordinates and displacements: X k n is component k at node n. *)
Record felem := {
  fe_attr : nat; fe_ndof : nat; fe_nn : nat; fe_nq : nat; fe_pw : nat -> R; fe_dN : nat -> mat; fe_shape : nat -> mat;
  fe_nu : nat -> R -> R; fe_dnu : nat -> R -> R; fe_d2nu : nat -> R -> R;
  fe_dof : nat -> nat; fe_sg : nat -> R;      (* dofs of the state and their orientations *)
  fe_node : nat -> nat
}.
Definition el_mat (e : felem) (X : mat) : mat := fun k j => X k (fe_node e j).
Definition el_vec (e : felem) (u : vec) : vec := fun i => fe_sg e i * u (fe_dof e i).
Definition memn (a : nat) (l : list nat) : bool := existsb (Nat.eqb a) l.

Section Mesh.
Variables (three : bool) (ns : nat) (sx sw : nat -> R) (es : list felem).
Notation d := (gdim three).
Definition oplus (a b : option R) : option R := match a, b with Some x, Some y => Some (x + y) | _, _ => None end.

(** ParNonlinearForm::GetGridFunctionEnergy with one domain integrator; marked: its attributes, all when there is no marker *)
Definition el_force (attrs : list nat) (X V : mat) (u : vec) (e : felem) : option R :=
  element_force three (fe_ndof e) (fe_nn e) (fe_nq e) (fe_pw e) (fe_dN e) (fe_shape e) (fe_nu e) (fe_dnu e) ns sx sw
    (el_mat e X) (el_mat e V) (el_vec e u) (memn (fe_attr e) attrs).
Definition total_force (marked : nat -> bool) (attrs : list nat) (X V : mat) (u : vec) : option R :=
  fold_right (fun e s => if marked (fe_attr e) then oplus (el_force attrs X V u e) s else s) (Some 0) es.
(** the "energy" output: MagneticEnergyIntegrator on every element *)
Definition el_energy (X : mat) (u : vec) (e : felem) : R :=
  f_energy three (fe_ndof e) (fe_nn e) (fe_nq e) (fe_pw e) (fe_dN e) (fe_shape e) (fe_nu e) ns sx sw (el_mat e X) (el_vec e u).
Definition total_energy (X : mat) (u : vec) : R := fold_right (fun e s => el_energy X u e + s) 0 es.
(** ParNonlinearForm::Mult (the partial with respect to the state): entry m collects the element vectors *)
Definition el_grad (attrs : list nat) (X V : mat) (u : vec) (e : felem) : option vec :=
  element_force_grad three (fe_ndof e) (fe_nn e) (fe_nq e) (fe_pw e) (fe_dN e) (fe_shape e) (fe_nu e) (fe_dnu e) (fe_d2nu e) ns sx sw
    (el_mat e X) (el_mat e V) (el_vec e u) (memn (fe_attr e) attrs).
Definition scatter (e : felem) (g : vec) (m : nat) : R :=
  rsum (fe_ndof e) (fun i => if Nat.eqb (fe_dof e i) m then fe_sg e i * g i else 0).
Definition total_grad (marked : nat -> bool) (attrs : list nat) (X V : mat) (u : vec) : option vec :=
  fold_right (fun e s => if marked (fe_attr e)
    then match el_grad attrs X V u e, s with Some g, Some r => Some (fun m => scatter e g m + r m) | _, _ => None end
    else s) (Some (fun _ => 0)) es.
(** ParLinearForm::Assemble over the mesh space (the partial with respect to "mesh_coords") *)
Definition el_mesh (attrs : list nat) (X V : mat) (u : vec) (e : felem) : option mat :=
  element_force_mesh three (fe_ndof e) (fe_nn e) (fe_nq e) (fe_pw e) (fe_dN e) (fe_shape e) (fe_nu e) (fe_dnu e) (fe_d2nu e) ns sx sw
    (el_mat e X) (el_mat e V) (el_vec e u) (memn (fe_attr e) attrs).
Definition scatter_mesh (e : felem) (g : mat) : mat := fun k n =>
  rsum (fe_nn e) (fun j => if Nat.eqb (fe_node e j) n then g k j else 0).
Definition total_mesh (marked : nat -> bool) (attrs : list nat) (X V : mat) (u : vec) : option mat :=
  fold_right (fun e s => if marked (fe_attr e)
    then match el_mesh attrs X V u e, s with Some g, Some r => Some (fun k n => scatter_mesh e g k n + r k n) | _, _ => None end
    else s) (Some (fun _ _ => 0)) es.

(** v = 0 and ProjectCoefficient(coef, attr) for each attribute (mfem): the nodes of elements with these attributes take the
    coefficient's value at their position *)
Definition node_in (attrs : list nat) (n : nat) : bool :=
  existsb (fun e => memn (fe_attr e) attrs && existsb (fun j => Nat.eqb (fe_node e j) n) (seq 0 (fe_nn e))) es.
Definition project (attrs : list nat) (coef : vec -> vec) (X : mat) : mat := fun k n =>
  if node_in attrs n then coef (fun c => X c n) k else 0.
End Mesh.

(** options of the outputs; axis has o_na entries *)
Record fopts := { o_attrs : list nat; o_axis : vec; o_na : nat; o_about : vec; o_air : option (list nat) }.
(** setOptions(ForceFunctional), electromag_outputs.cpp:25-40; reading past the end of the axis is None *)
Definition force_field (three : bool) (es : list felem) (o : fopts) (X : mat) : option mat :=
  if Nat.ltb (o_na o) (gdim three) then None else Some (project es (o_attrs o) (fun _ => o_axis o) X).
(** setOptions(TorqueFunctional), electromag_outputs.cpp:42-82 *)
Definition torque_coef (three : bool) (ax about : vec) (x : vec) : vec :=
  let r c := x c - about c in
  if three then fun k => match k with
    | O => ax 1%nat * r 2%nat - ax 2%nat * r 1%nat
    | S O => ax 2%nat * r 0%nat - ax 0%nat * r 2%nat
    | _ => ax 0%nat * r 1%nat - ax 1%nat * r 0%nat end
  else fun k => match k with O => - ax 2%nat * r 1%nat | _ => ax 2%nat * r 0%nat end.
Definition torque_field (three : bool) (es : list felem) (o : fopts) (X : mat) : option mat :=
  if Nat.ltb (o_na o) 3 then None
  else let ax := fun k => o_axis o k / norm (o_na o) (o_axis o) in Some (project es (o_attrs o) (torque_coef three ax (o_about o)) X).

(** * The solver: fields it holds, displacement fields, outputs, coordinates *)
Record fout := { out_torque : bool; out_attrs : list nat; out_air : option (list nat) }.
Record fsolver := { s_fields : list string; s_v : string -> mat; s_outs : list (string * fout); s_X : mat }.
Inductive fret (A : Type) := FOk (a : A) | FThrow | FOutOfRange | FUB.
Arguments FOk {A} a. Arguments FThrow {A}. Arguments FOutOfRange {A}. Arguments FUB {A}.
Definition key (torque : bool) : string := if torque then "vtorque" else "vforce".
Definition has (k : string) (l : list string) : bool := existsb (String.eqb k) l.
Fixpoint lookup {A} (k : string) (l : list (string * A)) : option A :=
  match l with [] => None | (k', a) :: l => if String.eqb k k' then Some a else lookup k l end.
Section Solver.
Variables (three : bool) (ns : nat) (sx sw : nat -> R) (es : list felem).
Definition new_field (torque : bool) (o : fopts) (X : mat) : option mat :=
  if torque then torque_field three es o X else force_field three es o X.
(** setOptions of either functional: fields.at(key) throws std::out_of_range *)
Definition set_field (torque : bool) (o : fopts) (s : fsolver) : fret fsolver :=
  if has (key torque) (s_fields s)
  then match new_field torque o (s_X s) with
       | None => FUB
       | Some V => FOk {| s_fields := s_fields s; s_v := fun k => if String.eqb k (key torque) then V else s_v s k;
                          s_outs := s_outs s; s_X := s_X s |}
       end
  else FOutOfRange.
(** createOutput (abstract_solver.cpp:236-247), MagnetostaticSolver::addOutput (magnetostatic.cpp:186-207) and the constructors
    (electromag_outputs.hpp:74-86, 143-169) *)
Definition create_output (name : string) (o : fopts) (s : fsolver) : fret fsolver :=
  match lookup name (s_outs s) with
  | Some _ => FThrow
  | None =>
      let torque := negb (prefix "force" name) in
      if prefix "force" name || prefix "torque" name
      then
        let vn := ("v" ++ name)%string in
        let s1 := if has vn (s_fields s) then s
                  else {| s_fields := vn :: s_fields s; s_v := fun k => if String.eqb k vn then (fun _ _ => 0) else s_v s k;
                          s_outs := s_outs s; s_X := s_X s |} in
        match set_field torque o s1 with
        | FOk s2 => FOk {| s_fields := s_fields s2; s_v := s_v s2;
                           s_outs := (name, {| out_torque := torque; out_attrs := o_attrs o; out_air := if torque then o_air o else None |}) :: s_outs s2;
                           s_X := s_X s2 |}
        | r => r
        end
      else FThrow      (* other outputs are not part of this model *)
  end.
(** setOutputOptions, abstract_solver.cpp:267-283 *)
Definition set_output_options (name : string) (o : fopts) (s : fsolver) : fret fsolver :=
  match lookup name (s_outs s) with None => FThrow | Some f => set_field (out_torque f) o s end.
(** new coordinates through the input "mesh_coords" *)
Definition set_mesh (X : mat) (s : fsolver) : fsolver := {| s_fields := s_fields s; s_v := s_v s; s_outs := s_outs s; s_X := X |}.
(** calcOutput; NaN is FOk None *)
Definition in_marker (air : option (list nat)) (a : nat) : bool := match air with None => true | Some l => memn a l end.
Definition calc_force (name : string) (u : vec) (s : fsolver) : fret (option R) :=
  match lookup name (s_outs s) with
  | None => FThrow
  | Some f => FOk (total_force three ns sx sw es (in_marker (out_air f)) (out_attrs f) (s_X s) (s_v s (key (out_torque f))) u)
  end.
End Solver.
