(** Winding and core losses of an electric machine: the functionals DCLossFunctional, ACLossFunctional, CoreLossFunctional,
    PMDemagOutput and the heat source distributions DCLossDistribution, ACLossDistribution, CAL2CoreLossDistribution,
    EMHeatSourceOutput, src/physics/electromagnetics/electromag_outputs.{hpp,cpp}, with their integrators in
    src/physics/electromagnetics/electromag_integ.cpp.

    Simplifications: those of CommonFun (arithmetic over R, one process, scalar finite elements whose shape functions do not
    depend on the mesh, so that CalcPhysShapeRevDiff adds nothing).  A FunctionalOutput or MISOLinearForm is represented by its
    value and assembled sensitivities; the values of its inputs are those last distributed.  Divisions by zero give 0 in R;
    the theorems assume nonzero denominators. *)
From Coq Require Import Reals String List Bool Arith.
From Verif Require Import Vec EmInteg SbpSpec CommonFun.
Import ListNotations.
Local Open Scope R_scope.
Local Open Scope string_scope.

(** a finite element field: dofs and shape functions at the quadrature points of each element (GetFE, GetElementVDofs,
    CalcPhysShape) *)
Record ffield := { f_ndof : elem -> nat; f_dof : elem -> nat -> nat; f_shape : elem -> nat -> vec }.
(** shape * elfun *)
Definition fvalue (F : ffield) (e : elem) (q : nat) (u : vec) : R :=
  dot (f_ndof F e) (f_shape F e q) (gather (f_ndof F e) (f_dof F e) u).
(** quadrature over all elements; assembled vectors with element entries sum_q c_q shape_i and sum_q m_q *)
Definition quad_total (val : elem -> nat -> mat -> R) (M : list elem) (X : mat) : R :=
  lsum (fun e => rsum (e_nq e) (fun q => val e q (nodes_of e X))) M.
Definition dof_assembled (F : ffield) (c : elem -> nat -> R) (M : list elem) : vec := fun J =>
  lsum (fun e => scatter_to (f_ndof F e) (f_dof F e) (fun i => rsum (e_nq e) (fun q => c e q * f_shape F e q i)) J) M.
Definition node_assembled (m : elem -> nat -> mat) (M : list elem) : mat := fun k J =>
  lsum (fun e => scatter_to (e_nn e) (e_node e) (fun j => rsum (e_nq e) (fun q => m e q k j)) J) M.

(** StateCoefficient: Eval, EvalStateDeriv, EvalRevDiff at point q of an element with given nodes and state *)
Record scoef := { c_val : elem -> nat -> mat -> R -> R; c_dT : elem -> nat -> mat -> R -> R; c_rev : elem -> nat -> mat -> R -> R -> mat }.

(** scalar inputs by name; setValueFromInputs with a new value *)
Definition params := string -> R.
Definition upd (P : params) (k : string) (x : R) : params := fun k' => if String.eqb k' k then x else P k'.

(** * DCLossFunctionalIntegrator electromag_integ.cpp:5958-6026, mesh :6028-6132, temperature :6134-6219 *)
Section DC.
Variables (S : scoef) (TF : ffield).
Definition dc_rho (M : list elem) (X : mat) (T : vec) : R :=
  quad_total (fun e q Y => e_pw e q * e_W e q Y / c_val S e q Y (fvalue TF e q T)) M X.
Definition dc_rho_mesh (M : list elem) (X : mat) (T : vec) : mat :=
  node_assembled (fun e q k j => let Y := nodes_of e X in let t := fvalue TF e q T in
    let w := e_pw e q * e_W e q Y in let s := c_val S e q Y t in
    c_rev S e q Y t (- 1 * w / s ^ 2) k j + e_WRev e q Y (1 / s * e_pw e q) k j) M.
Definition dc_rho_temp (M : list elem) (X : mat) (T : vec) : vec :=
  dof_assembled TF (fun e q => let Y := nodes_of e X in let t := fvalue TF e q T in
    let w := e_pw e q * e_W e q Y in let s := c_val S e q Y t in - 1 * w / s ^ 2 * c_dT S e q Y t) M.
End DC.
(** DCLossFunctional electromag_outputs.cpp:85-99, as a function of the parameters, the integrated resistivity and the volume *)
Definition strand_area (P : params) : R := PI * P "strand_radius" ^ 2.
Definition dc_R (P : params) (rho : R) : R := P "wire_length" * rho / (strand_area P * P "strands_in_hand").
Definition dc_loss (P : params) (rho : R) : R := P "rms_current" ^ 2 * dc_R P rho * sqrt 2.
Definition dc_value (P : params) (rho vol : R) : R := dc_loss P rho / vol.
(** jacobianVectorProduct :101-187: wrt.rfind(name, 0) == 0 is "name is a prefix of wrt" *)
Definition dc_jvp (P : params) (rho vol : R) (wrt : string) (d : R) : R :=
  if prefix "wire_length" wrt then
    let R_dot := rho / (strand_area P * P "strands_in_hand") * d in 1 / vol * (P "rms_current" ^ 2 * sqrt 2 * R_dot)
  else if prefix "rms_current" wrt then 1 / vol * (2 * P "rms_current" * dc_R P rho * sqrt 2 * d)
  else if prefix "strand_radius" wrt then
    let area_dot := PI * 2 * P "strand_radius" * d in
    let R_dot := - P "wire_length" * rho / (strand_area P ^ 2 * P "strands_in_hand") * area_dot in 1 / vol * (P "rms_current" ^ 2 * sqrt 2 * R_dot)
  else if prefix "strands_in_hand" wrt then
    let R_dot := - P "wire_length" * rho / (strand_area P * P "strands_in_hand" ^ 2) * d in 1 / vol * (P "rms_current" ^ 2 * sqrt 2 * R_dot)
  else 0.
(** jacobianVectorProduct wrt "mesh_coords" :188-213 and "temperature" :214-239, from the products of the components *)
Definition dc_jvp_mesh (P : params) (rho vol rho_dot vol_dot : R) : R :=
  let R_dot := P "wire_length" / (strand_area P * P "strands_in_hand") * rho_dot in
  let loss_dot := P "rms_current" ^ 2 * sqrt 2 * R_dot in loss_dot / vol - dc_loss P rho / vol ^ 2 * vol_dot.
Definition dc_jvp_temp (P : params) (vol rho_dot : R) : R :=
  let R_dot := P "wire_length" / (strand_area P * P "strands_in_hand") * rho_dot in P "rms_current" ^ 2 * sqrt 2 * R_dot / vol.
(** vectorJacobianProduct, scalar :252-445 *)
Definition dc_vjp (P : params) (rho vol : R) (wrt : string) (bar : R) : R :=
  let loss_bar := bar / vol in let R_bar := loss_bar * P "rms_current" ^ 2 * sqrt 2 in
  if prefix "wire_length" wrt then R_bar * rho / (strand_area P * P "strands_in_hand")
  else if prefix "rms_current" wrt then loss_bar * 2 * P "rms_current" * dc_R P rho * sqrt 2
  else if prefix "strand_radius" wrt then
    let area_bar := - R_bar * P "wire_length" * rho / (strand_area P ^ 2 * P "strands_in_hand") in area_bar * PI * 2 * P "strand_radius"
  else if prefix "strands_in_hand" wrt then - R_bar * P "wire_length" * rho / (strand_area P * P "strands_in_hand" ^ 2)
  else 0.
(** vectorJacobianProduct, fields :447-553: the multipliers rho_bar and volume_bar of the components' sensitivities *)
Definition dc_rho_bar (P : params) (vol bar : R) : R :=
  let loss_bar := bar / vol in let R_bar := loss_bar * P "rms_current" ^ 2 * sqrt 2 in R_bar * P "wire_length" / (strand_area P * P "strands_in_hand").
Definition dc_vol_bar (P : params) (rho vol bar : R) : R := - bar * dc_loss P rho / vol ^ 2.
(** A: the elements with the rule of the loss integrator, B: with that of VolumeIntegrator *)
Definition volume_of (B : list elem) (X : mat) : R := total (vol_energy NoRho) B X (fun _ => 0).
Definition volume_mesh (B : list elem) (X : mat) : mat := assembled_mesh (vol_mesh NoRho) B X (fun _ => 0).
Definition dc_output (S : scoef) (TF : ffield) (P : params) (A B : list elem) (X : mat) (T : vec) : R :=
  dc_value P (dc_rho S TF A X T) (volume_of B X).
Definition dc_mesh_vjp (S : scoef) (TF : ffield) (P : params) (A B : list elem) (X : mat) (T : vec) (bar : R) (wrt_bar : mat) : mat :=
  let rho := dc_rho S TF A X T in let vol := volume_of B X in fun k J =>
  wrt_bar k J + dc_vol_bar P rho vol bar * volume_mesh B X k J + dc_rho_bar P vol bar * dc_rho_mesh S TF A X T k J.
Definition dc_temp_vjp (S : scoef) (TF : ffield) (P : params) (A B : list elem) (X : mat) (T : vec) (bar : R) (wrt_bar : vec) : vec :=
  let vol := volume_of B X in fun i => wrt_bar i + dc_rho_bar P vol bar * dc_rho_temp S TF A X T i.
Definition dc_mesh_jvp (sdim NN : nat) (S : scoef) (TF : ffield) (P : params) (A B : list elem) (X : mat) (T : vec) (V : mat) : R :=
  dc_jvp_mesh P (dc_rho S TF A X T) (volume_of B X)
    (rsum sdim (fun k => rsum NN (fun J => dc_rho_mesh S TF A X T k J * V k J))) (rsum sdim (fun k => rsum NN (fun J => volume_mesh B X k J * V k J))).
Definition dc_temp_jvp (N : nat) (S : scoef) (TF : ffield) (P : params) (A B : list elem) (X : mat) (T v : vec) : R :=
  dc_jvp_temp P (volume_of B X) (dot N (dc_rho_temp S TF A X T) v).

(** * ACLossFunctionalIntegrator electromag_integ.cpp:7444-7520, mesh :7582-7719, peak flux :7721-7816, temperature :7818-7930 *)
Section AC.
Variables (S : scoef) (BF TF : ffield).
Definition ac_sb2 (M : list elem) (X : mat) (b T : vec) : R :=
  quad_total (fun e q Y => c_val S e q Y (fvalue TF e q T) * fvalue BF e q b ^ 2 * (e_pw e q * e_W e q Y)) M X.
Definition ac_sb2_mesh (M : list elem) (X : mat) (b T : vec) : mat :=
  node_assembled (fun e q k j => let Y := nodes_of e X in let t := fvalue TF e q T in let bm := fvalue BF e q b in
    let w := e_pw e q * e_W e q Y in let s := c_val S e q Y t in
    c_rev S e q Y t (1 * w * bm ^ 2) k j + e_WRev e q Y (1 * (s * bm ^ 2) * e_pw e q) k j) M.
Definition ac_sb2_flux (M : list elem) (X : mat) (b T : vec) : vec :=
  dof_assembled BF (fun e q => let Y := nodes_of e X in let bm := fvalue BF e q b in
    let w := e_pw e q * e_W e q Y in let s := c_val S e q Y (fvalue TF e q T) in 1 * w * s * 2 * bm) M.
Definition ac_sb2_temp (M : list elem) (X : mat) (b T : vec) : vec :=
  dof_assembled TF (fun e q => let Y := nodes_of e X in let t := fvalue TF e q T in let bm := fvalue BF e q b in
    let w := e_pw e q * e_W e q Y in 1 * w * bm ^ 2 * c_dT S e q Y t) M.
End AC.
(** ACLossFunctional electromag_outputs.cpp:682-716 *)
Definition ac_strand (P : params) (sb2 : R) : R := sb2 * P "stack_length" * PI * P "strand_radius" ^ 4 * (2 * PI * P "frequency") ^ 2 / 8.
Definition ac_num (P : params) : R := 2 * P "strands_in_hand" * P "num_turns" * P "num_slots".
Definition ac_value (P : params) (sb2 vol : R) : R := ac_num P * ac_strand P sb2 / vol.
(** jacobianVectorProduct :718-919.  The branch "frequency" :741-760 has pow(output.radius, 3) *)
Definition ac_jvp (P : params) (sb2 vol : R) (wrt : string) (d : R) : R :=
  if prefix "strand_radius" wrt then ac_num P * (4 * sb2 * P "stack_length" * PI * P "strand_radius" ^ 3 * (2 * PI * P "frequency") ^ 2 / 8 * d) / vol
  else if prefix "frequency" wrt then ac_num P * (2 * sb2 * P "stack_length" * PI * P "strand_radius" ^ 3 * P "frequency" * (2 * PI) ^ 2 / 8 * d) / vol
  else if prefix "stack_length" wrt then ac_num P * (sb2 * PI * P "strand_radius" ^ 4 * (2 * PI * P "frequency") ^ 2 / 8 * d) / vol
  else if prefix "strands_in_hand" wrt then ac_strand P sb2 * (2 * P "num_turns" * P "num_slots" * d) / vol
  else if prefix "num_turns" wrt then ac_strand P sb2 * (2 * P "strands_in_hand" * P "num_slots" * d) / vol
  else if prefix "num_slots" wrt then ac_strand P sb2 * (2 * P "strands_in_hand" * P "num_turns" * d) / vol
  else 0.
(** wrt "mesh_coords" :839-866, "peak_flux" :867-890, "temperature" :892-914 *)
Definition ac_strand_dot (P : params) (sb2_dot : R) : R := P "stack_length" * PI * P "strand_radius" ^ 4 * (2 * PI * P "frequency") ^ 2 / 8 * sb2_dot.
Definition ac_jvp_mesh (P : params) (sb2 vol sb2_dot vol_dot : R) : R :=
  ac_num P * ac_strand_dot P sb2_dot / vol - ac_num P * ac_strand P sb2 / vol ^ 2 * vol_dot.
Definition ac_jvp_field (P : params) (vol sb2_dot : R) : R := ac_num P * ac_strand_dot P sb2_dot / vol.
(** vectorJacobianProduct, scalar :921-1270 *)
Definition ac_vjp (P : params) (sb2 vol : R) (wrt : string) (bar : R) : R :=
  let loss_bar := bar / vol in let strand_bar := loss_bar * ac_num P in let num_bar := loss_bar * ac_strand P sb2 in
  if prefix "strand_radius" wrt then strand_bar * sb2 * P "stack_length" * PI * 4 * P "strand_radius" ^ 3 * (2 * PI * P "frequency") ^ 2 / 8
  else if prefix "frequency" wrt then strand_bar * sb2 * P "stack_length" * PI * P "strand_radius" ^ 4 * 2 * P "frequency" * (2 * PI) ^ 2 / 8
  else if prefix "stack_length" wrt then strand_bar * sb2 * PI * P "strand_radius" ^ 4 * (2 * PI * P "frequency") ^ 2 / 8
  else if prefix "strands_in_hand" wrt then num_bar * 2 * P "num_turns" * P "num_slots"
  else if prefix "num_turns" wrt then num_bar * 2 * P "strands_in_hand" * P "num_slots"
  else if prefix "num_slots" wrt then num_bar * 2 * P "strands_in_hand" * P "num_turns"
  else 0.
(** vectorJacobianProduct, fields :1272-1464 *)
Definition ac_sb2_bar (P : params) (vol bar : R) : R :=
  let strand_bar := bar / vol * ac_num P in strand_bar * P "stack_length" * PI * P "strand_radius" ^ 4 * (2 * PI * P "frequency") ^ 2 / 8.
Definition ac_vol_bar (P : params) (sb2 vol bar : R) : R := - bar * (ac_num P * ac_strand P sb2) / vol ^ 2.
Definition ac_output (S : scoef) (BF TF : ffield) (P : params) (A B : list elem) (X : mat) (b T : vec) : R :=
  ac_value P (ac_sb2 S BF TF A X b T) (volume_of B X).
Definition ac_mesh_vjp (S : scoef) (BF TF : ffield) (P : params) (A B : list elem) (X : mat) (b T : vec) (bar : R) (wrt_bar : mat) : mat :=
  let sb2 := ac_sb2 S BF TF A X b T in let vol := volume_of B X in fun k J =>
  wrt_bar k J + ac_vol_bar P sb2 vol bar * volume_mesh B X k J + ac_sb2_bar P vol bar * ac_sb2_mesh S BF TF A X b T k J.
Definition ac_flux_vjp (S : scoef) (BF TF : ffield) (P : params) (A B : list elem) (X : mat) (b T : vec) (bar : R) (wrt_bar : vec) : vec := fun i =>
  wrt_bar i + ac_sb2_bar P (volume_of B X) bar * ac_sb2_flux S BF TF A X b T i.
Definition ac_temp_vjp (S : scoef) (BF TF : ffield) (P : params) (A B : list elem) (X : mat) (b T : vec) (bar : R) (wrt_bar : vec) : vec := fun i =>
  wrt_bar i + ac_sb2_bar P (volume_of B X) bar * ac_sb2_temp S BF TF A X b T i.
Definition ac_mesh_jvp (sdim NN : nat) (S : scoef) (BF TF : ffield) (P : params) (A B : list elem) (X : mat) (b T : vec) (V : mat) : R :=
  ac_jvp_mesh P (ac_sb2 S BF TF A X b T) (volume_of B X)
    (rsum sdim (fun k => rsum NN (fun J => ac_sb2_mesh S BF TF A X b T k J * V k J))) (rsum sdim (fun k => rsum NN (fun J => volume_mesh B X k J * V k J))).
Definition ac_flux_jvp (N : nat) (S : scoef) (BF TF : ffield) (P : params) (A B : list elem) (X : mat) (b T v : vec) : R :=
  ac_jvp_field P (volume_of B X) (dot N (ac_sb2_flux S BF TF A X b T) v).
Definition ac_temp_jvp (N : nat) (S : scoef) (BF TF : ffield) (P : params) (A B : list elem) (X : mat) (b T v : vec) : R :=
  ac_jvp_field P (volume_of B X) (dot N (ac_sb2_temp S BF TF A X b T) v).

(** * Heat source distributions: linear forms on the temperature space.  A density gives the loss at a point from the
    parameters, the peak flux and the temperature; sens_* what the reverse integrators multiply with *)
Record density_fun := {
  d_loss : params -> elem -> nat -> mat -> R -> R -> R;                 (* loss, :6293-6305, :8042-8050, :12330-12331 *)
  d_flux : params -> elem -> nat -> mat -> R -> R -> R -> R;            (* b_mag_bar from psi w *)
  d_temp : params -> elem -> nat -> mat -> R -> R -> R -> R;            (* temperature_bar from psi w *)
  d_scalar : params -> string -> elem -> nat -> mat -> R -> R -> R -> R (* param_bar from psi w; 0: no such form *) }.

(** DCLossDistributionIntegrator electromag_integ.cpp:6235-6308; temperature :6427-6559; scalars :6561-7442, added under
    these names electromag_integ.hpp:2124-2238 *)
Definition dcd_R (S : scoef) (P : params) (e : elem) (q : nat) (Y : mat) (t : R) : R :=
  P "wire_length" / (strand_area P * P "strands_in_hand" * c_val S e q Y t).
Definition dc_density (S : scoef) : density_fun := {|
  d_loss := fun P e q Y b t =>
    P "rms_current" ^ 2 * dcd_R S P e q Y t * (1 * sqrt 2) * (1 / (P "winding_volume" * P "stack_length"));
  d_flux := fun P e q Y b t pw => 0;
  d_temp := fun P e q Y b t pw =>
    let loss_bar := 1 * pw * (1 / (P "winding_volume" * P "stack_length")) * (1 * sqrt 2) in
    let R_bar := loss_bar * P "rms_current" ^ 2 in
    let sigma_bar := - R_bar * P "wire_length" / (strand_area P * P "strands_in_hand" * c_val S e q Y t ^ 2) in sigma_bar * c_dT S e q Y t;
  d_scalar := fun P wrt e q Y b t pw =>
    let s := c_val S e q Y t in
    let loss_bar := 1 * pw * (1 / (P "winding_volume" * P "stack_length")) * (1 * sqrt 2) in
    let R_bar := loss_bar * P "rms_current" ^ 2 in
    let loss := P "rms_current" ^ 2 * dcd_R S P e q Y t * (1 * sqrt 2) / (P "winding_volume" * P "stack_length") in
    if String.eqb wrt "strand_radius" then - R_bar * P "wire_length" / (strand_area P ^ 2 * P "strands_in_hand" * s) * PI * 2 * P "strand_radius"
    else if String.eqb wrt "wire_length" then R_bar / (strand_area P * P "strands_in_hand" * s)
    else if String.eqb wrt "strands_in_hand" then - R_bar * P "wire_length" / (strand_area P * P "strands_in_hand" ^ 2 * s)
    else if String.eqb wrt "rms_current" then loss_bar * 2 * P "rms_current" * dcd_R S P e q Y t
    else if String.eqb wrt "stack_length" then - (1 * pw) * loss / P "stack_length"
    else if String.eqb wrt "winding_volume" then - (1 * pw) * loss / P "winding_volume"
    else 0 |}.
(** ACLossDistributionIntegrator :7943-8054; peak flux :8221-8376; temperature :8378-8537; scalars :8539-9469, names
    electromag_integ.hpp:2801-2927 *)
Definition ac_density (S : scoef) : density_fun := {|
  d_loss := fun P e q Y b t =>
    PI * P "strand_radius" ^ 4 * (2 * PI * P "frequency" * b) ^ 2 * c_val S e q Y t / 8 *
    (2 * P "strands_in_hand" * P "num_turns" * P "num_slots") * (1 / P "winding_volume");
  d_flux := fun P e q Y b t pw =>
    let loss_bar := 1 * pw * (1 / P "winding_volume") * (2 * P "strands_in_hand" * P "num_turns" * P "num_slots") in
    loss_bar * PI * P "strand_radius" ^ 4 * 2 * (2 * PI * P "frequency") ^ 2 * b * c_val S e q Y t / 8;
  d_temp := fun P e q Y b t pw =>
    let loss_bar := 1 * pw * (1 / P "winding_volume") * (2 * P "strands_in_hand" * P "num_turns" * P "num_slots") in
    loss_bar * PI * P "strand_radius" ^ 4 * (2 * PI * P "frequency" * b) ^ 2 / 8 * c_dT S e q Y t;
  d_scalar := fun P wrt e q Y b t pw =>
    let s := c_val S e q Y t in
    let loss := PI * P "strand_radius" ^ 4 * (2 * PI * P "frequency" * b) ^ 2 * s / 8 in
    let loss_bar := 1 * pw * (1 / P "winding_volume") * (2 * P "strands_in_hand" * P "num_turns" * P "num_slots") in
    let loss2_bar := 1 * pw / P "winding_volume" in
    if String.eqb wrt "frequency" then
      1 * pw / P "winding_volume" * (2 * P "strands_in_hand" * P "num_turns" * P "num_slots") *
      PI * P "strand_radius" ^ 4 * 2 * P "frequency" * (2 * PI * b) ^ 2 * s / 8
    else if String.eqb wrt "strand_radius" then loss_bar * PI * 4 * P "strand_radius" ^ 3 * (2 * PI * P "frequency" * b) ^ 2 * s / 8
    else if String.eqb wrt "strands_in_hand" then loss2_bar * loss * 2 * P "num_turns" * P "num_slots"
    else if String.eqb wrt "num_turns" then loss2_bar * loss * 2 * P "strands_in_hand" * P "num_slots"
    else if String.eqb wrt "num_slots" then loss2_bar * loss * 2 * P "strands_in_hand" * P "num_turns"
    else if String.eqb wrt "winding_volume" then
      - (1 * pw) * (loss * 2 * P "strands_in_hand" * P "num_turns" * P "num_slots") / P "winding_volume" ^ 2
    else 0 |}.
(** CAL2 coefficients: ThreeStateCoefficient in (temperature, frequency, peak flux) with derivatives EvalDerivS1..S3, and the
    mass density *)
Record tcoef := { t_val : elem -> R -> R -> R -> R; t_d1 : elem -> R -> R -> R -> R; t_d2 : elem -> R -> R -> R -> R; t_d3 : elem -> R -> R -> R -> R }.
(** CAL2CoreLossDistributionIntegrator :12256-12336; peak flux :12474-12623; temperature :12625-12770; frequency :12772-12957 *)
Definition core_density (rho : elem -> R) (kh ke : tcoef) : density_fun := {|
  d_loss := fun P e q Y b t => let f := P "frequency" in
    rho e * t_val kh e t f b * f * b ^ 2 + rho e * t_val ke e t f b * f ^ 2 * b ^ 2;
  d_flux := fun P e q Y b t pw => let f := P "frequency" in let loss_bar := 1 * pw in
    let kh_bar := loss_bar * rho e * f * b ^ 2 in let ke_bar := loss_bar * rho e * f ^ 2 * b ^ 2 in
    loss_bar * rho e * (t_val kh e t f b * f + t_val ke e t f b * f ^ 2) * 2 * b + ke_bar * t_d3 ke e t f b + kh_bar * t_d3 kh e t f b;
  d_temp := fun P e q Y b t pw => let f := P "frequency" in let loss_bar := 1 * pw in
    let kh_bar := loss_bar * rho e * f * b ^ 2 in let ke_bar := loss_bar * rho e * f ^ 2 * b ^ 2 in
    ke_bar * t_d1 ke e t f b + kh_bar * t_d1 kh e t f b;
  d_scalar := fun P wrt e q Y b t pw => let f := P "frequency" in let loss_bar := 1 * pw in
    let kh_bar := loss_bar * rho e * f * b ^ 2 in let ke_bar := loss_bar * rho e * f ^ 2 * b ^ 2 in
    if String.eqb wrt "frequency" then
      loss_bar * rho e * (t_val kh e t f b * b ^ 2 + t_val ke e t f b * 2 * f * b ^ 2) + ke_bar * t_d2 ke e t f b + kh_bar * t_d2 kh e t f b
    else 0 |}.

Section Distribution.
Variables (BF TF : ffield) (D : density_fun).
(** addLoad of the linear form on a zero vector: elvect.Add(loss * w, temp_shape) *)
Definition dist_load (P : params) (M : list elem) (X : mat) (b T : vec) : vec :=
  dof_assembled TF (fun e q => let Y := nodes_of e X in d_loss D P e q Y (fvalue BF e q b) (fvalue TF e q T) * (e_pw e q * e_W e q Y)) M.
(** MeshRevSens :6310-6425, :8056-8219, :12338-12472 *)
Definition dist_mesh (P : params) (M : list elem) (X : mat) (b T psi : vec) : mat :=
  node_assembled (fun e q k j => let Y := nodes_of e X in
    e_WRev e q Y (1 * d_loss D P e q Y (fvalue BF e q b) (fvalue TF e q T) * fvalue TF e q psi * e_pw e q) k j) M.
Definition dist_flux (P : params) (M : list elem) (X : mat) (b T psi : vec) : vec :=
  dof_assembled BF (fun e q => let Y := nodes_of e X in
    d_flux D P e q Y (fvalue BF e q b) (fvalue TF e q T) (fvalue TF e q psi * (e_pw e q * e_W e q Y))) M.
Definition dist_temp (P : params) (M : list elem) (X : mat) (b T psi : vec) : vec :=
  dof_assembled TF (fun e q => let Y := nodes_of e X in
    d_temp D P e q Y (fvalue BF e q b) (fvalue TF e q T) (fvalue TF e q psi * (e_pw e q * e_W e q Y))) M.
(** vectorJacobianProduct of a MISOLinearForm, scalar, miso_linearform.cpp:89-106 *)
Definition dist_scalar (P : params) (wrt : string) (M : list elem) (X : mat) (b T psi : vec) : R :=
  quad_total (fun e q Y => d_scalar D P wrt e q Y (fvalue BF e q b) (fvalue TF e q T) (fvalue TF e q psi * (e_pw e q * e_W e q Y))) M X.
(** jacobianVectorProduct of a MISOLinearForm with no forward sensitivities (electromag_integ.hpp:2124-2238, 2801-2927,
    3844-3918 add none), miso_linearform.cpp:77-87: nothing is added *)
Definition dist_jvp (out_dot : vec) : vec := out_dot.

(** the object: parameters of its integrator, fields last distributed *)
Record dist_state := { ds_P : params; ds_X : mat; ds_b : vec; ds_T : vec }.
(** inputs of a call: scalars, and fields when given *)
Record dist_inputs := { di_scal : list (string * R); di_X : option mat; di_b : option vec; di_T : option vec }.
Definition take {A} (o : option A) (d : A) : A := match o with Some x => x | None => d end.
Definition put_scal (l : list (string * R)) (P : params) : params := fold_left (fun P kv => upd P (fst kv) (snd kv)) l P.
(** setInputs electromag_outputs.hpp:281-287, 387-393 *)
Definition dist_set_inputs (ins : dist_inputs) (st : dist_state) : dist_state :=
  {| ds_P := put_scal (di_scal ins) (ds_P st); ds_X := take (di_X ins) (ds_X st); ds_b := take (di_b ins) (ds_b st); ds_T := take (di_T ins) (ds_T st) |}.
(** calcOutput electromag_outputs.cpp:578-587, 1495-1504: the volume of the new mesh, then the inputs *)
Definition dist_calc (A B : list elem) (ins : dist_inputs) (st : dist_state) : dist_state * vec :=
  let X := take (di_X ins) (ds_X st) in
  let st1 := {| ds_P := upd (ds_P st) "winding_volume" (volume_of B X); ds_X := X; ds_b := ds_b st; ds_T := ds_T st |} in
  let st2 := dist_set_inputs ins st1 in (st2, dist_load (ds_P st2) A (ds_X st2) (ds_b st2) (ds_T st2)).
(** vectorJacobianProduct wrt "mesh_coords" electromag_outputs.cpp:604-620, 1521-1537 *)
Definition dist_mesh_vjp (A B : list elem) (st : dist_state) (psi : vec) (wrt_bar : mat) : mat :=
  let vol_bar := dist_scalar (ds_P st) "winding_volume" A (ds_X st) (ds_b st) (ds_T st) psi in fun k J =>
  wrt_bar k J + dist_mesh (ds_P st) A (ds_X st) (ds_b st) (ds_T st) psi k J + vol_bar * volume_mesh B (ds_X st) k J.
End Distribution.

(** EMHeatSourceOutput electromag_outputs.cpp:1745-1796 with the mesh and field products of its three parts.  The three
    parts have their own elements (attributes) and rules *)
Definition heat_load (S : scoef) (rho : elem -> R) (kh ke : tcoef) (BF TF : ffield) (P : params) (Adc Aac Acore Bdc Bac : list elem) (X : mat) (b T : vec) : vec := fun i =>
  dist_load BF TF (dc_density S) (upd P "winding_volume" (volume_of Bdc X)) Adc X b T i +
  dist_load BF TF (ac_density S) (upd P "winding_volume" (volume_of Bac X)) Aac X b T i +
  dist_load BF TF (core_density rho kh ke) P Acore X b T i.

(** * CoreLossFunctional electromag_outputs.cpp:1582-1633: CAL2CoreLossIntegrator electromag_integ.cpp:11603-11691, frequency
    :11693-11799, peak flux :11801-11925, temperature :11927-12074, mesh :12076-12240 *)
Section Core.
Variables (rho : elem -> R) (kh ke : tcoef) (BF TF : ffield).
Definition core_loss (f : R) (e : elem) (b t : R) : R := rho e * (t_val kh e t f b * f * b ^ 2 + t_val ke e t f b * f ^ 2 * b ^ 2).
Definition core_value (f : R) (M : list elem) (X : mat) (b T : vec) : R :=
  quad_total (fun e q Y => core_loss f e (fvalue BF e q b) (fvalue TF e q T) * (e_pw e q * e_W e q Y)) M X.
Definition core_freq (f : R) (M : list elem) (X : mat) (b T : vec) : R :=
  quad_total (fun e q Y => let bm := fvalue BF e q b in let t := fvalue TF e q T in
    let h_dot := t_d2 kh e t f bm * f * bm ^ 2 + t_val kh e t f bm * bm ^ 2 in
    let e_dot := t_d2 ke e t f bm * f ^ 2 * bm ^ 2 + 2 * t_val ke e t f bm * f * bm ^ 2 in rho e * (h_dot + e_dot) * (e_pw e q * e_W e q Y)) M X.
Definition core_flux (f : R) (M : list elem) (X : mat) (b T : vec) : vec :=
  dof_assembled BF (fun e q => let bm := fvalue BF e q b in let t := fvalue TF e q T in
    let loss_bar := 1 * (e_pw e q * e_W e q (nodes_of e X)) in
    let kh_bar := loss_bar * rho e * f * bm ^ 2 in let ke_bar := loss_bar * rho e * f ^ 2 * bm ^ 2 in
    loss_bar * rho e * (2 * t_val kh e t f bm * f * bm + 2 * t_val ke e t f bm * f ^ 2 * bm) + ke_bar * t_d3 ke e t f bm + kh_bar * t_d3 kh e t f bm) M.
Definition core_temp (f : R) (M : list elem) (X : mat) (b T : vec) : vec :=
  dof_assembled TF (fun e q => let bm := fvalue BF e q b in let t := fvalue TF e q T in
    let loss_bar := 1 * (e_pw e q * e_W e q (nodes_of e X)) in
    let kh_bar := loss_bar * rho e * f * bm ^ 2 in let ke_bar := loss_bar * rho e * f ^ 2 * bm ^ 2 in
    ke_bar * t_d1 ke e t f bm + kh_bar * t_d1 kh e t f bm) M.
Definition core_mesh (f : R) (M : list elem) (X : mat) (b T : vec) : mat :=
  node_assembled (fun e q k j => e_WRev e q (nodes_of e X) (1 * core_loss f e (fvalue BF e q b) (fvalue TF e q T) * e_pw e q) k j) M.
End Core.

(** * PMDemagIntegrator::GetElementEnergy electromag_integ.cpp:12960-13085: fun *= -1 stands inside the loop over the
    points (:13078-13082).  c e q: PMDemagConstraint.Eval at the point *)
Fixpoint demag_loop (n : nat) (cw : nat -> R) (acc : R) (q : nat) : R :=
  match n with O => acc | S m => demag_loop m cw ((acc + cw q) * -1) (S q) end.
Definition demag_energy (c : elem -> nat -> R) (e : elem) (X : mat) : R := demag_loop (e_nq e) (fun q => c e q * (e_pw e q * e_W e q X)) 0 0.
Definition demag_value (c : elem -> nat -> R) (M : list elem) (X : mat) : R := lsum (fun e => demag_energy c e (nodes_of e X)) M.
