(** Functionals of the magnitude of the curl of the state: MagnitudeCurlStateIntegrator and the numerator and denominator of
    its induced-exponential aggregate, src/physics/mfem_common_integ.cpp:421-729, 1056-1733; the outputs built on them,
    src/physics/common_outputs.{hpp,cpp}: AverageMagnitudeCurlState, IECurlMagnitudeAggregateFunctional.

    The conventions are those of EmInteg and CommonFun: a quadrature point has a reference shape matrix (CalcDShape in two
    dimensions, CalcCurlShape in three), and Adjugate, Jacobian, Weight of the transformation as functions of the nodes with
    their RevDiff counterparts.  None: a division 0/0. *)
From Coq Require Import Reals List Bool.
From Verif Require Import Vec EmInteg SbpSpec CommonFun.
Import ListNotations.
Local Open Scope R_scope.

(** value at a point as a function of curl_vec_norm and trans_weight, and what the reverse passes compute from them:
    curl_vec_norm_bar and trans_weight_bar (after both updates) *)
Record pointfun := {
  pf_val : elem -> nat -> R -> R -> R;
  pf_norm_bar : elem -> nat -> R -> R -> R;
  pf_W_bar : elem -> nat -> R -> R -> R }.

(** MagnitudeCurlStateIntegrator: GetElementEnergy :421-484, AssembleElementVector :486-571, mesh sensitivity :573-729 *)
Definition curl_magnitude : pointfun := {|
  pf_val := fun e q n W => n / W * (e_pw e q * W);
  pf_norm_bar := fun e q n W => 1 * (e_pw e q * W) / W;
  pf_W_bar := fun e q n W => - (1 * (e_pw e q * W)) * n / W ^ 2 + 1 * (n / W) * e_pw e q |}.
(** IECurlMagnitudeAggregateIntegratorNumerator :1065-1132, :1134-1227, mesh :1229-1395 *)
Definition curl_numerator (rho amax : R) : pointfun := {|
  pf_val := fun e q n W => let mag := n / W in mag * exp (rho * (mag / amax)) * (e_pw e q * W);
  pf_norm_bar := fun e q n W =>
    let w := e_pw e q * W in let mag := n / W in let ex := exp (rho * (mag / amax)) in
    let mag_bar := 1 * ex * w + 1 * mag * w * rho / amax * ex in mag_bar / W;
  pf_W_bar := fun e q n W =>
    let w := e_pw e q * W in let mag := n / W in let ex := exp (rho * (mag / amax)) in
    let mag_bar := 1 * ex * w + 1 * mag * w * rho / amax * ex in
    - mag_bar * n / W ^ 2 + 1 * mag * ex * e_pw e q |}.
(** IECurlMagnitudeAggregateIntegratorDenominator :1406-1471, :1473-1566, mesh :1568-1732 *)
Definition curl_denominator (rho amax : R) : pointfun := {|
  pf_val := fun e q n W => let mag := n / W in exp (rho * (mag / amax)) * (e_pw e q * W);
  pf_norm_bar := fun e q n W =>
    let w := e_pw e q * W in let mag := n / W in let ex := exp (rho * (mag / amax)) in
    let mag_bar := 1 * w * rho / amax * ex in mag_bar / W;
  pf_W_bar := fun e q n W =>
    let w := e_pw e q * W in let mag := n / W in let ex := exp (rho * (mag / amax)) in
    let mag_bar := 1 * w * rho / amax * ex in
    - mag_bar * n / W ^ 2 + 1 * ex * e_pw e q |}.

Section Field.
Variables (sdim : nat) (shape : elem -> nat -> mat) (Adj Jac : elem -> nat -> mat -> mat) (AdjRev JacRev : elem -> nat -> mat -> mat -> mat).
(** space_dim == 3 *)
Variable three : bool.
(** curlshape_dFt, :471-480 *)
Definition ff_S (e : elem) (X : mat) : nat -> mat :=
  if three then curlshape_dFt sdim (shape e) (Jac e) X else dshapedxt sdim (shape e) (Adj e) X.
Definition ff_b (e : elem) (X : mat) (q : nat) (u : vec) : vec := flux (e_ndof e) (ff_S e X) q u.
Definition ff_norm (e : elem) (X : mat) (q : nat) (u : vec) : R := norm sdim (ff_b e X q u).
Section Fun.
Variable F : pointfun.
Definition ff_energy (e : elem) (X : mat) (u : vec) : R :=
  rsum (e_nq e) (fun q => pf_val F e q (ff_norm e X q u) (e_W e q X)).
(** curl_vec_bar :564-565 *)
Definition ff_b_bar (e : elem) (X : mat) (q : nat) (u : vec) : vec := fun k =>
  pf_norm_bar F e q (ff_norm e X q u) (e_W e q X) / ff_norm e X q u * ff_b e X q u k.
(** elfun_bar :568 *)
Definition ff_grad (e : elem) (X : mat) (u : vec) : vec := fun i =>
  rsum (e_nq e) (fun q => rsum sdim (fun k => ff_S e X q i k * ff_b_bar e X q u k)).
(** mesh_coords_bar :677-729: through the Jacobian when dim == 3, else through the adjugate *)
Definition ff_mesh (e : elem) (X : mat) (u : vec) : mat := fun k j =>
  rsum (e_nq e) (fun q =>
    (if three
     then JacRev e q X (fun c a => rsum (e_ndof e) (fun i => ff_b_bar e X q u c * u i * shape e q i a)) k j
     else AdjRev e q X (fun a c => rsum (e_ndof e) (fun i => shape e q i a * (u i * ff_b_bar e X q u c))) k j) +
    e_WRev e q X (pf_W_bar F e q (ff_norm e X q u) (e_W e q X)) k j).
End Fun.
Definition ff_defined (M : list elem) (X : mat) (u : vec) : bool :=
  forallb (fun e => fluxes_nonzero (e_ndof e) sdim (gather (e_ndof e) (e_dof e) u) (ff_S e (nodes_of e X)) (e_nq e)) M.
(** the assembled gradient and mesh sensitivity of one FunctionalOutput; None: NaN entries *)
Definition ff_gradient (F : pointfun) (M : list elem) (X : mat) (u : vec) : option vec :=
  if ff_defined M X u then Some (assembled (ff_grad F) M X u) else None.
Definition ff_mesh_gradient (F : pointfun) (M : list elem) (X : mat) (u : vec) : option mat :=
  if ff_defined M X u then Some (assembled_mesh (ff_mesh F) M X u) else None.

(** AverageMagnitudeCurlState: calcOutput common_outputs.hpp:236-243, products .cpp:91-123.  A: rule of
    MagnitudeCurlStateIntegrator, B: rule of VolumeIntegrator *)
Definition curl_average (A B : list elem) (X : mat) (u : vec) : R := total (ff_energy curl_magnitude) A X u / total (vol_energy NoRho) B X u.
Definition curl_average_state_vjp (A B : list elem) (X : mat) (u : vec) (out_bar : R) (wrt_bar : vec) : option vec :=
  let s := total (ff_energy curl_magnitude) A X u in let v := total (vol_energy NoRho) B X u in
  match ff_gradient curl_magnitude A X u with
  | Some g => Some (fun i => wrt_bar i + 1 / v * (0 + out_bar * g i) + - s / v ^ 2 * (0 + out_bar * assembled vol_grad B X u i))
  | None => None
  end.
Definition curl_average_mesh_vjp (A B : list elem) (X : mat) (u : vec) (out_bar : R) (wrt_bar : mat) : option mat :=
  let s := total (ff_energy curl_magnitude) A X u in let v := total (vol_energy NoRho) B X u in
  match ff_mesh_gradient curl_magnitude A X u with
  | Some g => Some (fun k J => wrt_bar k J + 1 / v * (0 + out_bar * g k J) + - s / v ^ 2 * (0 + out_bar * assembled_mesh (vol_mesh NoRho) B X u k J))
  | None => None
  end.
(** IECurlMagnitudeAggregateFunctional: calcOutput common_outputs.hpp:350-356; the constructor .cpp:262-290 builds both
    integrators with the default actual_max = 1 (mfem_common_integ.hpp:558-562, 655-659); products .cpp:228-260 *)
Definition curl_agg (M : list elem) (X : mat) (u : vec) (rho : R) : R :=
  total (ff_energy (curl_numerator rho 1)) M X u / total (ff_energy (curl_denominator rho 1)) M X u.
Definition curl_agg_state_vjp (M : list elem) (X : mat) (u : vec) (rho out_bar : R) (wrt_bar : vec) : option vec :=
  let a := total (ff_energy (curl_numerator rho 1)) M X u in let b := total (ff_energy (curl_denominator rho 1)) M X u in
  match ff_gradient (curl_numerator rho 1) M X u, ff_gradient (curl_denominator rho 1) M X u with
  | Some g, Some h => Some (fun i => wrt_bar i + 1 / b * (0 + out_bar * g i) + - a / b ^ 2 * (0 + out_bar * h i))
  | _, _ => None
  end.
Definition curl_agg_mesh_vjp (M : list elem) (X : mat) (u : vec) (rho out_bar : R) (wrt_bar : mat) : option mat :=
  let a := total (ff_energy (curl_numerator rho 1)) M X u in let b := total (ff_energy (curl_denominator rho 1)) M X u in
  match ff_mesh_gradient (curl_numerator rho 1) M X u, ff_mesh_gradient (curl_denominator rho 1) M X u with
  | Some g, Some h => Some (fun k J => wrt_bar k J + 1 / b * (0 + out_bar * g k J) + - a / b ^ 2 * (0 + out_bar * h k J))
  | _, _ => None
  end.
End Field.
