(** Element integrators of the magnetostatic residual and of the magnetic energy,
    src/physics/electromagnetics/electromag_integ.cpp.

    One element.  Quadrature points are numbered q < nq; their reference data (weights, reference shape functions) do not
    depend on the mesh.  Loops that add into a vector that starts at 0 are finite sums.  Arithmetic is exact; where the C++
    divides by a norm that is 0 the result is NaN, here None.  A coefficient evaluated at a point is a function of one
    number, pnu q, and its EvalStateDeriv is pdnu q.  Transformations of the dofs (InvTransformPrimal) are the identity.
    Weight, Jacobian, AdjugateJacobian and their RevDiff counterparts belong to the project's MFEM fork, which is not part
    of /repo: they are parameters here, and EmIntegSpec says what is assumed of them. *)
From Coq Require Import Reals.
From Verif Require Import Vec.
Local Open Scope R_scope.

Definition mat := nat -> nat -> R.
(** a flux is dropped when its norm is not above this, e.g. electromag_integ.cpp:254, 3353 *)
Definition tiny : R := / 10 ^ 14.

Section Element.
Variables (ndof sdim nq : nat).
(** quadrature weight, transformation weight, shape matrix (dshapedxt or curlshape_dFt), model and its derivative *)
Variables (pw pW : nat -> R) (C : nat -> mat) (pnu pdnu : nat -> R -> R).
Variable alpha : R.

(** dshapedxt.MultTranspose(elfun, pointflux) *)
Definition flux (q : nat) (u : vec) : vec := fun k => rsum ndof (fun i => C q i k * u i).
(** pointflux_norm, pointflux_mag :150-151 *)
Definition fmag (q : nat) (u : vec) : R := norm sdim (flux q u) / pW q.
(** double w = alpha * ip.weight / trans_weight :143, 3239-3240 *)
Definition wq (q : nat) : R := alpha * pw q / pW q.

(** NonlinearDiffusionIntegrator::AssembleElementVector :92-170, the loop :136-162; CurlCurlNLFIntegrator's :3230-3267 is
    the same with curlshape_dFt for dshapedxt *)
Definition elem_vector (u : vec) : vec := fun i =>
  rsum nq (fun q => rsum sdim (fun k => C q i k * (wq q * pnu q (fmag q u) * flux q u k))).

(** NonlinearDiffusionIntegrator::AssembleElementGrad, the body of the loop :222-270 *)
Definition nld_norm_dot (q : nat) (u : vec) : vec := fun j =>
  rsum sdim (fun k => C q j k * (1 / norm sdim (flux q u) * flux q u k)) / pW q * pdnu q (fmag q u).
Definition nld_2_dot (q : nat) (u : vec) : mat := fun j k =>
  (C q j k * pnu q (fmag q u) +
   (if Rlt_dec tiny (Rabs (norm sdim (flux q u))) then nld_norm_dot q u j * flux q u k else 0)) * wq q.
Definition nld_grad (u : vec) : mat := fun i j =>
  rsum nq (fun q => rsum sdim (fun k => C q i k * nld_2_dot q u j k)).

(** CurlCurlNLFIntegrator::AssembleElementGrad, :3313-3389: b_vec is divided by the weight first *)
Definition bvec (q : nat) (u : vec) : vec := fun k => flux q u k / pW q.
Definition bmag (q : nat) (u : vec) : R := norm sdim (bvec q u).
Definition cc_scratch (q : nat) (u : vec) : vec := fun i => rsum sdim (fun k => C q i k * bvec q u k).
Definition cc_grad (u : vec) : mat := fun i j =>
  rsum nq (fun q =>
    pnu q (bmag q u) * wq q * rsum sdim (fun k => C q i k * C q j k) +
    (if Rlt_dec tiny (Rabs (bmag q u))
     then pdnu q (bmag q u) * wq q / bmag q u * (cc_scratch q u i * cc_scratch q u j) else 0)).
(** CurlCurlNLFIntegratorStateFwdSens and ...StateRevSens, :3420-3446, :3392-3418 *)
Definition cc_fwd (u u_dot : vec) : vec := mv ndof (cc_grad u) u_dot.
Definition cc_rev (u psi : vec) : vec := mvT ndof (cc_grad u) psi.

(** MagnetizationIntegrator::AssembleElementVector :3623-3700 and AssembleElementGrad :3702-3804 (elmat = 0); nu is
    evaluated at b_vec.Norml2(), without the weight (:3691) *)
Definition mag_vector (M : nat -> vec) (u : vec) : vec := fun i =>
  rsum nq (fun q => rsum sdim (fun k => C q i k * (pnu q (norm sdim (flux q u)) * (alpha * pw q / pW q) * M q k))).
Definition mag_grad (u : vec) : mat := fun _ _ => 0.
End Element.

(** calcMagneticEnergy :13-32, calcMagneticEnergyDot :34-61, calcMagneticEnergyDoubleDot :63-90; sx, sw: the points and
    weights of the segment rule, ns of them; d2nu: EvalState2ndDeriv *)
Section Energy.
Variables (ns : nat) (sx sw : nat -> R).
Variables (nu dnu d2nu : R -> R).
Definition calcMagneticEnergy (B : R) : R :=
  rsum ns (fun j => sw j * (sx j * B) * nu (sx j * B)) * B.
Definition calcMagneticEnergyDot (B : R) : R :=
  rsum ns (fun j => sw j * (nu (sx j * B) + sx j * B * dnu (sx j * B)) * sx j) * B +
  rsum ns (fun j => sw j * (sx j * B) * nu (sx j * B)).
Definition calcMagneticEnergyDoubleDot (B : R) : R :=
  rsum ns (fun j => sw j * (2 * (sx j * nu (sx j * B) + sx j * B * dnu (sx j * B) * sx j + sx j * sx j * dnu (sx j * B) * B) +
                           sx j * B * d2nu (sx j * B) * sx j * sx j * B)).
End Energy.

Section EnergyElement.
Variables (ndof sdim nq : nat) (pw pW : nat -> R) (C : nat -> mat) (pnu pdnu : nat -> R -> R).
Variables (ns : nat) (sx sw : nat -> R).
Notation flx := (flux ndof C).
Notation mag := (fmag ndof sdim pW C).
(** MagneticEnergyIntegrator::GetElementEnergy :4319-4387 *)
Definition element_energy (u : vec) : R :=
  rsum nq (fun q => calcMagneticEnergy ns sx sw (pnu q) (mag q u) * (pw q * pW q)).
(** MagneticEnergyIntegrator::AssembleElementVector :4389-4489; None: a division 0/0 at some point (:4484) *)
Definition en_b_vec_bar (q : nat) (u : vec) : vec := fun k =>
  pw q * pW q * calcMagneticEnergyDot ns sx sw (pnu q) (pdnu q) (mag q u) / pW q / norm sdim (flx q u) * flx q u k.
Definition element_energy_grad (u : vec) : vec := fun i =>
  rsum nq (fun q => rsum sdim (fun k => C q i k * en_b_vec_bar q u k)).
Fixpoint all_fluxes_nonzero (n : nat) (u : vec) : bool :=
  match n with
  | O => true
  | S m => if Req_EM_T (norm sdim (flx m u)) 0 then false else all_fluxes_nonzero m u
  end.
Definition element_energy_vector (u : vec) : option vec :=
  if all_fluxes_nonzero nq u then Some (element_energy_grad u) else None.
End EnergyElement.

(** * Mesh sensitivities.  X k j is coordinate k of node j of the element (nn nodes). *)
Section Mesh.
Variables (ndof sdim nn nq : nat).
Variable pw : nat -> R.
Variables (pnu pdnu : nat -> R -> R) (alpha : R).
(** reference shape functions: CalcDShape or CalcCurlShape *)
Variable shape : nat -> mat.
(** of the transformation at point q: Weight, AdjugateJacobian, Jacobian as functions of the nodes, and WeightRevDiff,
    AdjugateJacobianRevDiff, JacobianRevDiff: what they add to PointMat_bar *)
Variable Wt : nat -> mat -> R.
Variable Adj Jac : nat -> mat -> mat.
Variable WtRev : nat -> mat -> R -> mat.
Variable AdjRev JacRev : nat -> mat -> mat -> mat.

(** Mult(dshape, trans.AdjugateJacobian(), dshapedxt) :146; MultABt(curlshape, trans.Jacobian(), curlshape_dFt) :3246 *)
Definition dshapedxt (X : mat) (q : nat) : mat := fun i k => rsum sdim (fun a => shape q i a * Adj q X a k).
Definition curlshape_dFt (X : mat) (q : nat) : mat := fun i k => rsum sdim (fun a => shape q i a * Jac q X k a).

Section Reverse.
Variables (X : mat) (u psi : vec).

(** the reverse pass shared by both integrators, up to the factor of the weight: NonlinearDiffusionIntegratorMeshRevSens
    :367-423, CurlCurlNLFIntegratorMeshRevSens :3531-3594.  S is the physical shape matrix, al the scale in w *)
Section Pass.
Variables (S : nat -> mat) (al : R) (q : nat).
Let W := Wt q X.
Definition r_b : vec := flux ndof S q u.
Definition r_p : vec := flux ndof S q psi.
Definition r_pb : R := dot sdim r_p r_b.
Definition r_w : R := al * pw q / W.
Definition r_norm : R := norm sdim r_b.
Definition r_mag : R := r_norm / W.
Definition r_mag_bar : R := 1 * r_pb * r_w * pdnu q r_mag.
Definition r_w_bar : R := 1 * pnu q r_mag * r_pb.
Definition r_pb_bar : R := 1 * pnu q r_mag * r_w.
Definition r_norm_bar : R := r_mag_bar / W.
(** trans_weight_bar after both of its updates *)
Definition r_W_bar : R := - (r_mag_bar * r_norm / (W * W)) - r_w_bar * al * pw q / (W * W).
(** guarded by the norm in the diffusion integrator (:393-399), not in the other (:3570) *)
Definition r_b_bar (guard : bool) : vec := fun k =>
  (if guard then if Rlt_dec tiny (Rabs r_norm) then r_norm_bar / r_norm * r_b k else 0
   else r_norm_bar / r_norm * r_b k) + r_pb_bar * r_p k.
Definition r_p_bar : vec := fun k => r_pb_bar * r_b k.
(** dshapedxt_bar :406-410; curlshape_dFt_bar :3581-3585 is its transpose *)
Definition r_S_bar (guard : bool) : mat := fun i k => psi i * r_p_bar k + u i * r_b_bar guard k.
End Pass.

(** NonlinearDiffusionIntegratorMeshRevSens::AssembleRHSElementVect :273-448; entry (k, j) is mesh_coords_bar(k*ndof + j) *)
Definition nld_adj_bar (q : nat) : mat := fun a k => rsum ndof (fun i => shape q i a * r_S_bar (dshapedxt X) alpha q true i k).
Definition nld_mesh_bar : mat := fun k j =>
  rsum nq (fun q => AdjRev q X (nld_adj_bar q) k j + WtRev q X (r_W_bar (dshapedxt X) alpha q) k j).

(** CurlCurlNLFIntegratorMeshRevSens::AssembleRHSElementVect :3448-3621, three dimensions.  The weight is
    ip.weight / trans.Weight() (:3531): alpha does not appear.  jac_bar = curlshape_dFt_bar * curlshape (:3591) *)
Definition cc_jac_bar (q : nat) : mat := fun k a => rsum ndof (fun i => r_S_bar (curlshape_dFt X) 1 q false i k * shape q i a).
Definition cc_mesh_vector : mat := fun k j =>
  rsum nq (fun q => WtRev q X 1 k j * r_W_bar (curlshape_dFt X) 1 q + JacRev q X (cc_jac_bar q) k j).
Fixpoint fluxes_nonzero (S : nat -> mat) (n : nat) : bool :=
  match n with
  | O => true
  | Datatypes.S m => if Req_EM_T (norm sdim (flux ndof S m u)) 0 then false else fluxes_nonzero S m
  end.
Definition cc_mesh_bar : option mat := if fluxes_nonzero (curlshape_dFt X) nq then Some cc_mesh_vector else None.
End Reverse.

(** MagneticEnergyIntegratorMeshSens::AssembleRHSElementVect :4491-4668 *)
Section EnergyMesh.
Variables (ns : nat) (sx sw : nat -> R) (X : mat) (u : vec).
Section Pass.
Variables (S : nat -> mat) (q : nat).
Let W := Wt q X.
Definition e_norm : R := norm sdim (flux ndof S q u).
Definition e_mag : R := e_norm / W.
Definition e_mag_bar : R := pw q * W * calcMagneticEnergyDot ns sx sw (pnu q) (pdnu q) e_mag.
Definition e_w_bar : R := calcMagneticEnergy ns sx sw (pnu q) e_mag.
Definition e_W_bar : R := - (e_mag_bar * e_norm / (W * W)) + e_w_bar * pw q.
Definition e_b_bar : vec := fun k => e_mag_bar / W / e_norm * flux ndof S q u k.
End Pass.
(** dim = 2: through the adjugate; dim = 3: through the Jacobian *)
Definition en_mesh_vector (three : bool) : mat := fun k j =>
  rsum nq (fun q =>
    if three
    then JacRev q X (fun c a => rsum ndof (fun i => e_b_bar (curlshape_dFt X) q c * u i * shape q i a)) k j +
         WtRev q X (e_W_bar (curlshape_dFt X) q) k j
    else AdjRev q X (fun a c => rsum ndof (fun i => shape q i a * (u i * e_b_bar (dshapedxt X) q c))) k j +
         WtRev q X (e_W_bar (dshapedxt X) q) k j).
Definition en_mesh_bar (three : bool) : option mat :=
  if fluxes_nonzero u (if three then curlshape_dFt X else dshapedxt X) nq then Some (en_mesh_vector three) else None.
End EnergyMesh.
End Mesh.
