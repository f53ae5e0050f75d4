(** Core losses by the Steinmetz equation: SteinmetzLossIntegrator, its frequency, peak flux and mesh sensitivities and the
    heat source SteinmetzLossDistributionIntegrator, src/physics/electromagnetics/electromag_integ.{hpp,cpp}, in a
    FunctionalOutput src/common/functional_output.{hpp,cpp}.

    Simplifications: those of Loss (arithmetic over R, one process, the assembled sensitivities are sums over elements and
    points).  The shipped outputs have the integrator only in comments (electromag_outputs.cpp:1665-1692); a user adds it with
    addOutputDomainIntegrator.  pow and log are those of R: pow(0, a) is 1 for a = 0 and 0 otherwise (in C++ infinite for
    negative a), log of 0 is not modelled; the theorems about sensitivities assume a positive frequency and flux. *)
From Coq Require Import Reals String List Bool Arith.
From Verif Require Import Vec EmInteg SbpSpec CommonFun Loss Outputs.
Import ListNotations.
Local Open Scope R_scope.
Local Open Scope string_scope.

(** pow(x, a) for x >= 0 *)
Definition cpow (x a : R) : R := if Rlt_dec 0 x then Rpower x a else if Req_EM_T a 0 then 1 else 0.
(** mfem::Coefficient: Eval and EvalRevDiff at point q of an element with given nodes *)
Record pcoef := { p_val : elem -> nat -> mat -> R; p_rev : elem -> nat -> mat -> R -> mat }.

(** SteinmetzLossIntegrator electromag_integ.hpp:3217-3274 with the elements its attributes select *)
Record steinmetz := {
  st_rho : pcoef; st_ks : pcoef; st_alpha : pcoef; st_beta : pcoef; st_name : string; st_elems : list elem;
  st_freq : R; st_flux : R }.
(** the constructor leaves both scalars 1 :3258-3261 *)
Definition new_steinmetz (rho ks alpha beta : pcoef) (name : string) (M : list elem) : steinmetz :=
  {| st_rho := rho; st_ks := ks; st_alpha := alpha; st_beta := beta; st_name := name; st_elems := M; st_freq := 1; st_flux := 1 |}.
(** the scalars among the MISOInputs; setValueFromInputs leaves the value alone if the name is absent, utils / miso_input *)
Definition scalars := string -> option R.
Definition value_from (I : scalars) (k : string) (old : R) : R := match I k with Some x => x | None => old end.
(** setInputs electromag_integ.cpp:11238-11252; the same for the distribution :11534-11551 *)
Definition flux_key (name : string) : string := if String.eqb name "" then "max_flux_magnitude" else append "max_flux_magnitude:" name.
Definition st_set (I : scalars) (s : steinmetz) : steinmetz :=
  {| st_rho := st_rho s; st_ks := st_ks s; st_alpha := st_alpha s; st_beta := st_beta s; st_name := st_name s; st_elems := st_elems s;
     st_freq := value_from I "frequency" (st_freq s); st_flux := value_from I (flux_key (st_name s)) (st_flux s) |}.
(** GetElementEnergy :11254-11296 over the elements *)
Definition st_energy (s : steinmetz) (X : mat) : R :=
  quad_total (fun e q Y => p_val (st_rho s) e q Y * p_val (st_ks s) e q Y * cpow (st_freq s) (p_val (st_alpha s) e q Y) *
    cpow (st_flux s) (p_val (st_beta s) e q Y) * (e_pw e q * e_W e q Y)) (st_elems s) X.
(** SteinmetzLossIntegratorFreqSens::GetElementEnergy :11298-11349 *)
Definition st_freq_sens (s : steinmetz) (X : mat) : R :=
  quad_total (fun e q Y => let alpha := p_val (st_alpha s) e q Y in
    p_val (st_rho s) e q Y * p_val (st_ks s) e q Y * alpha * cpow (st_freq s) (alpha - 1) *
    cpow (st_flux s) (p_val (st_beta s) e q Y) * (e_pw e q * e_W e q Y)) (st_elems s) X.
(** SteinmetzLossIntegratorMaxFluxSens::GetElementEnergy :11351-11402 *)
Definition st_flux_sens (s : steinmetz) (X : mat) : R :=
  quad_total (fun e q Y => let beta := p_val (st_beta s) e q Y in
    p_val (st_rho s) e q Y * p_val (st_ks s) e q Y * cpow (st_freq s) (p_val (st_alpha s) e q Y) * beta *
    cpow (st_flux s) (beta - 1) * (e_pw e q * e_W e q Y)) (st_elems s) X.
(** SteinmetzLossIntegratorMeshSens::AssembleRHSElementVect :11404-11509: PointMat_bar collects the four coefficients' and the
    Jacobian determinant's reverse products *)
Definition st_mesh_sens (s : steinmetz) (X : mat) : mat :=
  node_assembled (fun e q k j => let Y := nodes_of e X in let w := e_pw e q * e_W e q Y in
    let rho := p_val (st_rho s) e q Y in let ks := p_val (st_ks s) e q Y in
    let alpha := p_val (st_alpha s) e q Y in let beta := p_val (st_beta s) e q Y in
    let fa := cpow (st_freq s) alpha in let bb := cpow (st_flux s) beta in
    let rho_bar := 1 * ks * fa * bb * w in
    let ks_bar := 1 * rho * fa * bb * w in
    let alpha_bar := 1 * rho * ks * fa * ln (st_freq s) * bb * w in
    let beta_bar := 1 * rho * ks * fa * bb * ln (st_flux s) * w in
    let w_bar := 1 * rho * ks * fa * bb in
    p_rev (st_beta s) e q Y beta_bar k j + p_rev (st_alpha s) e q Y alpha_bar k j + p_rev (st_ks s) e q Y ks_bar k j +
    p_rev (st_rho s) e q Y rho_bar k j + e_WRev e q Y (w_bar * e_pw e q) k j) (st_elems s).

(** * A FunctionalOutput made of such integrators.  addDomainSensitivityIntegrator electromag_integ.hpp:3329-3376 puts the
      scalar sensitivities of every integrator under the names "frequency" and "max_flux_magnitude", whatever its name *)
Definition st_output (l : list steinmetz) (X : mat) : R := lsum (fun s => st_energy s X) l.
Definition st_scalar (l : list steinmetz) (X : mat) (key : string) : option R :=
  if String.eqb key "frequency" then Some (lsum (fun s => st_freq_sens s X) l)
  else if String.eqb key "max_flux_magnitude" then Some (lsum (fun s => st_flux_sens s X) l)
  else None.
(** vectorJacobianProduct functional_output.cpp:131-146: the key is the part of the name before the first colon; None is the
    std::out_of_range of map::at *)
Definition st_vjp (l : list steinmetz) (X : mat) (out_bar : R) (wrt : string) : option R :=
  match st_scalar l X (before_colon wrt) with Some sens => Some (sens * out_bar) | None => None end.
(** vectorJacobianProduct :148-167 with respect to the mesh *)
Definition st_mesh_vjp (l : list steinmetz) (X : mat) (out_bar : R) (wrt_bar : mat) : mat := fun k J =>
  wrt_bar k J + out_bar * lsum (fun s => st_mesh_sens s X k J) l.

(** * SteinmetzLossDistributionIntegrator::AssembleRHSElementVect electromag_integ.cpp:11553-11596 on the temperature space TF *)
Definition st_load (TF : ffield) (s : steinmetz) (X : mat) : vec :=
  dof_assembled TF (fun e q => let Y := nodes_of e X in let w := e_pw e q * e_W e q Y in
    let loss := p_val (st_rho s) e q Y * p_val (st_ks s) e q Y * cpow (st_freq s) (p_val (st_alpha s) e q Y) *
      cpow (st_flux s) (p_val (st_beta s) e q Y) in loss * w) (st_elems s).
