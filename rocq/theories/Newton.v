(** Model of InexactNewton (src/common/inexact_newton.{hpp,cpp}) and of the merit function / scaling
    factor of RelaxedNewton (src/common/linesearch.cpp:110-136, src/common/relaxed_newton.cpp).
    Arithmetic is exact (reals).  The residual operator, its gradient and the linear solver are
    arbitrary functions ("oracles"). *)
From Coq Require Import Reals ZArith Bool List.
From Verif Require Import Num Vec LineSearch.
Local Open Scope R_scope.

Section InexactNewton.
Context (n : nat).                      (* Height() *)
Context (F : vec -> vec).               (* x |-> oper->Mult(x) - b   (b subtracted iff sizes match) *)
Context (J : vec -> vec -> vec).        (* oper->GetGradient(x) as a linear map *)
Context (solve : vec -> vec -> vec).    (* prec->SetOperator(jac(x)); prec->Mult(r,c): x r |-> c *)

(** members, inexact_newton.hpp:24-27, 50-56; rel_tol, abs_tol, max_iter from mfem::IterativeSolver *)
Record inopts := { eta_max : R; tt : R; rel_tol : R; abs_tol : R; inmax_iter : nat }.
Definition theta_min : R := 1/10.
Definition theta_max : R := 1/2.

Inductive step_result := Step (s eta : R) | Aborted.   (* Aborted: mfem_error terminates the program *)

(** globalization loop, inexact_newton.cpp:41-67; [rem] = max_iter - itt.
    x ? y : z ternaries as written in the source. *)
Fixpoint cs_loop (o : inopts) (x c : vec) (p0 p0p nrm : R) (rem : nat) (theta s eta err_new : R) : step_result :=
  if Rltb ((1 - tt o * (1 - theta)) * nrm) err_new then
    let p1 := 1/2 * err_new * err_new in
    let theta := quadInterp Rnum 0 p0 p0p 1 p1 in
    let theta := if Rltb theta_min theta then theta else theta_min in
    let theta := if Rltb theta theta_max then theta else theta_max in
    let s := s * theta in
    let eta := 1 - theta * (1 - eta) in
    let eta := if Rltb eta (eta_max o) then eta else eta_max o in
    let err_new := norm n (F (axpy x (- s) c)) in
    match rem with
    | O => Aborted
    | S rem' => cs_loop o x c p0 p0p nrm rem' theta s eta err_new
    end
  else Step s eta.

(** slope used by the quadratic model, inexact_newton.cpp:25-27 *)
Definition slope (x r c : vec) : R := - dot n c (J x r).

(** [ComputeStepSize], inexact_newton.cpp:11-74 *)
Definition ComputeStepSize (o : inopts) (x r c : vec) (nrm eta : R) : step_result :=
  cs_loop o x c (1/2 * nrm * nrm) (slope x r c) nrm (inmax_iter o) 0 1 eta (norm n (F (axpy x (- (1)) c))).

Record inresult := { rx : vec; converged : bool; final_iter : nat; final_norm : R; reta : R }.

(** main loop, inexact_newton.cpp:113-169; [rem] = max_iter - it.  [None] = program aborted. *)
Fixpoint in_loop (o : inopts) (goal : R) (rem it : nat) (x : vec) (eta : R) : option inresult :=
  let r := F x in
  let nrm := norm n r in
  if Rleb nrm goal then Some {| rx := x; converged := true; final_iter := it; final_norm := nrm; reta := eta |}
  else match rem with
  | O => Some {| rx := x; converged := false; final_iter := it; final_norm := nrm; reta := eta |}
  | S rem' =>
    let c := solve x r in
    match ComputeStepSize o x r c nrm eta with
    | Aborted => None
    | Step s eta' =>
      if Reqb s 0 then Some {| rx := x; converged := false; final_iter := it; final_norm := nrm; reta := eta' |}
      else in_loop o goal rem' (S it) (axpy x (- s) c) eta'
    end
  end.

(** [InexactNewton::Mult], inexact_newton.cpp:87-172; x0 is the initial guess, or 0 when
    iterative_mode is false *)
Definition in_mult (o : inopts) (iterative_mode : bool) (x0 : vec) (eta : R) : option inresult :=
  let x := if iterative_mode then x0 else (fun _ => 0) in
  let nrm := norm n (F x) in
  in_loop o (Rmax (rel_tol o * nrm) (abs_tol o)) (inmax_iter o) 0 x eta.
End InexactNewton.

Section Phi.
Context (n : nat).
(** [Phi::operator()], src/common/linesearch.cpp:128-135: residual norm at state - alpha*dir *)
Definition Phi_eval (calcRes : vec -> vec) (state dir : vec) (alpha : R) : R :=
  norm n (calcRes (axpy state (- alpha) dir)).
(** Phi::phi0 and Phi::dphi0, src/common/linesearch.cpp:119-126: [residual] is the residual vector held
    by the Newton solver when Phi is constructed *)
Definition Phi_phi0 (residual : vec) : R := norm n residual.
Definition Phi_dphi0 (jac : vec -> vec) (residual dir : vec) : R :=
  - dot n (jac dir) residual / Phi_phi0 residual.
(** [RelaxedNewton::ComputeScalingFactor], src/common/relaxed_newton.cpp: ls->search(phi, phi0, dphi0, 1.0) *)
Definition ComputeScalingFactor (o : ls_opts Rnum) (calcRes : vec -> vec) (jac : vec -> vec) (x r c : vec) : R :=
  fst (ls_search Rnum o (Phi_eval calcRes x c) (Phi_phi0 r) (Phi_dphi0 jac r c) 1).
End Phi.
