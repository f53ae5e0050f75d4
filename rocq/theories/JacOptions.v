(** The matrix Newton's method solves with, for a set of thermal or two-dimensional magnetostatic options:
    mfem::NonlinearForm::GetGradient over the terms of ThermalOptions.v (domain, interior face, boundary face and internal
    boundary face integrators, with the markers of miso_nonlinearform.hpp:206-339), called by getJacobian of
    src/physics/miso_nonlinearform.cpp:104-137 through thermal_residual.cpp:59-64 and magnetostatic_residual.cpp:128-133.
    The element and face matrices are those of EmInteg.v (electromag_integ.cpp:172-270), DgFace.v (:543-653, :1051-1291) and
    Thermal.v (thermal_integ.cpp:412-534, 887-1010, 1428-1470, 1772-1782).

    Simplifications: dense matrices, one rank; essential dofs are those of Form.v (elim_left). *)
From Coq Require Import Reals List Bool Arith ZArith.
From Verif Require Import Vec Inputs Options EmInteg Thermal DgFace ThermalOptions.
From Verif Require Form.
Import ListNotations.
Local Open Scope R_scope.

(** AddSubMatrix *)
Definition scatterM (n : nat) (glob : nat -> nat) (A : mat) : mat := fun r c =>
  rsum n (fun i => if Nat.eqb (glob i) r then rsum n (fun j => if Nat.eqb (glob j) c then A i j else 0) else 0).
Definition elemMatrix (t : term) (e : telem) (u : vec) : mat :=
  match t with
  | Diffusion => nld_grad (el_n e) (el_dim e) (el_nq e) (el_pw e) (el_W e) (el_C e) (el_nu e) (el_dnu e) 1 (gather (el_glob e) u)
  | _ => fun _ _ => 0
  end.
Definition faceMatrix (t : term) (f : tface) (u : vec) : mat :=
  let x := gather (tf_glob f) u in
  match t with
  | Diffusion => fun _ _ => 0
  | Sipg mu alpha => int_grad (tf_dg f) (tf_s1 f) (tf_s2 f) mu alpha (tf_XF f) (tf_X1 f) (tf_X2 f) x
  | Weak mu => bdr_grad (tf_dg f) (tf_s1 f) (tf_g f) mu 1 (tf_XF f) (tf_X1 f) x
  | Exchange g => face_grad (tf_th f) (tf_XT f) g x
  end.
Definition onFacesM (keep : tface -> bool) (l : list tface) (t : term) (u : vec) : mat := fun r c =>
  lsum (fun f => if keep f then scatterM (faceSize t f) (tf_glob f) (faceMatrix t f u) r c else 0) l.
Definition termMatrix (M : tmesh) (pt : place * term) (u : vec) : mat :=
  match fst pt with
  | OnDomain => fun r c => lsum (fun e => scatterM (el_n e) (el_glob e) (elemMatrix (snd pt) e u) r c) (elems M)
  | OnInterior => onFacesM (fun _ => true) (inner M) (snd pt) u
  | OnBoundary m => onFacesM (visited m) (outer M) (snd pt) u
  | OnInternal m => onFacesM (visited m) (inner M) (snd pt) u
  end.
Definition formMatrix (M : tmesh) (c : config) (u : vec) : mat := fun a b => lsum (fun pt => termMatrix M pt u a b) c.
(** getJacobian of a residual whose essential dofs are ess: EliminateRowsCols *)
Definition jacobian (M : tmesh) (c : config) (ess : list nat) (u : vec) : mat := Form.elim_left ess (formMatrix M c u).
(** evaluate: the form with the essential rows zeroed, less the load, zeroed there too (thermal_residual.cpp:21-31, 38-49;
    miso_linearform.cpp:41-63) *)
Definition residualVector (M : tmesh) (c : config) (ess : list nat) (load u : vec) : vec := fun d =>
  Form.zero_at ess (formVector M c u) d - Form.zero_at ess load d.
