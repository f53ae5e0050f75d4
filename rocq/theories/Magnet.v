(** Magnets: MagnetizationCoefficient (src/physics/electromagnetics/magnetic_source_functions.cpp:478-705), the product
    with the reluctivity formed by the 2-D residual (magnetostatic_residual.cpp:366-383) and the 3-D load
    (magnetic_load.cpp:11-35), and MagnetizationSource2DIntegrator with its sensitivities
    (electromag_integ.cpp:2739-3190).  Real arithmetic. *)
From Coq Require Import Reals String List Bool ZArith.
From Verif Require Import Vec Coef CoefMix EmCoef Current Direction EmInteg.
Import ListNotations.
Local Open Scope R_scope.

(** an entry of mag_coeff: the remnant flux coefficient of the material and the name of the direction function *)
Definition magnet_entry := (remnant * string)%type.
Definition magnet_table := list (Z * magnet_entry).

(** the constructor's chain of else-ifs, :539-701: an unknown source falls through *)
Definition known_source (s : string) : bool :=
  match magnetization 3 s (fun _ => 0) with Some _ => true | None => false end.
(** the loop over attrs, e.g. :541-561; addCoefficient aborts on a second use of an attribute (coefficient.cpp:1845-1854) *)
Fixpoint magnet_attrs (e : magnet_entry) (attrs : list Z) (t : magnet_table) : ret magnet_table :=
  match attrs with
  | [] => Ret t
  | a :: r => match addCoefficient t a e with None => Aborts | Some t' => magnet_attrs e r t' end
  end.
Fixpoint magnet_sources (rem : remnant) (l : list (string * list Z)) (t : magnet_table) : ret magnet_table :=
  match l with
  | [] => Ret t
  | (s, attrs) :: r =>
      rbind (if known_source s then magnet_attrs (rem, s) attrs t else Ret t) (magnet_sources rem r)
  end.
(** :519-537: materials[material] on a const json without that key is undefined behaviour *)
Definition magnet_remnant (materials : list (string * jobj)) (m : string) : ret remnant :=
  match sfind m materials with
  | None => UB
  | Some o => match remnant_build o with Built r => Ret r | Threw => Throws | MfemError => Aborts | Undefined => UB end
  end.
Fixpoint magnet_groups (materials : list (string * jobj)) (o : options) (t : magnet_table) : ret magnet_table :=
  match o with
  | [] => Ret t
  | (m, l) :: r => rbind (magnet_remnant materials m) (fun rem => rbind (magnet_sources rem l t) (magnet_groups materials r))
  end.
Definition magnets (materials : list (string * jobj)) (o : options) : ret magnet_table := magnet_groups materials o [].

(** MagnetizationCoefficient::Eval/4 and EvalStateDeriv, :489-505, through the product coefficient
    (coefficient.cpp:2013-2083) and RemnantFluxCoefficient (remnant_flux_coefficient.cpp:213-259): zero on attributes
    without an entry; the z direction stops the program when vdim < 3 *)
Definition mag_apply (vdim : nat) (t : magnet_table) (attr : Z) (x : vec) (f : remnant -> R) : ret vec :=
  match mfind attr t with
  | None => Ret (fun _ => 0)
  | Some (rem, s) =>
      match magnetization vdim s x with
      | Some r => rbind r (fun d => Ret (fun k => d k * f rem))
      | None => Ret (fun _ => 0)
      end
  end.
Definition mag_eval (vdim : nat) (t : magnet_table) (attr : Z) (x : vec) (T : R) : ret vec :=
  mag_apply vdim t attr x (fun rem => r_eval rem T).
Definition mag_deriv (vdim : nat) (t : magnet_table) (attr : Z) (x : vec) (T : R) : ret vec :=
  mag_apply vdim t attr x (fun rem => r_d rem T).
(** MagnetizationCoefficient::Eval/3, :480-487: without a state the remnant flux is evaluated by StateCoefficient::Eval/2
    (coefficient.hpp:28-33), that is at state 0 *)
Definition mag_eval_nostate (vdim : nat) (t : magnet_table) (attr : Z) (x : vec) : ret vec := mag_eval vdim t attr x 0.

(** the 2-D residual's nuM = miso::ScalarVectorProductCoefficient(nu, mag_coeff), evaluated by the integrator with the
    temperature as its one state (coefficient.cpp:2013-2083); nu is the reluctivity of the element *)
Definition nuM_eval (nu : R -> R) (t : magnet_table) (attr : Z) (x : vec) (T : R) : ret vec :=
  rbind (mag_eval 2 t attr x T) (fun m => Ret (fun k => m k * nu T)).
Definition nuM_deriv (nu dnu : R -> R) (t : magnet_table) (attr : Z) (x : vec) (T : R) : ret vec :=
  rbind (mag_eval 2 t attr x T) (fun m => rbind (mag_deriv 2 t attr x T) (fun m' =>
    Ret (fun k => 0 + m k * dnu T + m' k * nu T))).
(** the 3-D load's nuM = mfem::ScalarVectorProductCoefficient(nu, mag_coeff): both factors without a state *)
Definition nuM3_eval (nu : R -> R) (t : magnet_table) (attr : Z) (x : vec) : ret vec :=
  rbind (mag_eval_nostate 3 t attr x) (fun m => Ret (fun k => m k * nu 0)).

(** MagnetizationSource2DIntegrator on one element.  ndof basis functions, nt of the temperature, nq points with weights
    pw; tsh q j the temperature's shape functions (CalcPhysShape of a VALUE-mapped element, so independent of the
    geometry); shape q i a = dshape; Adj q X the adjugate Jacobian on nodes X; Mv q X T the value of the vector
    coefficient at point q, MvRev its EvalRevDiff (what it adds to PointMat_bar), Md its EvalStateDeriv *)
Section Source2D.
Variables (ndof nt nn nq : nat) (pw : nat -> R) (alpha : R) (shape : nat -> mat) (tsh : nat -> vec).
Variables (Adj : nat -> mat -> mat) (AdjRev : nat -> mat -> mat -> mat).
Variables (Mv : nat -> mat -> R -> vec) (MvRev : nat -> mat -> R -> vec -> mat) (Md : nat -> mat -> R -> vec).
Variable X : mat.

Definition ms_temp (T : vec) (q : nat) : R := dot nt (tsh q) T.
(** elvect, :2814-2839: the two Adds into scratch, then elvect.Add(alpha ip.weight, scratch) *)
Definition ms_scratch (T : vec) (q : nat) : vec := fun i =>
  0 + Mv q X (ms_temp T q) 1%nat * dshapedxt 2 shape Adj X q i 0%nat +
      - Mv q X (ms_temp T q) 0%nat * dshapedxt 2 shape Adj X q i 1%nat.
Definition ms_vector (T : vec) : vec := fun i => rsum nq (fun q => alpha * pw q * ms_scratch T q i).

(** reverse passes, :2964-3023 and :3135-3190 *)
Variable psi : vec.
Definition ms_scratch_bar (q : nat) : vec := fun i => 1 * (alpha * pw q) * psi i.
Definition ms_flux_bar (q : nat) : vec := fun k =>
  match k with
  | 1%nat => dot ndof (fun i => dshapedxt 2 shape Adj X q i 0%nat) (ms_scratch_bar q)
  | 0%nat => - dot ndof (fun i => dshapedxt 2 shape Adj X q i 1%nat) (ms_scratch_bar q)
  | _ => 0
  end.
Definition ms_dshapedxt_bar (T : vec) (q : nat) : mat := fun i k =>
  match k with
  | 0%nat => Mv q X (ms_temp T q) 1%nat * ms_scratch_bar q i
  | 1%nat => - Mv q X (ms_temp T q) 0%nat * ms_scratch_bar q i
  | _ => 0
  end.
Definition ms_adj_bar (T : vec) (q : nat) : mat := fun a k => rsum ndof (fun i => shape q i a * ms_dshapedxt_bar T q i k).
Definition ms_mesh_bar (T : vec) : mat := fun k j =>
  rsum nq (fun q => MvRev q X (ms_temp T q) (ms_flux_bar q) k j + AdjRev q X (ms_adj_bar T q) k j).
Definition ms_temp_bar (T : vec) : vec := fun j =>
  rsum nq (fun q => dot 2 (ms_flux_bar q) (Md q X (ms_temp T q)) * tsh q j).
End Source2D.
