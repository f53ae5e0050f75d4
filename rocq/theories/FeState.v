(** Finite-element fields: error norms (src/physics/finite_element_state.cpp), the maps between true and local dofs
    (finite_element_state.hpp:30-60, finite_element_dual.hpp:30-50), choice and copying of the space
    (finite_element_vector.cpp:9-120), and setState / calcStateError of the solvers (src/common/abstract_solver.hpp:395-474,
    abstract_solver.cpp:45-79, src/physics/pde_solver.cpp:459-520, src/utils/utils.hpp:272-318).

    All processes together have L local dofs and T true dofs; P (L x T) is the prolongation and Rs (T x L) the restriction of the
    ParFiniteElementSpace (MFEM).  A quadrature point carries ip.weight * T->Weight(), its position and the values of the shape
    functions of the local dofs (component c, local dof l); the loops over elements and their points only accumulate, so the
    points of a process form one list.  Exact arithmetic; None is a result that is not a finite number. *)
From Coq Require Import Reals ZArith List Bool Arith Ascii String.
From Verif Require Import Num Vec.
Import ListNotations.
Local Open Scope R_scope.

(** * Error norms *)
Record qpt := { q_w : R; q_x : vec; q_S : nat -> nat -> R }.
Inductive pexp := PFin (p : R) | PInf.

(** C's pow(x, p) where it is finite: pow(x, 0) = 1, a negative base needs an integral exponent *)
Definition cpow (x p : R) : option R :=
  if Req_EM_T p 0 then Some 1
  else if Rlt_dec 0 x then Some (Rpower x p)
  else if Req_EM_T x 0 then (if Rlt_dec 0 p then Some 0 else None)
  else if Req_EM_T (IZR (Int_part p)) p then Some (powerRZ x (Int_part p)) else None.
(** if (x < 0.0) x = -pow(-x, p); else x = pow(x, p) *)
Definition spow (x p : R) : option R :=
  if Rlt_dec x 0 then match cpow (- x) p with Some y => Some (- y) | None => None end else cpow x p.

Section Space.
Variables (L vd : nat).                (* local dofs; VectorDim() *)
(** component c of the field at a point *)
Definition value (gf : vec) (q : qpt) : vec := fun c => rsum L (fun l => q_S q c l * gf l).
(** the error at a point: fabs of the scalar (finite_element_state.cpp:202), Norm2 of the vector, or the component itself (:270-280) *)
Definition scalar_err (gf : vec) (ex : vec -> vec) (q : qpt) : R := Rabs (value gf q 0%nat - ex (q_x q) 0%nat).
Definition vector_err (gf : vec) (ex : vec -> vec) (entry : Z) (q : qpt) : R :=
  if (entry <? 0)%Z then sqrt (rsum vd (fun c => (value gf q c - ex (q_x q) c) * (value gf q c - ex (q_x q) c)))
  else value gf q (Z.to_nat entry) - ex (q_x q) (Z.to_nat entry).
(** the loops of calcLpError, :180-232 and :234-314, up to the local root *)
Definition lp_local (p : pexp) (err : qpt -> R) (pts : list qpt) : option R :=
  match p with
  | PFin p =>
      match fold_left (fun acc q => match acc, cpow (err q) p with Some a, Some e => Some (a + q_w q * e) | _, _ => None end) pts (Some 0) with
      | Some s => spow s (1 / p)
      | None => None
      end
  | PInf => Some (fold_left (fun a q => Rmax a (err q)) pts 0)
  end.
(** mfem::GlobalLpNorm over the processes *)
Definition global_lp (p : pexp) (locs : list (option R)) : option R :=
  match p with
  | PFin p =>
      match fold_left (fun acc l => match acc, l with
          | Some a, Some x => match spow x p with Some y => Some (a + y) | None => None end
          | _, _ => None end) locs (Some 0) with
      | Some s => spow s (1 / p)
      | None => None
      end
  | PInf => match locs with
      | [] => None
      | l :: ls => fold_left (fun acc l => match acc, l with Some a, Some x => Some (Rmax a x) | _, _ => None end) ls l
      end
  end.
(** calcLpError(state, scalar, p) and calcLpError(state, vector, p, entry); procs: the points of each process *)
Definition calcLpError_s (procs : list (list qpt)) (gf : vec) (ex : vec -> vec) (p : pexp) : option R :=
  global_lp p (map (lp_local p (scalar_err gf ex)) procs).
Definition calcLpError_v (procs : list (list qpt)) (gf : vec) (ex : vec -> vec) (p : pexp) (entry : Z) : option R :=
  global_lp p (map (lp_local p (vector_err gf ex entry)) procs).
(** calcLpNorm, :5-21 *)
Definition calcLpNorm (procs : list (list qpt)) (gf : vec) (p : pexp) : option R :=
  if Nat.eqb vd 1 then calcLpError_s procs gf (fun _ _ => 0) p else calcLpError_v procs gf (fun _ _ => 0) p (-1).
(** calcL2Error, :23-88 and :90-178: sum of weight * e * e, signed root, GlobalLpNorm(2, .) *)
Definition l2_local (err : qpt -> R) (pts : list qpt) : option R :=
  let s := fold_left (fun a q => a + q_w q * (err q * err q)) pts 0 in
  Some (if Rlt_dec s 0 then - sqrt (- s) else sqrt s).
Definition calcL2Error_s (procs : list (list qpt)) (gf : vec) (ex : vec -> vec) : option R :=
  global_lp (PFin 2) (map (l2_local (fun q => value gf q 0%nat - ex (q_x q) 0%nat)) procs).
Definition calcL2Error_v (procs : list (list qpt)) (gf : vec) (ex : vec -> vec) (entry : Z) : option R :=
  global_lp (PFin 2) (map (l2_local (vector_err gf ex entry)) procs).
End Space.

(** * True and local dofs *)
Section Dofs.
Variables (L T : nat) (P Rs : nat -> nat -> R).
(** FiniteElementState: SetFromTrueDofs and GetTrueDofs, finite_element_state.hpp:30-47 *)
Definition state_distribute (tv : vec) : vec := fun l => rsum T (fun t => P l t * tv t).
Definition state_true (gf : vec) : vec := fun t => rsum L (fun l => Rs t l * gf l).
(** FiniteElementDual: RestrictionOperator->MultTranspose and ParallelAssemble, finite_element_dual.hpp:35-51 *)
Definition dual_distribute (tv : vec) : vec := fun l => rsum T (fun t => Rs t l * tv t).
Definition dual_true (gf : vec) : vec := fun t => rsum L (fun l => P l t * gf l).
End Dofs.

(** * setState and calcStateError *)
(** what the std::any holds; functions and coefficients of the position give (at least) VectorDim values *)
Inductive arg :=
| AFun (f : vec -> vec)              (* std::function<void(Vector &)>: what it leaves in its argument *)
| AField (f : vec -> vec)            (* std::function<double(const Vector &)>, Coefficient *, std::function<void(const Vector &, Vector &)>, VectorCoefficient * *)
| AVector (n : nat) (v : vec)        (* mfem::Vector *)
| AOther.
Inductive res (A : Type) := Ok (a : A) | Throw.
Arguments Ok {A} _. Arguments Throw {A}.
(** the solver: its fields by name (local dofs) and its work vector *)
Record solver := { s_fields : list (string * vec); s_work : vec }.
Fixpoint lookup (n : string) (l : list (string * vec)) : option vec :=
  match l with [] => None | (k, v) :: l => if String.eqb n k then Some v else lookup n l end.
Fixpoint update (n : string) (v : vec) (l : list (string * vec)) : list (string * vec) :=
  match l with [] => [] | (k, w) :: l => if String.eqb n k then (k, v) :: l else (k, w) :: update n v l end.

Section Solver.
Variables (L T vd : nat) (P Rs : nat -> nat -> R).
(** the dof functionals of ProjectCoefficient *)
Variable dofs : nat -> (vec -> vec) -> R.
Variable procs : list (list qpt).
Variable owner : nat -> nat.           (* process that owns a true dof *)

(** AbstractSolver2::setState_, abstract_solver.cpp:45-51 *)
Definition base_set_state (a : arg) (tv : vec) : vec := match a with AFun f => f tv | _ => tv end.
(** PDESolver::setState_ without its last step, pde_solver.cpp:459-475; project sets the grid function and then GetTrueDofs *)
Definition pde_set_one (a : arg) (name : string) (s : solver) (tv : vec) : res (solver * vec) :=
  let tv := base_set_state a tv in
  match a with
  | AField f =>
      match lookup name (s_fields s) with
      | None => Throw
      | Some _ => let gf : vec := fun l => dofs l f in
          Ok ({| s_fields := update name gf (s_fields s); s_work := s_work s |}, state_true L Rs gf)
      end
  | _ => Ok (s, tv)
  end.
(** PDESolver::setState_, pde_solver.cpp:459-480: setting "state" goes on to set "dirichlet_bc" *)
Definition pde_set_state (a : arg) (name : string) (s : solver) (tv : vec) : res (solver * vec) :=
  match pde_set_one a name s tv with
  | Throw => Throw
  | Ok (s, tv) => if String.eqb name "state" then pde_set_one a "dirichlet_bc" s tv else Ok (s, tv)
  end.

(** Norml2 of the true dofs of one process *)
Definition local_norm (r : nat) (v : vec) : R := sqrt (rsum T (fun t => if Nat.eqb (owner t) r then v t * v t else 0)).
(** AbstractSolver2::calcStateError_, abstract_solver.cpp:53-79, as seen by process r; Ok None is NaN *)
Definition base_state_error (a : arg) (s : solver) (tv : vec) (r : nat) : res (option R * solver) :=
  match a with
  | AFun f => let work := fun t => f (s_work s) t - tv t in Ok (Some (local_norm r work), {| s_fields := s_fields s; s_work := work |})
  | AVector n v => if Nat.eqb n T then let work := fun t => v t - tv t in Ok (Some (local_norm r work), {| s_fields := s_fields s; s_work := work |}) else Throw
  | _ => Ok (None, s)
  end.
(** PDESolver::calcStateError_, pde_solver.cpp:482-520; [vec]: the vector overloads (calcLpError with entry -1) *)
Definition pde_state_error (vec_arg : bool) (a : arg) (name : string) (s : solver) (tv : vec) (r : nat) : res (option R * solver) :=
  match base_state_error a s tv r with
  | Throw => Throw
  | Ok (Some e, s) => Ok (Some e, s)
  | Ok (None, s) =>
      match a with
      | AField f =>
          match lookup name (s_fields s) with
          | None => Throw
          | Some _ => let gf := state_distribute T P tv in
              Ok (if vec_arg then calcLpError_v L vd procs gf f (PFin 2) (-1) else calcLpError_s L procs gf f (PFin 2),
                  {| s_fields := update name gf (s_fields s); s_work := s_work s |})
          end
      | _ => Ok (None, s)
      end
  end.
End Solver.

(** * Spaces *)
Inductive coll := CSBP (p dim : Z) | DSBP (p dim : Z) | ND (p dim : Z) | RT (p dim : Z) | H1 (p dim : Z) | L2 (p dim : Z).
(** space_options: "degree" (None: missing), "basis-type", "GD" *)
Record space_options := { o_degree : option Z; o_basis : option string; o_gd : bool }.
Inductive sres (A : Type) := SOk (a : A) | SUndefined | SAbort.
Arguments SOk {A} _. Arguments SUndefined {A}. Arguments SAbort {A}.
Definition one_of (s : string) (l : list string) : bool := existsb (String.eqb s) l.
(** SBPCollection and DSBPCollection check degree and dimension (MFEM_VERIFY), sbp_fe.cpp:1127-1131, 1339-1343 *)
Definition make_coll (c : coll) : sres coll :=
  match c with
  | CSBP p d => if ((0 <=? p) && (p <=? 4) && (0 <=? d) && (d <=? 3))%Z then SOk c else SAbort
  | DSBP p d => if ((0 <=? p) && (p <=? 4) && (d =? 2))%Z then SOk c else SAbort
  | _ => SOk c
  end.
(** FiniteElementVector(mesh, space_options, num_states, name), finite_element_vector.cpp:54-109; no collection means H1 of the same
    degree (:38-42); operator[] on a missing key of a const json is undefined *)
Definition choose_coll (o : space_options) (dim : Z) : sres coll :=
  match o_degree o, o_basis o with
  | Some order, Some b =>
      if one_of b ["CSBP"; "csbp"]%string then make_coll (CSBP order dim)
      else if one_of b ["DSBP"; "dsbp"]%string || o_gd o then make_coll (DSBP order dim)
      else if one_of b ["ND"; "nd"; "nedelec"]%string then make_coll (ND order dim)
      else if one_of b ["RT"; "rt"]%string then make_coll (RT order dim)
      else if one_of b ["H1"; "h1"; "CG"; "cg"]%string then make_coll (H1 order dim)
      else if one_of b ["L2"; "l2"; "DG"; "dg"]%string then make_coll (L2 order dim)
      else make_coll (H1 order dim)
  | _, _ => SUndefined
  end.

(** * Copying a space *)
(** decimal digits of a number below ten; the collections only carry such numbers (make_coll) *)
Definition digit (z : Z) : string :=
  match z with 0 => "0" | 1 => "1" | 2 => "2" | 3 => "3" | 4 => "4" | 5 => "5" | 6 => "6" | 7 => "7" | 8 => "8" | 9 => "9" | _ => "?" end%Z%string.
(** Name(): snprintf(.., "SBP_%dD_P%d", dim, p), sbp_fe.cpp:1133, and "DSBP_%dD_P%d", :1344; the names of MFEM's collections are not modelled *)
Definition coll_name (c : coll) : string :=
  match c with
  | CSBP p d => "SBP_" ++ digit d ++ "D_P" ++ digit p
  | DSBP p d => "DSBP_" ++ digit d ++ "D_P" ++ digit p
  | _ => ""
  end%string.
(** atoi on what follows a pointer into the name: leading digits, 0 without any *)
Fixpoint atoi_from (acc : Z) (s : string) : Z :=
  match s with
  | EmptyString => acc
  | String a s => let k := (Z.of_nat (Ascii.nat_of_ascii a) - 48)%Z in
      if ((0 <=? k) && (k <=? 9))%Z then atoi_from (10 * acc + k) s else acc
  end.
Fixpoint skip (n : nat) (s : string) : string :=
  match n, s with O, s => s | S n, String _ s => skip n s | S _, EmptyString => EmptyString end.
Definition atoi (s : string) : Z := atoi_from 0 s.
(** copyFEColl, finite_element_vector.cpp:10-31: dynamic_cast picks the class; New(name) of MFEM (:29-30) rebuilds its own collections *)
Definition copy_coll (c : coll) : sres coll :=
  match c with
  | CSBP _ _ => let name := coll_name c in make_coll (CSBP (atoi (skip 8 name)) (atoi (skip 4 name)))
  | DSBP _ _ => let name := coll_name c in make_coll (DSBP (atoi (skip 9 name)) (atoi (skip 5 name)))
  | c => SOk c
  end.
