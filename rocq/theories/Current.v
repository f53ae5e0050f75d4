(** Current density: CurrentDensityCoefficient(2D), src/physics/electromagnetics/current_source_functions.{hpp,cpp};
    its use in MagnetostaticResidual (magnetostatic_residual.cpp) and in the 3-D CurrentLoad (current_load.{hpp,cpp}).

    Simplifications.  One process.  std::map is a list in insertion order (no operation below depends on the order).
    A call that throws has no modelled final state.  The domain integral of the 2-D load is a sum over quadrature points
    with fixed weights; the 3-D assembly (mass solve, divergence-free projection, mass product) is an abstract function of
    the mesh and of the coefficient, i.e. its linear solves are exact. *)
From Coq Require Import Reals String List Bool ZArith.
From Verif Require Import Vec Inputs Coef CoefMix Form.
Import ListNotations.
Local Open Scope R_scope.

(** what a call may do: return, throw a C++ exception, call mfem_error (abort), or have undefined behaviour *)
Inductive ret (A : Type) := Ret (a : A) | Throws | Aborts | UB.
Arguments Ret {A}. Arguments Throws {A}. Arguments Aborts {A}. Arguments UB {A}.
Definition rbind {A B} (r : ret A) (f : A -> ret B) : ret B :=
  match r with Ret a => f a | Throws => Throws | Aborts => Aborts | UB => UB end.

Definition sfunc := vec -> vec.        (* position |-> value; the 2-D class uses component 0 only *)
Definition smap := list (string * R).
(** the members of the coefficient: group_map, cached_inputs, and current_coeff with source_coeffs
    (current_source_functions.hpp:46-57, 87-96); an entry of the table names its group, whose ConstantCoefficient it uses *)
Record cd := { group_map : smap; cached_inputs : smap; table : list (Z * (string * sfunc)) }.

(** std::map::emplace *)
Definition emplace (k : string) (v : R) (m : smap) : smap :=
  match sfind k m with Some _ => m | None => m ++ [(k, v)] end.
(** assignment to an entry that exists *)
Definition upd (k : string) (v : R) (m : smap) : smap :=
  map (fun p => if String.eqb k (fst p) then (fst p, v) else p) m.

(** the sources a constructor knows: the function, and the entries it puts into cached_inputs *)
Definition known := string -> option (sfunc * smap).

(** the loop over the attributes of one source, e.g. :801-820: addCoefficient aborts on a second use of an attribute *)
Fixpoint add_attrs (g : string) (s : sfunc) (attrs : list Z) (t : list (Z * (string * sfunc)))
  : ret (list (Z * (string * sfunc))) :=
  match attrs with
  | [] => Ret t
  | a :: r => match addCoefficient t a (g, s) with None => Aborts | Some t' => add_attrs g s r t' end
  end.
(** one source of a group: an unknown name falls through the chain of else-ifs *)
Definition add_source (K : known) (g : string) (sa : string * list Z) (c : cd) : ret cd :=
  match K (fst sa) with
  | None => Ret c
  | Some (s, extra) =>
      rbind (add_attrs g s (snd sa) (table c)) (fun t =>
      Ret {| group_map := group_map c;
             cached_inputs := fold_left (fun m e => emplace (fst e) (snd e) m) extra (cached_inputs c); table := t |})
  end.
Fixpoint add_sources (K : known) (g : string) (l : list (string * list Z)) (c : cd) : ret cd :=
  match l with [] => Ret c | sa :: r => rbind (add_source K g sa c) (add_sources K g r) end.
(** the constructors, :714-982 (3-D) and :1050-1146 (2-D) *)
Definition options := list (string * list (string * list Z)).
Fixpoint add_groups (K : known) (o : options) (c : cd) : ret cd :=
  match o with
  | [] => Ret c
  | (g, l) :: r =>
      rbind (add_sources K g l {| group_map := emplace g 1 (group_map c);
                                  cached_inputs := emplace g 0 (cached_inputs c); table := table c |})
            (add_groups K r)
  end.
Definition construct (K : known) (o : options) : ret cd :=
  add_groups K o {| group_map := []; cached_inputs := []; table := [] |}.

(** box1_current2D, box2_current2D :214-230 and the constant sources, :1063-1143 *)
Definition known2d : known := fun s =>
  if String.eqb s "z" then Some (fun _ _ => 1, [])
  else if String.eqb s "-z" then Some (fun _ _ => -1, [])
  else if String.eqb s "box1" then Some (fun x _ => -6 * (x 1%nat - 1 / 2), [])
  else if String.eqb s "box2" then Some (fun x _ => 6 * (x 1%nat - 1 / 2), [])
  else None.

(** one loop of setInputs: every entry takes its input, if any; did any entry change? *)
Fixpoint set_loop (l : inputs) (key : string -> string) (m : smap) : ret (smap * bool) :=
  match m with
  | [] => Ret ([], false)
  | (k, old) :: r =>
      match setValueFromInputs l (key k) old false with
      | Ok v => rbind (set_loop l key r) (fun p => Ret ((k, v) :: fst p, (if Req_EM_T v old then snd p else true)))
      | _ => Throws
      end
  end.
Definition cd_key (g : string) : string := append "current_density:" g.
(** setInputs, :673-697 and :1008-1032 *)
Definition cd_setInputs (l : inputs) (c : cd) : ret (cd * bool) :=
  rbind (set_loop l cd_key (group_map c)) (fun p =>
  rbind (set_loop l (fun k => k) (cached_inputs c)) (fun q =>
  Ret ({| group_map := fst p; cached_inputs := fst q; table := table c |}, snd p || snd q))).

(** cacheCurrentDensity, :649-655 and :984-990: at() throws for a group that is not in the cache *)
Fixpoint cache_loop (m cached : smap) : ret smap :=
  match m with
  | [] => Ret cached
  | (g, v) :: r => match sfind g cached with None => Throws | Some _ => cache_loop r (upd g v cached) end
  end.
Definition cacheCurrentDensity (c : cd) : ret cd :=
  rbind (cache_loop (group_map c) (cached_inputs c)) (fun m =>
  Ret {| group_map := group_map c; cached_inputs := m; table := table c |}).
(** zeroCurrentDensity, :657-663 and :992-998 *)
Definition zeroCurrentDensity (c : cd) : cd :=
  {| group_map := map (fun p => (fst p, 0)) (group_map c); cached_inputs := cached_inputs c; table := table c |}.
(** resetCurrentDensityFromCache, :665-671 and :1000-1006: at() throws for a cached entry that is not a group *)
Fixpoint reset_loop (cached groups : smap) : ret smap :=
  match cached with
  | [] => Ret groups
  | (g, v) :: r => match sfind g groups with None => Throws | Some _ => reset_loop r (upd g v groups) end
  end.
Definition resetCurrentDensityFromCache (c : cd) : ret cd :=
  rbind (reset_loop (cached_inputs c) (group_map c)) (fun m =>
  Ret {| group_map := m; cached_inputs := cached_inputs c; table := table c |}).

(** CurrentDensityCoefficient::Eval :699-704 (ScalarVectorProductCoefficient(group_coeff, source_coeff), 0 where the
    table has no entry) *)
Definition cd_Eval (c : cd) (attr : Z) (x : vec) : vec :=
  match mfind attr (table c) with
  | None => fun _ => 0
  | Some (g, s) => fun k => match sfind g (group_map c) with Some v => v * s x k | None => 0 end
  end.
(** CurrentDensityCoefficient2D::Eval :1034-1038 *)
Definition cd_Eval2D (c : cd) (attr : Z) (x : vec) : R := -1 * cd_Eval c attr x 0%nat.

(** ---- MagnetostaticResidual on a 2-D mesh ---- *)
(** a quadrature point of the mesh: attribute of its element, position, weight times basis function for every dof *)
Record qpoint := { qattr : Z; qx : vec; qw : vec }.
(** the linear form: DomainLFIntegrator(current) on the current attributes (magnetostatic_residual.cpp:362-364) plus
    the part of the magnets (:379-381), which does not depend on the current *)
Definition in_attrs (l : list Z) (a : Z) : bool := existsb (Z.eqb a) l.
Fixpoint quad (qs : list qpoint) (marked : Z -> bool) (f : Z -> vec -> R) (i : nat) : R :=
  match qs with
  | [] => 0
  | q :: r => (if marked (qattr q) then qw q i * f (qattr q) (qx q) else 0) + quad r marked f i
  end.
(** getCurrentAttributes, :49-61 *)
Definition currentAttributes (o : options) : list Z := flat_map (fun g => flat_map snd (snd g)) o.

(** form_jvp, form_vjp: what the calls on residual.res and the linear form give for every other wrt (:192-193, 217-219) *)
Record setup := { opts : options; points : list qpoint; magnets : vec; edofs : list nat; ndofs : nat;
                  form_jvp : string -> vec -> vec -> vec; form_vjp : string -> vec -> R }.
(** MISOLinearForm::addLoad, src/common/miso_linearform.cpp:55-62 *)
Definition addLoad2D (S : setup) (c : option cd) (tv : vec) : vec := fun i =>
  tv i + zero_at (edofs S)
    (fun i => match c with
              | None => 0
              | Some c => quad (points S) (in_attrs (currentAttributes (opts S))) (cd_Eval2D c) i
              end + magnets S i) i.
(** setInputs, :86-94, the part that concerns the current *)
Definition res_setInputs (l : inputs) (c : option cd) : ret (option cd) :=
  match c with None => Ret None | Some c => rbind (cd_setInputs l c) (fun p => Ret (Some (fst p))) end.
(** evaluate, :102-121; N is what evaluate(residual.res, ..) stores *)
Definition res_evaluate (S : setup) (l : inputs) (N : vec) (c : option cd) : ret (vec * option cd) :=
  rbind (res_setInputs l c) (fun c1 => Ret (addLoad2D S c1 N, c1)).
(** the common part of the two products, :177-188 and :203-214: scratch and the coefficient afterwards;
    current_coeff-> on a null pointer is undefined *)
Definition unit_load (S : setup) (wrt : string) (c : option cd) : ret (vec * option cd) :=
  match c with
  | None => UB
  | Some c =>
      rbind (cacheCurrentDensity c) (fun c1 =>
      rbind (cd_setInputs [(wrt, Scalar 1)] (zeroCurrentDensity c1)) (fun p =>
      let scratch := addLoad2D S (Some (fst p)) (fun _ => 0) in
      rbind (resetCurrentDensityFromCache (fst p)) (fun c3 =>
      Ret (zero_at (edofs S) scratch, Some c3))))
  end.
(** jacobianVectorProduct, :169-194 *)
Definition res_jvp (S : setup) (wrt : string) (wrt_dot res_dot : vec) (c : option cd) : ret (vec * option cd) :=
  if String.prefix "current_density:" wrt then
    rbind (unit_load S wrt c) (fun p => Ret (fun i => res_dot i + wrt_dot 0%nat * fst p i, snd p))
  else Ret (form_jvp S wrt wrt_dot res_dot, c).
(** vectorJacobianProduct, :196-220 *)
Definition res_vjp (S : setup) (wrt : string) (res_bar : vec) (c : option cd) : ret (R * option cd) :=
  if String.prefix "current_density:" wrt then
    rbind (unit_load S wrt c) (fun p => Ret (dot (ndofs S) (fst p) res_bar, snd p))
  else Ret (form_vjp S wrt res_bar, c).

(** the calls of a user on the residual that reach the coefficient *)
Inductive rcall :=
| RSetInputs (l : inputs) | REvaluate (l : inputs) (N : vec)
| RJvp (wrt : string) (wrt_dot res_dot : vec) | RVjp (wrt : string) (res_bar : vec).
Definition rafter (S : setup) (k : rcall) (c : option cd) : ret (option cd) :=
  match k with
  | RSetInputs l => res_setInputs l c
  | REvaluate l N => rbind (res_evaluate S l N c) (fun p => Ret (snd p))
  | RJvp w d r => rbind (res_jvp S w d r c) (fun p => Ret (snd p))
  | RVjp w b => rbind (res_vjp S w b c) (fun p => Ret (snd p))
  end.
Fixpoint rruns (S : setup) (h : list rcall) (c : option cd) : ret (option cd) :=
  match h with [] => Ret c | k :: r => rbind (rafter S k c) (rruns S r) end.

(** ---- CurrentLoad, current_load.{hpp,cpp} ---- *)
Section Load3.
Variable Mesh : Type.
(** assembleLoad, current_load.cpp:241-340, as a function of the mesh and the coefficient; setInputs on the fields moves
    the mesh *)
Variable assemble : Mesh -> (Z -> vec -> vec) -> vec.
Variable move : inputs -> Mesh -> Mesh.
Variable n : nat.
Record cload := { current : cd; mesh : Mesh; ess_tdof_list : list nat; load : vec; dirty : bool }.
(** the constructor, :177-239: dirty starts as true *)
Definition cl_make (c : cd) (m : Mesh) (E : list nat) (junk : vec) : cload :=
  {| current := c; mesh := m; ess_tdof_list := E; load := junk; dirty := true |}.
Definition has (k : string) (l : inputs) : bool := match lookup k l with Some _ => true | None => false end.
(** setInputs, :21-32 *)
Definition cl_setInputs (l : inputs) (L : cload) : ret cload :=
  rbind (cd_setInputs l (current L)) (fun p =>
  Ret {| current := fst p; mesh := move l (mesh L); ess_tdof_list := ess_tdof_list L; load := load L;
         dirty := (dirty L || snd p) || has "mesh_coords" l |}).
(** setOptions, :34-46: the argument is the list GetEssentialTrueDofs finds *)
Definition cl_setOptions (E : list nat) (L : cload) : cload :=
  {| current := current L; mesh := mesh L; ess_tdof_list := E; load := load L; dirty := dirty L |}.
(** addLoad, :48-57: the zeroes are written into the stored load *)
Definition cl_addLoad (tv : vec) (L : cload) : vec * cload :=
  let ld := zero_at (ess_tdof_list L) (if dirty L then assemble (mesh L) (cd_Eval (current L)) else load L) in
  (fun i => tv i - ld i,
   {| current := current L; mesh := mesh L; ess_tdof_list := ess_tdof_list L; load := ld; dirty := false |}).
(** vectorJacobianProduct wrt "current_density:...", :59-81 *)
Definition cl_vjp (wrt : string) (load_bar : vec) (L : cload) : ret (R * cload) :=
  if String.prefix "current_density:" wrt then
    rbind (cacheCurrentDensity (current L)) (fun c1 =>
    rbind (cd_setInputs [(wrt, Scalar 1)] (zeroCurrentDensity c1)) (fun p =>
    let ld := zero_at (ess_tdof_list L) (assemble (mesh L) (cd_Eval (fst p))) in
    rbind (resetCurrentDensityFromCache (fst p)) (fun c3 =>
    Ret (- dot n ld load_bar,
         {| current := c3; mesh := mesh L; ess_tdof_list := ess_tdof_list L; load := ld; dirty := true |}))))
  else Ret (0, L).

(** vectorJacobianProduct wrt "mesh_coords", :83-177: its effect on the members modelled here, :90-94 *)
Definition cl_vjp_mesh (L : cload) : cload :=
  {| current := current L; mesh := mesh L; ess_tdof_list := ess_tdof_list L;
     load := if dirty L then assemble (mesh L) (cd_Eval (current L)) else load L; dirty := false |}.

Inductive lcall := LSetInputs (l : inputs) | LAddLoad (tv : vec) | LVjp (wrt : string) (b : vec) | LVjpMesh
| LSetOptions (E : list nat).
Definition lafter (k : lcall) (L : cload) : ret cload :=
  match k with
  | LSetInputs l => cl_setInputs l L
  | LAddLoad tv => Ret (snd (cl_addLoad tv L))
  | LVjp w b => rbind (cl_vjp w b L) (fun p => Ret (snd p))
  | LVjpMesh => Ret (cl_vjp_mesh L)
  | LSetOptions E => Ret (cl_setOptions E L)
  end.
Fixpoint lruns (h : list lcall) (L : cload) : ret cload :=
  match h with [] => Ret L | k :: r => rbind (lafter k L) (lruns r) end.
End Load3.
