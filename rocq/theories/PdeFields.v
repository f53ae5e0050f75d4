(** What a PDE solver owns after construction, and how outputs are added to it.
    src/physics/pde_solver.cpp:319-460 (PDESolver), src/physics/electromagnetics/magnetostatic.cpp:54-488
    (MagnetostaticSolver), src/physics/thermal/thermal.cpp:17-110 (ThermalSolver), src/common/abstract_solver.cpp:201-247.

    nlohmann::json: operator[] on a const value throws type_error 305 when it is not an object and is undefined behaviour
    (an assertion in debug builds) when the object has no such key; get<T> throws type_error 302 for another type; value()
    throws type_error 306 on a value that is no object; contains() is false there. *)
From Coq Require Import Reals List String Ascii Bool Arith.
From Verif Require Import Options.
Import ListNotations.
Local Open Scope string_scope.

(** how a call ends; the state it leaves is given separately *)
Inductive ending := Fine | Miso (* MISOException *) | OutOfRange (* std::out_of_range *) | TypeError | Undefined.

(** * Materials: pde_solver.cpp:341-366 *)
Section Materials.
Context {L : Type}.
Variable str : L -> option string.        (* the leaf's text when it is a string *)
Notation json := (json L).
Notation objects := (list (string * json)).

(** one pass of the loop over options["components"], :350-364 *)
Definition addMaterial (lib : objects) (component : json) : ending * objects :=
  match component with
  | JObj c =>
    match find "material" c with
    | None => (Undefined, lib)
    | Some (JLeaf l) => match str l with Some _ => (Fine, lib) | None => (TypeError, lib) end
    | Some JNull => (TypeError, lib)
    | Some (JObj m) =>
      match find "name" m with
      | None => (Undefined, lib)
      | Some (JLeaf l) =>
        match str l with
        | Some name => (Fine, set name (merge_patch (match find name lib with Some x => x | None => JNull end) (JObj m)) lib)
        | None => (TypeError, lib)
        end
      | Some _ => (TypeError, lib)
      end
    end
  | _ => (TypeError, lib)
  end.
Fixpoint addMaterials (lib : objects) (components : list json) : ending * objects :=
  match components with
  | [] => (Fine, lib)
  | c :: r => match addMaterial lib c with (Fine, lib') => addMaterials lib' r | e => e end
  end.
(** first constructor (number of states given; magnetostatic, thermal): the range-for visits the values of the components
    object in the order of its keys; second constructor (:384-417, the flow solvers): the library as it is *)
Definition materials1 (library : objects) (components : option (list json)) : ending * objects :=
  match components with None => (Fine, library) | Some l => addMaterials library l end.
Definition materials2 (library : objects) (components : option (list json)) : ending * objects := (Fine, library).
End Materials.

(** * Fields *)
(** where a space comes from: a block of options with a number of states, the mesh nodes, the state's space, linear H1, DG *)
Inductive space (O : Type) := ByOptions (o : O) (num_states : nat) | OfMesh | OfState | Linear | Dg (degree num_states : nat).
Arguments ByOptions {O}. Arguments OfMesh {O}. Arguments OfState {O}. Arguments Linear {O}. Arguments Dg {O}.
(** contents: zero (finite_element_vector.cpp: *gf = 0.0), the mesh coordinates, or a constant *)
Inductive contents := Zero | Coordinates | Const (c : R).
Record field (O : Type) := { f_space : space O; f_is : contents }.
Arguments f_space {O}. Arguments f_is {O}. Arguments Build_field {O}.

Section Fields.
Context {O : Type}.
Notation fields := (list (string * field O)).
(** std::map: find, emplace (which keeps an existing element), and assignment through at() *)
Fixpoint look {A} (k : string) (m : list (string * A)) : option A :=
  match m with [] => None | (k', v) :: r => if String.eqb k k' then Some v else look k r end.
Definition emplace {A} (k : string) (v : A) (m : list (string * A)) : list (string * A) :=
  match look k m with Some _ => m | None => (m ++ [(k, v)])%list end.
Definition fill (k : string) (c : contents) (m : fields) : fields :=
  map (fun kf => if String.eqb k (fst kf) then (fst kf, Build_field (f_space (snd kf)) c) else kf) m.

(** one entry of "external-fields": its block of options and its "num-states" (None: absent or no integer, where
    get<int>() throws type_error 302) *)
Record external := { x_opts : O; x_states : option nat }.
Definition addExternal (fs : fields) (x : string * external) : ending * fields :=
  match x_states (snd x) with
  | Some n => (Fine, emplace (fst x) (Build_field (ByOptions (x_opts (snd x)) n) Zero) fs)
  | None => (TypeError, fs)
  end.
Fixpoint addExternals (fs : fields) (l : list (string * external)) : ending * fields :=
  match l with [] => (Fine, fs) | x :: r => match addExternal fs x with (Fine, fs') => addExternals fs' r | e => e end end.
(** PDESolver::PDESolver, :368-381, and setUpExternalFields, :420-457 *)
Definition pdeFields (space_dis : O) (num_states : nat) (ext : list (string * external)) : ending * fields :=
  let st := Build_field (ByOptions space_dis num_states) Zero in
  let fs := emplace "state" st [] in
  let fs := emplace "dirichlet_bc" st fs in
  let fs := emplace "adjoint" st fs in
  let fs := emplace "mesh_coords" (Build_field OfMesh Coordinates) fs in
  addExternals fs ext.
(** MagnetostaticSolver, magnetostatic.cpp:72-125: temperature, then the fields made by the residual's integrators
    ([made]: names with the state's space, e.g. "state_dot", electromag_integ.hpp:967), flux_magnitude, peak_flux *)
Definition magnetostaticFields (space_dis : O) (degree : nat) (made : list string) (ext : list (string * external)) : ending * fields :=
  match pdeFields space_dis 1 ext with
  | (Fine, fs) =>
    let fs := emplace "temperature" (Build_field Linear Zero) fs in
    let fs := fill "temperature" (Const (27315/100)) fs in
    let fs := fold_left (fun fs n => emplace n (Build_field OfState Zero) fs) made fs in
    let fs := emplace "flux_magnitude" (Build_field (Dg degree 1) Zero) fs in
    let fs := emplace "peak_flux" (Build_field (Dg degree 1) Zero) fs in
    (Fine, fs)
  | e => e
  end.
(** ThermalSolver, thermal.cpp:17-32 *)
Definition thermalFields (space_dis : O) (made : list string) (ext : list (string * external)) : ending * fields :=
  match pdeFields space_dis 1 ext with
  | (Fine, fs) =>
    let fs := fold_left (fun fs n => emplace n (Build_field OfState Zero) fs) made fs in
    (Fine, emplace "thermal_load" (Build_field OfState Zero) fs)
  | e => e
  end.
(** AbstractSolver2::getFieldSize, abstract_solver.cpp:217-226, then PDESolver::getFieldSize, pde_solver.cpp:319-332;
    [size]: GetTrueVSize of a space, [nstate]: the size of the residual *)
Definition getFieldSize (size : space O -> nat) (nstate : nat) (fs : fields) (name : string) : nat :=
  let base := if String.eqb name "state" || String.eqb name "residual" || String.eqb name "adjoint" then nstate else 0 in
  if Nat.eqb base 0 then match look name fs with Some f => size (f_space f) | None => 0 end else base.

(** * Outputs *)
(** option values of an output *)
Inductive value := Ints (l : list nat) | Text (s : string) | Number | Vector | Block (has_attributes : bool) | Other.
(** None: the null value that createOutput(name) passes, abstract_solver.cpp:228-232 *)
Definition oopts := option (list (string * value)).
Definition contains (o : oopts) (k : string) : bool :=
  match o with None => false | Some l => match look k l with Some _ => true | None => false end end.
(** options[k] on a const value *)
Definition at_key (o : oopts) (k : string) : ending * value :=
  match o with None => (TypeError, Other) | Some l => match look k l with Some v => (Fine, v) | None => (Undefined, Other) end end.
(** "attributes" when present: get<std::vector<int>>() *)
Definition attributes (o : oopts) : ending * option (list nat) :=
  if contains o "attributes" then
    match snd (at_key o "attributes") with Ints l => (Fine, Some l) | _ => (TypeError, None) end
  else (Fine, None).

Inductive kind := Energy | Force | Torque | FluxDensity | FluxMagnitude | AverageFluxMagnitude | MaxFluxMagnitude | MaxState
  | DcLoss | AcLoss | CoreLoss | Mass | Volume | HeatSource | ThermalFlux | AverageState.
(** an output in the registry: what it is, the attributes it is restricted to (None: the whole domain or boundary), the
    field that holds its state or receives its values *)
Record output := { o_kind : kind; o_attrs : option (list nat); o_field : string }.
Record solver := { s_fields : fields; s_outs : list (string * output) }.
Definition withField (k : string) (f : field O) (s : solver) : solver := {| s_fields := emplace k f (s_fields s); s_outs := s_outs s |}.
Definition withOut (k : string) (o : output) (s : solver) : solver := {| s_fields := s_fields s; s_outs := emplace k o (s_outs s) |}.
(** fun.rfind(prefix, 0) == 0 *)
Definition starts (p name : string) : bool := prefix p name.
(** fields.at(k): the space of the field *)
Definition known (s : solver) (k : string) : bool := match look k (s_fields s) with Some _ => true | None => false end.

(** an output with one attribute restriction and no other demands *)
Definition plain (name : string) (k : kind) (o : oopts) (fld : string) (s : solver) : ending * solver :=
  match attributes o with
  | (Fine, a) => (Fine, withOut name {| o_kind := k; o_attrs := a; o_field := fld |} s)
  | (e, _) => (e, s)
  end.
(** "force" and "torque", magnetostatic.cpp:186-207, with the constructors' demands in order (electromag_outputs.hpp:74-86,
    143-169; electromag_outputs.cpp:25-82): "attributes", "axis" (and "about"), the field vforce / vtorque *)
Definition need (o : oopts) (k : string) (ok : value -> bool) : ending :=
  match at_key o k with (Fine, v) => if ok v then Fine else TypeError | (e, _) => e end.
Definition isInts (v : value) := match v with Ints _ => true | _ => false end.
Definition isVector (v : value) := match v with Vector => true | Ints _ => true | _ => false end.
Definition andThen (e e' : ending) : ending := match e with Fine => e' | _ => e end.
Definition displacement (name : string) (torque : bool) (o : oopts) (s : solver) : ending * solver :=
  let s1 := withField ("v" ++ name) (Build_field OfMesh Zero) s in
  let e := andThen (need o "attributes" isInts) (need o "axis" isVector) in
  let e := if torque then andThen e (need o "about" isVector) else e in
  let key := if torque then "vtorque" else "vforce" in
  match e with
  | Fine => if known s1 key
            then (Fine, withOut name {| o_kind := if torque then Torque else Force; o_attrs := None; o_field := key |} s1)
            else (OutOfRange, s1)
  | _ => (e, s1)
  end.
(** "max_state" (magnetostatic.cpp:269-291, thermal.cpp:72-86): IEAggregateFunctional reads "state" with value(),
    common_outputs.cpp:205-223 *)
Definition stateName (o : oopts) : ending * string :=
  match o with
  | None => (TypeError, "")
  | Some l => match look "state" l with None => (Fine, "state") | Some (Text n) => (Fine, n) | Some _ => (TypeError, "") end
  end.
Definition rhoOption (o : oopts) : ending :=
  match o with Some l => match look "rho" l with None | Some Number => Fine | _ => TypeError end | None => TypeError end.
Definition maxState (name : string) (o : oopts) (s : solver) : ending * solver :=
  match stateName o with
  | (Fine, n) =>
    if known s n then match rhoOption o with Fine => plain name MaxState o n s | e => (e, s) end
    else (OutOfRange, s)
  | (e, _) => (e, s)
  end.
(** "average_state" (thermal.cpp:87-101): the space is that of the named field, the field the functional reads is "state"
    (StateAverageFunctional, common_outputs.cpp:73-89, passes no name on) *)
Definition averageState (name : string) (o : oopts) (s : solver) : ending * solver :=
  if contains o "state" then
    match stateName o with
    | (Fine, n) => if known s n then plain name AverageState o "state" s else (OutOfRange, s)
    | (e, _) => (e, s)
    end
  else plain name AverageState o "state" s.
(** dc_loss and ac_loss: "attributes" is overwritten by the attributes of the "current" options (magnetostatic.cpp:54-66,
    292-323); [current]: for every group, for every source, its attributes *)
Definition currentAttributes (current : list (list (list nat))) : list nat := List.concat (List.concat current).
Definition loss (current : list (list (list nat))) (name : string) (k : kind) (fld : string) (s : solver) : ending * solver :=
  (Fine, withOut name {| o_kind := k; o_attrs := Some (currentAttributes current); o_field := fld |} s).
(** heat_source (magnetostatic.cpp:361-384, electromag_outputs.cpp:1790-1802): options["dc_loss"] and so on are required, and the
    linear form makes the field thermal_adjoint with the temperature's space (miso_linearform.hpp:122-133) *)
Definition heatSource (name : string) (o : oopts) (s : solver) : ending * solver :=
  let e0 := fun k => match at_key o k with (e, _) => e end in
  let s1 := match look "temperature" (s_fields s) with
            | Some t => withField "thermal_adjoint" (Build_field (f_space t) Zero) s | None => s end in
  (* each member's constructor argument options[..] is evaluated before that constructor runs *)
  match e0 "dc_loss" with
  | Fine =>
    if known s "temperature" then
      match e0 "ac_loss" with
      | Fine => match e0 "core_loss" with
                | Fine => if known s "peak_flux" then (Fine, withOut name {| o_kind := HeatSource; o_attrs := None; o_field := "peak_flux" |} s1)
                          else (OutOfRange, s1)
                | e => (e, s1)
                end
      | e => (e, s1)
      end
    else (OutOfRange, s)
  | e => (e, s)
  end.

(** MagnetostaticSolver::addOutput, magnetostatic.cpp:167-488; [dim]: the dimension of the space, [degree]: the state's *)
Definition addOutputMagnetostatic (dim degree : nat) (current : list (list (list nat))) (name : string) (o : oopts) (s : solver) : ending * solver :=
  if starts "energy" name then plain name Energy o "state" s
  else if starts "force" name then displacement name false o s
  else if starts "torque" name then displacement name true o s
  else if starts "flux_density" name then
    (Fine, withOut name {| o_kind := FluxDensity; o_attrs := None; o_field := name |} (withField name (Build_field (Dg degree dim) Zero) s))
  else if starts "flux_magnitude" name then
    if known s name then (Fine, withOut name {| o_kind := FluxMagnitude; o_attrs := None; o_field := name |} s) else (OutOfRange, s)
  else if starts "average_flux_magnitude" name then plain name AverageFluxMagnitude o "state" s
  else if starts "max_flux_magnitude" name then
    match need o "rho" (fun v => match v with Number => true | _ => false end) with
    | Fine => plain name MaxFluxMagnitude o "state" s
    | e => (e, s)
    end
  else if starts "max_state" name then maxState name o s
  else if starts "dc_loss" name then loss current name DcLoss "state" s
  else if starts "ac_loss" name then loss current name AcLoss "peak_flux" s
  else if starts "core_loss" name then plain name CoreLoss o "state" s
  else if starts "mass" name then plain name Mass o "state" s
  else if starts "volume" name then plain name Volume o "state" s
  else if starts "heat_source" name then heatSource name o s
  else (Miso, s).
(** ThermalSolver::addOutput, thermal.cpp:52-108 *)
Definition addOutputThermal (name : string) (o : oopts) (s : solver) : ending * solver :=
  if starts "thermal_flux" name then plain name ThermalFlux o "state" s
  else if starts "max_state" name then maxState name o s
  else if starts "average_state" name then averageState name o s
  else (Miso, s).
(** AbstractSolver2::createOutput, abstract_solver.cpp:234-247 *)
Definition createOutput (add : string -> oopts -> solver -> ending * solver) (name : string) (o : oopts) (s : solver) : ending * solver :=
  match look name (s_outs s) with Some _ => (Miso, s) | None => add name o s end.
(** a history of calls, each ending as it ends; the caller catches what is thrown *)
Fixpoint history (add : string -> oopts -> solver -> ending * solver) (calls : list (string * oopts)) (s : solver) : solver :=
  match calls with [] => s | (n, o) :: r => history add r (snd (createOutput add n o s)) end.
End Fields.
Arguments external O : clear implicits.
Arguments solver O : clear implicits.
