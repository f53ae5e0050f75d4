(** Model of how integrators, restricted to mesh attributes or not, are added to the three forms
    (FunctionalOutput, src/common/functional_output.hpp:155-268; MISOLinearForm,
    src/common/miso_linearform.hpp:176-322; MISONonlinearForm, src/physics/miso_nonlinearform.hpp:217-340),
    of the overloads that register their sensitivities (src/physics/mfem_common_integ.hpp,
    src/physics/thermal/thermal_integ.hpp, src/physics/electromagnetics/electromag_integ.hpp) and of the sums the
    forms assemble. *)
From Coq Require Import Reals String List ZArith Bool.
From Verif Require Import Num Vec BdrArray.
Import ListNotations.
Local Open Scope R_scope.

(** the inputs a form is evaluated at: for every name, a vector (a scalar input is its component 0) *)
Definition env := string -> vec.

Inductive region := Domain | Boundary | InternalBoundary | InteriorFace.

(** one rank's mesh: elements, exterior boundary elements, boundary elements lying on interior faces, each with its
    attribute, and the interior faces.  Simplification: one rank, so mesh->attributes holds the attributes of m_elems and
    mesh->bdr_attributes those of all boundary elements. *)
Record mesh := { m_elems : list (Z * nat); m_bdr : list (Z * nat); m_ibdr : list (Z * nat); m_faces : list nat }.
(** the items MFEM loops over for a region *)
Definition items (m : mesh) (r : region) : list (Z * nat) :=
  match r with
  | Domain => m_elems m
  | Boundary => m_bdr m
  | InternalBoundary => m_ibdr m
  | InteriorFace => map (fun i => (1%Z, i)) (m_faces m)
  end.

(** mfem::Array<int>::Max(); an empty array (checked in debug builds only) is undefined behaviour *)
Definition arrayMax (l : list Z) : option Z :=
  match l with [] => None | a :: r => Some (fold_left Z.max r a) end.
Definition attributes_Max (m : mesh) : option Z := arrayMax (map fst (m_elems m)).
Definition bdr_attributes_Max (m : mesh) : option Z := arrayMax (map fst (m_bdr m ++ m_ibdr m)).

(** markers.emplace_back(mesh_attr_size); attrVecToArray(attr_marker, marker)
    (functional_output.hpp:182-184, miso_linearform.hpp:201-203, miso_nonlinearform.hpp:240-242) *)
Definition newMarker (size : option Z) (attrs : list Z) : option (list Z) :=
  match size with
  | None => None
  | Some n => attrVecToArray attrs (repeat 0%Z (Z.to_nat n))
  end.

(** What an overload of add{Domain,Bdr,InternalBoundary,InteriorFace}SensitivityIntegrator does for an integrator with
    the given instance name: the map keys it registers, each with the input its sensitivity integrator differentiates by;
    whether it hands the attribute marker on; the fields it looks up with fields.at (given state_name or adjoint_name). *)
Record overload := { ov_region : region; ov_pairs : string -> list (string * string); ov_marked : bool; ov_needs : string -> list string }.

(** an integrator: its instance name, the overload chosen for its type, its contribution from one item, and the partial
    derivative of that contribution with respect to component k of an input.  For a residual or load, the contribution is
    the one weighted by the adjoint held in the fields. *)
Record integrator := { inst : string; over : overload; energy : env -> nat -> R; grad : string -> nat -> env -> nat -> R }.

Definition same (l : list string) : list (string * string) := map (fun n => (n, n)) l.
(** "h:" + integ_name, or "h" without a name (thermal_integ.hpp:293-303, 581-603) *)
Definition named (base n : string) : string := if String.eqb n "" then base else (base ++ ":" ++ n)%string.

(** the generic templates, src/physics/miso_integrator.hpp:139-305: nothing is registered *)
Definition ov_default (r : region) : overload :=
  {| ov_region := r; ov_pairs := fun _ => []; ov_marked := true; ov_needs := fun _ => [] |}.
(** mfem_common_integ.hpp:69-94 *)
Definition ov_BoundaryNormal := {| ov_region := Boundary; ov_pairs := fun _ => same ["mesh_coords"%string]; ov_marked := true;
  ov_needs := fun s => ["mesh_coords"%string; s] |}.
(** mfem_common_integ.hpp:168-204 *)
Definition ov_Volume := {| ov_region := Domain; ov_pairs := fun _ => same ["mesh_coords"%string; "fill_factor"%string]; ov_marked := true;
  ov_needs := fun s => ["mesh_coords"%string; "state"%string; s] |}.
(** mfem_common_integ.hpp:258-283 (state), 339-364 (magnitude of the curl), 431-456, 525-550, 621-647, 718-744
    (aggregates); electromag_integ.hpp:1345-1370 (magnetic energy), 3080-3105 (ForceIntegrator3): the same code *)
Definition ov_functional := {| ov_region := Domain; ov_pairs := fun _ => same ["mesh_coords"%string]; ov_marked := true;
  ov_needs := fun s => ["mesh_coords"%string; s] |}.
(** electromag_integ.hpp:3200-3212: the marker is not used *)
Definition ov_Force := {| ov_region := Domain; ov_pairs := fun _ => same ["mesh_coords"%string]; ov_marked := false;
  ov_needs := fun s => ["mesh_coords"%string; s] |}.
(** electromag_integ.hpp:1793-1831 *)
Definition ov_DCLoss := {| ov_region := Domain; ov_pairs := fun _ => same ["mesh_coords"%string; "temperature"%string]; ov_marked := true;
  ov_needs := fun s => ["mesh_coords"%string; "temperature"%string; s] |}.
(** electromag_integ.hpp:2386-2437 *)
Definition ov_ACLoss := {| ov_region := Domain; ov_pairs := fun _ => same ["mesh_coords"%string; "peak_flux"%string; "temperature"%string];
  ov_marked := true; ov_needs := fun s => ["mesh_coords"%string; "peak_flux"%string; "temperature"%string; s] |}.
(** electromag_integ.hpp:3345-3391: the member the second one differentiates by is read from the input
    "max_flux_magnitude:" + name (electromag_integ.cpp:11238-11249) *)
Definition ov_Steinmetz := {| ov_region := Domain;
  ov_pairs := fun n => [("frequency"%string, "frequency"%string); ("max_flux_magnitude"%string, named "max_flux_magnitude" n);
                        ("mesh_coords"%string, "mesh_coords"%string)];
  ov_marked := true; ov_needs := fun s => [s; "mesh_coords"%string] |}.
(** electromag_integ.hpp:3589-3653 *)
Definition ov_CAL2 := {| ov_region := Domain;
  ov_pairs := fun _ => same ["frequency"%string; "mesh_coords"%string; "peak_flux"%string; "temperature"%string]; ov_marked := true;
  ov_needs := fun s => [s; "mesh_coords"%string; "peak_flux"%string; "temperature"%string] |}.

(** electromag_integ.hpp:134-164 (diffusion) *)
Definition ov_Diffusion := {| ov_region := Domain; ov_pairs := fun _ => same ["mesh_coords"%string]; ov_marked := true;
  ov_needs := fun a => ["mesh_coords"%string; "state"%string; a] |}.
(** electromag_integ.hpp:276-308 (weak boundary condition) and thermal_integ.hpp:981-1011 (outflux) *)
Definition ov_Outflux := {| ov_region := Boundary; ov_pairs := fun _ => same ["mesh_coords"%string]; ov_marked := true;
  ov_needs := fun a => ["mesh_coords"%string; "state"%string; a] |}.
(** electromag_integ.hpp:434-453, 455-489: on interior faces and on internal boundaries *)
Definition ov_DGFace r := {| ov_region := r; ov_pairs := fun _ => same ["mesh_coords"%string]; ov_marked := true;
  ov_needs := fun a => ["mesh_coords"%string; "state"%string; a] |}.
(** thermal_integ.hpp:279-342, 344-385 *)
Definition ov_Contact r := {| ov_region := r; ov_pairs := fun n => same ["mesh_coords"%string; named "h" n]; ov_marked := true;
  ov_needs := fun a => ["mesh_coords"%string; "state"%string; a] |}.
(** thermal_integ.hpp:565-653, 655-715 *)
Definition ov_InternalConvection r := {| ov_region := r;
  ov_pairs := fun n => same ["mesh_coords"%string; named "h" n; named "fluid_temp" n]; ov_marked := true;
  ov_needs := fun a => ["mesh_coords"%string; "state"%string; a] |}.
(** thermal_integ.hpp:858-911 *)
Definition ov_Convection := {| ov_region := Boundary; ov_pairs := fun _ => same ["mesh_coords"%string; "h"%string; "fluid_temp"%string];
  ov_marked := true; ov_needs := fun a => ["mesh_coords"%string; "state"%string; a] |}.
(** mfem_common_integ.hpp:1264-1291 *)
Definition ov_DomainLF := {| ov_region := Domain; ov_pairs := fun _ => same ["mesh_coords"%string]; ov_marked := true;
  ov_needs := fun a => ["mesh_coords"%string; a] |}.
(** electromag_integ.hpp:772-813 *)
Definition ov_Magnetization := {| ov_region := Domain; ov_pairs := fun _ => same ["mesh_coords"%string; "temperature"%string];
  ov_marked := true; ov_needs := fun a => ["mesh_coords"%string; "temperature"%string; a] |}.
(** electromag_integ.hpp:949-984: the marker is not used (the forward sensitivity and the field "state_dot" it also
    creates are not modelled) *)
Definition ov_CurlCurl := {| ov_region := Domain; ov_pairs := fun _ => same ["state"%string; "mesh_coords"%string]; ov_marked := false;
  ov_needs := fun a => ["state"%string; a; "mesh_coords"%string] |}.
(** electromag_integ.hpp:2124-2238 *)
Definition ov_DCDistribution := {| ov_region := Domain;
  ov_pairs := fun _ => same ["mesh_coords"%string; "temperature"%string; "strand_radius"%string; "wire_length"%string;
    "strands_in_hand"%string; "rms_current"%string; "stack_length"%string; "winding_volume"%string];
  ov_marked := true; ov_needs := fun a => ["mesh_coords"%string; "temperature"%string; "state"%string; a] |}.
(** electromag_integ.hpp:2801-2936 *)
Definition ov_ACDistribution := {| ov_region := Domain;
  ov_pairs := fun _ => same ["mesh_coords"%string; "peak_flux"%string; "temperature"%string; "frequency"%string; "strand_radius"%string;
    "strands_in_hand"%string; "num_turns"%string; "num_slots"%string; "winding_volume"%string];
  ov_marked := true; ov_needs := fun a => ["mesh_coords"%string; "peak_flux"%string; "temperature"%string; "state"%string; a] |}.
(** electromag_integ.hpp:3844-3911 *)
Definition ov_CAL2Distribution := {| ov_region := Domain;
  ov_pairs := fun _ => same ["mesh_coords"%string; "peak_flux"%string; "temperature"%string; "frequency"%string]; ov_marked := true;
  ov_needs := fun a => ["mesh_coords"%string; "peak_flux"%string; "temperature"%string; "state"%string; a] |}.

Definition overloads : list overload :=
  map ov_default [Domain; Boundary; InternalBoundary; InteriorFace] ++
  [ov_BoundaryNormal; ov_Volume; ov_functional; ov_Force; ov_DCLoss; ov_ACLoss; ov_Steinmetz; ov_CAL2; ov_Diffusion; ov_Outflux;
   ov_DGFace InteriorFace; ov_DGFace InternalBoundary; ov_Contact InteriorFace; ov_Contact InternalBoundary;
   ov_InternalConvection InteriorFace; ov_InternalConvection InternalBoundary; ov_Convection; ov_DomainLF; ov_Magnetization;
   ov_CurlCurl; ov_DCDistribution; ov_ACDistribution; ov_CAL2Distribution].

(** a form: the integrators of its value and, in output_sens / rev_sens and the scalar maps, those of its sensitivities,
    each with the marker MFEM was given.  Simplification: one list stands for the field map and the scalar map (a name is
    never in both). *)
Definition marker := option (list Z).
Record form := { vals : list (region * marker * (env -> nat -> R)); sens : list (string * (region * marker * (nat -> env -> nat -> R))) }.
Definition empty : form := {| vals := []; sens := [] |}.

(** how an add call ends: normally, with the std::out_of_range of fields.at, or with undefined behaviour; the class may
    also have no such function *)
Inductive outcome := Ok (f : form) | Throws | Undefined | NoSuchCall.

(** form.Add…Integrator(integrator[, marker]) followed by the overload; the field names are those of the form's map *)
Definition attach (fields : list string) (nm : string) (I : integrator) (r : region) (mkv mks : marker) (f : form) : outcome :=
  if forallb (fun n => existsb (String.eqb n) fields) (ov_needs (over I) nm) then
    Ok {| vals := vals f ++ [(r, mkv, energy I)];
          sens := sens f ++ map (fun p => (fst p, (r, if ov_marked (over I) then mks else None, grad I (snd p)))) (ov_pairs (over I) (inst I)) |}
  else Throws.

Definition with_marker (size : option Z) (attrs : list Z) (k : list Z -> outcome) : outcome :=
  match newMarker size attrs with Some mk => k mk | None => Undefined end.

(** FunctionalOutput::addOutput{Domain,BdrFace,InteriorFace}Integrator, addInternalBoundaryFaceIntegrator
    (functional_output.hpp:162-264) *)
Definition fo_add (m : mesh) (fields : list string) (nm : string) (r : region) (attrs : option (list Z)) (I : integrator) (f : form) : outcome :=
  match r, attrs with
  | _, None => attach fields nm I r None None f
  | Domain, Some a => with_marker (attributes_Max m) a (fun mk => attach fields nm I r (Some mk) (Some mk) f)
  | Boundary, Some a | InternalBoundary, Some a =>
      with_marker (bdr_attributes_Max m) a (fun mk => attach fields nm I r (Some mk) (Some mk) f)
  | InteriorFace, Some _ => NoSuchCall
  end.

(** MISOLinearForm::add{Domain,Boundary,BdrFace,InternalBoundaryFace}Integrator (miso_linearform.hpp:180-320) *)
Definition lf_add (m : mesh) (fields : list string) (nm : string) (r : region) (attrs : option (list Z)) (I : integrator) (f : form) : outcome :=
  match r, attrs with
  | InteriorFace, _ => NoSuchCall
  | _, None => attach fields nm I r None None f
  | Domain, Some a => with_marker (attributes_Max m) a (fun mk => attach fields nm I r (Some mk) (Some mk) f)
  | _, Some a => with_marker (bdr_attributes_Max m) a (fun mk => attach fields nm I r (Some mk) (Some mk) f)
  end.

(** MISONonlinearForm::add{Domain,InteriorFace,BdrFace,InternalBoundaryFace}Integrator (miso_nonlinearform.hpp:219-340):
    the attribute-restricted domain version sizes its marker by the boundary attributes (240) and adds the integrator
    without it (243), but hands it to the sensitivities (244-251) *)
Definition nf_add (m : mesh) (fields : list string) (nm : string) (r : region) (attrs : option (list Z)) (I : integrator) (f : form) : outcome :=
  match r, attrs with
  | _, None => attach fields nm I r None None f
  | Domain, Some a => with_marker (bdr_attributes_Max m) a (fun mk => attach fields nm I r None (Some mk) f)
  | Boundary, Some a | InternalBoundary, Some a =>
      with_marker (bdr_attributes_Max m) a (fun mk => attach fields nm I r (Some mk) (Some mk) f)
  | InteriorFace, Some _ => NoSuchCall
  end.

(** a sequence of add calls on a form under construction *)
Record request := { rq_region : region; rq_attrs : option (list Z); rq_integ : integrator }.
Definition adder := mesh -> list string -> string -> region -> option (list Z) -> integrator -> form -> outcome.
Fixpoint build (add : adder) (m : mesh) (fields : list string) (nm : string) (l : list request) (f : form) : outcome :=
  match l with
  | [] => Ok f
  | q :: r => match add m fields nm (rq_region q) (rq_attrs q) (rq_integ q) f with Ok f' => build add m fields nm r f' | o => o end
  end.

(** marker[attr - 1] *)
Definition read (mk : list Z) (a : Z) : option Z :=
  if (1 <=? a)%Z then nth_error mk (Z.to_nat (a - 1)) else None.
(** MFEM's assembly loop for one integrator: skip the items whose attribute is not marked; a marker too short for an
    item's attribute is read out of range (None; newer MFEM aborts instead) *)
Fixpoint assemble (mk : marker) (l : list (Z * nat)) (f : nat -> R) : option R :=
  match l with
  | [] => Some 0
  | (a, i) :: r =>
      match (match mk with None => Some 1%Z | Some mk' => read mk' a end) with
      | None => None
      | Some b => match assemble mk r f with Some s => Some (if (b =? 0)%Z then s else f i + s) | None => None end
      end
  end.
Definition oplus (a b : option R) : option R := match a, b with Some x, Some y => Some (x + y) | _, _ => None end.
(** the assembled value (GetEnergy, or the adjoint-weighted residual or load) *)
Definition value (m : mesh) (f : form) (e : env) : option R :=
  fold_right (fun t s => match t with (r, mk, g) => oplus (assemble mk (items m r) (g e)) s end) (Some 0) (vals f).
(** component k of the sensitivity with respect to the named input; nothing registered gives zero
    (functional_output.cpp and the forms' products skip an absent name) *)
Definition sensitivity (m : mesh) (f : form) (name : string) (k : nat) (e : env) : option R :=
  fold_right (fun t s => match t with (n, (r, mk, g)) => if String.eqb n name then oplus (assemble mk (items m r) (g k e)) s else s end)
    (Some 0) (sens f).
