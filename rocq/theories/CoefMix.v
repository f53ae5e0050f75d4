(** Model of composite materials: the four weighted coefficients, setInputs on a mesh-dependent coefficient, and the
    three constructMaterial...Coefficient functions of src/common/coefficient.cpp.  Exact reals. *)
From Coq Require Import Reals ZArith String List Bool.
From Verif Require Import Vec Inputs Coef.
Import ListNotations.
Local Open Scope R_scope.

(** HashinShtrikmanWeightedCoefficient, dHashin..., WeightedAverageCoefficient, dWeightedAverage...
    (coefficient.hpp:249-433): the constructor sorts the two values and starts with weight 0.5 *)
Inductive kind := HS | dHS | Avg | dAvg.
Record mix := { mkind : kind; val1 : R; val2 : R; weight : R; weighted_by : string }.
Definition mkmix (k : kind) (v1 v2 : R) (by_ : string) : mix :=
  {| mkind := k; val1 := if Rlt_dec v2 v1 then v1 else v2; val2 := if Rlt_dec v2 v1 then v2 else v1; weight := 1 / 2;
     weighted_by := by_ |}.
(** the Eval methods, coefficient.cpp:23-29, 36-42, 49-53, 60-64 *)
Definition mixval (m : mix) : R :=
  let w := weight m in let a := val1 m in let b := val2 m in
  match mkind m with
  | HS => b * ((1 + w) * a + (1 - w) * b) / ((1 - w) * a + (1 + w) * b)
  | dHS => - (2 * b * (b - a) * (a + b)) / (a * - w + a + b * w + b) ^ 2
  | Avg => w * a + (1 - w) * b
  | dAvg => a - b
  end.
(** their setInputs, coefficient.cpp:31-34, 44-47, 55-58, 66-69 (error_if_not_found is false by default) *)
Definition mix_setInputs (l : inputs) (m : mix) : outcome mix :=
  match setValueFromInputs l (weighted_by m) (weight m) false with
  | Ok w => Ok {| mkind := mkind m; val1 := val1 m; val2 := val2 m; weight := w; weighted_by := weighted_by m |}
  | MISOException => MISOException
  | BadVariantAccess => BadVariantAccess
  end.

(** entries of the coefficient built from materials: mfem::ConstantCoefficient or one of the above *)
Inductive entry := Const (v : R) | Mix (m : mix).
Definition entry_val (e : entry) : R := match e with Const v => v | Mix m => mixval m end.
(** as a coefficient object: the weighted ones are StateCoefficients whose Eval ignores the state and whose derivative is
    0; their EvalRevDiff does nothing (coefficient.hpp:260-283); mfem::ConstantCoefficient depends on nothing *)
Definition entry_coef (e : entry) : coef :=
  match e with
  | Const v => Plain (fun _ => v) (fun _ _ P => Acc P)
  | Mix m => One (fun _ _ => mixval m) (fun _ _ => 0) (fun _ _ => 0) (fun _ _ _ P => Acc P)
  end.
Definition table := list (Z * entry).
Definition table_mesh (t : table) : meshcoef :=
  {| material_map := map (fun p => (fst p, entry_coef (snd p))) t; default_coeff := None |}.
(** MeshDependentCoefficient::setInputs, coefficient.cpp:294-312: every StateCoefficient of the map in turn *)
Fixpoint table_setInputs (l : inputs) (t : table) : outcome table :=
  match t with
  | [] => Ok []
  | (a, Const v) :: r => match table_setInputs l r with Ok r' => Ok ((a, Const v) :: r') | e => e end
  | (a, Mix m) :: r =>
    match mix_setInputs l m with
    | Ok m' => match table_setInputs l r with Ok r' => Ok ((a, Mix m') :: r') | e => e end
    | MISOException => MISOException
    | BadVariantAccess => BadVariantAccess
    end
  end.
(** a history of setInputs calls, none of which threw *)
Fixpoint table_history (h : list inputs) (t : table) : outcome table :=
  match h with
  | [] => Ok t
  | l :: r => match table_setInputs l t with Ok t' => table_history r t' | e => e end
  end.

(** ---- the options ---- a component: its material and its attributes; a material: property name -> value *)
Record component := { cmaterial : string; cattr : option Z; cattrs : option (list Z) }.
Inductive prop :=
| PNum (v : R)
| PObj (mats : option (list string)) (wby wt : string)       (* "materials" (None: not an array), "weighted_by", "weight" *)
| POther.                                                      (* a string, an array, ... *)
Definition material := list (string * prop).
Definition materials := list (string * material).
Fixpoint sfind {A} (k : string) (l : list (string * A)) : option A :=
  match l with [] => None | (k', v) :: r => if String.eqb k k' then Some v else sfind k r end.

(** results: a coefficient; a json or MISO exception; mfem_error (duplicate attribute); undefined behaviour (operator[] of
    a const json with a missing key, vector indexed past its end) *)
Inductive built (A : Type) := Built (a : A) | Threw | MfemError | Undefined.
Arguments Built {A}. Arguments Threw {A}. Arguments MfemError {A}. Arguments Undefined {A}.

(** the attributes a component applies to: "attr", -1 meaning absent, else every entry of "attrs" *)
Definition attributes (c : component) : built (list Z) :=
  let attr := match cattr c with Some a => a | None => (-1)%Z end in
  if Z.eqb attr (-1) then match cattrs c with Some l => Built l | None => Undefined end else Built [attr].
Fixpoint add_all (t : table) (l : list Z) (e : entry) : built table :=
  match l with
  | [] => Built t
  | a :: r => match addCoefficient t a e with Some t' => add_all t' r e | None => MfemError end
  end.
Definition add_entry (t : table) (c : component) (e : entry) : built table :=
  match attributes c with Built l => add_all t l e | Threw => Threw | MfemError => MfemError | Undefined => Undefined end.

(** the values of the composing materials, coefficient.cpp:383-391: json get<double>() of a non-number throws *)
Fixpoint comp_vals (ms : materials) (name : string) (l : list string) : built (list R) :=
  match l with
  | [] => Built []
  | n :: r =>
    match sfind n ms with
    | None => Undefined
    | Some m =>
      match sfind name m with
      | None => Undefined
      | Some (PNum v) => match comp_vals ms name r with Built vs => Built (v :: vs) | e => e end
      | Some _ => Threw
      end
    end
  end.
Definition kind_of (wt : string) : option kind :=
  if String.eqb wt "Hashin-Shtrikman" then Some HS else if String.eqb wt "dHashin-Shtrikman" then Some dHS
  else if String.eqb wt "average" then Some Avg else if String.eqb wt "daverage" then Some dAvg else None.

(** constructMaterialCoefficient, coefficient.cpp:314-485, one component *)
Definition step1 (name : string) (ms : materials) (default_val : R) (t : table) (c : component) : built table :=
  match sfind (cmaterial c) ms with
  | None => Undefined
  | Some m =>
    match sfind name m with
    | None => Built t
    | Some (PNum v) => add_entry t c (Const v)
    | Some (PObj None _ _) => Threw
    | Some (PObj (Some l) wby wt) =>
      match comp_vals ms name l with
      | Built vals =>
        match kind_of wt with
        | None => Built t
        | Some k =>
          match attributes c with
          | Built [] => Built t
          | _ => match vals with
                 | v0 :: v1 :: _ => add_entry t c (Mix (mkmix k v0 v1 wby))
                 | _ => Undefined
                 end
          end
        end
      | Threw => Threw | MfemError => MfemError | Undefined => Undefined
      end
    | Some POther => Built t
    end
  end.
Fixpoint build1 (name : string) (ms : materials) (default_val : R) (cs : list component) (t : table) : built table :=
  match cs with
  | [] => Built t
  | c :: r => match step1 name ms default_val t c with Built t' => build1 name ms default_val r t' | e => e end
  end.
Definition constructMaterialCoefficient (name : string) (cs : list component) (ms : materials) (default_val : R)
  : built table := build1 name ms default_val cs [].

(** constructMaterialTwoStateCoefficient (:855-906) and ...ThreeState... (:1587-1639): the same function.  A material here
    also has its core_loss.steinmetz member, [None] when absent (const operator[]: undefined) *)
Record material2 := { props : material; steinmetz : option material }.
Definition value_or (name : string) (m : material) (d : R) : built R :=
  match sfind name m with None => Built d | Some (PNum v) => Built v | Some _ => Threw end.
Definition is_steinmetz (name : string) : bool :=
  String.eqb name "ks" || String.eqb name "alpha" || String.eqb name "beta".
Definition step2 (name : string) (ms : list (string * material2)) (default_val : R) (t : table) (c : component)
  : built table :=
  match sfind (cmaterial c) ms with
  | None => Undefined
  | Some m =>
    match (if is_steinmetz name then match steinmetz m with Some s => value_or name s default_val | None => Undefined end
           else value_or name (props m) default_val) with
    | Built v => add_entry t c (Const v)
    | Threw => Threw | MfemError => MfemError | Undefined => Undefined
    end
  end.
Fixpoint build2 (name : string) (ms : list (string * material2)) (default_val : R) (cs : list component) (t : table)
  : built table :=
  match cs with
  | [] => Built t
  | c :: r => match step2 name ms default_val t c with Built t' => build2 name ms default_val r t' | e => e end
  end.
Definition constructMaterialStateCoefficient (name : string) (cs : list component) (ms : list (string * material2))
  (default_val : R) : built table := build2 name ms default_val cs [].
