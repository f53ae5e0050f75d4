(** From options to the two-dimensional magnetostatic residual with its load:
    src/physics/electromagnetics/magnetostatic_residual.cpp:49-75, 86-121, 231-388.

    The form is magnetConfig of ThermalOptions.v, the current density that of Current.v, the magnets' table and integrator
    those of Magnet.v; the load's integrators are added to a MISOLinearForm with a marker (miso_linearform.hpp:193-212).
    Simplifications: the objects under "current" and "magnets" are read before anything else about them happens, and arrays
    in their place are not represented; the preconditioner and setOptions (essential dofs, C22, C67) are left out; the three
    dimensional case is only told apart (its loads are C94, C99). *)
From Coq Require Import Reals List String Bool ZArith.
From Verif Require Import Vec Inputs Options BdrArray CoefMix EmCoef EmInteg Current Magnet FlowOptions ThermalOptions.
Import ListNotations.
Local Open Scope R_scope.
Local Open Scope string_scope.

(** an exception of the options is an exception of the constructor *)
Definition lift {A} (x : FlowOptions.outcome A) : ret A :=
  match x with FlowOptions.Ok a => Ret a | ThrowMISO => Throws | ThrowType => Throws | FlowOptions.Undefined => UB end.
(** group -> source -> attributes, :52-58, :66-72 *)
Fixpoint sources (m : list (string * opts)) : FlowOptions.outcome (list (string * list Z)) :=
  match m with
  | [] => FlowOptions.Ok []
  | (s, a) :: r => do l <- asInts a; do t <- sources r; FlowOptions.Ok ((s, l) :: t)
  end.
Definition source_object (j : opts) : FlowOptions.outcome (list (string * list Z)) :=
  match j with JObj m => sources m | JNull => FlowOptions.Ok [] | _ => ThrowType end.
Fixpoint groups (m : list (string * opts)) : FlowOptions.outcome Current.options :=
  match m with
  | [] => FlowOptions.Ok []
  | (g, j) :: r => do l <- source_object j; do t <- groups r; FlowOptions.Ok ((g, l) :: t)
  end.
Definition group_object (j : opts) : FlowOptions.outcome Current.options :=
  match j with JObj m => groups m | JNull => FlowOptions.Ok [] | _ => ThrowType end.
(** getCurrentAttributes and getMagnetAttributes, :49-75, are currentAttributes of Current.v *)

(** current_coeff and mag_coeff with the marker of their integrator *)
Record mresidual := { r_form : config; r_current : option (cd * list Z); r_magnets : option (magnet_table * list Z) }.
(** :338-365 *)
Definition currentPart (nelem : nat) (o : opts) : ret (option (cd * list Z)) :=
  if contains o "current" then
    rbind (lift (do j <- sub o "current"; group_object j)) (fun g =>
    rbind (construct known2d g) (fun c =>
    rbind (lift (marker nelem (currentAttributes g))) (fun m => Ret (Some (c, m)))))
  else Ret None.
(** :366-383; fields.find("temperature")->second of a map without that field is undefined behaviour *)
Definition magnetPart (nelem : nat) (materials : list (string * jobj)) (hasTemperature : bool) (o : opts) : ret (option (magnet_table * list Z)) :=
  if contains o "magnets" then
    rbind (lift (do j <- sub o "magnets"; group_object j)) (fun g =>
    rbind (Magnet.magnets materials g) (fun t =>
    if hasTemperature then rbind (lift (marker nelem (currentAttributes g))) (fun m => Ret (Some (t, m))) else UB))
  else Ret None.
Definition residual2D (nattr nelem : nat) (materials : list (string * jobj)) (hasTemperature : bool) (o : opts) : ret mresidual :=
  rbind (lift (magnetConfig nattr o)) (fun form =>
  rbind (currentPart nelem o) (fun c =>
  rbind (magnetPart nelem materials hasTemperature o) (fun m =>
  Ret {| r_form := form; r_current := c; r_magnets := m |}))).
(** the constructor, :231-388: None stands for the three-dimensional residual *)
Definition residual (space_dim nattr nelem : nat) (materials : list (string * jobj)) (hasTemperature : bool) (o : opts) : ret (option mresidual) :=
  if Nat.eqb space_dim 3 then Ret None
  else if Nat.eqb space_dim 2 then rbind (residual2D nattr nelem materials hasTemperature o) (fun r => Ret (Some r))
  else Throws.
(** setInputs, :86-94 *)
Definition r_setInputs (l : inputs) (r : mresidual) : ret mresidual :=
  match r_current r with
  | None => Ret r
  | Some (c, m) => rbind (cd_setInputs l c) (fun p => Ret {| r_form := r_form r; r_current := Some (fst p, m); r_magnets := r_magnets r |})
  end.
Fixpoint r_history (h : list inputs) (r : mresidual) : ret mresidual :=
  match h with [] => Ret r | l :: t => rbind (r_setInputs l r) (r_history t) end.

(** an element as the three domain integrators see it: [me] for diffusion; for the current (rule of order 2 p - 2) the
    weights times the Jacobian's determinant, positions and shape functions at the points; for the magnets (order 2 p - 1 or
    2 p + dim - 1) weights, dshape, adjugate Jacobian, positions and temperature at the points, and the reluctivity of the
    element's material as a function of the state it is given (which is here the temperature, C77) *)
Record melem := { me : telem; me_attr : Z;
  cu_nq : nat; cu_w : nat -> R; cu_x : nat -> vec; cu_N : nat -> nat -> R;
  ma_nq : nat; ma_pw : nat -> R; ma_shape : nat -> mat; ma_Adj : nat -> mat; ma_x : nat -> vec; ma_T : nat -> R; ma_nu : R -> R }.
Record mmesh := { melems : list melem; minner : list tface; mouter : list tface }.
Definition asTmesh (M : mmesh) : tmesh := {| elems := map me (melems M); inner := minner M; outer := mouter M |}.
(** MFEM visits an element whose attribute's marker is not zero *)
Definition marked (m : list Z) (a : Z) : bool := (1 <=? a)%Z && negb (Z.eqb (nth (Z.to_nat (a - 1)) m 0%Z) 0).
(** miso::DomainLFIntegrator(current), alpha 1: mfem_common_integ.hpp:1204-1216 *)
Definition currentVector (c : cd) (e : melem) : vec := fun i =>
  rsum (cu_nq e) (fun q => cu_w e q * cd_Eval2D c (me_attr e) (cu_x e q) * cu_N e q i).
(** values at the points 0 .. n-1, as long as none stops the program *)
Fixpoint at_points (n : nat) (f : nat -> ret vec) : ret (nat -> vec) :=
  match n with
  | O => Ret (fun _ _ => 0)
  | S m => rbind (at_points m f) (fun g => rbind (f m) (fun v => Ret (fun q => if Nat.eqb q m then v else g q)))
  end.
(** MagnetizationSource2DIntegrator(nuM, temperature, 1) *)
Definition magnetVector (t : magnet_table) (e : melem) : ret vec :=
  rbind (at_points (ma_nq e) (fun q => nuM_eval (ma_nu e) t (me_attr e) (ma_x e q) (ma_T e q))) (fun f =>
  Ret (ms_vector 1 (ma_nq e) (ma_pw e) 1 (ma_shape e) (fun _ _ => 0) (fun q _ => ma_Adj e q) (fun q _ _ => f q) (fun _ _ => 0) (fun _ => 0))).
(** Assemble *)
Fixpoint assemble (keep : Z -> bool) (f : melem -> ret vec) (l : list melem) : ret vec :=
  match l with
  | [] => Ret (fun _ => 0)
  | e :: r => rbind (assemble keep f r) (fun w =>
      if keep (me_attr e) then rbind (f e) (fun x => Ret (fun d => scatter (el_n (me e)) (el_glob (me e)) x d + w d)) else Ret w)
  end.
Definition loadVector (M : mmesh) (r : mresidual) : ret vec :=
  rbind (match r_current r with None => Ret (fun _ => 0) | Some (c, m) => assemble (marked m) (fun e => Ret (currentVector c e)) (melems M) end) (fun a =>
  rbind (match r_magnets r with None => Ret (fun _ => 0) | Some (t, m) => assemble (marked m) (magnetVector t) (melems M) end) (fun b =>
  Ret (fun d => a d + b d))).
(** evaluate, :102-121: the form's vector, inputs to the current, addLoad *)
Definition r_evaluate (M : mmesh) (l : inputs) (u : vec) (r : mresidual) : ret (vec * mresidual) :=
  rbind (r_setInputs l r) (fun r1 => rbind (loadVector M r1) (fun b =>
  Ret (fun d => formVector (asTmesh M) (r_form r) u d + b d, r1))).
