(** From options to the terms of a thermal residual and of a two-dimensional magnetostatic residual, and the vector they
    assemble: src/physics/thermal/thermal_residual.cpp:162-373, src/physics/thermal/thermal.cpp:19-50,
    src/physics/electromagnetics/magnetostatic_residual.cpp:250-330, src/physics/miso_nonlinearform.hpp:206-339.

    Options are those of FlowOptions.v (const json).  An array kept as [LBad] has an element that is no number and no object:
    arrays of objects under "interfaces" are not represented.  Coefficients, preconditioners and printing are left out, and so
    is setOptions of the form of the solver, thermal.cpp:31, which concerns the essential dofs of continuous spaces
    (C22, C67).  The space's global vectors are indexed by numbers; one rank. *)
From Coq Require Import Reals List String Bool ZArith.
From Verif Require Import Vec Inputs Options BdrArray EmInteg Thermal DgFace FlowOptions.
Import ListNotations.
Local Open Scope R_scope.
Local Open Scope string_scope.

Definition isArray (j : opts) : bool := match j with JLeaf (LInts _) | JLeaf LBad => true | _ => false end.
Definition isObject (j : opts) : bool := match j with JObj _ => true | _ => false end.
Definition valueReal (j : opts) (k : string) (dflt : R) : outcome R :=
  match j with JObj m => match find k m with Some v => asReal v | None => Ok dflt end | _ => ThrowType end.
Definition asString (j : opts) : outcome string := match j with JLeaf (LStr s) => Ok s | _ => ThrowType end.
(** basic_json::items(): members of an object, elements of an array (their keys are indices, which name no kind of
    interface), a value of another kind once under the empty key, null never *)
Definition items (j : opts) : list (string * opts) :=
  match j with
  | JObj m => m
  | JNull => []
  | JLeaf (LInts l) => map (fun z => ("0", JLeaf (LInt z))) l
  | JLeaf LBad => [("0", JNull)]
  | JLeaf _ => [("", j)]
  end.

(** what is added, and where: addDomainIntegrator, addInteriorFaceIntegrator, addBdrFaceIntegrator and
    addInternalBoundaryFaceIntegrator with their markers *)
Inductive term := Diffusion | Sipg (mu alpha : R) | Weak (mu : R) | Exchange (g : integ).
Inductive place := OnDomain | OnInterior | OnBoundary (marker : list Z) | OnInternal (marker : list Z).
Definition config := list (place * term).

(** basis_type == "L2" || "l2" || "DG" || "dg", thermal_residual.cpp:185-186 *)
Definition isDG (basis : string) : bool :=
  String.eqb basis "L2" || String.eqb basis "l2" || String.eqb basis "DG" || String.eqb basis "dg".
(** mu, :188-193 and five more times; the exponent is 2, in the magnetostatic residual 3 *)
Definition penalty (p : nat) (o : opts) : outcome R :=
  do sd <- sub o "space-dis";
  do mu <- valueReal sd "sipg-penalty" (-1);
  if Rlt_dec mu 0 then do d <- sub sd "degree"; do d <- asReal d; Ok ((d + 1) ^ p)%R else Ok mu.
(** the marker of mesh.bdr_attributes.Max() entries, miso_nonlinearform.hpp:286-288, 326-328 *)
Definition marker (nattr : nat) (attrs : list Z) : outcome (list Z) :=
  match attrVecToArray attrs (repeat 0%Z nattr) with Some m => Ok m | None => Undefined end.
Definition onBoundary (nattr : nat) (attrs : list Z) (t : term) : outcome config :=
  do m <- marker nattr attrs; Ok [(OnBoundary m, t)].
Definition onInternal (nattr : nat) (attrs : list Z) (t : term) : outcome config :=
  do m <- marker nattr attrs; Ok [(OnInternal m, t)].

(** :205-226 *)
Definition convectionTerm (nattr : nat) (bcs : opts) : outcome config :=
  if contains bcs "convection" then
    do bc <- sub bcs "convection";
    if isArray bc then do l <- asInts bc; onBoundary nattr l (Exchange (ConvectionBC 1 1 1))
    else if isObject bc then
      do a <- sub bc "attrs"; do l <- asInts a;
      do h <- valueReal bc "h" 1; do t <- valueReal bc "fluid_temp" 1;
      onBoundary nattr l (Exchange (ConvectionBC h t 1))
    else onBoundary nattr [] (Exchange (ConvectionBC 1 1 1))
  else Ok [].
(** :228-246 *)
Definition outfluxTerm (nattr : nat) (bcs : opts) : outcome config :=
  if contains bcs "outflux" then
    do bc <- sub bcs "outflux";
    if isArray bc then do l <- asInts bc; onBoundary nattr l (Exchange (OutfluxBC 1 1))
    else if isObject bc then
      do a <- sub bc "attrs"; do l <- asInts a;
      do f <- valueReal bc "flux" 1;
      onBoundary nattr l (Exchange (OutfluxBC f 1))
    else onBoundary nattr [] (Exchange (OutfluxBC 1 1))
  else Ok [].
(** :248-301: the condition named key; "essential" only on discontinuous spaces *)
Definition weakTerm (p nattr : nat) (o bcs : opts) (key : string) : outcome config :=
  if contains bcs key then
    do e <- sub bcs key;
    if isArray e then do l <- asInts e; do mu <- penalty p o; onBoundary nattr l (Weak mu)
    else ThrowMISO
  else Ok [].

(** :303-371: one member of "interfaces" *)
Fixpoint forItems (f : string -> opts -> outcome config) (l : list (string * opts)) : outcome config :=
  match l with
  | [] => Ok []
  | (k, v) :: r => do a <- f k v; do b <- forItems f r; Ok (a ++ b)%list
  end.
Definition contactTerms (nattr : nat) (o : opts) (name : string) (intr : opts) : outcome config :=
  do a <- sub intr "attrs"; do l <- asInts a;
  do mu <- penalty 2 o;
  do t1 <- onInternal nattr l (Sipg mu (-1));
  do h <- sub intr "h"; do h <- asReal h;
  do t2 <- onInternal nattr l (Exchange (Contact name h 1));
  Ok (t1 ++ t2)%list.
Definition internalConvectionTerms (nattr : nat) (o : opts) (name : string) (intr : opts) : outcome config :=
  do a <- sub intr "attrs"; do l <- asInts a;
  do mu <- penalty 2 o;
  do t1 <- onInternal nattr l (Sipg mu (-1));
  do h <- sub intr "h"; do h <- asReal h;
  do t <- sub intr "fluid_temp"; do t <- asReal t;
  do t2 <- onInternal nattr l (Exchange (InternalConvection name h t 1));
  Ok (t1 ++ t2)%list.
Definition interfaceTerms (nattr : nat) (o : opts) : outcome config :=
  if contains o "interfaces" then
    do i <- sub o "interfaces";
    forItems (fun kind interface =>
      if String.eqb kind "thermal_contact_resistance" then forItems (contactTerms nattr o) (items interface)
      else if String.eqb kind "convection" then forItems (internalConvectionTerms nattr o) (items interface)
      else Ok []) (items i)
  else Ok [].

Definition interiorTerm (p : nat) (o : opts) (basis : string) : outcome config :=
  if isDG basis then do mu <- penalty p o; Ok [(OnInterior, Sipg mu 1)] else Ok [].
(** ThermalResidual::ThermalResidual, :162-373 *)
Definition thermalConfig (nattr : nat) (o : opts) : outcome config :=
  do sd <- sub o "space-dis"; do b <- sub sd "basis-type"; do basis <- asString b;
  do t1 <- interiorTerm 2 o basis;
  do t2 <- (if contains o "bcs" then
      do bcs <- sub o "bcs";
      do c <- convectionTerm nattr bcs;
      do f <- outfluxTerm nattr bcs;
      do e <- (if isDG basis then weakTerm 2 nattr o bcs "essential" else Ok []);
      do w <- weakTerm 2 nattr o bcs "weak-essential";
      Ok (c ++ f ++ e ++ w)%list
    else Ok []);
  do t3 <- interfaceTerms nattr o;
  Ok ((OnDomain, Diffusion) :: t1 ++ t2 ++ t3)%list.
(** MagnetostaticResidual::MagnetostaticResidual in two dimensions without its load, magnetostatic_residual.cpp:259-330 *)
Definition magnetConfig (nattr : nat) (o : opts) : outcome config :=
  do sd <- sub o "space-dis"; do b <- sub sd "basis-type"; do basis <- asString b;
  do t1 <- interiorTerm 3 o basis;
  do t2 <- (if contains o "bcs" then
      do bcs <- sub o "bcs";
      do e <- (if isDG basis then weakTerm 3 nattr o bcs "essential" else Ok []);
      do w <- weakTerm 3 nattr o bcs "weak-essential";
      Ok (e ++ w)%list
    else Ok []);
  Ok ((OnDomain, Diffusion) :: t1 ++ t2)%list.

(** the mesh as the terms see it; [el_nu] and [el_dnu] are the coefficient and its EvalStateDeriv at a point of the rule *)
Record telem := { el_n : nat; el_dim : nat; el_nq : nat; el_pw : nat -> R; el_W : nat -> R; el_C : nat -> mat;
  el_nu : nat -> R -> R; el_dnu : nat -> R -> R; el_glob : nat -> nat }.
(** a face as both families of integrators see it; [tf_attr] is 0 on a face that is no boundary element *)
Record tface := { tf_attr : Z; tf_dg : DgFace.face; tf_s1 : side; tf_s2 : side; tf_th : Thermal.face;
  tf_XF : mat; tf_X1 : mat; tf_X2 : mat; tf_XT : mat; tf_g : nat -> nat -> R; tf_glob : nat -> nat }.
Record tmesh := { elems : list telem; inner : list tface; outer : list tface }.
Fixpoint lsum {A} (f : A -> R) (l : list A) : R := match l with [] => 0 | a :: r => f a + lsum f r end.
(** AddElementVector *)
Definition scatter (n : nat) (glob : nat -> nat) (v : vec) : vec := fun d => rsum n (fun i => if Nat.eqb (glob i) d then v i else 0).
Definition gather (glob : nat -> nat) (u : vec) : vec := fun i => u (glob i).
Definition elemVector (t : term) (e : telem) (u : vec) : vec :=
  match t with
  | Diffusion => elem_vector (el_n e) (el_dim e) (el_nq e) (el_pw e) (el_W e) (el_C e) (el_nu e) 1 (gather (el_glob e) u)
  | _ => fun _ => 0
  end.
(** length of the face's vector and its entries *)
Definition faceSize (t : term) (f : tface) : nat :=
  match t with
  | Diffusion => 0
  | Sipg _ _ => nd (tf_s1 f) + nd (tf_s2 f)
  | Weak _ => nd (tf_s1 f)
  | Exchange g => match g with Contact _ _ _ | InternalConvection _ _ _ _ => n1 (tf_th f) + n2 (tf_th f) | _ => n1 (tf_th f) end
  end.
Definition faceVector (t : term) (f : tface) (u : vec) : vec :=
  let x := gather (tf_glob f) u in
  match t with
  | Diffusion => fun _ => 0
  | Sipg mu alpha => int_vector (tf_dg f) (tf_s1 f) (tf_s2 f) mu alpha (tf_XF f) (tf_X1 f) (tf_X2 f) x
  | Weak mu => bdr_vector (tf_dg f) (tf_s1 f) (tf_g f) mu 1 (tf_XF f) (tf_X1 f) x
  | Exchange g => face_vector (tf_th f) (tf_XT f) g x
  end.
(** a boundary element is visited when the marker's entry of its attribute is not zero *)
Definition visited (m : list Z) (f : tface) : bool := (1 <=? tf_attr f)%Z && negb (Z.eqb (nth (Z.to_nat (tf_attr f - 1)) m 0%Z) 0).
Definition onFaces (keep : tface -> bool) (l : list tface) (t : term) (u : vec) : vec := fun d =>
  lsum (fun f => if keep f then scatter (faceSize t f) (tf_glob f) (faceVector t f u) d else 0) l.
Definition termVector (M : tmesh) (pt : place * term) (u : vec) : vec :=
  match fst pt with
  | OnDomain => fun d => lsum (fun e => scatter (el_n e) (el_glob e) (elemVector (snd pt) e u) d) (elems M)
  | OnInterior => onFaces (fun _ => true) (inner M) (snd pt) u
  | OnBoundary m => onFaces (visited m) (outer M) (snd pt) u
  | OnInternal m => onFaces (visited m) (inner M) (snd pt) u
  end.
(** ParNonlinearForm::Mult without essential dofs *)
Definition formVector (M : tmesh) (c : config) (u : vec) : vec := fun d => lsum (fun pt => termVector M pt u d) c.
