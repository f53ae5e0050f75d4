(** From options to the terms of a flow residual: the constructor of FlowResidual, setOptions_ and addFlow*Integrators,
    src/physics/fluidflow/flow_residual.cpp:84-134, 136-371, 391-417.

    The options are const inside: operator[] on a const json throws type_error 305 when the value is no object, and is
    undefined when the object has no such key; implicit conversions throw type_error 302 for a value of another kind.
    Comparisons between kinds order null < boolean < number < object < array < string (nlohmann::json). *)
From Coq Require Import Reals List String Bool ZArith.
From Verif Require Import Num Vec Euler Options BdrArray SbpMesh NavierStokes FlowJac ViscWall Aero EntropyRate.
Import ListNotations.
Local Open Scope string_scope.

(** leaves: an array is kept when all its elements convert to int, as [LBad] otherwise *)
Inductive leaf := LBool (b : bool) | LInt (z : Z) | LReal (r : R) | LStr (s : string) | LInts (l : list Z) | LBad.
Notation opts := (json leaf).

Inductive outcome (A : Type) := Ok (a : A) | ThrowMISO | ThrowType | Undefined.
Arguments Ok {A}. Arguments ThrowMISO {A}. Arguments ThrowType {A}. Arguments Undefined {A}.
Definition bind {A B} (x : outcome A) (f : A -> outcome B) : outcome B :=
  match x with Ok a => f a | ThrowMISO => ThrowMISO | ThrowType => ThrowType | Undefined => Undefined end.
Notation "'do' x <- e ; f" := (bind e (fun x => f)) (at level 200, x name, e at level 100, f at level 200).

(** basic_json: operator[] const, contains, value *)
Definition sub (j : opts) (k : string) : outcome opts :=
  match j with JObj m => match find k m with Some v => Ok v | None => Undefined end | _ => ThrowType end.
Definition contains (j : opts) (k : string) : bool := match j with JObj m => match find k m with Some _ => true | None => false end | _ => false end.
Definition asBool (j : opts) : outcome bool := match j with JLeaf (LBool b) => Ok b | _ => ThrowType end.
Definition asReal (j : opts) : outcome R := match j with JLeaf (LInt z) => Ok (IZR z) | JLeaf (LReal r) => Ok r | _ => ThrowType end.
(** to int: from a floating-point number by truncation, also from a boolean *)
Definition trunc (r : R) : Z := if Rle_dec 0 r then Int_part r else (- Int_part (- r))%Z.
Definition asInt (j : opts) : outcome Z :=
  match j with JLeaf (LInt z) => Ok z | JLeaf (LReal r) => Ok (trunc r) | JLeaf (LBool b) => Ok (if b then 1%Z else 0%Z) | _ => ThrowType end.
Definition asInts (j : opts) : outcome (list Z) := match j with JLeaf (LInts l) => Ok l | _ => ThrowType end.
Definition valueBool (j : opts) (k : string) (dflt : bool) : outcome bool :=
  match j with JObj m => match find k m with Some v => asBool v | None => Ok dflt end | _ => ThrowType end.
(** j == "text" *)
Definition equals (j : opts) (s : string) : bool := match j with JLeaf (LStr t) => String.eqb t s | _ => false end.
(** j > 0.0 *)
Definition positive (j : opts) : bool :=
  match j with
  | JNull => false
  | JObj _ => true
  | JLeaf (LBool _) => false
  | JLeaf (LInt z) => if Rlt_dec 0 (IZR z) then true else false
  | JLeaf (LReal r) => if Rlt_dec 0 r then true else false
  | JLeaf (LStr _) => true
  | JLeaf (LInts _) => true
  | JLeaf LBad => true
  end.

(** what setOptions_ reads, :391-417 *)
Record params := { p_visc : bool; p_mu : R; p_mach : R; p_aoa : R; p_Re : R; p_Pr : R; p_roll : Z; p_pitch : Z; p_entropy : bool }.
(** setOptions(res, options), miso_nonlinearform.cpp:37-53: no integrator has been added yet; the essential boundaries *)
Definition jval_of (j : opts) : jval :=
  match j with JLeaf (LStr s) => JStr s | JLeaf (LInts l) => JArr (map EInt l) | JLeaf LBad => JArr [EBad] | _ => JOther end.
Definition essential (nattr : nat) (o : opts) : outcome (list Z) :=
  if contains o "bcs" then
    do b <- sub o "bcs";
    if contains b "essential" then
      do e <- sub b "essential";
      match getMFEMBoundaryArray (jval_of e) (repeat 0%Z nattr) with
      | Ret a => Ok a | BdrArray.ThrowMISO _ => ThrowMISO | BdrArray.ThrowType _ => ThrowType | UB => Undefined
      end
    else Ok []
  else Ok [].
Definition setOptions_ (nattr : nat) (o : opts) : outcome (params * list Z) :=
  do im <- valueBool o "implicit" false;
  do f <- sub o "flow-param";
  do v <- sub f "viscous"; do v <- asBool v;
  do mu <- sub f "mu"; do mu <- asReal mu;
  do mach <- sub f "mach"; do mach <- asReal mach;
  do aoa <- sub f "aoa"; do aoa <- asReal aoa;
  do re <- sub f "Re"; do re <- asReal re;
  do pr <- sub f "Pr"; do pr <- asReal pr;
  do iroll <- sub f "roll-axis"; do iroll <- asInt iroll;
  do ipitch <- sub f "pitch-axis"; do ipitch <- asInt ipitch;
  do ent <- sub f "entropy-state"; do ent <- asBool ent;
  if (iroll =? ipitch)%Z then ThrowMISO
  else if ((iroll <? 0) || (2 <? iroll))%Z then ThrowMISO
  else if ((ipitch <? 0) || (2 <? ipitch))%Z then ThrowMISO
  else do e <- essential nattr o;
  Ok ({| p_visc := v; p_mu := mu; p_mach := mach; p_aoa := aoa * PI / 180; p_Re := re; p_Pr := pr; p_roll := iroll; p_pitch := ipitch; p_entropy := ent |}, e).

(** addFlowDomainIntegrators, :138-189.  The viscous MMS source is the three-dimensional one unless dim = 2 (:176-184) *)
Inductive dterm := DIsmailRoe | DEuler | DInviscidMMS | DLps (coeff : R) | DViscous (Re Pr mu : R) | DViscousMMS (Re Pr : R) (dim : nat).
Definition domainTerms (d : nat) (entvar : bool) (p : params) (flow space_dis : opts) : outcome (list dterm) :=
  do flux <- sub space_dis "flux-fun";
  do t1 <- (if equals flux "IR" then Ok [DIsmailRoe] else if entvar then ThrowMISO else Ok [DEuler]);
  do mms <- valueBool flow "inviscid-mms" false;
  let t2 := if mms then [DInviscidMMS] else [] in
  do lps <- sub space_dis "lps-coeff";
  do t3 <- (if positive lps then do c <- asReal lps; Ok [DLps c] else Ok []);
  do v <- sub flow "viscous"; do v <- asBool v;
  do t4 <- (if v then
              do vm <- valueBool flow "viscous-mms" false;
              Ok (DViscous (p_Re p) (p_Pr p) (p_mu p) :: (if vm then [DViscousMMS (p_Re p) (p_Pr p) (if Nat.eqb d 2 then 2 else 3)] else []))
            else Ok []);
  Ok (t1 ++ t2 ++ t3 ++ t4)%list.
(** addFlowInterfaceIntegrators, :192-209 *)
Definition interfaceTerms (flow space_dis : opts) : outcome (list R) :=
  do b <- sub space_dis "basis-type";
  if equals b "dsbp" then
    do c <- sub space_dis "iface-coeff"; do c <- asReal c;
    do v <- sub flow "viscous"; do v <- asBool v;
    if v then ThrowMISO else Ok [c]
  else Ok [].
(** addFlowBoundaryIntegrators, :212-371: for each condition in turn, if the options name it *)
Inductive bkind := KVortex | KSlip | KFarField | KPump | KControl | KViscSlip | KNoSlip | KViscMMS | KViscControl.
(** addBdrFaceIntegrator(integrator, attributes), miso_nonlinearform.hpp:280-304: the marker array, UB outside the mesh's
    boundary attributes *)
Definition bterm (nattr : nat) (bcs : opts) (name : string) (k : bkind) : outcome (list (bkind * list Z)) :=
  if contains bcs name then
    do a <- sub bcs name; do a <- asInts a;
    match attrVecToArray a (repeat 0%Z nattr) with Some m => Ok [(k, m)] | None => Undefined end
  else Ok [].
Definition inviscidTerms (d nattr : nat) (bcs : opts) : outcome (list (bkind * list Z)) :=
  do a <- (if contains bcs "vortex" && negb (Nat.eqb d 2) then ThrowMISO else bterm nattr bcs "vortex" KVortex);
  do b <- bterm nattr bcs "slip-wall" KSlip;
  do c <- bterm nattr bcs "far-field" KFarField;
  do e <- bterm nattr bcs "pump" KPump;
  do f <- bterm nattr bcs "control" KControl;
  Ok (a ++ b ++ c ++ e ++ f)%list.
Definition viscousTerms (nattr : nat) (bcs : opts) : outcome (list (bkind * list Z)) :=
  do a <- bterm nattr bcs "slip-wall" KViscSlip;
  do b <- bterm nattr bcs "no-slip-adiabatic" KNoSlip;
  do c <- bterm nattr bcs "far-field" KFarField;
  do e <- bterm nattr bcs "viscous-mms" KViscMMS;
  do f <- bterm nattr bcs "control" KViscControl;
  Ok (a ++ b ++ c ++ e ++ f)%list.
Definition boundaryTerms (d nattr : nat) (flow bcs : opts) : outcome (list (bkind * list Z)) :=
  do v <- sub flow "viscous"; do v <- asBool v;
  if v then viscousTerms nattr bcs else inviscidTerms d nattr bcs.

Record config := { c_par : params; c_ess : list Z; c_dom : list dterm; c_ifs : list R; c_bnd : list (bkind * list Z); c_steady : bool }.
(** FlowResidual::FlowResidual, :86-134, on SBP spaces (the mass integrator reads time-dis.steady, :126) *)
Definition flowConfig (d : nat) (entvar : bool) (nattr : nat) (o : opts) : outcome config :=
  do pe <- setOptions_ nattr o;
  if negb (contains o "flow-param") || negb (contains o "space-dis") then ThrowMISO else
  do flow <- sub o "flow-param";
  do space_dis <- sub o "space-dis";
  do dom <- domainTerms d entvar (fst pe) flow space_dis;
  do ifs <- interfaceTerms flow space_dis;
  do bnd <- (if contains o "bcs" then do bcs <- sub o "bcs"; boundaryTerms d nattr flow bcs else Ok []);
  do t <- sub o "time-dis"; do s <- sub t "steady"; do s <- asBool s;
  Ok {| c_par := fst pe; c_ess := snd pe; c_dom := dom; c_ifs := ifs; c_bnd := bnd; c_steady := s |}.

(** the entries of default_options (src/common/default_options.cpp:21-51) read here; the other entries are not *)
Definition dflt : opts := JObj [
  ("flow-param", JObj [("entropy-state", JLeaf (LBool false)); ("mach", JLeaf (LReal (1/2))); ("aoa", JLeaf (LReal 0)); ("roll-axis", JLeaf (LInt 0));
     ("pitch-axis", JLeaf (LInt 1)); ("viscous", JLeaf (LBool false)); ("Re", JLeaf (LReal 0)); ("Pr", JLeaf (LReal (72/100))); ("mu", JLeaf (LReal (-1)));
     ("inviscid-mms", JLeaf (LBool false)); ("viscous-mms", JLeaf (LBool false))]);
  ("space-dis", JObj [("degree", JLeaf (LInt 1)); ("lps-coeff", JLeaf (LReal 1)); ("iface-coeff", JLeaf (LReal 1)); ("basis-type", JLeaf (LStr "csbp")); ("flux-fun", JLeaf (LStr "IR"))]);
  ("time-dis", JObj [("steady", JLeaf (LBool false))])].

(** the boundary condition an inviscid term puts on a face, with the data the constructor gives it; [pos]: coordinates of
    the face nodes; the pump state at time t, :268-277 (it is written for two dimensions); the control's value is an input *)
Definition pumpState (t : R) : vec :=
  let uL := (5/100)%R in
  let xL := (uL * (1 - cos t))%R in
  let q0 := (1 / (1 - xL))%R in
  let q1 := (q0 * uL * sin t)%R in
  mk 2 q0 (fun i => match i with O => q1 | _ => 0%R end) (Rpower q0 gamma / gami + 1/2 * q1 * q1 / q0)%R.
Local Open Scope R_scope.
(** what the conditions take from outside the options: coordinates of the face nodes, the exact state there, the control
    input and its local scaling *)
Record bdata := { x_pos : vface -> nat -> vec; x_exact : vface -> nat -> vec; x_control : R; x_scale : vface -> nat -> R }.
(** getFreeStreamState, :821-825 *)
Definition freeStream (d : nat) (p : params) : vec := getFreeStreamQ d (p_mach p) (p_aoa p) (Z.to_nat (p_roll p)) (Z.to_nat (p_pitch p)).
Definition condition (d : nat) (p : params) (x : bdata) (t : R) (f : vface) (k : bkind) : bc + wall :=
  match k with
  | KVortex => inl (Vortex (x_pos x f))
  | KSlip => inl SlipWall
  | KFarField => inl (FarField (freeStream d p))
  | KPump => inl (EntropyConserve (fun _ => pumpState t))
  | KControl => inl (ControlWall (fun j => x_control x * x_scale x f j))
  | KViscSlip => inr ViscSlip
  | KNoSlip => inr (NoSlip (freeStream d p))
  | KViscMMS => inr (Exact (x_exact x f))
  | KViscControl => inr (Control (freeStream d p) (x_control x) (x_scale x f))
  end.
Definition viscosityOf (p : params) : viscosity := {| v_Re := p_Re p; v_Pr := p_Pr p; v_mu := p_mu p |}.
Definition with_wall (f : vface) (w : wall) : vface := {| w_el := w_el f; w_nf := w_nf f; w_idx := w_idx f; w_wt := w_wt f; w_nrm := w_nrm f; w_bc := w |}.
Definition with_flux (f : vface) (g : nat -> vec -> vec -> vec) : bface :=
  {| b_n := e_n (w_el f); b_nf := w_nf f; b_idx := w_idx f; b_wt := w_wt f; b_nrm := w_nrm f; b_glob := e_glob (w_el f); b_flux := g |}.
Definition faceVectorOf (d : nat) (entvar : bool) (p : params) (f : vface) (c : bc + wall) (u : nat -> vec) : nat -> nat -> R :=
  match c with
  | inl b => Sbp.boundaryVector (w_nf f) (d + 2) 1 (w_idx f) (w_wt f) (w_nrm f) (bcFlux d entvar b) u
  | inr w => faceResidual d (viscosityOf p) (with_wall f w) u
  end.
(** the volume terms; the manufactured sources (Mms) are taken as given *)
Definition volumeTerm (d : nat) (entvar : bool) (mms : bool -> element -> (nat -> vec) -> nat -> nat -> R) (t : dterm) : element -> (nat -> vec) -> nat -> nat -> R :=
  match t with
  | DIsmailRoe => irVector d entvar
  | DEuler => fun e u => Sbp.inviscidVector (e_n e) d (e_Q e) 1 (e_adj e) (calcEulerFlux d) u
  | DInviscidMMS => mms false
  | DLps c => lpsTerm d entvar c
  | DViscous re pr mu => viscousTerm d {| v_Re := re; v_Pr := pr; v_mu := mu |}
  | DViscousMMS _ _ _ => mms true
  end.
(** a boundary face is visited by the integrators whose marker entry of its attribute is not zero *)
Definition marked (m : list Z) (attr : nat) : bool := negb (Z.eqb (nth (attr - 1) m 0%Z) 0).
(** evaluate_: ParNonlinearForm::Mult (mfem) with these integrators; the essential entries are zeroed afterwards (Form) *)
Definition configResidual (d : nat) (entvar : bool) (mms : bool -> element -> (nat -> vec) -> nat -> nat -> R) (c : config) (x : bdata) (t : R)
    (E : list element) (F : list iface) (B : list (tagged vface)) (u : nat -> vec) : nat -> nat -> R :=
  let r := fold_left (fun r e => fold_left (fun r dt => scatter (e_n e) (d + 2) (e_glob e) (volumeTerm d entvar mms dt e (fun i => u (e_glob e i))) r) (c_dom c) r) E Sbp.zero2 in
  let r := fold_left (fun r f => fold_left (fun r k =>
             let v := Sbp.faceVector (f_nf f) (d + 2) 1 (f_idxL f) (f_idxR f) (f_wt f) (f_nrm f) (ifaceFlux d entvar k) (fun i => u (f_globL f i)) (fun i => u (f_globR f i)) in
             scatter (f_nR f) (d + 2) (f_globR f) (snd v) (scatter (f_nL f) (d + 2) (f_globL f) (fst v) r)) (c_ifs c) r) F r in
  fold_left (fun r b => fold_left (fun r km =>
             if marked (snd km) (t_attr b) then
               scatter (e_n (w_el (t_face b))) (d + 2) (e_glob (w_el (t_face b)))
                 (faceVectorOf d entvar (c_par c) (t_face b) (condition d (c_par c) x t (t_face b) (fst km)) (fun i => u (e_glob (w_el (t_face b)) i))) r
             else r) (c_bnd c) r) B r.
