(** What flow options mean, independently of how the constructor reads them. *)
From Coq Require Import Reals List String Bool ZArith.
From Verif Require Import Num Vec Options OptionsProofs SbpSpec SbpMesh ViscWall ViscWallSpec Aero FlowJac FlowOptions.
Import ListNotations.
Local Open Scope string_scope.

(** the settings a user gives *)
Record settings := { s_viscous : bool; s_mu : R; s_mach : R; s_degrees : R; s_Re : R; s_Pr : R; s_roll : Z; s_pitch : Z; s_entropy : bool;
  s_flux : string; s_lps : R; s_basis : string; s_iface : R; s_imms : bool; s_vmms : bool; s_steady : bool;
  s_bcs : list (string * list Z) (* boundary condition, boundary attributes *) }.
(** conditions and what they are called *)
Definition inviscid_names : list (string * bkind) := [("vortex", KVortex); ("slip-wall", KSlip); ("far-field", KFarField); ("pump", KPump); ("control", KControl)].
Definition viscous_names : list (string * bkind) :=
  [("slip-wall", KViscSlip); ("no-slip-adiabatic", KNoSlip); ("far-field", KFarField); ("viscous-mms", KViscMMS); ("control", KViscControl)].
Definition names (s : settings) : list (string * bkind) := if s_viscous s then viscous_names else inviscid_names.
Fixpoint attributes (name : string) (l : list (string * list Z)) : option (list Z) :=
  match l with [] => None | (n, a) :: r => if String.eqb name n then Some a else attributes name r end.
(** the options hold these settings, each at its place *)
Definition holds (o : opts) (p : list string) (v : leaf) : Prop := at_path o p = Some (JLeaf v).
Definition holds_real (o : opts) (p : list string) (r : R) : Prop := holds o p (LReal r) \/ exists z, holds o p (LInt z) /\ IZR z = r.
Definition given (o : opts) (s : settings) : Prop :=
  holds o ["flow-param"; "viscous"] (LBool (s_viscous s)) /\ holds_real o ["flow-param"; "mu"] (s_mu s) /\
  holds_real o ["flow-param"; "mach"] (s_mach s) /\ holds_real o ["flow-param"; "aoa"] (s_degrees s) /\
  holds_real o ["flow-param"; "Re"] (s_Re s) /\ holds_real o ["flow-param"; "Pr"] (s_Pr s) /\
  holds o ["flow-param"; "roll-axis"] (LInt (s_roll s)) /\ holds o ["flow-param"; "pitch-axis"] (LInt (s_pitch s)) /\
  holds o ["flow-param"; "entropy-state"] (LBool (s_entropy s)) /\
  holds o ["flow-param"; "inviscid-mms"] (LBool (s_imms s)) /\ holds o ["flow-param"; "viscous-mms"] (LBool (s_vmms s)) /\
  holds o ["space-dis"; "flux-fun"] (LStr (s_flux s)) /\ holds_real o ["space-dis"; "lps-coeff"] (s_lps s) /\
  holds o ["space-dis"; "basis-type"] (LStr (s_basis s)) /\ holds_real o ["space-dis"; "iface-coeff"] (s_iface s) /\
  holds o ["time-dis"; "steady"] (LBool (s_steady s)) /\ at_path o ["implicit"] = None /\
  match at_path o ["bcs"] with
  | None => s_bcs s = []
  | Some (JObj m) => find "essential" m = None /\ forall n, find n m = match attributes n (s_bcs s) with Some a => Some (JLeaf (LInts a)) | None => None end
  | Some _ => False
  end.
(** settings that can be run in d dimensions, with entropy variables or not *)
Definition axes_ok (s : settings) : Prop := (0 <= s_roll s <= 2)%Z /\ (0 <= s_pitch s <= 2)%Z /\ s_roll s <> s_pitch s.
Definition runnable (d : nat) (entvar : bool) (s : settings) : Prop :=
  axes_ok s /\ (entvar = true -> s_flux s = "IR") /\ (s_basis s = "dsbp" -> s_viscous s = false) /\
  (s_viscous s = false -> attributes "vortex" (s_bcs s) <> None -> d = 2%nat).
(** the listed attributes exist in a mesh with nattr boundary attributes *)
Definition attributes_ok (nattr : nat) (s : settings) : Prop :=
  forall n k a b, In (n, k) (names s) -> attributes n (s_bcs s) = Some a -> In b a -> (1 <= b <= Z.of_nat nattr)%Z.
(** the conditions that list an attribute *)
Definition listed (s : settings) (attr : nat) : list bkind :=
  map snd (filter (fun nk => match attributes (fst nk) (s_bcs s) with Some a => if in_dec Z.eq_dec (Z.of_nat attr) a then true else false | None => false end) (names s)).
(** flux through node j of a face by one condition *)
Definition condition_flux (d : nat) (entvar : bool) (vp : viscosity) (f : vface) (u : nat -> vec) (c : bc + wall) (j : nat) : vec :=
  match c with
  | inl b => bcFlux d entvar b j (w_nrm f j) (u (wnode f j))
  | inr w => wall_flux d vp (with_wall f w) u j
  end.

(** the numbers, the angle of attack in radians *)
Definition paramsOf (s : settings) : params :=
  {| p_visc := s_viscous s; p_mu := s_mu s; p_mach := s_mach s; p_aoa := s_degrees s * PI / 180; p_Re := s_Re s; p_Pr := s_Pr s; p_roll := s_roll s; p_pitch := s_pitch s; p_entropy := s_entropy s |}.
(** the volume terms *)
Definition domS (d : nat) (s : settings) : list dterm :=
  [if String.eqb (s_flux s) "IR" then DIsmailRoe else DEuler] ++ (if s_imms s then [DInviscidMMS] else []) ++ (if Rlt_dec 0 (s_lps s) then [DLps (s_lps s)] else []) ++
  (if s_viscous s then DViscous (s_Re s) (s_Pr s) (s_mu s) :: (if s_vmms s then [DViscousMMS (s_Re s) (s_Pr s) (if Nat.eqb d 2 then 2 else 3)] else []) else []).
(** one interface term for the discontinuous basis *)
Definition ifsS (s : settings) : list R := if String.eqb (s_basis s) "dsbp" then [s_iface s] else [].
(** the conditions acting on a boundary face *)
Definition active (d : nat) (x : bdata) (t : R) (s : settings) (b : tagged vface) : list (bc + wall) :=
  map (condition d (paramsOf s) x t (t_face b)) (listed s (t_attr b)).
(** the mesh of C51-C57 (inviscid) and C129-C130 (viscous) whose boundary faces carry them *)
Definition meshOf (d : nat) (entvar : bool) (x : bdata) (t : R) (s : settings) (E : list element) (F : list iface) (B : list (tagged vface)) : mesh :=
  {| els := E; ifs := F; bfs := flat_map (fun b => flat_map (fun c => match c with inl c => [with_flux (t_face b) (bcFlux d entvar c)] | inr _ => [] end) (active d x t s b)) B |}.
Definition wallsOf (d : nat) (x : bdata) (t : R) (s : settings) (B : list (tagged vface)) : list vface :=
  flat_map (fun b => flat_map (fun c => match c with inl _ => [] | inr w => [with_wall (t_face b) w] end) (active d x t s b)) B.
(** a mesh with N nodes, d dimensions and nattr boundary attributes *)
Definition face_in (N nattr : nat) (b : tagged vface) : Prop :=
  (forall i, (i < e_n (w_el (t_face b)))%nat -> (e_glob (w_el (t_face b)) i < N)%nat) /\ (forall k, (k < w_nf (t_face b))%nat -> (w_idx (t_face b) k < e_n (w_el (t_face b)))%nat) /\
  (1 <= t_attr b <= nattr)%nat.
