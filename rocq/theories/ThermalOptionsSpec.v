(** What the options of a thermal (magnetostatic) problem mean: the equations they stand for. *)
From Coq Require Import Reals List String Bool ZArith.
From Verif Require Import Vec Inputs Options EmInteg Thermal ThermalSpec DgFace DgFaceSpec FlowOptions.
From Verif Require ThermalOptions.
Import ListNotations.
Import ThermalOptions (telem, el_n, el_dim, el_nq, el_pw, el_W, el_C, el_nu, el_glob, tface, tf_attr, tf_dg, tf_s1, tf_s2, tf_th,
  tf_XF, tf_X1, tf_X2, tf_XT, tf_g, tf_glob, tmesh, elems, inner, outer).
Local Open Scope R_scope.
Local Open Scope string_scope.

(** reading options: the value under a key (null if there is none), a number, a list of attributes *)
Definition get (o : opts) (k : string) : opts := match o with JObj m => match find k m with Some v => v | None => JNull end | _ => JNull end.
Definition num (o : opts) (k : string) (d : R) : R := match get o k with JLeaf (LInt z) => IZR z | JLeaf (LReal r) => r | _ => d end.
Definition ints (o : opts) : list Z := match o with JLeaf (LInts l) => l | _ => [] end.
(** a boundary condition is a list of attributes or an object with member attrs *)
Definition attributes (bc : opts) : list Z := match bc with JObj _ => ints (get bc "attrs") | _ => ints bc end.
Definition lists (l : list Z) (f : tface) : bool := existsb (Z.eqb (tf_attr f)) l.
Definition members (o : opts) : list (string * opts) := match o with JObj m => m | _ => [] end.
Definition discontinuous (o : opts) : bool :=
  match get (get o "space-dis") "basis-type" with JLeaf (LStr s) => existsb (String.eqb s) ["L2"; "l2"; "DG"; "dg"] | _ => false end.
Definition penalty_of (p : nat) (o : opts) : R :=
  let mu := num (get o "space-dis") "sipg-penalty" (-1) in
  if Rlt_dec mu 0 then (num (get o "space-dis") "degree" 0 + 1) ^ p else mu.

(** the field's values on a face, side 1 first *)
Definition local (f : tface) (u : vec) : vec := fun i => u (tf_glob f i).
Definition when (b : bool) (x : R) : R := if b then x else 0.
(** int conductivity grad u . grad v: at a point, weights and inverse Jacobian are split between W and C *)
Definition egrad (e : telem) (q : nat) (u : vec) (k : nat) : R := rsum (el_n e) (fun i => u (el_glob e i) * el_C e q i k) / el_W e q.
Definition conduction (e : telem) (u v : vec) : R :=
  rsum (el_nq e) (fun q => el_pw e q * el_W e q *
    (el_nu e q (sqrt (rsum (el_dim e) (fun k => egrad e q u k * egrad e q u k))) * rsum (el_dim e) (fun k => egrad e q u k * egrad e q v k))).
(** the integral over a face of (v_1 law_1 + v_2 law_2): the heat each side gives away *)
Definition exchange (g : integ) (f : tface) (u v : vec) : R :=
  let o := vec_order (tf_th f) g in
  integral (tf_th f) (tf_XT f) o (fun q =>
    T1 (tf_th f) o (local f v) q * law1 g (T1 (tf_th f) o (local f u) q) (T2 (tf_th f) o (local f u) q) +
    T2 (tf_th f) o (local f v) q * law2 g (T1 (tf_th f) o (local f u) q) (T2 (tf_th f) o (local f u) q)).
Definition prescribed (mu : R) (f : tface) (u v : vec) : R :=
  over_face (tf_dg f) 1 (bdr_order (tf_dg f) (tf_s1 f)) (fun q =>
    weak_dirichlet (tf_dg f) (tf_s1 f) (tf_g f) mu (bdr_order (tf_dg f) (tf_s1 f)) q (tf_XF f) (tf_X1 f) (local f u) (local f v)).
Definition coupling (mu : R) (f : tface) (u v : vec) : R :=
  over_face (tf_dg f) 1 (int_order (tf_s1 f) (tf_s2 f)) (fun q =>
    interior_penalty (tf_dg f) (tf_s1 f) (tf_s2 f) mu (int_order (tf_s1 f) (tf_s2 f)) q (tf_XF f) (tf_X1 f) (tf_X2 f) (local f u) (local f v)).

(** a face of the boundary *)
Definition strong_or_weak (p : nat) (o : opts) (f : tface) (u v : vec) : R :=
  let bcs := get o "bcs" in
  when (discontinuous o && lists (ints (get bcs "essential")) f) (prescribed (penalty_of p o) f u v) +
  when (lists (ints (get bcs "weak-essential")) f) (prescribed (penalty_of p o) f u v).
Definition on_boundary (o : opts) (f : tface) (u v : vec) : R :=
  let bcs := get o "bcs" in let c := get bcs "convection" in let q := get bcs "outflux" in
  when (lists (attributes c) f) (exchange (ConvectionBC (num c "h" 1) (num c "fluid_temp" 1) 1) f u v) +
  when (lists (attributes q) f) (exchange (OutfluxBC (num q "flux" 1) 1) f u v) +
  strong_or_weak 2 o f u v.
(** the interfaces a face belongs to *)
Definition of_kind (o : opts) (kind : string) (f : tface) : list (string * opts) :=
  filter (fun x => lists (ints (get (snd x) "attrs")) f) (members (get (get o "interfaces") kind)).
Definition contacts (o : opts) (f : tface) := of_kind o "thermal_contact_resistance" f.
Definition channels (o : opts) (f : tface) := of_kind o "convection" f.
Definition across (o : opts) (f : tface) (u v : vec) : R :=
  ThermalSpec.lsum (fun x => exchange (Contact (fst x) (num (snd x) "h" 0) 1) f u v) (contacts o f) +
  ThermalSpec.lsum (fun x => exchange (InternalConvection (fst x) (num (snd x) "h" 0) (num (snd x) "fluid_temp" 0) 1) f u v) (channels o f).
Definition separations (o : opts) (f : tface) : nat := (List.length (contacts o f) + List.length (channels o f))%nat.

(** the mesh fits the options' vectors: dofs below N, attributes at most nattr, both views of a face have the same dofs *)
Definition fits (N nattr : nat) (M : tmesh) : Prop :=
  (forall e i, In e (elems M) -> (i < el_n e)%nat -> (el_glob e i < N)%nat) /\
  (forall e q, In e (elems M) -> (q < el_nq e)%nat -> 0 < el_W e q) /\
  (forall f i, In f (inner M ++ outer M) -> (i < nd (tf_s1 f) + nd (tf_s2 f))%nat -> (tf_glob f i < N)%nat) /\
  (forall f, In f (inner M ++ outer M) -> n1 (tf_th f) = nd (tf_s1 f) /\ n2 (tf_th f) = nd (tf_s2 f)) /\
  (forall f, In f (inner M) -> (0 <= tf_attr f <= Z.of_nat nattr)%Z) /\
  (forall f, In f (outer M) -> (1 <= tf_attr f <= Z.of_nat nattr)%Z).
(** json objects have each key once *)
Definition one_of_each (o : opts) : Prop := NoDup (map fst (members (get o "interfaces"))).

(** heat leaving the body through a face of the boundary under each condition, and to the channels of an interface *)
Definition exchanged (g : integ) (f : tface) (u : vec) : R :=
  integral (tf_th f) (tf_XT f) (vec_order (tf_th f) g) (fun q =>
    law1 g (T1 (tf_th f) (vec_order (tf_th f) g) (local f u) q) (T2 (tf_th f) (vec_order (tf_th f) g) (local f u) q) +
    law2 g (T1 (tf_th f) (vec_order (tf_th f) g) (local f u) q) (T2 (tf_th f) (vec_order (tf_th f) g) (local f u) q)).
Definition prescribed_heat (mu : R) (f : tface) (u : vec) : R :=
  let F := tf_dg f in let S := tf_s1 f in let o := bdr_order F S in
  over_face F 1 o (fun q => material F o q S (tf_X1 f) (local f u) *
    (- slope F o q S (tf_X1 f) (local f u) (tf_XF f) + mu * (area2 F o q (tf_XF f) / We S o q (tf_X1 f)) * (value o q S (local f u) - tf_g f o q))).
Definition held (p : nat) (o : opts) (f : tface) : nat :=
  ((if discontinuous o && lists (ints (get (get o "bcs") "essential")) f then 1 else 0) + (if lists (ints (get (get o "bcs") "weak-essential")) f then 1 else 0))%nat.
Definition leaving (o : opts) (f : tface) (u : vec) : R :=
  let bcs := get o "bcs" in let c := get bcs "convection" in let q := get bcs "outflux" in
  when (lists (attributes c) f) (exchanged (ConvectionBC (num c "h" 1) (num c "fluid_temp" 1) 1) f u) +
  when (lists (attributes q) f) (exchanged (OutfluxBC (num q "flux" 1) 1) f u) +
  INR (held 2 o f) * prescribed_heat (penalty_of 2 o) f u.
Definition to_channels (o : opts) (f : tface) (u : vec) : R :=
  ThermalSpec.lsum (fun x => exchanged (InternalConvection (fst x) (num (snd x) "h" 0) (num (snd x) "fluid_temp" 0) 1) f u) (channels o f).
(** shape functions sum to 1 *)
Definition complete (M : tmesh) : Prop :=
  (forall e q k, In e (elems M) -> rsum (el_n e) (fun i => el_C e q i k) = 0) /\
  (forall f, In f (inner M ++ outer M) -> partition (tf_s1 f) /\ partition (tf_s2 f) /\ unity (tf_th f)).
(** the field takes the same values on both sides of the inner faces, at all points of all rules *)
Definition continuous (M : tmesh) (u : vec) : Prop := forall f, In f (inner M) -> forall o q,
  value o q (tf_s1 f) (local f u) = value o q (tf_s2 f) (lower (tf_s1 f) (local f u)) /\
  T1 (tf_th f) o (local f u) q = T2 (tf_th f) o (local f u) q.
(** nothing drives heat: all given temperatures and fluxes are 0, transfer coefficients and the numbers of the mesh not negative *)
Definition undriven (o : opts) : Prop :=
  let bcs := get o "bcs" in let c := get bcs "convection" in let q := get bcs "outflux" in
  (attributes c = [] \/ 0 <= num c "h" 1 /\ num c "fluid_temp" 1 = 0) /\ (attributes q = [] \/ num q "flux" 1 = 0) /\
  (forall x, In x (members (get (get o "interfaces") "thermal_contact_resistance")) -> 0 <= num (snd x) "h" 0) /\
  (forall x, In x (members (get (get o "interfaces") "convection")) -> 0 <= num (snd x) "h" 0 /\ num (snd x) "fluid_temp" 0 = 0).
Definition positive_mesh (M : tmesh) : Prop := forall f, In f (inner M ++ outer M) ->
  (forall o q, (q < np (tf_dg f) o)%nat -> 0 <= wt (tf_dg f) o q /\ 0 < We (tf_s1 f) o q (tf_X1 f) /\ 0 < We (tf_s2 f) o q (tf_X2 f)) /\
  (forall p x, 0 <= nu (tf_s1 f) p x /\ 0 <= nu (tf_s2 f) p x) /\ (forall o q, tf_g f o q = 0) /\
  (forall o q, (q < npts (tf_th f) o)%nat -> 0 <= wts (tf_th f) o q * Wf (tf_th f) o q (tf_XT f)).
(** the energy at the points of a face, of one side or both *)
Definition one_sided (f : tface) (u : vec) : R :=
  over_face (tf_dg f) 1 (bdr_order (tf_dg f) (tf_s1 f)) (fun q => point_energy (tf_dg f) (tf_s1 f) (bdr_order (tf_dg f) (tf_s1 f)) q (tf_X1 f) (local f u)).
Definition two_sided (f : tface) (u : vec) : R :=
  over_face (tf_dg f) 1 (int_order (tf_s1 f) (tf_s2 f)) (fun q =>
    point_energy (tf_dg f) (tf_s1 f) (int_order (tf_s1 f) (tf_s2 f)) q (tf_X1 f) (local f u) +
    point_energy (tf_dg f) (tf_s2 f) (int_order (tf_s1 f) (tf_s2 f)) q (tf_X2 f) (lower (tf_s1 f) (local f u))).
(** a sum over the faces or elements of a list *)
Notation total := ThermalOptions.lsum.
(** the attributes every condition and interface lists *)
Definition mentioned (o : opts) : list (list Z) :=
  let bcs := get o "bcs" in
  [attributes (get bcs "convection"); attributes (get bcs "outflux"); ints (get bcs "weak-essential")] ++
  (if discontinuous o then [ints (get bcs "essential")] else []) ++
  map (fun x => ints (get (snd x) "attrs")) (members (get (get o "interfaces") "thermal_contact_resistance")) ++
  map (fun x => ints (get (snd x) "attrs")) (members (get (get o "interfaces") "convection")).
