(** What the options of a two-dimensional magnetostatic problem mean: Ampere's law for the potential, tested with v. *)
From Coq Require Import Reals List String Bool ZArith.
From Verif Require Import Vec Inputs Options CoefMix EmCoef Current CurrentSpec Magnet FlowOptions ThermalOptions ThermalOptionsSpec.
From Verif Require Import MagnetOptions.
From Verif Require MagnetSpec.
Import ListNotations.
Local Open Scope R_scope.
Local Open Scope string_scope.

(** attribute a is listed under group g and source s of a table of options, e.g. {"current": {"phase A": {"z": [1, 2]}}} *)
Definition names (o : opts) (g s : string) (a : Z) : Prop := exists j w, In (g, j) (members o) /\ In (s, w) (members j) /\ In a (ints w).
(** the directions of a current, out of the plane *)
Definition direction (s : string) (x : vec) : option R :=
  if String.eqb s "z" then Some 1 else if String.eqb s "-z" then Some (-1)
  else if String.eqb s "box1" then Some (-6 * (x 1%nat - 1 / 2)) else if String.eqb s "box2" then Some (6 * (x 1%nat - 1 / 2)) else None.
(** the current density: in an element listed under a group, the last number given for the group (1 before any) times the
    direction; 0 elsewhere *)
Definition current_density (o : opts) (h : list inputs) (J : Z -> vec -> R) : Prop := forall a x,
  (forall g s d, names (get o "current") g s a -> direction s x = Some d -> J a x = last_given (append "current_density:" g) h 1 * d) /\
  ((forall g s, names (get o "current") g s a -> direction s x = None) -> J a x = 0).
(** the remnant flux density: in an element listed under a material and a direction, the material's at the temperature;
    0 elsewhere *)
Definition remnant_density (materials : list (string * jobj)) (o : opts) (B : Z -> vec -> R -> vec) : Prop := forall a x T,
  (forall m s d Br, names (get o "magnets") m s a -> Direction.magnetization 2 s x = Some (Ret d) -> MagnetSpec.remnant_flux materials m T Br ->
     forall k, B a x T k = Br * d k) /\
  ((forall m s, names (get o "magnets") m s a -> ~ In s MagnetSpec.directions) -> forall k, B a x T k = 0).
(** a name stands for one group, as keys of a json object do *)
Definition distinct (o : opts) : Prop := NoDup (map fst (members o)).

(** the integral over an element of J v, and of nu(T) B_r . curl v with curl v = (dv/dy, - dv/dx) *)
Definition current_work (J : Z -> vec -> R) (e : melem) (v : vec) : R :=
  rsum (cu_nq e) (fun q => cu_w e q * (J (me_attr e) (cu_x e q) * rsum (el_n (me e)) (fun i => cu_N e q i * v (el_glob (me e) i)))).
Definition weighted_gradient (e : melem) (q : nat) (v : vec) (k : nat) : R :=
  rsum (el_n (me e)) (fun i => rsum 2 (fun a => ma_shape e q i a * ma_Adj e q a k) * v (el_glob (me e) i)).
Definition magnet_work (B : Z -> vec -> R -> vec) (e : melem) (v : vec) : R :=
  rsum (ma_nq e) (fun q => ma_pw e q * (ma_nu e (ma_T e q) *
    (B (me_attr e) (ma_x e q) (ma_T e q) 0%nat * weighted_gradient e q v 1%nat - B (me_attr e) (ma_x e q) (ma_T e q) 1%nat * weighted_gradient e q v 0%nat))).
(** current through an element *)
Definition current_through (J : Z -> vec -> R) (e : melem) : R := rsum (cu_nq e) (fun q => cu_w e q * J (me_attr e) (cu_x e q)).
(** the shape functions of all rules sum to 1 *)
Definition mcomplete (M : mmesh) : Prop := complete (asTmesh M) /\ forall e, In e (melems M) ->
  (forall q, rsum (el_n (me e)) (fun i => cu_N e q i) = 1) /\ (forall q a, rsum (el_n (me e)) (fun i => ma_shape e q i a) = 0).
Definition element_attributes (nelem : nat) (M : mmesh) : Prop := forall e, In e (melems M) -> (1 <= me_attr e <= Z.of_nat nelem)%Z.
(** the attributes under a table of options *)
Definition all_attributes (o : opts) : list Z := flat_map (fun g => flat_map (fun s => ints (snd s)) (members (snd g))) (members o).
