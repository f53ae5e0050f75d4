(** A thermal or two-dimensional magnetostatic problem given by options on a discontinuous basis: what its interior penalty
    form controls. *)
From Coq Require Import Reals List Bool Arith ZArith String.
From Coquelicot Require Import Coquelicot.
From Verif Require Import Vec Inputs Options Thermal ThermalSpec DgFace DgFaceSpec FlowOptions ThermalOptionsSpec JacOptionsSpec EnergyOptionsSpec.
From Verif Require ThermalOptions.
Import ListNotations.
Import ThermalOptions (telem, el_n, el_dim, el_nq, el_pw, el_W, el_C, el_nu, el_glob, tface, tf_attr, tf_dg, tf_s1, tf_s2, tf_th,
  tf_XF, tf_X1, tf_X2, tf_XT, tf_g, tf_glob, tmesh, elems, inner, outer, config).
Local Open Scope R_scope.
Local Open Scope string_scope.

(** the number mu of the options, by default (degree + 1)^2 for heat and (degree + 1)^3 for the magnetic field *)
Definition mu_of (p : physics) (o : opts) : R := penalty_of (match p with Heat => 2 | Magnetism => 3 end) o.
(** the inner faces whose sides are coupled: all but the interfaces of a thermal problem, of which a face belongs to at most one *)
Definition coupled (p : physics) (o : opts) (f : tface) : bool := match p with Heat => (separations o f =? 0)%nat | Magnetism => true end.
Definition one_interface (p : physics) (o : opts) (M : tmesh) : Prop :=
  match p with Heat => forall f, In f (inner M) -> (separations o f <= 1)%nat | Magnetism => True end.
(** the heat a field dissipates inside the elements *)
Definition dissipation (M : tmesh) (v : vec) : R := ThermalOptions.lsum (fun e => conduction e v v) (elems M).
(** the square of the field where a value is held weakly, and of its jump where the sides are coupled, with conductivity over
    distance as weight *)
Definition face_square (f : tface) (v : vec) : R :=
  let F := tf_dg f in let S := tf_s1 f in let r := bdr_order F S in
  over_face F 1 r (fun q => material F r q S (tf_X1 f) (local f v) * (area2 F r q (tf_XF f) / We S r q (tf_X1 f)) * (value r q S (local f v) * value r q S (local f v))).
Definition jump (f : tface) (v : vec) (r q : nat) : R := value r q (tf_s1 f) (local f v) - value r q (tf_s2 f) (lower (tf_s1 f) (local f v)).
Definition face_jump (f : tface) (v : vec) : R :=
  let F := tf_dg f in let S1 := tf_s1 f in let S2 := tf_s2 f in let r := int_order S1 S2 in
  over_face F 1 r (fun q =>
    (material F r q S1 (tf_X1 f) (local f v) * (area2 F r q (tf_XF f) / We S1 r q (tf_X1 f)) +
     material F r q S2 (tf_X2 f) (lower S1 (local f v)) * (area2 F r q (tf_XF f) / We S2 r q (tf_X2 f))) / 2 * (jump f v r q * jump f v r q)).
Definition jumps (p : physics) (o : opts) (M : tmesh) (v : vec) : R :=
  ThermalOptions.lsum (fun f => INR (held 2 o f) * face_square f v) (outer M) +
  ThermalOptions.lsum (fun f => if coupled p o f then face_jump f v else 0) (inner M).
(** what the field exchanges with fluids at 0 and across contacts: h T^2 on a face with convection, h (T1 - T2)^2 on a contact,
    h (T1^2 + T2^2) on a channel *)
Definition to_fluid (o : opts) (f : tface) (v : vec) : R :=
  let c := get (get o "bcs") "convection" in let r := (ord1 (tf_th f) + ord1 (tf_th f) + ordW (tf_th f))%nat in
  when (lists (attributes c) f) (num c "h" 1 * integral (tf_th f) (tf_XT f) r (fun q => T1 (tf_th f) r (local f v) q * T1 (tf_th f) r (local f v) q)).
Definition through_interface (o : opts) (f : tface) (v : vec) : R :=
  let t1 r := T1 (tf_th f) r (local f v) in let t2 r := T2 (tf_th f) r (local f v) in
  let r := (2 * Nat.max (ord1 (tf_th f)) (ord2 (tf_th f)))%nat in let s := (r + ordW (tf_th f))%nat in
  ThermalSpec.lsum (fun x => num (snd x) "h" 0 * integral (tf_th f) (tf_XT f) r (fun q => (t1 r q - t2 r q) * (t1 r q - t2 r q))) (contacts o f) +
  ThermalSpec.lsum (fun x => num (snd x) "h" 0 * integral (tf_th f) (tf_XT f) s (fun q => t1 s q * t1 s q + t2 s q * t2 s q)) (channels o f).
Definition transfers (p : physics) (o : opts) (M : tmesh) (v : vec) : R :=
  match p with
  | Heat => ThermalOptions.lsum (fun f => to_fluid o f v) (outer M) + ThermalOptions.lsum (fun f => if coupled p o f then 0 else through_interface o f v) (inner M)
  | Magnetism => 0
  end.
(** weights, volumes, conductivities and transfer coefficients are not negative *)
Definition passive (o : opts) (M : tmesh) : Prop :=
  (forall e q, In e (elems M) -> (q < el_nq e)%nat -> 0 <= el_pw e q /\ forall b, 0 <= el_nu e q b) /\
  (forall f, In f (inner M ++ outer M) ->
    (forall r q, (q < np (tf_dg f) r)%nat -> 0 <= wt (tf_dg f) r q /\ 0 < We (tf_s1 f) r q (tf_X1 f) /\ 0 < We (tf_s2 f) r q (tf_X2 f)) /\
    (forall x s, 0 <= nu (tf_s1 f) x s /\ 0 <= nu (tf_s2 f) x s) /\
    (forall r q, (q < npts (tf_th f) r)%nat -> 0 <= wts (tf_th f) r q * Wf (tf_th f) r q (tf_XT f))) /\
  (forall f, In f (outer M) -> let c := get (get o "bcs") "convection" in lists (attributes c) f = true -> 0 <= num c "h" 1) /\
  (forall x, In x (members (get (get o "interfaces") "thermal_contact_resistance") ++ members (get (get o "interfaces") "convection")) -> 0 <= num (snd x) "h" 0).
(** mu is above the constant of the trace inequality: the energy at the points of the faces where a value is held or the sides
    are coupled is at most that of the elements, 1 - theta of it after division by mu *)
Definition penalised (theta : R) (p : physics) (o : opts) (M : tmesh) : Prop := forall v,
  ThermalOptions.lsum (fun f => INR (held 2 o f) * (2 / mu_of p o * one_sided f v)) (outer M) +
  ThermalOptions.lsum (fun f => if coupled p o f then / mu_of p o * two_sided f v else 0) (inner M) <= (1 - theta) * dissipation M v.
(** a field without gradient, jumps, transfers and held values is 0 *)
Definition pinned (N : nat) (ess : list nat) (p : physics) (o : opts) (M : tmesh) : Prop := forall v,
  same_held N ess v (fun _ => 0) -> dissipation M v = 0 -> jumps p o M v = 0 -> transfers p o M v = 0 -> veq N v (fun _ => 0).
