(** The energy of a thermal or two-dimensional magnetostatic problem given by options, on a continuous basis. *)
From Coq Require Import Reals List Bool Arith ZArith String.
From Coquelicot Require Import Coquelicot.
From Verif Require Import Vec Inputs Options Thermal ThermalSpec FlowOptions ThermalOptionsSpec JacOptionsSpec.
From Verif Require ThermalOptions.
Import ListNotations.
Import ThermalOptions (telem, el_n, el_dim, el_nq, el_pw, el_W, el_C, el_nu, el_glob, tface, tf_th, tf_XT, tmesh, elems, inner, outer, config).
Local Open Scope R_scope.
Local Open Scope string_scope.

Inductive physics := Heat | Magnetism.
(** what the constructor of that physics builds from the options *)
Definition built (p : physics) (nattr : nat) (o : opts) (c : config) : Prop :=
  match p with Heat => one_of_each o /\ ThermalOptions.thermalConfig nattr o = Ok c | Magnetism => ThermalOptions.magnetConfig nattr o = Ok c end.
(** the magnitude of the gradient at a point of an element *)
Definition gradient_size (e : telem) (q : nat) (u : vec) : R :=
  sqrt (rsum (el_dim e) (fun k => field_gradient e q u k * field_gradient e q u k)).
(** what a boundary face holds: h / 2 (T - T_fluid)^2 where convection is listed, flux times T where outflux is *)
Definition face_energy (o : opts) (f : tface) (u : vec) : R :=
  let c := get (get o "bcs") "convection" in let q := get (get o "bcs") "outflux" in
  let p := (ord1 (tf_th f) + ord1 (tf_th f) + ordW (tf_th f))%nat in   (* the order of the rule *)
  when (lists (attributes c) f) (integral (tf_th f) (tf_XT f) p (fun i =>
    num c "h" 1 / 2 * ((T1 (tf_th f) p (local f u) i - num c "fluid_temp" 1) * (T1 (tf_th f) p (local f u) i - num c "fluid_temp" 1)))) +
  when (lists (attributes q) f) (integral (tf_th f) (tf_XT f) p (fun i => num q "flux" 1 * T1 (tf_th f) p (local f u) i)).
(** the energy, with E e q (b) the integral of k(s) s ds from 0 to b *)
Definition energy (p : physics) (o : opts) (M : tmesh) (E : telem -> nat -> R -> R) (u : vec) : R :=
  ThermalOptions.lsum (fun e => rsum (el_nq e) (fun q => el_pw e q * el_W e q * E e q (gradient_size e q u))) (elems M) +
  match p with Heat => ThermalOptions.lsum (fun f => face_energy o f u) (outer M) | Magnetism => 0 end.
Definition integrates_laws (M : tmesh) (E : telem -> nat -> R -> R) : Prop := forall e q b, In e (elems M) -> (q < el_nq e)%nat -> 0 <= b ->
  is_derive (E e q) b (el_nu e q b * b).
(** the flux k(b) b of each material grows with the gradient b at least as k0 b does; weights and transfer coefficients are not negative *)
Definition monotone_laws (k0 : R) (o : opts) (M : tmesh) : Prop :=
  (forall e q, In e (elems M) -> (q < el_nq e)%nat -> 0 <= el_pw e q /\ (forall b, 0 <= b -> k0 <= el_nu e q b) /\
     forall a b, 0 <= a <= b -> k0 * (b - a) <= el_nu e q b * b - el_nu e q a * a) /\
  (forall f p q, In f (outer M) -> (q < npts (tf_th f) p)%nat -> 0 <= wts (tf_th f) p q * Wf (tf_th f) p q (tf_XT f)) /\
  (forall f, In f (outer M) -> let w := get (get o "bcs") "convection" in lists (attributes w) f = true -> 0 <= num w "h" 1).
(** fields with the same held values *)
Definition same_held (N : nat) (ess : list nat) (u w : vec) : Prop := forall i, (i < N)%nat -> In i ess -> u i = w i.
(** a field without gradient that is 0 where values are held is 0 *)
Definition anchored (N : nat) (ess : list nat) (M : tmesh) : Prop :=
  forall v, same_held N ess v (fun _ => 0) -> gradient_energy M v = 0 -> veq N v (fun _ => 0).
(** the flux k(b) b of each material grows with the gradient b at most as L b does *)
Definition bounded_laws (L : R) (M : tmesh) : Prop := forall e q, In e (elems M) -> (q < el_nq e)%nat ->
  forall a b, 0 <= a <= b -> el_nu e q a <= L /\ el_nu e q b * b - el_nu e q a * a <= L * (b - a).
