(** What a manufactured source term must be: the divergence of the (compressible Navier-Stokes) flux of the
    manufactured fields.  Independent of the code. *)
From Coq Require Import Reals Arith.
From Coquelicot Require Import Coquelicot.
From Verif Require Import Vec EulerSpec.
Local Open Scope R_scope.

(** the point x with coordinate j replaced by t; partial derivative of a scalar field along coordinate j *)
Definition with_coord (x : vec) (j : nat) (t : R) : vec := fun i => if Nat.eqb i j then t else x i.
Definition is_partial (f : vec -> R) (j : nat) (x : vec) (l : R) : Prop :=
  is_derive (fun t => f (with_coord x j t)) (x j) l.

(** Flux of mass, momentum and energy along coordinate j for an ideal gas with gamma = 7/5 and p = rho T *)
Definition inviscid_flux (d : nat) (rho : R) (u : vec) (T : R) (j : nat) : vec := fun k =>
  if Nat.eqb k 0 then rho * u j
  else if Nat.leb k d then rho * u (k - 1)%nat * u j + (if Nat.eqb (k - 1) j then rho * T else 0)
  else (rho * T / (2/5) + 1/2 * rho * dot d u u + rho * T) * u j.
(** Newtonian stress (Stokes' hypothesis) from the velocity gradient g i j = d u_i / d x_j *)
Definition stress (d : nat) (mu : R) (g : nat -> nat -> R) (i j : nat) : R :=
  mu * (g i j + g j i - (if Nat.eqb i j then 2/3 * rsum d (fun l => g l l) else 0)).
(** viscous flux: stress, and work of the stress plus Fourier heat conduction *)
Definition viscous_flux (d : nat) (mu kappa : R) (u : vec) (g : nat -> nat -> R) (gT : vec) (j : nat) : vec := fun k =>
  if Nat.eqb k 0 then 0
  else if Nat.leb k d then stress d mu g (k - 1) j
  else rsum d (fun i => stress d mu g i j * u i) + kappa * gT j.

(** On the open region D the first K components of [src] are the divergence of the flux of the fields rho, u, T *)
Definition is_source (D : vec -> Prop) (d K : nat) (mu kappa : R) (rho : vec -> R) (u : nat -> vec -> R) (T : vec -> R)
  (src : vec -> vec) : Prop :=
  exists (gu : nat -> nat -> vec -> R) (gT : nat -> vec -> R),
  (forall i j x, (i < d)%nat -> (j < d)%nat -> D x -> is_partial (u i) j x (gu i j x)) /\
  (forall j x, (j < d)%nat -> D x -> is_partial T j x (gT j x)) /\
  forall x k, (k < K)%nat -> D x -> exists dF : vec,
    (forall j, (j < d)%nat ->
       is_partial (fun y => inviscid_flux d (rho y) (fun i => u i y) (T y) j k
                            - viscous_flux d mu kappa (fun i => u i y) (fun i l => gu i l y) (fun l => gT l y) j k) j x (dF j)) /\
    src x k = rsum d dF.
Definition everywhere (x : vec) : Prop := True.

(** On D, q is a field of conservative states made of rho, u and p = rho T *)
Definition carries (D : vec -> Prop) (d : nat) (q : vec -> vec) (rho : vec -> R) (u : nat -> vec -> R) (T : vec -> R) : Prop :=
  forall x, D x -> is_state d (q x) (rho x) (fun i => u i x) (rho x * T x).
