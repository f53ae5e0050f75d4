(** When the flow residual is differentiable, in terms of density, velocity and pressure. *)
From Coq Require Import Reals Arith List.
From Coquelicot Require Import Coquelicot.
From Verif Require Import Num Vec SbpSpec SbpMesh SbpMeshSpec EulerSpec.
Local Open Scope R_scope.

(** the unknowns q describe density rho, velocity u and pressure p: conservative variables, or entropy variables
    w = ((gamma - s)/(gamma - 1) - rho |u|^2 / (2p), rho u / p, -rho/p) *)
Definition describes (d : nat) (entvar : bool) (q : vec) (rho : R) (u : vec) (p : R) : Prop :=
  if entvar then q 0%nat = (7/5 - thermo rho p) / (2/5) - 1/2 * dot d u u * rho / p /\
                 (forall i, (i < d)%nat -> q (S i) = rho * u i / p) /\ q (S d) = - rho / p
  else is_state d q rho u p.
(** a field of gas states *)
Record gas := { g_rho : nat -> R; g_u : nat -> vec; g_p : nat -> R }.
Definition valid_gas (d : nat) (entvar : bool) (N : nat) (u : nat -> vec) (g : gas) : Prop :=
  forall j, (j < N)%nat -> 0 < g_rho g j /\ 0 < g_p g j /\ describes d entvar (u j) (g_rho g j) (g_u g j) (g_p g j).
(** neither average of the two-point flux sits exactly where the logarithmic average switches formula *)
Definition off_switch (g : gas) (a b : nat) : Prop :=
  spread (sqrt (g_rho g a / g_p g a)) (sqrt (g_rho g b / g_p g b)) <> 1 / 1000 /\
  spread (sqrt (g_rho g a * g_p g a)) (sqrt (g_rho g b * g_p g b)) <> 1 / 1000.
(** A global matrix J(m,i ; k,j) is the derivative of r at u over N nodes and ns states per node *)
Definition is_derivative (N ns : nat) (r : (nat -> vec) -> option (nat -> nat -> R)) (u : nat -> vec) (J : nat -> nat -> nat -> nat -> R) : Prop :=
  forall (v : nat -> vec) (rs : R -> nat -> nat -> R), (forall s, r (fun j => axpy (u j) s (v j)) = Some (rs s)) ->
  forall i m, (i < N)%nat -> (m < ns)%nat ->
  is_derive (fun s => rs s i m) 0 (rsum N (fun j => rsum ns (fun k => J m i k j * v j k))).
(** What is asked of the state [g] and the mesh: no kink of the fluxes is hit. *)
Definition differentiable (d : nat) (lps : R) (viscous : option viscosity) (ifc : option R) (M : mesh) (g : gas) : Prop :=
  (forall e, In e (els M) -> forall i j, (i < j)%nat -> (j < e_n e)%nat -> off_switch g (e_glob e i) (e_glob e j)) /\
  (0 < lps -> forall e, In e (els M) -> forall i di, (i < e_n e)%nat -> (di < d)%nat -> dot d (g_u g (e_glob e i)) (e_adj e i di) <> 0) /\
  (viscous <> None -> forall e, In e (els M) -> forall i, (i < e_n e)%nat -> e_H e i * e_detJ e i <> 0) /\
  (forall c, ifc = Some c -> forall f, In f (ifs M) -> forall k, (k < f_nf f)%nat ->
     let a := lnode f k in let b := rnode f k in
     off_switch g a b /\
     (c = 0 \/ dot d (fun i => g_rho g a * g_u g a i + g_rho g b * g_u g b i) (fun i => f_nrm f k i * f_wt f k) <> 0)).
