(** What a user expects of a mesh warper; written without reference to Warp.v's functions (only to its description of a mesh). *)
From Coq Require Import Reals List Arith.
From Verif Require Import Vec Form Warp.
Import ListNotations.
Local Open Scope R_scope.

(** The state and the mesh use the same nodes and shape functions, and every node index is in range. *)
Definition same_space (M : wmesh) : Prop :=
  (0 < dim M)%nat /\ forall m, (m < ne M)%nat -> let e := el M m in
    (0 < nd e)%nat /\ mnd e = nd e /\
    (forall k, (k < nd e)%nat -> mnode e k = node e k /\ (node e k < nn M)%nat) /\
    (forall q k b, (q < nq e)%nat -> (k < nd e)%nat -> (b < dim M)%nat -> mdsh e q k b = dsh e q k b).

(** Component c of node k in a state vector (one vector of dim numbers per node). *)
Definition at_node (M : wmesh) (u : vec) (k c : nat) : R := u (k * dim M + c)%nat.
(** Initial position: every node where the mesh has it. *)
Definition undeformed (M : wmesh) (X : coords) : vec := fun i => X (i / dim M)%nat (i mod dim M)%nat.

(** The reference-to-physical map of element e, differentiated: sum of node positions times shape derivatives. *)
Definition map_grad (X : coords) (e : elem) (q : nat) (d b : nat) : R := rsum (nd e) (fun k => X (node e k) d * dsh e q k b).
(** G c a = d v_c / d x_a at quadrature point q: by the chain rule, the derivative in reference direction b is
    sum_a G c a * d x_a / d xi_b *)
Definition physical_gradient (M : wmesh) (X : coords) (e : elem) (q : nat) (v : nat -> nat -> R) (G : nat -> nat -> R) : Prop :=
  forall c b, (c < dim M)%nat -> (b < dim M)%nat ->
    rsum (dim M) (fun a => G c a * map_grad X e q a b) = rsum (nd e) (fun k => v (node e k) c * dsh e q k b).
(** G is the gradient of the displacement u - X everywhere *)
Definition displacement_gradient (M : wmesh) (X : coords) (u : vec) (G : nat -> nat -> nat -> nat -> R) : Prop :=
  forall m q, (m < ne M)%nat -> (q < nq (el M m))%nat ->
    physical_gradient M X (el M m) q (fun k c => at_node M u k c - X k c) (G m q).
(** Linear elastic energy with both Lame parameters equal to one: integral of (div)^2 / 2 + |sym grad|^2; vol m q is the
    volume of quadrature point q *)
Definition elastic_energy (M : wmesh) (vol : nat -> nat -> R) (G : nat -> nat -> nat -> nat -> R) : R :=
  rsum (ne M) (fun m => rsum (nq (el M m)) (fun q => vol m q *
    (1 / 2 * (rsum (dim M) (fun c => G m q c c)) ^ 2
     + rsum (dim M) (fun c => rsum (dim M) (fun a => ((G m q c a + G m q a c) / 2) ^ 2))))).

(** The interior is in elastic equilibrium: no displacement that vanishes on the surface lowers the energy. *)
Definition in_equilibrium (M : wmesh) (X : coords) (vol : nat -> nat -> R) (E : list nat) (u : vec) : Prop :=
  forall u' G G', (forall i, List.In i E -> u' i = u i) ->
    displacement_gradient M X u G -> displacement_gradient M X u' G' ->
    elastic_energy M vol G <= elastic_energy M vol G'.

(** An affine map of space, applied to every node. *)
Definition affine (M : wmesh) (X : coords) (A : nat -> nat -> R) (b : nat -> R) : vec :=
  fun i => rsum (dim M) (fun d => A (i mod dim M)%nat d * X (i / dim M)%nat d) + b (i mod dim M)%nat.
Definition is_identity (d : nat) (A : nat -> nat -> R) : Prop :=
  forall c a, (c < d)%nat -> (a < d)%nat -> A c a = if Nat.eqb c a then 1 else 0.
(** A = I + S with S skew: an infinitesimal rotation *)
Definition is_infinitesimal_rotation (d : nat) (A : nat -> nat -> R) : Prop :=
  forall c a, (c < d)%nat -> (a < d)%nat -> A c a + A a c = if Nat.eqb c a then 2 else 0.
(** The shape functions of every element sum to a constant. *)
Definition partition_of_unity (M : wmesh) : Prop :=
  forall m q b, (m < ne M)%nat -> (q < nq (el M m))%nat -> (b < dim M)%nat ->
    rsum (nd (el M m)) (fun k => dsh (el M m) q k b) = 0.
(** Discrete divergence theorem at node i: the integral of every derivative of its hat function vanishes.  (True at interior
    nodes when the quadrature is exact, e.g. linear simplices.) *)
Definition hat_integrates_to_zero (M : wmesh) (X : coords) (vol : nat -> nat -> R) (i : nat) : Prop :=
  forall (G : nat -> nat -> nat -> nat -> R),
    (forall m q, (m < ne M)%nat -> (q < nq (el M m))%nat ->
       physical_gradient M X (el M m) q (fun k _ => if Nat.eqb k i then 1 else 0) (G m q)) ->
    forall a, (a < dim M)%nat -> rsum (ne M) (fun m => rsum (nq (el M m)) (fun q => vol m q * G m q 0%nat a)) = 0.

(** The linear solver solves the systems it is given. *)
Definition solves (n : nat) (lin : (nat -> nat -> R) -> vec -> vec) (J : nat -> nat -> R) : Prop :=
  forall r i, (i < n)%nat -> mv n J (lin J r) i = r i.

(** Volume of a quadrature point, and a mesh whose elements are all properly oriented. *)
Definition volume (M : wmesh) (X : coords) (m q : nat) : R := ipw (el M m) q * det (dim M) (map_grad X (el M m) q).
Definition valid_mesh (M : wmesh) (X : coords) : Prop := (1 <= dim M <= 3)%nat /\
  forall m q, (m < ne M)%nat -> (q < nq (el M m))%nat -> 0 <= ipw (el M m) q /\ 0 < det (dim M) (map_grad X (el M m) q).

(** What a session with a warper built on the mesh X can lead to: any sequence of calls, with any solvers, options and
    arguments, none of which passes new "mesh_coords". *)
Inductive session (M : wmesh) (X : coords) : Form.nform coords -> Prop :=
| s_start : session M X (construct M X)
| s_solve lin o i x f r : session M X f -> in_mesh i = None -> solveForState M lin o i x f = WOk r -> session M X (nformr r)
| s_residual i f v f1 : session M X f -> in_mesh i = None -> w_calcResidual M i f = WOk (v, f1) -> session M X f1
| s_linearize i f f1 : session M X f -> in_mesh i = None -> w_linearize M i f = WOk f1 -> session M X f1
| s_jvp wrt nw w nr r f v f1 : session M X f -> w_jvp M wrt nw w nr r f = WOk (v, f1) -> session M X f1
| s_vjp wrt nr r nw w f v f1 : session M X f -> w_vjp M wrt nr r nw w f = WOk (v, f1) -> session M X f1
| s_adjoint lin i b x f v f1 : session M X f -> in_mesh i = None -> w_solveForAdjoint M lin i b x f = WOk (v, f1) -> session M X f1.
(** Essential dofs chosen by the options. *)
Definition essential (M : wmesh) : list nat := match on_ess M with None => [] | Some b => dofs_of M b end.
