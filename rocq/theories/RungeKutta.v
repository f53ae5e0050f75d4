(** Model of the time marchers of src/common/mfem_extensions.cpp:15-242. *)
From Coq Require Import Reals List QArith Arith.
From Verif Require Import Num Vec RootFind.
Import ListNotations.
Local Open Scope R_scope.

(** The EntropyConstrainedOperator seen by a marcher (evolver.hpp): the first argument of each function is
    the time last given to SetTime.  [ec_implicit t dt x k0]: k left by ImplicitSolve(dt, x, k), k0 its
    previous contents.  Solves are taken as pure functions. *)
Record ecop := {
  ec_mult : R -> vec -> vec;
  ec_implicit : R -> R -> vec -> vec -> vec;
  ec_entropy : vec -> R;
  ec_change : R -> R -> vec -> vec -> R }.

(** SteadyODESolver::Step, :15-23 *)
Definition steady_step (f : ecop) (x : vec) (t dt : R) : vec * R :=
  let k := ec_implicit f (t + dt) dt x x in (k, t + dt).

(** PseudoTransientSolver::Step, :30-37; kold: what the member vector k held *)
Definition ptc_step (f : ecop) (kold : vec) (x : vec) (t dt : R) : vec * R :=
  let k := ec_implicit f (t + dt) dt x kold in (axpy x dt k, t + dt).

(** tolerances of both relaxed marchers, :97-100 and :181-184; start points .99 and 1.01 *)
Definition relax_gamma (entropyFun : R -> R) : outcome R :=
  secant Rnum (fun g => Some (entropyFun g)) (99/100) (101/100) (1 / 10^12) (1 / 10^12) 30.

(** entropyFun of RRKImplicitMidpointSolver::Step, :76-95 (printing dropped) *)
Definition midpoint_entropyFun (f : ecop) (x k : vec) (dt delta_entropy gamma : R) : R :=
  ec_entropy f (axpy x (gamma * dt) k) - ec_entropy f x + gamma * dt * delta_entropy.

(** RRKImplicitMidpointSolver::Step, :44-108.  [None]: secant threw. *)
Definition rrk_midpoint_step (f : ecop) (kold x : vec) (t dt : R) : option (vec * R) :=
  let tm := t + dt / 2 in
  let k := ec_implicit f tm (dt / 2) x kold in
  let x_new := axpy x (1/2 * dt) k in
  let delta_entropy := ec_change f tm (1/2 * dt) x_new k in
  match relax_gamma (midpoint_entropyFun f x k dt delta_entropy) with
  | Returned gamma => Some (axpy x (gamma * dt) k, t + gamma * dt)
  | Thrown => None
  end.

(** inner loop of ExplicitRRKSolver::Step, :155-158: j = j0 .., reading a[l++] *)
Fixpoint stage_inner (a : nat -> R) (dt : R) (k : nat -> vec) (cnt j l : nat) (y : vec) : vec * nat :=
  match cnt with
  | O => (y, l)
  | S cnt' => stage_inner a dt k cnt' (S j) (S l) (axpy y (a l * dt) (k j))
  end.
(** array update k[i] = v *)
Definition upd (k : nat -> vec) (i : nat) (v : vec) : nat -> vec := fun j => if Nat.eqb j i then v else k j.
(** stage loop, :152-162: [cnt] stages left, next stage i, table index l *)
Fixpoint stages (f : ecop) (a b c : nat -> R) (x : vec) (t dt : R) (cnt i l : nat) (k : nat -> vec) (de : R)
  : (nat -> vec) * R :=
  match cnt with
  | O => (k, de)
  | S cnt' =>
    let y0 := axpy x (a l * dt) (k 0%nat) in
    let '(y, l') := stage_inner a dt k (i - 1) 1 (S l) y0 in
    let ti := t + c (i - 1)%nat * dt in
    let ki := ec_mult f ti y in
    let de' := de + b i * ec_change f ti (c (i - 1)%nat * dt) y ki in
    stages f a b c x t dt cnt' (S i) l' (upd k i ki) de'
  end.
(** accumulation in k[0], :164-168 *)
Fixpoint accumulate (b : nat -> R) (dt : R) (k : nat -> vec) (cnt i : nat) (acc : vec) : vec :=
  match cnt with O => acc | S cnt' => accumulate b dt k cnt' (S i) (axpy acc (b i * dt) (k i)) end.

(** entropyFun of ExplicitRRKSolver::Step, :180-196 *)
Definition explicit_entropyFun (f : ecop) (x incr : vec) (dt delta_entropy gamma : R) : R :=
  ec_entropy f (axpy x gamma incr) - ec_entropy f x + gamma * dt * delta_entropy.

(** ExplicitRRKSolver::Step, :139-210, with s stages *)
Definition rrk_explicit_step (f : ecop) (s : nat) (a b c : nat -> R) (kold : nat -> vec) (x : vec) (t dt : R)
  : option (vec * R) :=
  let k0 := ec_mult f t x in
  let de0 := b 0%nat * ec_change f t 0 x k0 in
  let '(k, de) := stages f a b c x t dt (s - 1) 1 0 (upd kold 0 k0) de0 in
  let incr := accumulate b dt k (s - 1) 1 (vscal (b 0%nat * dt) (k 0%nat)) in
  match relax_gamma (explicit_entropyFun f x incr dt de) with
  | Returned gamma => Some (axpy x gamma incr, t + gamma * dt)
  | Thrown => None
  end.

(** ** the table of RRK6Solver, :214-262, as exact decimals: m x 10^-e *)
Definition dec (m : Z) (e : positive) : Q := m # (10 ^ e).
Definition RRK6_a : list Q :=
  [dec 6 2;
   dec 1923996296296296296296296296296296296296 41;
   dec 7669337037037037037037037037037037037037 41;
   dec 35975 6;
   dec 0 1;
   dec 107925 6;
   dec 1318683415233148260919747276431735612861 39;
   dec 0 1;
   dec (-5042058063628562225427761634715637693344) 39;
   dec 4220674648395413964508014358283902080483 39;
   dec (-4187259166432751461803757780644346812905) 38;
   dec 0 1;
   dec 1594325621631374917700365669070346830453 37;
   dec (-1221192135650100309202516203389242140663) 37;
   dec 5531743066200053768252631238332999150076 39;
   dec (-5443015693531650433250642051294142461271) 38;
   dec 0 1;
   dec 2070672513650184644273657173866509835987 37;
   dec (-1586108137845899991828742424365058599469) 37;
   dec 6991816585950242321992597280791793907096 39;
   dec (-1859723106220323397765171799549294623692) 41;
   dec (-5466374178728197680241215648050386959351) 38;
   dec 0 1;
   dec 2079528062553893734515824816699834244238 37;
   dec (-1592889574744995071508959805871426654216) 37;
   dec 7018743740796944434698170760964252490817 39;
   dec (-1833878590504572306472782005141738268361) 41;
   dec (-5119484997882099077875432497245168395840) 43]%Q.
Definition RRK6_b : list Q :=
  [dec 3438957868357036009278820124728322386520 41;
   dec 0 1;
   dec 0 1;
   dec 2582624555633503404659558098586120858767 40;
   dec 4209371189673537150642551514069801967032 40;
   dec 4405396469669310170148836816197095664891 39;
   dec (-1764831190242986576151740942499002125029) 37;
   dec 1723641334014150730294022582711902413315 37]%Q.
Definition RRK6_c : list Q :=
  [dec 6 2;
   dec 9593333333333333333333333333333333333333 41;
   dec 1439 4;
   dec 4973 4;
   dec 9725 4;
   dec 9995 4;
   dec 10 1]%Q.
Definition RRK6_s : nat := 8.
(** packed strictly lower triangular storage: a_ij = a[i(i-1)/2 + j], as in the comment at :141-147 *)
Definition packed (i j : nat) : nat := (i * (i - 1) / 2 + j)%nat.

(** FirstOrderODE::EntropyChange (ode.hpp:181-189) passes the operator's own time and dt on;
    FlowResidual::calcEntropyChange_ (src/physics/fluidflow/flow_residual.cpp:446-459) evaluates the
    entropy-weighted residual of the given state at time + dt.  [wR t u]: w(u)^T R(t, u). *)
Definition flow_change (wR : R -> vec -> R) (t dt : R) (u k : vec) : R := wR (t + dt) u.
