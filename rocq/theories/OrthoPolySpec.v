(** Specification vocabulary for the orthogonal-polynomial code: independent of the model. *)
From Coq Require Import Reals List Arith.
From Coquelicot Require Import Coquelicot.
Import ListNotations.
Open Scope R_scope.

(** the gamma function at the positive integers *)
Definition is_gamma_function (tg : R -> R) : Prop := forall n, tg (INR n + 1) = INR (fact n).

Definition delta (m n : nat) : R := if Nat.eqb m n then 1 else 0.

(** the polynomial with coefficients c (constant term first) *)
Definition peval (c : list R) (x : R) : R := fold_right (fun c0 acc => c0 + x * acc) 0 c.

(** f is a polynomial of degree exactly n with positive leading coefficient *)
Definition poly_degree (f : R -> R) (n : nat) : Prop :=
  exists c : list R, length c = (n + 1)%nat /\ 0 < nth n c 0 /\ forall x, f x = peval c x.

(** Legendre polynomials, Bonnet's recursion (k+1) P_{k+1} = (2k+1) x P_k - k P_{k-1} *)
Fixpoint legendre_pair (n : nat) (x : R) : R * R :=
  match n with
  | O => (1, x)
  | S k => let p := legendre_pair k x in
           (snd p, ((2 * INR (k+1) + 1) * x * snd p - INR (k+1) * fst p) / (INR (k+1) + 1))
  end.
Definition legendre (n : nat) (x : R) : R := fst (legendre_pair n x).

(** iterated integral over the triangle with vertices (-1,-1), (1,-1), (-1,1) *)
Definition is_triangle_integral (f : R -> R -> R) (I : R) : Prop :=
  exists g : R -> R,
    (forall y, -1 <= y <= 1 -> is_RInt (fun x => f x y) (-1) (- y) (g y)) /\ is_RInt g (-1) 1 I.

(** iterated integral over the tetrahedron with vertices (-1,-1,-1), (1,-1,-1), (-1,1,-1), (-1,-1,1) *)
Definition is_tet_integral (f : R -> R -> R -> R) (I : R) : Prop :=
  exists g : R -> R -> R, exists h : R -> R,
    (forall y z, -1 <= z <= 1 -> -1 <= y <= - z -> is_RInt (fun x => f x y z) (-1) (- 1 - y - z) (g y z)) /\
    (forall z, -1 <= z <= 1 -> is_RInt (fun y => g y z) (-1) (- z) (h z)) /\
    is_RInt h (-1) 1 I.

(** the quadrature rule (nodes, weights) integrates every polynomial of degree <= d exactly over [-1,1] *)
Definition quad_sum (nodes weights : list R) (f : R -> R) : R :=
  fold_right Rplus 0 (map (fun xw => snd xw * f (fst xw)) (combine nodes weights)).
Definition exact_to_degree (nodes weights : list R) (d : nat) : Prop :=
  forall c : list R, (length c <= d + 1)%nat ->
    is_RInt (fun x => peval c x) (-1) 1 (quad_sum nodes weights (fun x => peval c x)).

(** polynomials in three variables of total degree at most d *)
Inductive poly3 : nat -> (R -> R -> R -> R) -> Prop :=
| poly3_const d c : poly3 d (fun _ _ _ => c)
| poly3_x : poly3 1 (fun x _ _ => x)
| poly3_y : poly3 1 (fun _ y _ => y)
| poly3_z : poly3 1 (fun _ _ z => z)
| poly3_add d f g : poly3 d f -> poly3 d g -> poly3 d (fun x y z => f x y z + g x y z)
| poly3_mul d e f g : poly3 d f -> poly3 e g -> poly3 (d + e) (fun x y z => f x y z * g x y z)
| poly3_ext d e f g : (d <= e)%nat -> (forall x y z, f x y z = g x y z) -> poly3 d f -> poly3 e g.
