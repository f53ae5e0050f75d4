(** Vocabulary of the finite-element field theorems. *)
From Coq Require Import Reals ZArith List Bool Arith String.
From Verif Require Import Vec SbpSpec FeState.
Import ListNotations.
Local Open Scope R_scope.

(** |x|^p for p > 0 *)
Definition apow (x p : R) : R := if Req_EM_T x 0 then 0 else Rpower (Rabs x) p.
(** quadrature of a function of the points *)
Definition quad (pts : list qpt) (f : qpt -> R) : R := lsum (fun q => q_w q * f q) pts.
(** N is the discrete Lp norm of a pointwise error *)
Definition is_lp (pts : list qpt) (err : qpt -> R) (p N : R) : Prop := 0 <= N /\ apow N p = quad pts (fun q => apow (err q) p).
(** N is the largest |err|, 0 without points *)
Definition is_max (pts : list qpt) (err : qpt -> R) (N : R) : Prop :=
  (forall q, In q pts -> Rabs (err q) <= N) /\ ((pts = [] /\ N = 0) \/ exists q, In q pts /\ Rabs (err q) = N).
Definition nonneg_weights (pts : list qpt) : Prop := forall q, In q pts -> 0 <= q_w q.
(** pointwise errors: scalar, Euclidean length, one component *)
Definition serr (L : nat) (gf : vec) (ex : vec -> vec) (q : qpt) : R := value L gf q 0%nat - ex (q_x q) 0%nat.
Definition verr (L vd : nat) (gf : vec) (ex : vec -> vec) (q : qpt) : R := norm vd (fun c => value L gf q c - ex (q_x q) c).
Definition cerr (L : nat) (c : nat) (gf : vec) (ex : vec -> vec) (q : qpt) : R := value L gf q c - ex (q_x q) c.
(** restriction is a left inverse of prolongation *)
Definition left_inverse (L T : nat) (P Rs : nat -> nat -> R) : Prop := forall s t, (s < T)%nat -> (t < T)%nat ->
  rsum L (fun l => Rs s l * P l t) = if Nat.eqb s t then 1 else 0.
