(** Model of src/common/orthopoly.cpp: Jacobi, Proriol and Vandermonde builders.

    mfem Vectors are processed entry by entry, so the polynomial evaluators are modelled as functions of
    one abscissa; doubles are reals.  [tgamma] (the C library's gamma function) is a parameter. *)
From Coq Require Import Reals List Arith.
Import ListNotations.
Open Scope R_scope.

(** orthopoly.cpp:62-118 [jacobiPoly], lines 70-72: the constant gamma0 *)
Definition gamma0 (tgamma : R -> R) (alpha beta : R) : R :=
  (Rpower 2 (alpha + beta + 1) / (alpha + beta + 1)) *
  (tgamma (alpha + 1) * tgamma (beta + 1) / tgamma (alpha + beta + 1)).

(** orthopoly.cpp:74-75: the degree 0 polynomial *)
Definition poly_0 (tgamma : R -> R) (alpha beta : R) : R := 1 / sqrt (gamma0 tgamma alpha beta).

(** orthopoly.cpp:81 *)
Definition gamma1 (tgamma : R -> R) (alpha beta : R) : R :=
  (alpha + 1) * (beta + 1) * gamma0 tgamma alpha beta / (alpha + beta + 3).

(** orthopoly.cpp:82-86: the degree 1 polynomial (the code adds alpha + beta, its comment says alpha - beta) *)
Definition poly_1 (tgamma : R -> R) (alpha beta x : R) : R :=
  ((alpha + beta) + (alpha + beta + 2) * x) * (5 / 10 / sqrt (gamma1 tgamma alpha beta)).

(** orthopoly.cpp:93-94 *)
Definition aold_init (alpha beta : R) : R :=
  (2 / (2 + alpha + beta)) * sqrt ((alpha + 1) * (beta + 1) / (alpha + beta + 3)).

(** orthopoly.cpp:97-100: h1 and anew in iteration i *)
Definition h1_of (alpha beta : R) (i : nat) : R := 2 * (INR i + 1) + alpha + beta.
Definition anew_of (alpha beta : R) (i : nat) : R :=
  let h1 := h1_of alpha beta i in
  (2 / (h1 + 2)) *
  sqrt ((INR i + 2) * (INR i + 2 + alpha + beta) * (INR i + 2 + alpha) * (INR i + 2 + beta)
        / ((h1 + 1) * (h1 + 3))).
(** orthopoly.cpp:101 *)
Definition bnew_of (alpha beta : R) (i : nat) : R :=
  let h1 := h1_of alpha beta i in - ((alpha * alpha) - (beta * beta)) / (h1 * (h1 + 2)).

(** orthopoly.cpp:95-110: the loop; [n] iterations remain, the next one has index [i] *)
Fixpoint jacobi_loop (alpha beta x : R) (n i : nat) (aold p0 p1 : R) : R :=
  match n with
  | O => p1
  | S n' =>
      let anew := anew_of alpha beta i in
      let bnew := bnew_of alpha beta i in
      let p := (1 / anew) * (- aold * p0 + (x - bnew) * p1) in
      jacobi_loop alpha beta x n' (S i) anew p1 p
  end.

(** orthopoly.cpp:62-112 [jacobiPoly] at one abscissa; a nat degree (the code's int is never negative here) *)
Definition jacobiPoly (tgamma : R -> R) (x alpha beta : R) (degree : nat) : R :=
  match degree with
  | O => poly_0 tgamma alpha beta
  | S O => poly_1 tgamma alpha beta x
  | S (S n) => jacobi_loop alpha beta x (S n) 0 (aold_init alpha beta)
                 (poly_0 tgamma alpha beta) (poly_1 tgamma alpha beta x)
  end.

(** orthopoly.cpp:114-136 [prorioPoly], two-dimensional *)
Definition prorio2 (tgamma : R -> R) (x y : R) (i j : nat) : R :=
  let xi := if Req_EM_T y 1 then -1 else (2 * (1 + x) / (1 - y)) - 1 in
  let L := jacobiPoly tgamma xi 0 0 i in
  let J := jacobiPoly tgamma y (2 * INR i + 1) 0 j in
  sqrt 2 * L * J * pow (1 - y) i.

(** orthopoly.cpp:138-164 [prorioPoly], three-dimensional *)
Definition prorio3 (tgamma : R -> R) (x y z : R) (i j k : nat) : R :=
  let xi := if Req_EM_T (y + z) 0 then -1 else -2 * (1 + x) / (y + z) - 1 in
  let eta := if Req_EM_T z 1 then -1 else 2 * (1 + y) / (1 - z) - 1 in
  let L := jacobiPoly tgamma xi 0 0 i in
  let J := jacobiPoly tgamma eta (2 * INR i + 1) 0 j in
  let K := jacobiPoly tgamma z (2 * INR i + 2 * INR j + 2) 0 k in
  sqrt 8 * L * J * pow (1 - eta) i * K * pow (1 - z) (i + j).

(** A Vandermonde builder is a sequence of column writes: column number and the basis index written there.
    The state is the column pointer [ptr] and the writes so far. *)
Definition writes (I : Type) := list (nat * I).

(** the counted loop  for (int r = 0; r <= degree; ++r) body  as a left fold over 0..degree *)
Definition for_to {S : Type} (last : nat) (body : S -> nat -> S) (s : S) : S :=
  fold_left body (seq 0 (last + 1)) s.

(** lines "V.GetColumnReference(ptr, poly); evaluate; ptr += 1" *)
Definition write_col {I : Type} (s : nat * writes I) (idx : I) : nat * writes I :=
  (fst s + 1, snd s ++ [(fst s, idx)])%nat.

(** orthopoly.cpp:166-179 [getVandermondeForSeg]: the writes *)
Definition vander_seg (degree : nat) : nat * writes nat :=
  for_to degree (fun s r => write_col s r) (0%nat, []).
Definition vander_seg_cols (degree : nat) : nat := (degree + 1)%nat.

(** orthopoly.cpp:181-201 [getVandermondeForTri] *)
Definition vander_tri (degree : nat) : nat * writes (nat * nat) :=
  for_to degree (fun s r => for_to r (fun s j => write_col s (r - j, j)%nat) s) (0%nat, []).
Definition vander_tri_cols (degree : nat) : nat := ((degree + 1) * (degree + 2) / 2)%nat.

(** orthopoly.cpp:203-228 [getVandermondeForTet] *)
Definition vander_tet (degree : nat) : nat * writes (nat * nat * nat) :=
  for_to degree (fun s r =>
    for_to r (fun s k => for_to (r - k) (fun s j => write_col s (r - j - k, j, k)%nat) s) s) (0%nat, []).
Definition vander_tet_cols (degree : nat) : nat := ((degree + 1) * (degree + 2) * (degree + 3) / 6)%nat.

(** orthopoly.cpp:33-46 in [getLobattoQuadrature]: columns of the Legendre Vandermonde matrix at one node,
    pair (column k, column k+1) *)
Fixpoint lob_cols (k : nat) (x : R) : R * R :=
  match k with
  | O => (1, x)
  | S k' => let p := lob_cols k' x in
      let kk := INR (k' + 1) in
      (snd p, (2 * kk + 1) / (kk + 1) * (x * snd p) + (- kk / (kk + 1)) * fst p)
  end.
Definition lob_col (k : nat) (x : R) : R := fst (lob_cols k x).

(** orthopoly.cpp:47-54: the Newton update of one node, num_nodes = degree + 1 *)
Definition lob_update (num_nodes : nat) (x_old : R) : R :=
  let degree := (num_nodes - 1)%nat in
  x_old - (x_old * lob_col degree x_old - lob_col (degree - 1) x_old) / lob_col degree x_old * (1 / INR num_nodes).

(** orthopoly.cpp:57-61: the weight of one node, from the columns of the last sweep *)
Definition lob_weight (num_nodes : nat) (x_old : R) : R :=
  / (lob_col (num_nodes - 1) x_old * lob_col (num_nodes - 1) x_old
     * (5 / 10 * INR num_nodes * INR (num_nodes - 1))).

(** std::numeric_limits<double>::epsilon() *)
Definition dbl_epsilon : R := / 2 ^ 52.

(** orthopoly.cpp:30-61: the while loop over all nodes.  [xs] is the current vector, [x_old] the previous one
    (line 28 sets it to 2, so the first test is on |x - 2|).  [None]: fuel exhausted.
    Normlinf is the largest absolute entry. *)
Fixpoint linf (l : list R) : R := match l with [] => 0 | r :: l' => Rmax (Rabs r) (linf l') end.
Fixpoint vsub (u v : list R) : list R :=
  match u, v with a :: u', b :: v' => (a - b) :: vsub u' v' | _, _ => [] end.
Fixpoint lob_loop (fuel num_nodes : nat) (xs x_old : list R) : option (list R * list R) :=
  if Rgt_dec (linf (vsub xs x_old)) dbl_epsilon then
    match fuel with
    | O => None
    | S f => lob_loop f num_nodes (map (lob_update num_nodes) xs) xs
    end
  else Some (xs, map (lob_weight num_nodes) x_old).
(** orthopoly.cpp:10-19 and 25-29: Chebyshev-Gauss-Lobatto start *)
Definition lob_start (num_nodes : nat) : list R :=
  map (fun i => - cos (PI * INR i / INR (num_nodes - 1))) (seq 0 num_nodes).
Definition getLobattoQuadrature (fuel num_nodes : nat) : option (list R * list R) :=
  lob_loop fuel num_nodes (lob_start num_nodes) (map (fun _ => 2) (lob_start num_nodes)).
