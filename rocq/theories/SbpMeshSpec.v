(** What a valid SBP mesh is, and the error bound of the two-point flux. *)
From Coq Require Import Reals Arith List.
From Verif Require Import Num Vec Euler EulerSpec Sbp SbpSpec SbpMesh.
Import ListNotations.
Local Open Scope R_scope.

(** N global nodes; local-to-global maps and face node indices in range *)
Definition well_formed (N : nat) (M : mesh) : Prop :=
  (forall e, In e (els M) -> forall i, (i < e_n e)%nat -> (e_glob e i < N)%nat) /\
  (forall f, In f (ifs M) ->
     (forall i, (i < f_nL f)%nat -> (f_globL f i < N)%nat) /\ (forall i, (i < f_nR f)%nat -> (f_globR f i < N)%nat) /\
     (forall k, (k < f_nf f)%nat -> (f_idxL f k < f_nL f)%nat /\ (f_idxR f k < f_nR f)%nat /\ 0 <= f_wt f k)) /\
  (forall b, In b (bfs M) -> (forall i, (i < b_n b)%nat -> (b_glob b i < N)%nat) /\ (forall k, (k < b_nf b)%nat -> (b_idx b k < b_n b)%nat)).
(** discrete geometric conservation law: on every element the physical derivative operators annihilate constants *)
Definition gcl (d : nat) (M : mesh) : Prop := forall e, In e (els M) -> forall di i, (di < d)%nat -> (i < e_n e)%nat ->
  rsum (e_n e) (fun j => getQEntry d (e_Q e) di i j (e_adj e i) (e_adj e j)) = 0.
(** face sums *)
Definition bsum (M : mesh) (g : bface -> nat -> R) : R := lsum (fun b => rsum (b_nf b) (fun k => b_wt b k * g b k)) (bfs M).
Definition fsum (dsbp : bool) (M : mesh) (g : iface -> nat -> R) : R := if dsbp then lsum (fun f => rsum (f_nf f) (fun k => g f k)) (ifs M) else 0.
(** global nodes at the face nodes *)
Definition bnode (b : bface) (k : nat) : nat := b_glob b (b_idx b k).
Definition lnode (f : iface) (k : nat) : nat := f_globL f (f_idxL f k).
Definition rnode (f : iface) (k : nat) : nat := f_globR f (f_idxR f k).
(** discrete divergence theorem (the SBP property): summed over the mesh, the symmetric parts of the operators are the
    face quadratures of the normal *)
Definition divergence_theorem (d : nat) (dsbp : bool) (M : mesh) : Prop :=
  forall di (psi : nat -> R), (di < d)%nat ->
  lsum (fun e => rsum (e_n e) (fun i => 2 * getSymEntry d (e_Q e) di i (e_adj e i) * psi (e_glob e i))) (els M) =
  bsum M (fun b k => b_nrm b k di * psi (bnode b k)) +
  fsum dsbp M (fun f k => f_nrm f k di * f_wt f k * (psi (lnode f k) - psi (rnode f k))).
(** error allowance of the Ismail-Roe flux between two states along n (from the series branch of the logarithmic average) *)
Definition ir_allowance (d : nat) (n qL qR : vec) : R :=
  let a := fun q : vec => sqrt (q 0%nat / pressure d q) in
  let b := fun q : vec => sqrt (q 0%nat * pressure d q) in
  let un := fun q : vec => dot d (mom q) n / q 0%nat in
  1 / 10 ^ 16 * (1/2 * Rabs (a qL * un qL + a qR * un qR) * (Rabs (b qL - b qR) + 6 * (Rmax (b qL) (b qR) / Rmin (a qL) (a qR)) * Rabs (a qL - a qR))).
Definition allowance (d : nat) (dsbp : bool) (M : mesh) (u : nat -> vec) : R :=
  lsum (fun e => rsum (e_n e) (fun i => rsum (e_n e) (fun j => if Nat.ltb i j then
    rsum d (fun di => Rabs (getSkewEntry d (e_Q e) di i j (e_adj e i) (e_adj e j)) * ir_allowance d (unitv di) (u (e_glob e i)) (u (e_glob e j))) else 0))) (els M) +
  fsum dsbp M (fun f k => ir_allowance d (fun c => f_nrm f k c * f_wt f k) (u (lnode f k)) (u (rnode f k))).
(** the mass and quadrature data of the stabilisation and viscous terms *)
Definition positive_mesh (M : mesh) : Prop := forall e, In e (els M) -> forall i, (i < e_n e)%nat -> 0 < e_H e i /\ 0 < e_detJ e i.
Definition proj_kills_constants (M : mesh) : Prop := forall e, In e (els M) -> forall i, (i < e_n e)%nat ->
  rsum (e_n e) (fun j => getProjOperatorEntry (e_H e) (e_nv e) (e_V e) i j) = 0.
