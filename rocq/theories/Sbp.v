(** Model of the SBP element operators (src/common/sbp_fe.cpp:12-314) and of the element and face assembly loops
    of src/physics/fluidflow/inviscid_integ_def.hpp and viscous_integ_def.hpp:40-117, over exact reals.
    Node/state arrays DenseMatrix(num_nodes, num_states) are functions node -> state -> R; the operators,
    the mapping adjugates and the point fluxes are parameters, so every theorem holds for any element type, any
    mesh geometry and any flux with the stated properties. *)
From Coq Require Import Reals Arith List.
From Verif Require Import Num Vec.
Import ListNotations.
Local Open Scope R_scope.

Definition mat := nat -> nat -> R.
(** for (int k = 0; k < n; ++k) s = body(k, s) *)
Fixpoint loop {S : Type} (n : nat) (body : nat -> S -> S) (s : S) : S :=
  match n with O => s | S k => body k (loop k body s) end.
(** A(i, j) += x *)
Definition add2 (A : mat) (i j : nat) (x : R) : mat :=
  fun a b => if andb (Nat.eqb a i) (Nat.eqb b j) then A a b + x else A a b.
Definition zero2 : mat := fun _ _ => 0.

Section Element.
Variable n : nat.                  (* num_nodes = GetDof() *)
Variable d : nat.                  (* dim = GetDim() *)
Variable H : vec.                  (* diagonal norm *)
Variable Q : nat -> mat.           (* Q[k](a,b): the stored, transposed operators *)

(** multNormMatrix, sbp_fe.cpp:12-26 (u indexed state, node) *)
Definition multNormMatrix (u : mat) : mat := fun m i => H i * u m i.
(** multWeakOperator, sbp_fe.cpp:92-130 *)
Definition multWeakOperator (di : nat) (u Qu : mat) (trans : bool) : mat :=
  if trans then fun m i => Qu m i - rsum n (fun j => Q di i j * u m j)
  else fun m i => Qu m i + rsum n (fun j => Q di j i * u m j).
(** multStrongOperator at node i, sbp_fe.cpp:132-161 *)
Definition multStrongOperator (di i : nat) (u : mat) : vec := fun m => 1 / H i * rsum n (fun j => Q di j i * u m j).
(** getStrongOperator, sbp_fe.cpp:45-74: entry (i,j), not transposed / transposed *)
Definition getStrongOperator (di : nat) (trans : bool) : mat :=
  if trans then fun i j => Q di i j * (1 / H j) else fun i j => 1 / H i * Q di j i.
(** getQ, sbp_fe.cpp:163-166 *)
Definition getQ (di i j : nat) : R := Q di j i.
(** getSkewEntry, sbp_fe.cpp:168-180 *)
Definition getSkewEntry (di i j : nat) (adjJ_i adjJ_j : mat) : R :=
  rsum d (fun k => adjJ_i k di * Q k j i - adjJ_j k di * Q k i j).
(** getSkewEntryRevDiff, sbp_fe.cpp:182-195: increments of adjJ_i_bar(k,di) and adjJ_j_bar(k,di) *)
Definition getSkewEntryRevDiff (di i j : nat) (Sij_bar : R) : vec * vec :=
  (fun k => Sij_bar * Q k j i, fun k => - (Sij_bar * Q k i j)).
(** getSymEntry, sbp_fe.cpp:197-207 *)
Definition getSymEntry (di i : nat) (adjJ_i : mat) : R := rsum d (fun k => adjJ_i k di * Q k i i).
(** getQEntry, sbp_fe.cpp:209-223 *)
Definition getQEntry (di i j : nat) (adjJ_i adjJ_j : mat) : R :=
  if Nat.eqb i j then getSymEntry di i adjJ_i else 1/2 * getSkewEntry di i j adjJ_i adjJ_j.

Variable nv : nat.                 (* V.Width() *)
Variable V : mat.                  (* V(node, basis function) *)
(** getProjOperatorEntry, sbp_fe.cpp:238-249 *)
Definition getProjOperatorEntry (i j : nat) : R :=
  (if Nat.eqb i j then 1 else 0) - rsum nv (fun k => V i k * V j k * H j).
(** multProjOperator, sbp_fe.cpp:251-314 (the work vector prod is recomputed from u for each basis function) *)
Definition multProjOperator (u : mat) (trans : bool) : mat :=
  if trans then fun m j => u m j - rsum nv (fun i => V j i * H j * rsum n (fun k => V k i * u m k))
  else fun m j => u m j - rsum nv (fun i => V j i * rsum n (fun k => V k i * H k * u m k)).

(** * Volume integrators *)
Variable ns : nat.                 (* num_states *)
Variable alpha : R.
Variable adj : nat -> mat.         (* adjugate of the mapping Jacobian at each node *)

(** InviscidIntegrator::AssembleElementVector, inviscid_integ_def.hpp:43-82: flux(dir, u, .) *)
Definition inviscidVector (flux : vec -> vec -> vec) (u : nat -> vec) : mat :=
  let elres := loop d (fun di elres =>
      multWeakOperator di (fun m i => flux (fun k => adj i di k) (u i) m) elres true) zero2 in
  fun i m => alpha * elres m i.

(** DyadicFluxIntegrator::AssembleElementVector, inviscid_integ_def.hpp:136-185 *)
Definition dyadicVector (flux : nat -> vec -> vec -> vec) (u : nat -> vec) : mat :=
  loop n (fun i res =>
    loop n (fun j res =>
      if Nat.ltb i j then
        loop d (fun di res =>
          let fluxij := flux di (u i) (u j) in
          let Sij := getSkewEntry di i j (adj i) (adj j) * alpha in
          loop ns (fun m res => add2 (add2 res i m (Sij * fluxij m)) j m (- (Sij * fluxij m))) res) res
      else res) res) zero2.

(** LPSIntegrator::AssembleElementVector, inviscid_integ_def.hpp:248-296 *)
Definition lpsVector (lps_coeff : R) (convert : vec -> vec) (scale : mat -> vec -> vec -> vec) (u : nat -> vec) : mat :=
  let w : mat := fun m i => convert (u i) m in
  let Pw := multProjOperator w false in
  let w : mat := fun m i => scale (adj i) (u i) (fun k => Pw k i) m * lps_coeff in
  let w := multNormMatrix w in
  let Pw := multProjOperator w true in
  fun i m => Pw m i * alpha.

(** NonlinearMassIntegrator::AssembleElementVector, inviscid_integ_def.hpp:834-866; weight i = Trans.Weight()*ip.weight *)
Definition massVector (weight : vec) (convert : vec -> vec) (u : nat -> vec) : mat :=
  fun i m => weight i * convert (u i) m * alpha.

(** SymmetricViscousIntegrator::AssembleElementVector, viscous_integ_def.hpp:40-117.  detJ i = Trans.Weight();
    scale d2 i u Dw: Dw(s, k) as a function of direction k and state s (the position argument of scale is
    folded into the node index) *)
Definition viscousGrad (detJ : vec) (convert : vec -> vec) (u : nat -> vec) (i : nat) : nat -> vec :=
  fun di s => rsum n (fun j => getQEntry di i j (adj i) (adj j) * convert (u j) s) * (1 / (H i * detJ i)).
Definition viscousVector (detJ : vec) (convert : vec -> vec) (scale : nat -> nat -> vec -> (nat -> vec) -> vec) (u : nat -> vec) : mat :=
  loop n (fun i res =>
    let Dwi := viscousGrad detJ convert u i in
    loop d (fun di res =>
      let CDwi := scale di i (u i) Dwi in
      loop n (fun k res =>
        let Qik := getQEntry di i k (adj i) (adj k) in
        loop ns (fun s res => add2 res k s (alpha * Qik * CDwi s)) res) res) res) zero2.

(** * Jacobians.  elmat(m*num_nodes + i, k*num_nodes + j) is read as a function of (m, i) and (k, j). *)
Definition mat4 := nat -> nat -> nat -> nat -> R.
Definition add4 (A : mat4) (m i k j : nat) (x : R) : mat4 :=
  fun a b c e => if andb (andb (Nat.eqb a m) (Nat.eqb b i)) (andb (Nat.eqb c k) (Nat.eqb e j)) then A a b c e + x else A a b c e.
Definition zero4 : mat4 := fun _ _ _ _ => 0.
(** InviscidIntegrator::AssembleElementGrad, inviscid_integ_def.hpp:84-134 (state loops run to dim+2: [ns]) *)
Definition inviscidGrad (fluxJac : vec -> vec -> mat) (u : nat -> vec) : mat4 :=
  loop d (fun di A => loop n (fun i A =>
    let jac := fluxJac (fun k => adj i di k) (u i) in
    loop n (fun j A =>
      let q := alpha * getQ di i j in
      loop ns (fun k A => loop ns (fun m A => add4 A m j k i (- (q * jac m k))) A) A) A) A) zero4.
(** DyadicFluxIntegrator::AssembleElementGrad, inviscid_integ_def.hpp:187-246 *)
Definition dyadicGrad (jacL jacR : nat -> vec -> vec -> mat) (u : nat -> vec) : mat4 :=
  loop d (fun di A => loop n (fun i A => loop n (fun j A =>
    if Nat.ltb i j then
      let Jl := jacL di (u i) (u j) in
      let Jr := jacR di (u i) (u j) in
      let Sij := getSkewEntry di i j (adj i) (adj j) * alpha in
      loop ns (fun m A => loop ns (fun k A =>
        add4 (add4 (add4 (add4 A m i k i (Sij * Jl m k)) m i k j (Sij * Jr m k))
                   m j k i (- (Sij * Jl m k))) m j k j (- (Sij * Jr m k))) A) A
    else A) A) A) zero4.
(** LPSIntegrator::AssembleElementGrad, inviscid_integ_def.hpp:298-410.  scaleJac adjJ u v: derivative of
    scale(adjJ, u, v) in u; scaleJacV: in v; convJac: of convert.  lps_coeff does not occur. *)
Definition lpsGrad (convert : vec -> vec) (convJac : vec -> mat) (scaleJac : mat -> vec -> vec -> mat)
    (scaleJacV : mat -> vec -> mat) (u : nat -> vec) : mat4 :=
  let w : mat := fun m i => convert (u i) m in
  let Pw := multProjOperator w false in
  let elmat := loop n (fun i A =>
    let jt := scaleJac (adj i) (u i) (fun k => Pw k i) in
    let A := loop n (fun j A =>
       let coeff := H i * getProjOperatorEntry i j in
       loop ns (fun m A => loop ns (fun k A => add4 A m j k i (coeff * jt m k)) A) A) A in
    loop n (fun j A =>
      if Nat.leb i j then
        let Lij := fun a b => rsum n (fun k => getProjOperatorEntry k i * H k * getProjOperatorEntry k j * scaleJacV (adj k) (u k) a b) in
        let jn := fun a b => rsum ns (fun c => Lij a c * convJac (u j) c b) in
        let A := loop ns (fun m A => loop ns (fun k A => add4 A m i k j (jn m k)) A) A in
        if Nat.eqb i j then A
        else
          let jn := fun a b => rsum ns (fun c => Lij a c * convJac (u i) c b) in
          loop ns (fun m A => loop ns (fun k A => add4 A m j k i (jn m k)) A) A
      else A) A) zero4 in
  fun m i k j => elmat m i k j * alpha.
(** NonlinearMassIntegrator::AssembleElementGrad, inviscid_integ_def.hpp:868-912 *)
Definition massGrad (weight : vec) (convJac : vec -> mat) (u : nat -> vec) : mat4 :=
  let elmat := loop n (fun i A => loop ns (fun m A => loop ns (fun k A => add4 A m i k i (weight i * convJac (u i) m k)) A) A) zero4 in
  fun m i k j => elmat m i k j * alpha.
(** SymmetricViscousIntegrator::AssembleElementGrad, viscous_integ_def.hpp:119-243.  scaleJacDw di i u Dw d2:
    derivative of scale in column d2 of Dw *)
Definition viscousJac (detJ : vec) (convert : vec -> vec) (convJac : vec -> mat)
    (scaleJac : nat -> nat -> vec -> (nat -> vec) -> mat) (scaleJacDw : nat -> nat -> vec -> (nat -> vec) -> nat -> mat) (u : nat -> vec) : mat4 :=
  let elmat := loop n (fun i A =>
    let Hinv := 1 / (H i * detJ i) in
    let Dwi := viscousGrad detJ convert u i in
    loop d (fun di A =>
      let jt1 := scaleJac di i (u i) Dwi in
      let CDw := scaleJacDw di i (u i) Dwi in
      loop n (fun k A =>
        let Qik := getQEntry di i k (adj i) (adj k) in
        let A := loop ns (fun sk A => loop ns (fun si A => add4 A sk k si i (Qik * jt1 sk si)) A) A in
        loop n (fun j A => loop d (fun d2 A =>
          let Qij := getQEntry d2 i j (adj i) (adj j) in
          let jt2 := fun a b => rsum ns (fun c => CDw d2 a c * convJac (u j) c b) * (Qik * Hinv * Qij) in
          loop ns (fun sk A => loop ns (fun sj A => add4 A sk k sj j (jt2 sk sj)) A) A) A) A) A) A) zero4 in
  fun m i k j => elmat m i k j * alpha.
End Element.

(** * Faces *)
(** InviscidBoundaryIntegrator::AssembleFaceVector, inviscid_integ_def.hpp:469-531: [nf] face nodes; idx f: the
    element node at face node f (getIntegrationPointIndex); nrm f: CalcOrtho; wt f: face_ip.weight; the position
    argument of flux is folded into the face node index *)
Definition boundaryVector (nf ns : nat) (alpha : R) (idx : nat -> nat) (wt : vec) (nrm : nat -> vec)
    (flux : nat -> vec -> vec -> vec) (u : nat -> vec) : mat :=
  loop nf (fun f res =>
    let j := idx f in
    let flux_face := flux f (nrm f) (u j) in
    loop ns (fun m res => add2 res j m (alpha * (flux_face m * wt f))) res) zero2.
(** InviscidBoundaryIntegrator::AssembleFaceGrad, inviscid_integ_def.hpp:533-602 *)
Definition boundaryGrad (nf ns : nat) (alpha : R) (idx : nat -> nat) (wt : vec) (nrm : nat -> vec)
    (fluxJac : nat -> vec -> vec -> mat) (u : nat -> vec) : mat4 :=
  loop nf (fun f A =>
    let j := idx f in
    let jac := fluxJac f (nrm f) (u j) in
    loop ns (fun k A => loop ns (fun m A => add4 A m j k j (alpha * (jac m k * wt f))) A) A) zero4.
(** InviscidFaceIntegrator::AssembleFaceVector, inviscid_integ_def.hpp:661-737: residuals of the left and right
    elements; nrm is scaled by the weight before the flux is evaluated *)
Definition faceVector (nf ns : nat) (alpha : R) (idxL idxR : nat -> nat) (wt : vec) (nrm : nat -> vec)
    (flux : vec -> vec -> vec -> vec) (uL uR : nat -> vec) : mat * mat :=
  loop nf (fun f res =>
    let flux_face := flux (fun k => nrm f k * wt f) (uL (idxL f)) (uR (idxR f)) in
    loop ns (fun m res => (add2 (fst res) (idxL f) m (alpha * flux_face m), add2 (snd res) (idxR f) m (- (alpha * flux_face m)))) res)
    (zero2, zero2).
(** InviscidFaceIntegrator::AssembleFaceGrad, inviscid_integ_def.hpp:739-832: the four blocks (left-left,
    left-right, right-left, right-right).  The normal is scaled by alpha*weight before the Jacobian is taken. *)
Record blocks := { bLL : mat4; bLR : mat4; bRL : mat4; bRR : mat4 }.
Definition faceGrad (nf ns : nat) (alpha : R) (idxL idxR : nat -> nat) (wt : vec) (nrm : nat -> vec)
    (jacL jacR : vec -> vec -> vec -> mat) (uL uR : nat -> vec) : blocks :=
  loop nf (fun f A =>
    let nn := fun k => nrm f k * (alpha * wt f) in
    let Jl := jacL nn (uL (idxL f)) (uR (idxR f)) in
    let Jr := jacR nn (uL (idxL f)) (uR (idxR f)) in
    loop ns (fun m A => loop ns (fun k A =>
      {| bLL := add4 (bLL A) m (idxL f) k (idxL f) (Jl m k);
         bLR := add4 (bLR A) m (idxL f) k (idxR f) (Jr m k);
         bRL := add4 (bRL A) m (idxR f) k (idxL f) (- Jl m k);
         bRR := add4 (bRR A) m (idxR f) k (idxR f) (- Jr m k) |}) A) A)
    {| bLL := zero4; bLR := zero4; bRL := zero4; bRR := zero4 |}.
