(** The nonlinear reluctivity of a material from spline data, and the data shipped with the code. *)
From Coq Require Import Reals List Arith Bool.
From Verif Require Import EmCoef.
Import ListNotations.
Local Open Scope R_scope.

Inductive result (A : Type) := Fine (a : A) | Throws | Undefined.
Arguments Fine {A}. Arguments Throws {A}. Arguments Undefined {A}.
Definition andThen {A B} (x : result A) (f : A -> result B) : result B := match x with Fine a => f a | Throws => Throws | Undefined => Undefined end.

(** ---- tinyspline, the third-party spline library used by src/physics/electromagnetics/reluctivity_coefficient.cpp (include at :7).
    Its numbers are taken as reals and it compares them exactly (the library itself takes parameters nearer to a knot than a
    small tolerance for that knot). One-dimensional control points only, as in all uses of this file. *)
Record curve := { cps : list R; knots : list R; degree : nat }.
Definition cp (c : curve) (i : nat) : R := nth i (cps c) 0.
Definition knot (c : curve) (i : nat) : R := nth i (knots c) 0.
Definition rle (a b : R) : bool := if Rle_dec a b then true else false.
Definition rlt (a b : R) : bool := if Rlt_dec a b then true else false.
(** BSpline(n, 1, degree), setControlPoints and setKnots, called at reluctivity_coefficient.cpp:377-381 and :487-496: it throws when the degree is not below the
    number of control points, when there are not (control points + degree + 1) knots, when they decrease, and when one is
    repeated more than degree + 1 times *)
Definition setUp (c : curve) : result curve :=
  let n := length (cps c) in let m := length (knots c) in let p := degree c in
  if (p <? n)%nat && (m =? n + p + 1)%nat && forallb (fun i => rle (knot c i) (knot c (i + 1))) (seq 0 (m - 1)) &&
     forallb (fun i => rlt (knot c i) (knot c (i + p + 1))) (seq 0 (m - p - 1))
  then Fine c else Throws.
(** de Boor's recursion: level r, point i *)
Fixpoint boor (c : curve) (u : R) (r i : nat) : R :=
  match r with
  | O => cp c i
  | S r' => let w := (u - knot c i) / (knot c (i + degree c - r') - knot c i) in (1 - w) * boor c u r' (i - 1) + w * boor c u r' i
  end.
(** the interval of the knots that holds u: the last one of positive length that begins at or before u *)
Definition span (c : curve) (u : R) : option nat :=
  find (fun k => rle (knot c k) u && rlt (knot c k) (knot c (k + 1))) (rev (seq (degree c) (length (cps c) - degree c))).
(** eval(u).result()[0]: throws outside of the domain, which runs from knot number degree to knot number n *)
Definition evalCurve (c : curve) (u : R) : result R :=
  if rlt u (knot c (degree c)) || rlt (knot c (length (cps c))) u then Throws
  else match span c u with Some k => Fine (boor c u (degree c) k) | None => Undefined end.
(** derive(): the control points p (c_(i+1) - c_i) / (t_(i+p+1) - t_(i+1)) on the knots without the first and the last; it throws where
    the curve jumps. Degree 0 is not modelled. *)
Definition derive (c : curve) : result curve :=
  let n := length (cps c) in let p := degree c in
  if (p =? 0)%nat then Undefined
  else if forallb (fun i => rlt (knot c (i + 1)) (knot c (i + p + 1))) (seq 0 (n - 1))
  then Fine {| cps := map (fun i => INR p * (cp c (i + 1) - cp c i) / (knot c (i + p + 1) - knot c (i + 1))) (seq 0 (n - 1));
               knots := removelast (tl (knots c)); degree := p - 1 |}
  else Throws.

(** ---- logNuBBSplineReluctivityCoefficient, reluctivity_coefficient.cpp:372-459;
    the constructor reads the last control point and the last knot before anything is checked *)
Record lognu := { lcurve : curve; lslope : curve; l_b_max : R }.
Definition logNu (c : curve) : result lognu :=
  match cps c, knots c with
  | [], _ | _, [] => Undefined
  | _, _ => andThen (setUp c) (fun c => andThen (derive c) (fun d => Fine {| lcurve := c; lslope := d; l_b_max := last (knots c) 0 |}))
  end.
Definition logNu_eval (l : lognu) (b : R) : result R :=
  if Rle_dec b (l_b_max l) then andThen (evalCurve (lcurve l) b) (fun s => Fine (exp s)) else Fine nu0.
Definition logNu_d (l : lognu) (b : R) : result R :=
  if Rle_dec b (l_b_max l) then andThen (evalCurve (lcurve l) b) (fun s => andThen (evalCurve (lslope l) b) (fun d => Fine (exp s * d))) else Fine 0.

(** EvalState2ndDeriv, :426-459: the second derivative's curve is made at the first call *)
Definition logNu_dd (l : lognu) (b : R) : result R := andThen (derive (lslope l)) (fun e =>
  if Rle_dec b (l_b_max l) then andThen (evalCurve (lcurve l) b) (fun s => andThen (evalCurve (lslope l) b) (fun d => andThen (evalCurve e b) (fun d2 => Fine (exp s * (d2 + d ^ 2)))))
  else Fine 0).

(** ---- BHBSplineReluctivityCoefficient, :481-545. EvalStateDeriv divides by the flux density: undefined at 0 *)
Record bhcurve := { hcurve : curve; hslope : curve; h_b_max : R; h_h_max : R }.
Definition scaledKnots (c : curve) : curve := {| cps := cps c; knots := map (fun t => t / last (knots c) 0) (knots c); degree := degree c |}.
Definition bhSpline (c : curve) : result bhcurve :=
  match cps c, knots c with
  | [], _ | _, [] => Undefined
  | _, _ => andThen (setUp (scaledKnots c)) (fun s => andThen (derive s) (fun d =>
      Fine {| hcurve := s; hslope := d; h_b_max := last (knots c) 0; h_h_max := last (cps c) 0 |}))
  end.
Definition bh_eval (l : bhcurve) (b : R) : result R :=
  if Rle_dec b tiny then andThen (evalCurve (hslope l) (b / h_b_max l)) (fun d => Fine (d / h_b_max l))
  else if Rle_dec b (h_b_max l) then andThen (evalCurve (hcurve l) (b / h_b_max l)) (fun h => Fine (h / b))
  else Fine ((h_h_max l - nu0 * h_b_max l) / b + nu0).

Definition bh_d (l : bhcurve) (b : R) : result R :=
  if Rle_dec b (h_b_max l) then
    andThen (evalCurve (hcurve l) (b / h_b_max l)) (fun h => andThen (evalCurve (hslope l) (b / h_b_max l)) (fun d =>
      if Req_EM_T b 0 then Undefined else Fine (d / (b * h_b_max l) - h / b ^ 2)))
  else Fine (- (h_h_max l - nu0 * h_b_max l) / b ^ 2).

(** ---- getCpsKnotsAndDegree, :155-191: each of the three from the material's options where given there, else from the library,
    where a missing entry is undefined behaviour (const json operator[]) but a missing degree is 3 *)
Record spline_options := { o_cps : option (list R); o_knots : option (list R); o_degree : option nat }.
Definition orElse {A} (x : option A) (y : option A) : result A := match x with Some a => Fine a | None => match y with Some a => Fine a | None => Undefined end end.
Definition getCurve (own : spline_options) (lib : option spline_options) : result curve :=
  let l := match lib with Some l => l | None => {| o_cps := None; o_knots := None; o_degree := None |} end in
  andThen (orElse (o_cps own) (o_cps l)) (fun c => andThen (orElse (o_knots own) (o_knots l)) (fun t =>
  andThen (orElse (o_degree own) (match lib with Some _ => Some (match o_degree l with Some d => d | None => 3%nat end) | None => None end)) (fun p =>
  Fine {| cps := c; knots := t; degree := p |}))).
(** the branches "lognu" and "bh" of constructReluctivityCoeff, :220-238 *)
Definition lognuMaterial (own : spline_options) (lib : option spline_options) : result lognu := andThen (getCurve own lib) logNu.
Definition bhMaterial (own : spline_options) (lib : option spline_options) : result bhcurve := andThen (getCurve own lib) bhSpline.

(** ---- src/common/material_library.cpp: hiperco50 "lognu", :10-40, and "bh", :41-107, and team13 "bh", :146-180 *)
Definition hiperco50_lognu : spline_options :=
  {| o_cps := Some [5401/1000; 43732/10000; 39991/10000; 38783/10000; 38492/10000; 38882/10000; 43043/10000; 48375/10000; 10251/1000; 135846/10000; 135848/10000];
     o_degree := Some 2%nat;
     o_knots := Some [0; 0; 0; 6209/10000; 9571/10000; 11516/10000; 1346/1000; 15888/10000; 18193/10000; 23539/10000; 27175/10000; 35/10; 35/10; 35/10] |}.
Definition hiperco50_bh : spline_options :=
  {| o_cps := Some [0; 152187154/10000000; 244069859/10000000; 287543851/10000000; 32857424/1000000; 353931188/10000000; 383409008/10000000; 41064278/1000000; 438435871/10000000; 464801737/10000000; 496317182/10000000; 529859037/10000000; 566857479/10000000; 615933673/10000000; 664821406/10000000; 775969027/10000000; 975330122/10000000; 121434401/1000000; 152150611/1000000; 194912815/1000000; 326052424/1000000; 316221363/1000000; 117492265/100000; 237559462/100000; 370126207/100000; 718675547/100000; 135355204/10000; 217248492/10000; 39788736/1000];
     o_degree := Some 3%nat;
     o_knots := Some [0; 0; 0; 0; 2/10; 3/10; 4/10; 5/10; 6/10; 7/10; 8/10; 9/10; 1; 11/10; 11976/10000; 13/10; 14/10; 14775/10000; 16/10; 17119/10000; 18/10; 19/10; 2; 21/10; 21868/10000; 225/100; 23/10; 236/100; 24/10; 25/10; 25/10; 25/10; 25/10] |}.
Definition team13_bh : spline_options :=
  {| o_cps := Some [0; 0; 0; 0; 979/10000; 13841/10000; 1800000001641453/1000000000000000; 1999999999999916/1000000000000000; 222/100; 222/100; 222/100; 222/100];
     o_degree := Some 3%nat;
     o_knots := Some [0; 16446362274610001/100000000000000; 3013546318106/10000000000; 1617681804384/10000000000; 9617045565209/10000000000;
       270156213073554/10000000000; 1384240810362731/10000000000; 1967808935033237/10000000000] |}.
