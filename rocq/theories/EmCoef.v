(** Model of the electromagnetic material coefficients, src/physics/electromagnetics/: cal2_kh_coefficient.cpp (and
    cal2_ke_coefficient.cpp, the same code with ke for kh), pm_demag_constraint_coeff.cpp, conductivity_coefficient.cpp,
    remnant_flux_coefficient.cpp, demag_flux_coefficient.cpp, reluctivity_coefficient.cpp.
    Exact reals; [None] is a result that is not a finite number (a division by zero or pow(0, negative)). *)
From Coq Require Import Reals ZArith String List Bool.
From Verif Require Import Vec Coef CoefMix.
Import ListNotations.
Local Open Scope R_scope.

(** ---- options ---- values in a material's sub-object ("core_loss", "Demag", "conductivity", "reluctivity") *)
Inductive jval := VNum (v : R) | VVec (l : list R) | VStr (s : string).
Definition jobj := list (string * jval).
(** "material": a name, or an object with "name" and possibly the sub-object *)
Inductive matspec := MName (n : string) | MObj (n : string) (sub : option jobj).
Record ecomponent := { emat : matspec; eattr : option Z; eattrs : option (list Z) }.
(** the library: per material the number under [plain] ("kh", "sigma", "mu_r") and the sub-object of the model *)
Record libmat := { plain : option R; sub_of : string -> option jobj }.
Definition lib := list (string * libmat).

(** "if the options contain the key, take it, else the library's": getTsAndKhs (cal2_kh:218-275), getDemagParams
    (pm_demag:171-285, demag_flux:87-118), getAlphaAndT_RefAndSigma_T_Ref (conductivity:81-120) *)
Definition param (over : jobj) (libsub : option jobj) (key : string) : built jval :=
  match sfind key over with
  | Some v => Built v
  | None => match libsub with Some m => match sfind key m with Some v => Built v | None => Undefined end | None => Undefined end
  end.
Definition get_num (b : built jval) : built R :=
  match b with Built (VNum v) => Built v | Built _ => Threw | Threw => Threw | MfemError => MfemError | Undefined => Undefined end.
Definition get_vec (b : built jval) : built (list R) :=
  match b with Built (VVec v) => Built v | Built _ => Threw | Threw => Threw | MfemError => MfemError | Undefined => Undefined end.
Definition bind {A B} (x : built A) (f : A -> built B) : built B :=
  match x with Built a => f a | Threw => Threw | MfemError => MfemError | Undefined => Undefined end.
(** materials[material_name].value(key, d) *)
Definition lib_number (l : lib) (name : string) (d : R) : built R :=
  match sfind name l with None => Undefined | Some m => Built (match plain m with Some v => v | None => d end) end.
Definition lib_sub (l : lib) (name model : string) : option jobj :=
  match sfind name l with None => None | Some m => sub_of m model end.

(** constructors: for every component in turn, register under "attr" what [one] builds, or, when there is no "attr", under
    every entry of "attrs" what [many] builds *)
Fixpoint reg_all {A} (t : list (Z * A)) (l : list Z) (b : built A) : built (list (Z * A)) :=
  match l with
  | [] => Built t
  | a :: r => bind b (fun x => match addCoefficient t a x with Some t' => reg_all t' r b | None => MfemError end)
  end.
Definition reg {A} (one many : ecomponent -> built A) (t : list (Z * A)) (c : ecomponent) : built (list (Z * A)) :=
  let attr := match eattr c with Some a => a | None => (-1)%Z end in
  if Z.eqb attr (-1) then match eattrs c with Some l => reg_all t l (many c) | None => Undefined end
  else reg_all t [attr] (one c).
Fixpoint reg_components {A} (one many : ecomponent -> built A) (cs : list ecomponent) (t : list (Z * A)) : built (list (Z * A)) :=
  match cs with
  | [] => Built t
  | c :: r => bind (reg one many t c) (fun t' => reg_components one many r t')
  end.

(** ---- CAL2 loss coefficients ---- *)
Inductive cal2 := KConst (v : R) | KPoly (T0 : R) (k_T0 : list R) (T1 : R) (k_T1 : list R).
(** constructDefaultCAL2_khCoeff (cal2_kh:206-212): the library's "kh", default 1 *)
Definition cal2_default (l : lib) (name : string) : built cal2 := bind (lib_number l name 1) (fun v => Built (KConst v)).
(** constructCAL2_khCoeff, cal2_kh:278-336 *)
Definition cal2_build (l : lib) (c : ecomponent) : built cal2 :=
  match emat c with
  | MName n => cal2_default l n
  | MObj n None => cal2_default l n
  | MObj n (Some o) =>
    let s := lib_sub l n "CAL2" in
    bind (get_num (param o s "T0")) (fun T0 => bind (get_vec (param o s "kh_T0")) (fun k0 =>
    bind (get_num (param o s "T1")) (fun T1 => bind (get_vec (param o s "kh_T1")) (fun k1 => Built (KPoly T0 k0 T1 k1)))))
  end.
(** CAL2khCoefficient constructor (cal2_kh:478-527): the "attr" branch calls constructDefaultCAL2_khCoeff(component, ...),
    whose first parameter is a std::string: converting the component, a json object, throws *)
Definition CAL2 (l : lib) (cs : list ecomponent) : built (list (Z * cal2)) :=
  reg_components (fun _ => Threw) (cal2_build l) cs [].

(** the loops, cal2_kh:560-568: sum of k[i] * pow(B, i) *)
Fixpoint ploop (i : nat) (k : list R) (B acc : R) : R :=
  match k with [] => acc | a :: r => ploop (S i) r B (acc + a * B ^ i) end.
(** std::pow(B, e) with an integer exponent *)
Definition cpow (B : R) (e : Z) : option R := if Z.ltb e 0 then if Req_EM_T B 0 then None else Some (powerRZ B e) else Some (powerRZ B e).
(** :645-657: sum of i * k[i] * pow(B, i-1) *)
Fixpoint dploop (i : nat) (k : list R) (B : R) (acc : option R) : option R :=
  match k with
  | [] => acc
  | a :: r => dploop (S i) r B (match acc, cpow B (Z.of_nat i - 1) with Some x, Some p => Some (x + INR i * a * p) | _, _ => None end)
  end.
(** :724-736: sum of (i-1) * i * k[i] * pow(B, i-2) *)
Fixpoint ddploop (i : nat) (k : list R) (B : R) (acc : option R) : option R :=
  match k with
  | [] => acc
  | a :: r => ddploop (S i) r B (match acc, cpow B (Z.of_nat i - 2) with
                                 | Some x, Some p => Some (x + (INR i - 1) * INR i * a * p) | _, _ => None end)
  end.
Definition odiv (a b : R) : option R := if Req_EM_T b 0 then None else Some (a / b).
Definition omap2 (f : R -> R -> R) (x y : option R) : option R := match x, y with Some a, Some b => Some (f a b) | _, _ => None end.

Section CAL2Poly.
Variables (T0 : R) (k0 : list R) (T1 : R) (k1 : list R).
(** PolyVarHysteresisLossCoeff::Eval, cal2_kh:547-578 (state1 = temperature, state2 = frequency, state3 = flux density) *)
Definition k_eval (T f B : R) : option R :=
  let a := ploop 0 k0 B 0 in let b := ploop 0 k1 B 0 in
  match odiv (b - a) ((T1 - T0) * a) with Some D => Some ((1 + (T - T0) * D) * a) | None => None end.
(** EvalDerivS1, :580-611 *)
Definition k_d1 (T f B : R) : option R :=
  let a := ploop 0 k0 B 0 in let b := ploop 0 k1 B 0 in
  match odiv (b - a) ((T1 - T0) * a) with Some D => Some (D * a) | None => None end.
(** EvalDerivS2, :613-629 *)
Definition k_d2 (T f B : R) : option R := Some 0.
(** EvalDerivS3, :631-669 *)
Definition k_d3 (T f B : R) : option R :=
  let a := dploop 0 k0 B (Some 0) in let b := dploop 0 k1 B (Some 0) in
  match odiv (T - T0) (T1 - T0) with
  | Some th => omap2 (fun x y => x + th * (y - x)) a b
  | None => None
  end.
(** Eval2ndDerivS1, S2, S1S2, S2S3, S2S1, S3S2: 0 (:671-707, 749-766, 808-845, 886-905) *)
Definition k_zero (T f B : R) : option R := Some 0.
(** Eval2ndDerivS3, :709-747 *)
Definition k_d33 (T f B : R) : option R :=
  let a := ddploop 0 k0 B (Some 0) in let b := ddploop 0 k1 B (Some 0) in
  match odiv (T - T0) (T1 - T0) with
  | Some th => omap2 (fun x y => x + th * (y - x)) a b
  | None => None
  end.
(** Eval2ndDerivS1S3 :768-806 and S3S1 :847-884 *)
Definition k_d13 (T f B : R) : option R :=
  let a := dploop 0 k0 B (Some 0) in let b := dploop 0 k1 B (Some 0) in
  match omap2 (fun x y => y - x) a b with Some n => odiv n (T1 - T0) | None => None end.
End CAL2Poly.
(** evaluation on an element: the registered coefficient, else the default 1.0 (cal2_kh:480, MeshDependentThreeState) *)
Definition CAL2_eval (t : list (Z * cal2)) (attr : Z) (T f B : R) : option R :=
  match mfind attr t with
  | Some (KConst v) => Some v
  | Some (KPoly T0 k0 T1 k1) => k_eval T0 k0 T1 k1 T f B
  | None => Some 1
  end.

(** ---- permanent-magnet demagnetisation constraint ---- *)
Record demag := { dT0 : R; aBr : R; Br0 : R; aHci : R; Hci0 : R; aBk : R; bBk : R; aHk : R; bHk : R }.
Section Demag.
Variable p : demag.
Definition Bk (T : R) : R := aBk p * T + bBk p.
Definition Hk (T : R) : R := aHk p * T + bHk p.
Definition Br (T : R) : R := Br0 p * (1 + aBr p / 100 * (T - dT0 p)).
Definition Hci (T : R) : R := Hci0 p * (1 + aHci p / 100 * (T - dT0 p)).
(** PMDemagConstraintEqCoeff::Eval, pm_demag:536-564 (state1 = flux density, state2 = temperature) *)
Definition C_eval (B T : R) : R :=
  (Hk T / (Bk T - Br T) - (Hk T - Hci T) / Bk T) * B - (Hci T + Br T * Hk T / (Bk T - Br T)).
(** EvalDerivS1, :566-598 *)
Definition C_dB (B T : R) : R := Hk T / (Bk T - Br T) - (Hk T - Hci T) / Bk T.
(** EvalDerivS2, :600-641 *)
Definition C_dT (B T : R) : R :=
  let S1 := aBk p - Br0 p * aBr p / 100 in let S2 := Bk T - Br T in let S3 := Br T / Br0 p in
  B * (aHk p / S2 - (aHk p - Hci0 p * aHci p / 100) / Bk T - S1 * Hk T / S2 ^ 2 + aBk p * (Hk T - Hci T) / Bk T ^ 2)
  - Hci0 p * aHci p / 100 - Br0 p * aBr p * Hk T / (100 * S2) - Br0 p * aHk p * S3 / S2 + Br0 p * S3 * S1 * Hk T / S2 ^ 2.
(** Eval2ndDerivS1, :643-661 *)
Definition C_dBB (B T : R) : R := 0.
(** Eval2ndDerivS2, :663-719 *)
Definition C_dTT (B T : R) : R :=
  let S1 := aBk p - Br0 p * aBr p / 100 in let S2 := Bk T - Br T in let S3 := Br T / Br0 p in
  Br0 p * aHk p * S3 * S1 * 2 / S2 ^ 2 - Br0 p * aBr p * aHk p / (50 * S2) - Br0 p * S3 * S1 ^ 2 * Hk T * 2 / S2 ^ 3
  - B * (aBk p ^ 2 * (Hk T - Hci T) * 2 / Bk T ^ 3 - 2 * S1 ^ 2 * Hk T / S2 ^ 3
         - aBk p * (aHk p - Hci0 p * aHci p / 100) * 2 / Bk T ^ 2 + aHk p * S1 * 2 / S2 ^ 2)
  + Br0 p * aBr p * S1 * Hk T / (50 * S2 ^ 2).
(** Eval2ndDerivS1S2, :721-775, and S2S1, :777-831: the same expression *)
Definition C_dBT (B T : R) : R :=
  let S1 := aBk p - Br0 p * aBr p / 100 in let S2 := Bk T - Br T in
  aHk p / S2 - (aHk p - Hci0 p * aHci p / 100) / Bk T - S1 * Hk T / S2 ^ 2 + aBk p * (Hk T - Hci T) / Bk T ^ 2.
End Demag.
Inductive pmd := PConst | PEq (p : demag).
(** constructPMDemagConstraintCoeff, :288-366 with getDemagParams *)
Definition pmd_build (l : lib) (c : ecomponent) : built pmd :=
  match emat c with
  | MName _ => Built PConst
  | MObj _ None => Built PConst
  | MObj n (Some o) =>
    let s := lib_sub l n "Demag" in let num k := get_num (param o s k) in
    bind (num "T0"%string) (fun t0 => bind (num "alpha_B_r"%string) (fun a1 => bind (num "B_r_T0"%string) (fun b1 =>
    bind (num "alpha_H_ci"%string) (fun a2 => bind (num "H_ci_T0"%string) (fun b2 => bind (num "alpha_B_knee"%string) (fun a3 =>
    bind (num "beta_B_knee"%string) (fun b3 => bind (num "alpha_H_knee"%string) (fun a4 => bind (num "beta_H_knee"%string) (fun b4 =>
    Built (PEq {| dT0 := t0; aBr := a1; Br0 := b1; aHci := a2; Hci0 := b2; aBk := a3; bBk := b3; aHk := a4; bHk := b4 |}))))))))))
  end.
(** constructor, :454-504: the same slip in the "attr" branch *)
Definition PMDemag (l : lib) (cs : list ecomponent) : built (list (Z * pmd)) := reg_components (fun _ => Threw) (pmd_build l) cs [].
Definition PMDemag_eval (t : list (Z * pmd)) (attr : Z) (B T : R) : R :=
  match mfind attr t with Some (PEq p) => C_eval p B T | _ => 0 end.

(** ---- flux density of the knee, demag_flux_coefficient.cpp ---- *)
Inductive dfl := DConst | DLin (a b : R).
Definition dfl_build (l : lib) (c : ecomponent) : built dfl :=
  match emat c with
  | MName _ => Built DConst
  | MObj _ None => Built DConst
  | MObj n (Some o) =>
    let s := lib_sub l n "Demag" in
    bind (get_num (param o s "alpha_B_knee")) (fun a => bind (get_num (param o s "beta_B_knee")) (fun b => Built (DLin a b)))
  end.
Definition DemagFlux (l : lib) (cs : list ecomponent) : built (list (Z * dfl)) := reg_components (fun _ => Threw) (dfl_build l) cs [].
(** constructor :217-266; LinearTempDepDemagFluxCoefficient (:272-315): as a coefficient; only the stateless EvalRevDiff is overridden (:63-68,
    empty), the one with a state is StateCoefficient's, which aborts; [Coef.rev0] is not used for it *)
Definition dfl_coef (d : dfl) : coef :=
  match d with
  | DConst => Plain (fun _ => 0) (fun _ _ P => Acc P)
  | DLin a b => One (fun _ T => a * T + b) (fun _ _ => a) (fun _ _ => 0) (fun _ _ _ _ => Abort)
  end.

Definition DemagFlux_mesh (t : list (Z * dfl)) : meshcoef :=
  {| material_map := map (fun p => (fst p, dfl_coef (snd p))) t; default_coeff := Some (dfl_coef DConst) |}.

(** ---- conductivity ---- *)
Inductive cond := CConst (v : R) | CLin (alpha Tref sref : R).
Definition cond_const (l : lib) (name : string) : built cond := bind (lib_number l name 58140000) (fun v => Built (CConst v)).
(** constructConductivityCoeff, conductivity:122-183 *)
Definition cond_build (l : lib) (c : ecomponent) : built cond :=
  match emat c with
  | MName n => cond_const l n
  | MObj n None => cond_const l n
  | MObj n (Some o) =>
    match sfind "model" o with
    | Some (VStr m) =>
      if String.eqb m "constant" then cond_const l n
      else if String.eqb m "linear" then
        let s := lib_sub l n m in
        bind (get_num (param o s "alpha_resistivity")) (fun a => bind (get_num (param o s "T_ref")) (fun t =>
        bind (get_num (param o s "sigma_T_ref")) (fun g => Built (CLin a t g))))
      else Threw
    | Some _ => Threw
    | None => Undefined
    end
  end.
(** constructor, :230-253: the same builder in both branches; default 58.14e6 *)
Definition Conductivity (l : lib) (cs : list ecomponent) : built (list (Z * cond)) := reg_components (cond_build l) (cond_build l) cs [].
(** LinearTempDepConductivityCoefficient, :267-302 *)
Definition s_eval (alpha Tref sref T : R) : R := sref / (1 + alpha * (T - Tref)).
Definition s_d (alpha Tref sref T : R) : R := - sref * alpha / (1 + alpha * (T - Tref)) ^ 2.
Definition s_dd (alpha Tref sref T : R) : R := 2 * sref * alpha ^ 2 / (1 + alpha * (T - Tref)) ^ 3.
Definition cond_coef (c : cond) : coef :=
  match c with
  | CConst v => Plain (fun _ => v) (fun _ _ P => Acc P)
  | CLin a t g => One (fun _ => s_eval a t g) (fun _ => s_d a t g) (fun _ => s_dd a t g) (fun _ _ _ P => Acc P)
  end.

Definition Conductivity_mesh (t : list (Z * cond)) : meshcoef :=
  {| material_map := map (fun p => (fst p, cond_coef (snd p))) t; default_coeff := Some (cond_coef (CConst 58140000)) |}.

(** ---- remnant flux density, remnant_flux_coefficient.cpp:72-129, 176-199 (the coefficient applies to every attribute) and 213-259 ---- *)
Record remnant := { rAlpha : R; rT : R; rB : R }.
Definition remnant_build (o : jobj) : built remnant :=
  let get k d := match sfind k o with Some (VNum v) => Built v | Some _ => Threw | None => Built d end in
  bind (get "alpha_B_r"%string (- 12 / 100)) (fun a => bind (get "T_ref"%string (29315 / 100)) (fun t =>
  bind (get "B_r_T_ref"%string (139 / 100)) (fun b => Built {| rAlpha := a; rT := t; rB := b |}))).
Definition r_eval (r : remnant) (T : R) : R := rB r * (1 + rAlpha r / 100 * (T - rT r)).
Definition r_d (r : remnant) (T : R) : R := rB r * (rAlpha r / 100).
Definition r_dd (r : remnant) (T : R) : R := 0.

(** ---- reluctivity ---- 1/mu_0 with mu_0 = 4e-7 pi *)
Definition mu_0 : R := 4 / 10000000 * PI.
Definition nu0 : R := 1 / mu_0.
(** a spline is its evaluation function s, that of derive() and of derive().derive(); evaluation outside the knots throws
    in tinyspline and is not modelled *)
Record spline := { sv : R -> R; sd : R -> R; sdd : R -> R }.
(** logNuBBSplineReluctivityCoefficient, reluctivity:372-459 *)
Definition L_eval (s : spline) (b_max b : R) : R := if Rle_dec b b_max then exp (sv s b) else nu0.
Definition L_d (s : spline) (b_max b : R) : R := if Rle_dec b b_max then exp (sv s b) * sd s b else 0.
Definition L_dd (s : spline) (b_max b : R) : R := if Rle_dec b b_max then exp (sv s b) * (sdd s b + sd s b ^ 2) else 0.
(** BHBSplineReluctivityCoefficient, :481-545: H as a spline of b / b_max *)
Definition tiny : R := 1 / 10 ^ 14.
Definition H_eval (s : spline) (b_max h_max b : R) : R :=
  if Rle_dec b tiny then sd s (b / b_max) / b_max
  else if Rle_dec b b_max then sv s (b / b_max) / b
  else (h_max - nu0 * b_max) / b + nu0.
Definition H_d (s : spline) (b_max h_max b : R) : option R :=
  if Rle_dec b b_max then
    match odiv (sd s (b / b_max)) (b * b_max), odiv (sv s (b / b_max)) (b ^ 2) with
    | Some x, Some y => Some (x - y) | _, _ => None end
  else Some (- (h_max - nu0 * b_max) / b ^ 2).
(** EvalState2ndDeriv is not overridden: StateCoefficient's, common/coefficient.hpp:43-48 *)
Definition H_dd (s : spline) (b_max h_max b : R) : R := 0.
(** constructLinearReluctivityCoeff :147-153, the choice of constructReluctivityCoeff :193-258 (the spline data are not modelled), and the constructor :341-363, default 1/mu_0 *)
Inductive nuc := NLin (v : R) | NLog | NBH.
Definition nu_lin (l : lib) (name : string) : built nuc := bind (lib_number l name 1) (fun mu_r => Built (NLin (1 / (mu_r * mu_0)))).
Definition nu_build (l : lib) (c : ecomponent) : built nuc :=
  match emat c with
  | MName n => nu_lin l n
  | MObj n None => nu_lin l n
  | MObj n (Some o) =>
    match sfind "model" o with
    | Some (VStr m) =>
      if String.eqb m "linear" then nu_lin l n
      else if String.eqb m "lognu" then Built NLog
      else if String.eqb m "bh" then Built NBH
      else Threw
    | Some _ => Threw
    | None => Undefined
    end
  end.
Definition Reluctivity (l : lib) (cs : list ecomponent) : built (list (Z * nuc)) := reg_components (nu_build l) (nu_build l) cs [].
