(** Direction fields of magnets (src/physics/electromagnetics/magnetic_source_functions.cpp) and of currents
    (current_source_functions.cpp).  Positions and values are vectors of which the first vdim (3 for currents) entries
    matter.  Real arithmetic; a division 0/0 (NaN in C++) is modelled where it can happen by None. *)
From Coq Require Import Reals String List Bool ZArith Ratan.
From Verif Require Import Vec Current.
Import ListNotations.
Local Open Scope R_scope.

Definition v3 (a b c : R) : vec := fun k => match k with 0%nat => a | 1%nat => b | 2%nat => c | _ => 0 end.
(** norm_r, e.g. magnetic_source_functions.cpp:22 *)
Definition norm_r (x : vec) : R := sqrt (x 0%nat * x 0%nat + x 1%nat * x 1%nat).

(** north, south, cw, ccw, x, y, z magnetization, magnetic_source_functions.cpp:13-137; mfem_error for z with vdim < 3 *)
Definition north (x : vec) : vec := v3 (x 0%nat / norm_r x) (x 1%nat / norm_r x) 0.
Definition south (x : vec) : vec := v3 (- x 0%nat / norm_r x) (- x 1%nat / norm_r x) 0.
Definition cw (x : vec) : vec := v3 (- x 1%nat / norm_r x) (x 0%nat / norm_r x) 0.
Definition ccw (x : vec) : vec := v3 (x 1%nat / norm_r x) (- x 0%nat / norm_r x) 0.
Definition magnetization (vdim : nat) (name : string) (x : vec) : option (ret vec) :=
  if String.eqb name "north" then Some (Ret (north x))
  else if String.eqb name "south" then Some (Ret (south x))
  else if String.eqb name "cw" then Some (Ret (cw x))
  else if String.eqb name "ccw" then Some (Ret (ccw x))
  else if String.eqb name "x" then Some (Ret (v3 1 0 0))
  else if String.eqb name "y" then Some (Ret (v3 0 1 0))
  else if String.eqb name "z" then Some (if Nat.ltb vdim 3 then Aborts else Ret (v3 0 0 1))
  else None.

(** ring, box1, box2, x/y/z axis currents, current_source_functions.cpp:145-212 *)
Definition ring (x : vec) : vec := v3 (- (x 1%nat / norm_r x)) (x 0%nat / norm_r x) 0.
Definition box1 (x : vec) : vec := v3 0 0 (-6 * (x 1%nat - 1 / 2)).
Definition box2 (x : vec) : vec := v3 0 0 (6 * (x 1%nat - 1 / 2)).

(** sgn, :232-237 *)
Definition sgn (x : R) : R := (if Rlt_dec 0 x then 1 else 0) - (if Rlt_dec x 0 then 1 else 0).
(** team13_current, :239-283; the constant 0.075 *)
Definition c75 : R := 75 / 1000.
Definition team13_raw (X : vec) : R * R :=
  let x := X 0%nat in let y := X 1%nat in
  if Rle_dec (- c75) y then if Rle_dec y c75 then (0, sgn x)
    else if Rle_dec (- c75) x then if Rle_dec x c75 then (- sgn y, 0)
      else if Rlt_dec c75 x then if Rlt_dec c75 y then (- (y - c75), x - c75)
           else (0, 0) else (0, 0)
    else if Rlt_dec x c75 then if Rlt_dec c75 y then (- (y - c75), x + c75) else (0, 0) else (0, 0)
  else if Rle_dec (- c75) x then if Rle_dec x c75 then (- sgn y, 0)
      else if Rlt_dec c75 x then if Rlt_dec y c75 then (- (y + c75), x - c75) else (0, 0) else (0, 0)
    else if Rlt_dec x c75 then if Rlt_dec y c75 then (- (y + c75), x + c75) else (0, 0) else (0, 0).
Definition team13 (X : vec) : option vec :=
  let p := team13_raw X in
  let nrm := sqrt (fst p * fst p + snd p * snd p) in
  if Req_EM_T nrm 0 then None else Some (v3 (fst p / nrm) (snd p / nrm) 0).

(** std::atan2 and std::round (half away from zero) on real numbers *)
Definition atan2 (y x : R) : R :=
  if Rlt_dec 0 x then atan (y / x)
  else if Rlt_dec x 0 then (if Rle_dec 0 y then atan (y / x) + PI else atan (y / x) - PI)
  else if Rlt_dec 0 y then PI / 2 else if Rlt_dec y 0 then - PI / 2 else 0.
Definition round (x : R) : R :=
  if Rle_dec 0 x then IZR (Int_part (x + 1 / 2)) else - IZR (Int_part (- x + 1 / 2)).

(** cross product and normalization of the coil ends, :67-74 *)
Definition cross (a b : vec) : vec :=
  v3 (a 1%nat * b 2%nat - a 2%nat * b 1%nat) (a 2%nat * b 0%nat - a 0%nat * b 2%nat) (a 0%nat * b 1%nat - a 1%nat * b 0%nat).
Definition norm3 (v : vec) : R := sqrt (v 0%nat * v 0%nat + v 1%nat * v 1%nat + v 2%nat * v 2%nat).
(** the slot the position is in and the angle from its centre, :28-33 *)
Definition slot_width (n_slots : Z) : R := 2 * PI / IZR n_slots.
Definition slot (n_slots : Z) (x : vec) : R := round (atan2 (x 1%nat) (x 0%nat) / slot_width n_slots).
Definition theta (n_slots : Z) (x : vec) : R := atan2 (x 1%nat) (x 0%nat) - slot n_slots x * slot_width n_slots.
Definition slot_axis (n_slots : Z) (x : vec) : vec :=
  v3 (cos (slot n_slots x * slot_width n_slots)) (sin (slot n_slots x * slot_width n_slots)) 0.
(** ccw_stator_current, :81-143 *)
Definition ccw_stator (n_slots : Z) (stack_length : R) (x : vec) : vec :=
  let zb := - stack_length / 2 in let zt := stack_length / 2 in
  let th := theta n_slots x in
  if Rle_dec zb (x 2%nat) then
    if Rle_dec (x 2%nat) zt then v3 0 0 (if Rlt_dec th 0 then 1 else if Rlt_dec 0 th then -1 else 0)
    else let c := cross (v3 (x 0%nat) (x 1%nat) (x 2%nat - zt)) (slot_axis n_slots x) in fun k => c k / norm3 c
  else let c := cross (v3 (x 0%nat) (x 1%nat) (x 2%nat - zb)) (slot_axis n_slots x) in fun k => c k / norm3 c.
(** cw_stator_current, :14-79: the same followed by a change of sign *)
Definition cw_stator (n_slots : Z) (stack_length : R) (x : vec) : vec := fun k => -1 * ccw_stator n_slots stack_length x k.

(** the sources CurrentDensityCoefficient knows, :727-979, and the entries they put into cached_inputs.  The functions the
    code builds for the two stator sources hold references to local variables that no longer exist when they are called
    (:731-755, 766-790: undefined behaviour); here they get the values these variables had. *)
Definition stator_inputs : smap := [("n_slots"%string, 24); ("stack_length"%string, 345 / 1000)].
Definition known3d : known := fun s =>
  if String.eqb s "cwStator" then Some (cw_stator 24 (345 / 1000), stator_inputs)
  else if String.eqb s "ccwStator" then Some (ccw_stator 24 (345 / 1000), stator_inputs)
  else if String.eqb s "x" then Some (fun _ => v3 1 0 0, [])
  else if String.eqb s "y" then Some (fun _ => v3 0 1 0, [])
  else if String.eqb s "z" then Some (fun _ => v3 0 0 1, [])
  else if String.eqb s "-z" then Some (fun _ => v3 0 0 (-1), [])
  else if String.eqb s "ring" then Some (ring, [])
  else if String.eqb s "box1" then Some (box1, [])
  else if String.eqb s "box2" then Some (box2, [])
  else if String.eqb s "team13" then Some (fun x k => match team13 x with Some v => v k | None => 0 end, [])
  else None.
