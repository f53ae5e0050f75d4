(** Arithmetic interface for the floating-point control-flow code.

    C++ [double] code is written once over this record.  [Rnum] is the real-number instance
    (exact arithmetic; used for the theorems), [Fnum] is Coq's primitive IEEE binary64 (used for
    concrete runs).  Simplification: theorems over [Rnum] say nothing about rounding. *)
From Coq Require Import Floats Reals ZArith Lra Bool.

Record num := {
  T : Type;
  nZ : Z -> T;                      (* integer literals that are exact doubles *)
  nadd : T -> T -> T; nsub : T -> T -> T; nmul : T -> T -> T; ndiv : T -> T -> T;
  nopp : T -> T; nabs : T -> T; nsqrt : T -> T;
  nltb : T -> T -> bool; nleb : T -> T -> bool; neqb : T -> T -> bool }.

(** decimal literal p/q, e.g. 1e-4 = 1/10000: both parts are exact doubles, so in [Fnum] this is the
    correctly rounded literal *)
Definition nlit (N : num) (p q : Z) : T N := ndiv N (nZ N p) (nZ N q).
(** std::min(a,b) = (b < a) ? b : a, std::max(a,b) = (a < b) ? b : a  (C++17 [alg.min.max]) *)
Definition nmin (N : num) (a b : T N) : T N := if nltb N b a then b else a.
Definition nmax (N : num) (a b : T N) : T N := if nltb N a b then b else a.

Definition Rltb (x y : R) : bool := if Rlt_dec x y then true else false.
Definition Rleb (x y : R) : bool := if Rle_dec x y then true else false.
Definition Reqb (x y : R) : bool := if Req_EM_T x y then true else false.

Definition Rnum : num := {|
  T := R; nZ := IZR; nadd := Rplus; nsub := Rminus; nmul := Rmult; ndiv := Rdiv;
  nopp := Ropp; nabs := Rabs; nsqrt := R_sqrt.sqrt; nltb := Rltb; nleb := Rleb; neqb := Reqb |}.

Definition F_of_Z (z : Z) : float :=
  if Z.ltb z 0 then PrimFloat.opp (PrimFloat.of_uint63 (Uint63.of_Z (- z)))
  else PrimFloat.of_uint63 (Uint63.of_Z z).

Definition Fnum : num := {|
  T := float; nZ := F_of_Z; nadd := PrimFloat.add; nsub := PrimFloat.sub;
  nmul := PrimFloat.mul; ndiv := PrimFloat.div; nopp := PrimFloat.opp; nabs := PrimFloat.abs;
  nsqrt := PrimFloat.sqrt; nltb := PrimFloat.ltb; nleb := PrimFloat.leb; neqb := PrimFloat.eqb |}.

Local Open Scope R_scope.
Lemma Rltb_spec x y : BoolSpec (x < y) (y <= x) (Rltb x y).
Proof. unfold Rltb; destruct (Rlt_dec x y); constructor; lra. Qed.
Lemma Rleb_spec x y : BoolSpec (x <= y) (y < x) (Rleb x y).
Proof. unfold Rleb; destruct (Rle_dec x y); constructor; lra. Qed.
Lemma Reqb_spec x y : BoolSpec (x = y) (x <> y) (Reqb x y).
Proof. unfold Reqb; destruct (Req_EM_T x y); constructor; lra. Qed.
Lemma Rltb_true x y : Rltb x y = true <-> x < y.
Proof. unfold Rltb; destruct (Rlt_dec x y); split; intros; try lra; try discriminate; reflexivity. Qed.
Lemma Rltb_false x y : Rltb x y = false <-> y <= x.
Proof. unfold Rltb; destruct (Rlt_dec x y); split; intros; try lra; try discriminate; reflexivity. Qed.
Lemma Rleb_true x y : Rleb x y = true <-> x <= y.
Proof. unfold Rleb; destruct (Rle_dec x y); split; intros; try lra; try discriminate; reflexivity. Qed.
Lemma Rleb_false x y : Rleb x y = false <-> y < x.
Proof. unfold Rleb; destruct (Rle_dec x y); split; intros; try lra; try discriminate; reflexivity. Qed.
Lemma nmin_R a b : nmin Rnum a b = Rmin a b.
Proof. unfold nmin; cbn; destruct (Rltb_spec b a); unfold Rmin; destruct (Rle_dec a b); lra. Qed.
Lemma nmax_R a b : nmax Rnum a b = Rmax a b.
Proof. unfold nmax; cbn; destruct (Rltb_spec a b); unfold Rmax; destruct (Rle_dec a b); lra. Qed.
