(** Model of the coefficient classes of src/common/coefficient.{hpp,cpp} and of constructMaterialCoefficient.
    A coefficient is evaluated at one integration point of one element; what varies is the element's attribute, the
    coordinates X of the element's mesh nodes (trans.GetPointMat()) and the state values handed in.  Exact reals. *)
From Coq Require Import Reals ZArith String List Bool.
From Verif Require Import Vec.
Import ListNotations.
Local Open Scope R_scope.

(** result of a reverse pass: the accumulated PointMat_bar, or MFEM_ABORT *)
Inductive rev_out := Acc (P : vec) | Abort.

(** the dynamic type of a coefficient object: a bare mfem::Coefficient, a StateCoefficient (coefficient.hpp:26-65), a
    TwoStateCoefficient (:70-126) or a ThreeStateCoefficient (:131-247).  [d]/[dd] are the virtual derivative methods:
    index i is EvalDerivS(i+1), (i,i) is Eval2ndDerivS(i+1), (i,j) is Eval2ndDerivS(i+1)S(j+1). *)
Inductive coef :=
| Plain (ev : vec -> R) (rev : R -> vec -> vec -> rev_out)
| One (ev : vec -> R -> R) (d dd : vec -> R -> R) (rev : R -> vec -> R -> vec -> rev_out)
| Two (ev : vec -> R -> R -> R) (d : nat -> vec -> R -> R -> R) (dd : nat -> nat -> vec -> R -> R -> R)
      (rev : R -> vec -> vec -> rev_out)
| Three (ev : vec -> R -> R -> R -> R) (d : nat -> vec -> R -> R -> R -> R) (dd : nat -> nat -> vec -> R -> R -> R -> R)
      (rev : R -> vec -> vec -> rev_out).

(** virtual Eval(trans, ip): the state versions are called with all states 0 (:29-33, :73-77, :134-138) *)
Definition eval0 (c : coef) (X : vec) : R :=
  match c with Plain ev _ => ev X | One ev _ _ _ => ev X 0 | Two ev _ _ _ => ev X 0 0 | Three ev _ _ _ => ev X 0 0 0 end.
(** virtual EvalRevDiff(Q_bar, trans, ip, PointMat_bar): StateCoefficient forwards with state 0 (:50-56) *)
Definition rev0 (c : coef) (Q : R) (X P : vec) : rev_out :=
  match c with Plain _ r => r Q X P | One _ _ _ r => r Q X 0 P | Two _ _ _ r => r Q X P | Three _ _ _ r => r Q X P end.

(** std::map<int, unique_ptr<Coefficient>>: unique keys; find *)
Definition mmap := list (Z * coef).
Fixpoint mfind {A} (k : Z) (m : list (Z * A)) : option A :=
  match m with [] => None | (k', v) :: r => if Z.eqb k k' then Some v else mfind k r end.
Record meshcoef := { material_map : mmap; default_coeff : option coef }.
(** addCoefficient: insert, mfem_error on a key already present (coefficient.hpp:484-493, 797-806, 930-939) *)
Definition addCoefficient {A} (m : list (Z * A)) (attr : Z) (c : A) : option (list (Z * A)) :=
  match mfind attr m with Some _ => None | None => Some (m ++ [(attr, c)]) end.

(** the three-way choice every method of the three classes makes: map entry, else default, else [none] *)
Definition choose {B} (m : meshcoef) (attr : Z) (f : coef -> B) (none : B) : B :=
  match mfind attr (material_map m) with
  | Some c => f c
  | None => match default_coeff m with Some c => f c | None => none end
  end.

(** MeshDependentCoefficient: Eval/2 coefficient.cpp:90-112, Eval/3 :114-153, EvalStateDeriv :155-193, EvalState2ndDeriv
    :195-234, EvalRevDiff/4 :236-255, EvalRevDiff/5 :257-292; dynamic_cast<StateCoefficient*> succeeds on [One] only *)
Definition Eval2 (m : meshcoef) (attr : Z) (X : vec) : R := choose m attr (fun c => eval0 c X) 0.
Definition Eval3 (m : meshcoef) (attr : Z) (X : vec) (s : R) : R :=
  choose m attr (fun c => match c with One ev _ _ _ => ev X s | _ => eval0 c X end) 0.
Definition EvalStateDeriv (m : meshcoef) (attr : Z) (X : vec) (s : R) : R :=
  choose m attr (fun c => match c with One _ d _ _ => d X s | _ => 0 end) 0.
Definition EvalState2ndDeriv (m : meshcoef) (attr : Z) (X : vec) (s : R) : R :=
  choose m attr (fun c => match c with One _ _ dd _ => dd X s | _ => 0 end) 0.
Definition EvalRevDiff4 (m : meshcoef) (attr : Z) (Q : R) (X P : vec) : rev_out :=
  choose m attr (fun c => rev0 c Q X P) (Acc P).
Definition EvalRevDiff5 (m : meshcoef) (attr : Z) (Q : R) (X : vec) (s : R) (P : vec) : rev_out :=
  choose m attr (fun c => match c with One _ _ _ r => r Q X s P | _ => rev0 c Q X P end) (Acc P).
(** a MeshDependentCoefficient is itself a StateCoefficient, so it can be put into another one *)
Definition mesh_as_coef (m : meshcoef) (attr : Z) : coef :=
  One (Eval3 m attr) (EvalStateDeriv m attr) (EvalState2ndDeriv m attr) (fun Q X s P => EvalRevDiff5 m attr Q X s P).

(** MeshDependentTwoStateCoefficient: Eval coefficient.cpp:516-558, EvalDerivS1 :561, S2 :606, Eval2ndDerivS1 :651, S2
    :696, S1S2 :741, S2S1 :787-829 *)
Definition TwoEval (m : meshcoef) (attr : Z) (X : vec) (s1 s2 : R) : R :=
  choose m attr (fun c => match c with Two ev _ _ _ => ev X s1 s2 | _ => eval0 c X end) 0.
Definition TwoDeriv (i : nat) (m : meshcoef) (attr : Z) (X : vec) (s1 s2 : R) : R :=
  choose m attr (fun c => match c with Two _ d _ _ => d i X s1 s2 | _ => 0 end) 0.
Definition Two2ndDeriv (i j : nat) (m : meshcoef) (attr : Z) (X : vec) (s1 s2 : R) : R :=
  choose m attr (fun c => match c with Two _ _ dd _ => dd i j X s1 s2 | _ => 0 end) 0.
(** MeshDependentThreeStateCoefficient: Eval :936-979, EvalDerivS1..S3 :982-1123, second derivatives :1126-1558 *)
Definition ThreeEval (m : meshcoef) (attr : Z) (X : vec) (s1 s2 s3 : R) : R :=
  choose m attr (fun c => match c with Three ev _ _ _ => ev X s1 s2 s3 | _ => eval0 c X end) 0.
Definition ThreeDeriv (i : nat) (m : meshcoef) (attr : Z) (X : vec) (s1 s2 s3 : R) : R :=
  choose m attr (fun c => match c with Three _ d _ _ => d i X s1 s2 s3 | _ => 0 end) 0.
Definition Three2ndDeriv (i j : nat) (m : meshcoef) (attr : Z) (X : vec) (s1 s2 s3 : R) : R :=
  choose m attr (fun c => match c with Three _ _ dd _ => dd i j X s1 s2 s3 | _ => 0 end) 0.

(** ParameterContinuationCoefficient (coefficient.hpp:435-464, .cpp:71-88) with the static lambda at [lam]: overrides
    Eval and EvalStateDeriv only, so the second derivative is StateCoefficient's 0 (:43-48) and EvalRevDiff aborts
    (.cpp:12-21) *)
Definition continuation (lam : R) (lin : coef) (ev d dd : vec -> R -> R) : coef :=
  One (fun X s => (1 - lam) * eval0 lin X + lam * ev X s) (fun X s => lam * d X s) (fun _ _ => 0)
      (fun _ _ _ _ => Abort).

(** vector coefficients: a bare VectorCoefficient or a VectorStateCoefficient (coefficient.hpp:1171-1209); values are
    vectors of length n, the reverse pass receives V_bar *)
Inductive vcoef :=
| VPlain (ev : vec -> vec) (rev : vec -> vec -> vec -> rev_out)
| VState (ev : vec -> R -> vec) (d : vec -> R -> vec) (rev : vec -> vec -> R -> vec -> rev_out).
Definition veval (b : vcoef) (X : vec) (s : R) : vec := match b with VPlain ev _ => ev X | VState ev _ _ => ev X s end.
Definition vderiv (b : vcoef) (X : vec) (s : R) : vec := match b with VPlain _ _ => fun _ => 0 | VState _ d _ => d X s end.
Definition vrev (b : vcoef) (Vb X : vec) (s : R) (P : vec) : rev_out :=
  match b with VPlain _ r => r Vb X P | VState _ _ r => r Vb X s P end.
Definition seval (a : coef) (X : vec) (s : R) : R := match a with One ev _ _ _ => ev X s | _ => eval0 a X end.
Definition srev (a : coef) (Q : R) (X : vec) (s : R) (P : vec) : rev_out :=
  match a with One _ _ _ r => r Q X s P | _ => rev0 a Q X P end.

(** VectorMeshDependent(State)Coefficient: coefficient.cpp:1801-1843 and 1857-2002 *)
Record vmeshcoef := { vmap : list (Z * vcoef); vdefault : option vcoef }.
Definition vchoose {B} (m : vmeshcoef) (attr : Z) (f : vcoef -> B) (none : B) : B :=
  match mfind attr (vmap m) with
  | Some c => f c
  | None => match vdefault m with Some c => f c | None => none end
  end.
Definition VEval (m : vmeshcoef) (attr : Z) (X : vec) (s : R) : vec := vchoose m attr (fun c => veval c X s) (fun _ => 0).
Definition VDeriv (m : vmeshcoef) (attr : Z) (X : vec) (s : R) : vec := vchoose m attr (fun c => vderiv c X s) (fun _ => 0).
Definition VRev (m : vmeshcoef) (attr : Z) (Vb X : vec) (s : R) (P : vec) : rev_out :=
  vchoose m attr (fun c => vrev c Vb X s P) (Acc P).

(** ScalarVectorProductCoefficient::Eval/4 (coefficient.cpp:2013-2037), EvalStateDeriv (:2039-2083), EvalRevDiff
    (:2085-2137) for vectors of length n *)
Definition ProdEval (a : coef) (b : vcoef) (X : vec) (s : R) : vec := fun k => veval b X s k * seval a X s.
Definition ProdDeriv (a : coef) (b : vcoef) (X : vec) (s : R) : vec := fun k =>
  let da := match a with One _ d _ _ => d X s | _ => 0 end in
  0 + veval b X s k * da + vderiv b X s k * seval a X s.
Definition ProdRev (n : nat) (a : coef) (b : vcoef) (Vb X : vec) (s : R) (P : vec) : rev_out :=
  match vrev b (fun k => 0 + seval a X s * Vb k) X s P with
  | Abort => Abort
  | Acc P1 => srev a (dot n Vb (veval b X s)) X s P1
  end.
