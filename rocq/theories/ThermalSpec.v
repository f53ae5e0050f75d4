(** What the theorems about heat exchange on boundaries and interfaces mean. *)
From Coq Require Import Reals String List Bool Arith.
From Coquelicot Require Import Coquelicot.
From Verif Require Import Vec Inputs EmInteg EmIntegSpec Thermal.
Import ListNotations.
Local Open Scope R_scope.

(** heat per area leaving side 1 (side 2) when the temperatures of the two sides are T1 and T2 *)
Definition law1 (g : integ) (T1 T2 : R) : R :=
  match g with
  | Contact _ h _ => h * (T1 - T2)
  | InternalConvection _ h t _ | ConvectionBC h t _ => h * (T1 - t)
  | OutfluxBC f _ => f
  end.
Definition law2 (g : integ) (T1 T2 : R) : R :=
  match g with
  | Contact _ h _ => h * (T2 - T1)
  | InternalConvection _ h t _ => h * (T2 - t)
  | ConvectionBC _ _ _ | OutfluxBC _ _ => 0
  end.
Definition scale (g : integ) : R :=
  match g with Contact _ _ a | InternalConvection _ _ _ a | ConvectionBC _ _ a | OutfluxBC _ a => a end.
Definition transfer (g : integ) : R := match g with Contact _ h _ | InternalConvection _ h _ _ | ConvectionBC h _ _ => h | OutfluxBC _ _ => 0 end.
Definition interface (g : integ) : bool := match g with Contact _ _ _ | InternalConvection _ _ _ _ => true | _ => false end.
(** length of the element vector *)
Definition size (F : face) (g : integ) : nat := if interface g then (n1 F + n2 F)%nat else n1 F.
(** the integral of f over the face, by the rule of order o *)
Definition integral (F : face) (X : mat) (o : nat) (f : nat -> R) : R := rsum (npts F o) (fun q => wts F o q * Wf F o q X * f q).
(** temperature on side 1 (side 2) at point q *)
Definition T1 (F : face) (o : nat) (u : vec) (q : nat) : R := rsum (n1 F) (fun i => u i * sh1 F o q i).
Definition T2 (F : face) (o : nat) (u : vec) (q : nat) : R := rsum (n2 F) (fun i => u (n1 F + i)%nat * sh2 F o q i).
(** the shape functions of each side sum to 1 *)
Definition unity (F : face) : Prop := forall o q, rsum (n1 F) (sh1 F o q) = 1 /\ rsum (n2 F) (sh2 F o q) = 1.

(** a residual: integrators, each with its faces; a face comes with its nodes, state and adjoint *)
Definition site := (face * mat * (vec * vec))%type.
Definition residual := list (integ * list site).
Definition site_term (g : integ) (s : site) : R :=
  match s with (F, X, (u, psi)) => dot (size F g) psi (face_vector F X g u) end.
Fixpoint lsum {A} (f : A -> R) (l : list A) : R := match l with [] => 0 | a :: r => f a + lsum f r end.
(** psi . R *)
Definition weighted (r : residual) : R := lsum (fun p => lsum (site_term (fst p)) (snd p)) r.
(** the residual after setInputs, None if setInputs throws *)
Fixpoint with_inputs (l : inputs) (r : residual) : option residual :=
  match r with
  | [] => Some []
  | (g, s) :: rest =>
      match integ_setInputs l g, with_inputs l rest with
      | Ok g', Some rest' => Some ((g', s) :: rest')
      | _, _ => None
      end
  end.
(** what vectorJacobianProduct returns for a number: all that is registered under its name *)
Definition named (k : string) (l : list (string * R)) : R := lsum (fun p => if String.eqb (fst p) k then snd p else 0) l.
Definition reported (k : string) (r : residual) : R :=
  lsum (fun p => lsum (fun s : site => match s with (F, X, (u, psi)) => named k (par_sens F X (fst p) u psi) end) (snd p)) r.
