(** Model of the output registry and of output derivative products.
    src/common/abstract_solver.cpp:213-441, src/common/functional_output.cpp, src/physics/common_outputs.{hpp,cpp} *)
From Coq Require Import Reals List String Ascii Bool Arith.
From Verif Require Import Vec.
Import ListNotations.
Local Open Scope R_scope.

(** What an output does at its current inputs.  [None] results stand for the std::out_of_range thrown by
    map::at; values are those of the mfem forms (GetEnergy, Mult, Assemble), taken as given. *)
Record output := {
  o_size : nat;                                             (* getSize *)
  o_value : R;                                              (* calcOutput *)
  o_partial_scalar : string -> option R;                    (* double calcOutputPartial; NAN = None is not out_of_range *)
  o_partial : string -> nat -> vec -> option vec;           (* void calcOutputPartial, old contents -> new *)
  o_jvp : string -> nat -> vec -> option R;                 (* double jacobianVectorProduct *)
  o_vjp_scalar : string -> vec -> option R;                 (* double vectorJacobianProduct *)
  o_vjp : string -> nat -> vec -> vec -> option vec         (* void vectorJacobianProduct: out_bar, wrt_bar -> new wrt_bar *)
}.

(** the part of a string before the first ':' : wrt.substr(0, wrt.find(':')) *)
Fixpoint before_colon (s : string) : string :=
  match s with EmptyString => EmptyString
  | String c r => if Ascii.eqb c ":"%char then EmptyString else String c (before_colon r) end.

(** FunctionalOutput at given inputs: gradient with respect to the state, assembled field sensitivities,
    scalar sensitivities (map lookups, None = no such key) *)
Record functional := { f_value : R; f_grad : vec; f_field : string -> option vec; f_scalar : string -> option R }.
Definition oscale {A B} (f : A -> B) (o : option A) : option B := match o with Some a => Some (f a) | None => None end.

(** functional_output.cpp:75-94 *)
Definition fo_partial (f : functional) (wrt : string) (n : nat) (old : vec) : option vec :=
  if String.eqb wrt "state" then Some (f_grad f) else f_field f wrt.
(** functional_output.cpp:96-132 *)
Definition fo_jvp (f : functional) (wrt : string) (n : nat) (wrt_dot : vec) : option R :=
  if String.eqb wrt "state" then Some (dot n (f_grad f) wrt_dot)
  else if Nat.eqb n 1 then oscale (fun s => s * wrt_dot 0%nat) (f_scalar f (before_colon wrt))
  else oscale (fun g => dot n g wrt_dot) (f_field f wrt).
(** functional_output.cpp:134-150 *)
Definition fo_vjp_scalar (f : functional) (wrt : string) (out_bar : vec) : option R :=
  oscale (fun s => s * out_bar 0%nat) (f_scalar f (before_colon wrt)).
(** functional_output.cpp:152-172 *)
Definition fo_vjp (f : functional) (wrt : string) (n : nat) (out_bar wrt_bar : vec) : option vec :=
  if String.eqb wrt "state" then Some (fun i => wrt_bar i + out_bar 0%nat * f_grad f i)
  else oscale (fun g i => wrt_bar i + out_bar 0%nat * g i) (f_field f wrt).
Definition FunctionalOutput (f : functional) : output := {|
  o_size := 1; o_value := f_value f; o_partial_scalar := fun _ => None; o_partial := fo_partial f;
  o_jvp := fo_jvp f; o_vjp_scalar := fo_vjp_scalar f; o_vjp := fo_vjp f |}.

(** Quotient outputs: StateAverageFunctional common_outputs.hpp:121-199, AverageMagnitudeCurlState
    common_outputs.cpp:91-125, IEAggregateFunctional :147-203 (print statements dropped),
    IECurlMagnitudeAggregateFunctional :232-266.  No scalar reverse overload: MISO's default throws (None). *)
Definition ratio_value (a b : functional) : R := f_value a / f_value b.
Definition ratio_jvp (a b : functional) (wrt : string) (n : nat) (wrt_dot : vec) : option R :=
  match fo_jvp a wrt n wrt_dot, fo_jvp b wrt n wrt_dot with
  | Some x, Some y => Some ((f_value b * x - f_value a * y) / f_value b ^ 2)
  | _, _ => None
  end.
Definition ratio_vjp (a b : functional) (wrt : string) (n : nat) (out_bar wrt_bar : vec) : option vec :=
  match fo_vjp a wrt n out_bar (fun _ => 0), fo_vjp b wrt n out_bar (fun _ => 0) with
  | Some x, Some y => Some (fun i => wrt_bar i + 1 / f_value b * x i + - f_value a / f_value b ^ 2 * y i)
  | _, _ => None
  end.
Definition RatioOutput (a b : functional) : output := {|
  o_size := 1; o_value := ratio_value a b; o_partial_scalar := fun _ => None; o_partial := fun _ _ _ => None;
  o_jvp := ratio_jvp a b; o_vjp_scalar := fun _ _ => None; o_vjp := ratio_vjp a b |}.

(** MassFunctional, common_outputs.{hpp:79-103,cpp:34-49}: [f] is the functional with the integrators looking
    at rho, [df] the same with them looking at d rho / d fill_factor.  Only the scalar reverse product
    redirects the pointer. *)
Definition MassOutput (f df : functional) : output := {|
  o_size := 1; o_value := f_value f; o_partial_scalar := fun _ => None; o_partial := fun _ _ _ => None;
  o_jvp := fo_jvp f;
  o_vjp_scalar := fun wrt out_bar => if String.eqb wrt "fill_factor" then fo_vjp_scalar df wrt out_bar else fo_vjp_scalar f wrt out_bar;
  o_vjp := fo_vjp f |}.

(** ** The registry, abstract_solver.cpp.  A name -> output map (std::map). *)
Definition registry := list (string * output).
Fixpoint rfind (k : string) (l : registry) : option output :=
  match l with [] => None | (k', v) :: r => if String.eqb k k' then Some v else rfind k r end.

Inductive outcome (A : Type) := Done (a : A) | MISOException.
Arguments Done {A}. Arguments MISOException {A}.

(** createOutput, :219-232; [add] is the derived solver's addOutput: it may insert the output under that
    name, or refuse by throwing.  The base class's addOutput does nothing. *)
Definition createOutput (add : string -> option output) (l : registry) (name : string) : outcome registry :=
  match rfind name l with
  | Some _ => MISOException
  | None => match add name with Some o => Done (l ++ [(name, o)]) | None => MISOException end
  end.
(** getOutputSize, :234-250 *)
Definition getOutputSize (l : registry) (name : string) : outcome nat :=
  match rfind name l with Some o => Done (o_size o) | None => MISOException end.
(** calcOutput, :269-287 *)
Definition calcOutput (l : registry) (name : string) : outcome R :=
  match rfind name l with Some o => Done (o_value o) | None => MISOException end.
(** calcOutputPartial, scalar :316-336 - adds to the argument; std::out_of_range is caught and gives NaN (None) *)
Definition calcOutputPartialScalar (l : registry) (of wrt : string) (partial : R) : outcome (option R) :=
  match rfind of l with
  | Some o => Done (oscale (fun p => partial + p) (o_partial_scalar o wrt))
  | None => MISOException
  end.
(** calcOutputPartial, vector :338-357 - std::out_of_range is caught and leaves the argument *)
Definition calcOutputPartial (l : registry) (of wrt : string) (n : nat) (partial : vec) : outcome vec :=
  match rfind of l with
  | Some o => Done (match o_partial o wrt n partial with Some p => p | None => partial end)
  | None => MISOException
  end.
(** outputJacobianVectorProduct, :359-386, for a size-1 out_dot (all MISO outputs are scalar) *)
Definition outputJVP (l : registry) (of wrt : string) (n : nat) (wrt_dot : vec) (out_dot : R) : outcome R :=
  match rfind of l with
  | Some o => Done (match o_jvp o wrt n wrt_dot with Some d => out_dot + d | None => out_dot end)
  | None => MISOException
  end.
(** outputVectorJacobianProduct, :388-415 *)
Definition outputVJP (l : registry) (of wrt : string) (n : nat) (out_bar wrt_bar : vec) : outcome vec :=
  match rfind of l with
  | Some o =>
    Done (if Nat.eqb n 1
          then match o_vjp_scalar o wrt out_bar with Some d => fun i => if Nat.eqb i 0 then wrt_bar i + d else wrt_bar i | None => wrt_bar end
          else match o_vjp o wrt n out_bar wrt_bar with Some b => b | None => wrt_bar end)
  | None => MISOException
  end.

(** a history of createOutput calls; failed ones leave the registry alone *)
Definition creates (add : string -> option output) (l : registry) (names : list string) : registry :=
  fold_left (fun l n => match createOutput add l n with Done l' => l' | MISOException => l end) names l.
