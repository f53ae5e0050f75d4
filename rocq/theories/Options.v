(** Model of the option trees: nlohmann::json objects as used by
    src/common/abstract_solver.cpp:28-32 (constructor) and abstract_solver.hpp:27-30 (setOptions). *)
From Coq Require Import List String Bool.
Import ListNotations.

(** JSON values.  An object is its list of members; std::map keeps keys unique ([wf]).  Numbers, strings,
    booleans and arrays are opaque leaves: merge_patch and update never look inside them. *)
Inductive json (L : Type) : Type := JNull | JLeaf (l : L) | JObj (m : list (string * json L)).
Arguments JNull {L}. Arguments JLeaf {L}. Arguments JObj {L}.

Section J.
Context {L : Type}.
Notation json := (json L).

(** object_t::find / operator[] / erase *)
Fixpoint find (k : string) (m : list (string * json)) : option json :=
  match m with [] => None | (k', v) :: r => if String.eqb k k' then Some v else find k r end.
Fixpoint set (k : string) (v : json) (m : list (string * json)) : list (string * json) :=
  match m with [] => [(k, v)] | (k', v') :: r => if String.eqb k k' then (k', v) :: r else (k', v') :: set k v r end.
Fixpoint erase (k : string) (m : list (string * json)) : list (string * json) :=
  match m with [] => [] | (k', v') :: r => if String.eqb k k' then r else (k', v') :: erase k r end.
Definition members (j : json) : list (string * json) := match j with JObj m => m | _ => [] end.
Definition is_obj (j : json) : bool := match j with JObj _ => true | _ => false end.

(** basic_json::merge_patch (RFC 7396), called at abstract_solver.cpp:32 *)
Fixpoint merge_patch (target patch : json) {struct patch} : json :=
  match patch with
  | JObj m =>
    JObj ((fix go (l : list (string * json)) (acc : list (string * json)) : list (string * json) :=
             match l with
             | [] => acc
             | (k, v) :: r =>
               go r (match v with
                     | JNull => erase k acc
                     | _ => set k (merge_patch (match find k acc with Some x => x | None => JNull end) v) acc
                     end)
             end) m (members target))
  | _ => patch
  end.

(** constructor: options = default_options; options.merge_patch(solver_options), abstract_solver.cpp:31-32 *)
Definition construct (defaults user : json) : json := merge_patch defaults user.

(** basic_json::update(j, merge_objects = true): [Done] the updated value, [Threw] type_error 312 with the
    value as it was when the exception left *)
Inductive upd := Done (j : json) | Threw (j : json).
Fixpoint update (target patch : json) {struct patch} : upd :=
  match patch with
  | JObj m =>
    match (match target with JNull => Some [] | JObj t => Some t | JLeaf _ => None end) with
    | None => Threw target
    | Some t =>
      (fix go (l : list (string * json)) (acc : list (string * json)) : upd :=
         match l with
         | [] => Done (JObj acc)
         | (k, v) :: r =>
           match v, find k acc with
           | JObj _, Some x =>
             match update x v with
             | Done x' => go r (set k x' acc)
             | Threw x' => Threw (JObj (set k x' acc))
             end
           | _, _ => go r (set k v acc)
           end
         end) m t
    end
  | _ => Threw target
  end.
(** AbstractSolver2::setOptions, abstract_solver.hpp:27-30 *)
Definition setOptions (options patch : json) : upd := update options patch.
End J.
