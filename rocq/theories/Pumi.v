(** Model of the PUMI (PCU) life-cycle handling and of the mesh-file dispatch,
    src/physics/pde_solver.cpp:96-250 (compiled with MFEM_USE_PUMI). *)
From Coq Require Import String Ascii List ZArith Bool.
Import ListNotations.
Open Scope Z_scope.

(** calls MISO makes into the library *)
Inductive call := Init | Free.

(** The two static members, the library's own flag PCU_Comm_Initialized(), and ghost state: the number of
    MISOMesh objects alive, MISO's calls (oldest first), and whether the library was used while not initialised *)
Record st := { count : Z; prev : bool; pcu : bool; live : nat; calls : list call; bad_use : bool }.
Definition st0 : st := {| count := 0; prev := false; pcu := false; live := 0; calls := []; bad_use := false |}.

(** what can happen to the process: life-cycle events of MISOMesh objects, a library call that needs the
    library to be initialised, and initialisation/finalisation by somebody else *)
Inductive event := Ctor | MoveCtor | MoveAssign | Dtor | Use | ExtInit | ExtFree.

(** MISOMesh::MISOMesh(), pde_solver.cpp:101-128 *)
Definition ctor (s : st) : st :=
  let prev' := if pcu s && (count s =? 0) then true else prev s in
  let init := negb prev' && (count s =? 0) in
  {| count := count s + 1; prev := prev'; pcu := if init then true else pcu s; live := S (live s);
     calls := if init then calls s ++ [Init] else calls s; bad_use := bad_use s |}.
(** MISOMesh(MISOMesh &&), pde_solver.cpp:130-134 *)
Definition moveCtor (s : st) : st :=
  {| count := count s + 1; prev := prev s; pcu := pcu s; live := S (live s); calls := calls s; bad_use := bad_use s |}.
(** operator=(MISOMesh &&), pde_solver.cpp:136-144: moves the pointers only *)
Definition moveAssign (s : st) : st := s.
(** ~MISOMesh(), pde_solver.cpp:146-163 *)
Definition dtor (s : st) : st :=
  let c := count s - 1 in
  let free := negb (prev s) && (c =? 0) in
  {| count := c; prev := prev s; pcu := if free then false else pcu s; live := pred (live s);
     calls := if free then calls s ++ [Free] else calls s; bad_use := bad_use s |}.

Definition step (s : st) (e : event) : st :=
  match e with
  | Ctor => ctor s
  | MoveCtor => moveCtor s
  | MoveAssign => moveAssign s
  | Dtor => dtor s
  | Use => {| count := count s; prev := prev s; pcu := pcu s; live := live s; calls := calls s;
              bad_use := bad_use s || negb (pcu s) |}
  | ExtInit => {| count := count s; prev := prev s; pcu := true; live := live s; calls := calls s; bad_use := bad_use s |}
  | ExtFree => {| count := count s; prev := prev s; pcu := false; live := live s; calls := calls s; bad_use := bad_use s |}
  end.
Definition run (es : list event) (s : st) : st := fold_left step es s.

(** mesh_file.rfind('.') and substr, pde_solver.cpp:170-182: the text after the last '.', if there is one *)
Fixpoint mesh_ext (file : string) : option string :=
  match file with
  | EmptyString => None
  | String c r =>
      match mesh_ext r with
      | Some e => Some e
      | None => if Ascii.eqb c "."%char then Some r else None
      end
  end.

(** how constructMesh, pde_solver.cpp:165-222, gets its mesh *)
Inductive source := NoExtension | GivenMesh | NativeFile | PumiFile | Unrecognized.
Definition mesh_source (file : string) (smesh : bool) : source :=
  match mesh_ext file with
  | None => NoExtension
  | Some e =>
      if smesh then GivenMesh
      else if String.eqb e "mesh" then NativeFile
      else if String.eqb e "smb" || String.eqb e "ugrid" then PumiFile
      else Unrecognized
  end.

(** constructPumiMesh, pde_solver.cpp:224-330: PCU_Switch_Comm before the local MISOMesh is constructed, then
    library calls; the local object is returned (elided) *)
Definition constructPumiMesh_events : list event := [Use; Ctor; Use].
(** constructMesh: local MISOMesh; a PUMI mesh is move-assigned from the returned temporary, which dies; on the
    unrecognised extension the local object dies in the unwinding.  The local object is returned (elided). *)
Definition constructMesh_events (file : string) (smesh : bool) : list event :=
  match mesh_source file smesh with
  | NoExtension => []
  | GivenMesh | NativeFile => [Ctor]
  | PumiFile => [Ctor] ++ constructPumiMesh_events ++ [MoveAssign; Dtor]
  | Unrecognized => [Ctor; Dtor]
  end.
