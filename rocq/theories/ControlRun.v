(** FlowControlSolver, src/physics/fluidflow/flow_control_solver.cpp: construction, setState and the time loop of
    AbstractSolver2::solveForState (src/common/abstract_solver.cpp:81-116) with its hooks, in particular the output histories that
    rank 0 writes to text files.  Exact real times.  St is the compound state of all ranks, Fl the flow state (extractStates). *)
From Coq Require Import Reals List ZArith Bool Ascii String DecimalString.
From Verif Require Import Num TimeLoop.
Import ListNotations.
Local Open Scope R_scope.

(** * Files and streams of rank 0 *)
(** a directory entry names a file object; the object lives on while a stream has it open, even when the name is removed (POSIX).
    A line "t fun" is the pair; endl flushes, so what is written is in the file at once. *)
Record world := { w_dir : list (string * nat); w_data : list (nat * list (R * R)); w_next : nat; w_streams : list (string * option nat) }.
Section Assoc.
Context {K V : Type}. Variable eqb : K -> K -> bool.
Fixpoint get (k : K) (l : list (K * V)) : option V := match l with [] => None | (k', v) :: l => if eqb k k' then Some v else get k l end.
Definition put (k : K) (v : V) (l : list (K * V)) : list (K * V) := (k, v) :: filter (fun e => negb (eqb k (fst e))) l.
Definition del (k : K) (l : list (K * V)) : list (K * V) := filter (fun e => negb (eqb k (fst e))) l.
End Assoc.
(** remove(filename) *)
Definition remove_file (f : string) (w : world) : world :=
  {| w_dir := del String.eqb f (w_dir w); w_data := w_data w; w_next := w_next w; w_streams := w_streams w |}.
(** ofstream(filename, fstream::app): opens the file, creating it if it is not there *)
Definition open_app (f : string) (w : world) : world * nat :=
  match get String.eqb f (w_dir w) with
  | Some i => (w, i)
  | None => ({| w_dir := put String.eqb f (w_next w) (w_dir w); w_data := put Nat.eqb (w_next w) [] (w_data w); w_next := S (w_next w); w_streams := w_streams w |}, w_next w)
  end.
(** output_log.emplace(name, stream): keeps an entry that is already there (the new stream is destroyed, its file stays) *)
Definition emplace (name : string) (i : nat) (w : world) : world :=
  match get String.eqb name (w_streams w) with
  | Some _ => w
  | None => {| w_dir := w_dir w; w_data := w_data w; w_next := w_next w; w_streams := put String.eqb name (Some i) (w_streams w) |}
  end.
(** output_log[name]: creates a stream without a file if there is none *)
Definition touch (name : string) (w : world) : world :=
  match get String.eqb name (w_streams w) with
  | Some _ => w
  | None => {| w_dir := w_dir w; w_data := w_data w; w_next := w_next w; w_streams := put String.eqb name None (w_streams w) |}
  end.
(** output_log[name] << t << ' ' << fun << endl; writing to a closed stream has no effect *)
Definition write (name : string) (l : R * R) (w : world) : world :=
  let w := touch name w in
  match get String.eqb name (w_streams w) with
  | Some (Some i) =>
      {| w_dir := w_dir w; w_data := put Nat.eqb i (match get Nat.eqb i (w_data w) with Some d => d | None => [] end ++ [l]) (w_data w); w_next := w_next w; w_streams := w_streams w |}
  | _ => w
  end.
(** output_log[name].close() *)
Definition close (name : string) (w : world) : world :=
  {| w_dir := w_dir w; w_data := w_data w; w_next := w_next w; w_streams := put String.eqb name None (w_streams w) |}.
(** what a file of that name contains *)
Definition file_content (f : string) (w : world) : option (list (R * R)) :=
  match get String.eqb f (w_dir w) with Some i => get Nat.eqb i (w_data w) | None => None end.

(** pair.first + "-" + std::to_string(sample) + ".txt", :283-286, for sample >= 0 *)
Definition file_name (name : string) (sample : nat) : string := (name ++ "-" ++ NilZero.string_of_uint (Nat.to_uint sample) ++ ".txt")%string.

(** * Options *)
Record options := {
  c_time : time_opts;
  c_steady : bool; c_const_cfl : bool; c_cfl : R;
  c_each : bool;                        (* options["outputs"]["each-timestep"] *)
  c_sample : nat;
  c_entropy_state : bool;               (* options["flow-param"]["entropy-state"] *)
  c_mesh_file : string;
  c_control_bcs : option (list Z);      (* options["bcs"]["control"] *)
  c_entropy_bdr : list Z                (* options["outputs"]["boundary-entropy"]["boundaries"] *)
}.

(** * Construction *)
(** exceptions are told apart only by where they come from *)
Inductive made := Made | NoExtension | NullMesh | DimMismatch | EntvarMismatch | EntvarUnsteady | MarkersDiffer | NoControlBC.
(** mesh_file.rfind('.') and the rest of the name, :166-177 *)
Fixpoint extension (s : string) : option string :=
  match s with
  | EmptyString => None
  | String a r => match extension r with Some e => Some e | None => if Ascii.eqb a "."%char then Some r else None end
  end.
(** constructMesh, :160-213: the space dimension of the mesh; [smesh]: that of the serial mesh passed in, [reads]: that of the file *)
Definition construct_mesh (file : string) (smesh reads : option Z) : made * Z :=
  match extension file with
  | None => (NoExtension, 0%Z)
  | Some e =>
      match smesh with
      | Some d => (Made, d)
      | None => if String.eqb e "mesh" then match reads with Some d => (Made, d) | None => (NullMesh, 0%Z) end
                else (NullMesh, 0%Z)      (* mesh->EnsureNodes() on a null pointer *)
      end
  end.
Definition zlist_eqb (a b : list Z) : bool := if list_eq_dec Z.eq_dec a b then true else false.
(** constructor, :99-158, and the checks of FlowControlResidual's, flow_control_residual.cpp:302-319 *)
Definition construct (dim : Z) (entvar : bool) (o : options) (smesh reads : option Z) : made :=
  match construct_mesh (c_mesh_file o) smesh reads with
  | (Made, d) =>
      if negb (d =? dim)%Z then DimMismatch
      else if negb (Bool.eqb (c_entropy_state o) entvar) then EntvarMismatch
      else if entvar && negb (c_steady o) then EntvarUnsteady
      else match c_control_bcs o with
        | Some bc => if zlist_eqb bc (c_entropy_bdr o) then Made else MarkersDiffer
        | None => NoControlBC
        end
  | (m, _) => m
  end.

(** * The time loop *)
Section Run.
Context {St Fl : Type}.
Variable flow : St -> Fl.                            (* extractStates *)
Variable step : St -> R -> R -> option (St * R).     (* ode->step; None: it throws *)
Variable full_output : string -> R -> St -> R.       (* calcOutput of the output of that name with {"time", "state"} = compound state *)
Variable flow_output : string -> R -> Fl -> R.       (* ... = flow state *)
Variable min_cfl : R -> Fl -> R.                     (* minCFLTimeStep *)
Variable o : options.
Variable lo : log_opts.                              (* one logger *)
Variable outs : list string.                         (* names of the outputs created, in the order of the map *)
Variable rank : nat.

(** the input of an output: the compound state for "entropy", the flow state for the others, :267-277 *)
Definition output_value (name : string) (t : R) (s : St) : R :=
  if String.eqb name "entropy" then full_output name t s else flow_output name t (flow s).
(** the loops over outputs in initialHook :252-291, iterationHook :309-327, terminalHook :397-417 *)
Definition each_initial (w : world) : world :=
  if c_each o && Nat.eqb rank 0 then
    fold_left (fun w name => let '(w, i) := open_app (file_name name (c_sample o)) (remove_file (file_name name (c_sample o)) w) in touch name (emplace name i w)) outs w
  else w.
Definition each_write (t : R) (s : St) (w : world) : world :=
  if c_each o && Nat.eqb rank 0 then fold_left (fun w name => write name (t, output_value name t s) w) outs w else w.
Definition each_terminal (t : R) (s : St) (w : world) : world :=
  if c_each o && Nat.eqb rank 0 then fold_left (fun w name => close name (write name (t, output_value name t s) w)) outs w else w.
(** calcStepSize, :331-359; None: it throws *)
Definition step_size (t : R) (s : St) : option R :=
  if c_steady o then None else Some (if c_const_cfl o then min_cfl (c_cfl o) (flow s) else calcStepSize (c_time o) t).

Inductive ending := Finished (t : R) (s : St) | Threw.
Record outcome := { o_end : ending; o_world : world; o_log : list (event Fl); o_passes : list (R * St) }.
(** for loop and terminalHook, abstract_solver.cpp:98-116; loggers get the flow state *)
Fixpoint march (n : nat) (ti : Z) (t : R) (s : St) (w : world) (log : list (event Fl)) (acc : list (R * St)) : outcome :=
  match n with
  | O => {| o_end := Finished t s; o_world := each_terminal t s w; o_log := terminalHook lo ti t (flow s) log; o_passes := acc |}
  | S n =>
      match step_size t s with
      | None => {| o_end := Threw; o_world := w; o_log := log; o_passes := acc |}
      | Some dt =>
          let log := iterationHook lo ti t (flow s) log in
          let w := each_write t s w in
          let acc := acc ++ [(t, s)] in
          match step s t dt with
          | None => {| o_end := Threw; o_world := w; o_log := log; o_passes := acc |}
          | Some (s', t') =>
              if iterationExit (c_time o) t' dt
              then {| o_end := Finished t' s'; o_world := each_terminal t' s' w; o_log := terminalHook lo ti t' (flow s') log; o_passes := acc |}
              else march n (ti + 1) t' s' w log acc
          end
      end
  end.
(** solveForState: initialHook (:238-292) logs the flow state, then refuses steady problems *)
Definition solve (s : St) (w : world) : outcome :=
  let log := initialHook lo (flow s) [] in
  if c_steady o then {| o_end := Threw; o_world := w; o_log := log; o_passes := [] |}
  else march (Z.to_nat (max_iter (c_time o))) 0 (t_initial (c_time o)) s (each_initial w) log [].
End Run.
Arguments Finished {St}. Arguments Threw {St}. Arguments o_end {St Fl}. Arguments o_world {St Fl}. Arguments o_log {St Fl}. Arguments o_passes {St Fl}.

(** * setState with a pair of functions, :215-236 *)
(** the state of a rank is its control part of length nc (2 on rank 0, else 0) followed by its flow part *)
Definition set_pair (rank nc : nat) (control_func : (nat -> R) -> (nat -> R)) (flow_true : nat -> R) (state : nat -> R) : nat -> R :=
  let control := if Nat.eqb rank 0 then control_func state else state in
  fun i => if Nat.ltb i nc then control i else flow_true (i - nc)%nat.
