(** Model of the state loggers, src/common/data_logging.hpp. *)
From Coq Require Import ZArith List String Ascii Bool Reals Decimal DecimalString.
From Flocq Require Import Core.
Import ListNotations.
Local Open Scope string_scope.

(** std::to_string(int) *)
Definition to_string (z : Z) : string := NilZero.string_of_int (Z.to_int z).

(** file name used by ASCIILogger and BinaryLogger, data_logging.hpp:31-32, 51-52, 81-82, 101-102;
    [prefix] = "ASCIILogger" (line 67) or "BinaryLogger/" (line 113) *)
Definition filename (prefix field : string) (timestep rank : Z) : string :=
  prefix ++ "/" ++ field ++ "_" ++ to_string timestep ++ "_" ++ to_string rank.

Fixpoint has_char (c : ascii) (s : string) : bool :=
  match s with "" => false | String d t => Ascii.eqb c d || has_char c t end.

(** The file system below the logger's directory: file name -> contents.  Only the directory itself is
    created (create_directory, lines 30, 80), so opening a name whose field part contains '/' fails:
    writes are dropped and reads see no file.  Simplifications: no disk-full, permission or
    name-length errors; concurrent ranks use different names. *)
Definition fsys (A : Type) := string -> option A.
Definition fs_empty {A} : fsys A := fun _ => None.
Definition fs_write {A} (fs : fsys A) (field name : string) (c : A) : fsys A :=
  if has_char "/" field then fs else fun n => if String.eqb n name then Some c else fs n.
Definition fs_read {A} (fs : fsys A) (field name : string) : option A :=
  if has_char "/" field then None else fs name.

(** ** Binary files *)
(** little-endian image of an unsigned k-byte number *)
Fixpoint le_bytes (k : nat) (n : N) : list N :=
  match k with O => [] | S j => N.modulo n 256 :: le_bytes j (N.div n 256) end.
Fixpoint le_value (l : list N) : N :=
  match l with [] => 0 | b :: t => b + 256 * le_value t end%N.
(** a double is its 64-bit pattern; an int is a 32-bit two's complement number *)
Definition double := N.
Definition int_bytes (z : Z) : list N := le_bytes 4 (Z.to_N (z mod 2^32)).
Definition int_value (l : list N) : Z :=
  let u := Z.of_N (le_value l) in if Z.ltb u (2^31) then u else (u - 2^32)%Z.

(** BinaryLogger::saveState, data_logging.hpp:74-92: contents of the file written *)
Definition bin_contents (time : double) (state : list double) : list N :=
  le_bytes 8 time ++ int_bytes (Z.of_nat (List.length state)) ++ flat_map (le_bytes 8) state.
Definition bin_save (fs : fsys (list N)) (field : string) (timestep rank : Z) (time : double) (state : list double) :=
  fs_write fs field (filename "BinaryLogger/" field timestep rank) (bin_contents time state).

(** istream::read of k bytes: the bytes, or failure (then and from then on nothing more is read; the
    destination is left unspecified, [None]) *)
Definition take_bytes (k : nat) (l : option (list N)) : option (list N) * option (list N) :=
  match l with
  | Some l => if Nat.leb k (List.length l) then (Some (firstn k l), Some (skipn k l)) else (None, None)
  | None => (None, None)
  end.
Fixpoint take_doubles (k : nat) (l : option (list N)) : list (option double) :=
  match k with
  | O => []
  | S j => let '(d, r) := take_bytes 8 l in option_map le_value d :: take_doubles j r
  end.

(** BinaryLogger::readState, data_logging.hpp:94-112; result: time and state, entries [None] are
    unspecified (uninitialised memory), [time = None] unchanged or partly overwritten.  No stream state is ever checked.
    Simplification: a short read of the data is modelled per double. *)
Definition bin_read (fs : fsys (list N)) (field : string) (timestep rank : Z)
  : option double * list (option double) :=
  match fs_read fs field (filename "BinaryLogger/" field timestep rank) with
  | None => (None, [])                              (* failed open: time untouched, size = 0 *)
  | Some l =>
    let '(t, r1) := take_bytes 8 (Some l) in
    let '(sz, r2) := take_bytes 4 r1 in
    let size := match sz, r1 with
                | Some b, _ => int_value b
                | None, Some part => int_value part      (* short read: the bytes that were there, over int size = 0 *)
                | None, None => 0%Z
                end in
    (option_map le_value t, take_doubles (Z.to_nat size) r2)
  end.

(** ** ASCII files *)
(** doubles for the text logger: finite values (as reals in the binary64 format; the sign of zero is
    not tracked), NaN, infinities *)
Inductive adouble := Fin (x : R) | NaN | Inf (neg : bool).
Definition fmt64 (x : R) : Prop := generic_format radix2 (FLT_exp (-1074) 53) x.

Definition radix10 : radix := Build_radix 10 eq_refl.
(** operator<<(double) with setprecision(18) and default floatfield: %.18g, i.e. the value rounded to 18
    significant decimal digits (data_logging.hpp:36-42).  A decimal token is represented by its value;
    [choice] is printf's tie-breaking rule. *)
Inductive token := TDec (v : R) | TInt (z : Z) | TWord (s : string).
Definition print_double (choice : Z -> bool) (d : adouble) : token :=
  match d with
  | Fin x => TDec (round radix10 (FLX_exp 18) (Znearest choice) x)
  | NaN => TWord "nan"
  | Inf false => TWord "inf"
  | Inf true => TWord "-inf"
  end.
(** operator>>(double&): correctly rounded; a token that does not start with a number ("nan", "inf")
    fails: the value becomes 0 and failbit is set (C++11 [facet.num.get.virtuals]) *)
Definition parse_double (t : token) : R * bool :=
  match t with
  | TDec v => (round radix2 (FLT_exp (-1074) 53) ZnearestE v, true)
  | TInt z => (round radix2 (FLT_exp (-1074) 53) ZnearestE (IZR z), true)
  | TWord _ => (0%R, false)
  end.

(** ASCIILogger::saveState, data_logging.hpp:24-43 *)
Definition asc_contents (choice : Z -> bool) (time : adouble) (state : list adouble) : list token :=
  print_double choice time :: TInt (Z.of_nat (List.length state)) :: map (print_double choice) state.
Definition asc_save (choice : Z -> bool) (fs : fsys (list token)) (field : string) (timestep rank : Z)
                    (time : adouble) (state : list adouble) :=
  fs_write fs field (filename "ASCIILogger" field timestep rank) (asc_contents choice time state).

(** read k doubles; [None] = stream already failed, nothing stored *)
Fixpoint read_doubles (k : nat) (l : option (list token)) : list (option R) :=
  match k with
  | O => []
  | S j =>
    match l with
    | Some (t :: r) => let '(v, ok) := parse_double t in Some v :: read_doubles j (if ok then Some r else None)
    | _ => None :: read_doubles j None
    end
  end.
(** ASCIILogger::readState, data_logging.hpp:45-64 *)
Definition asc_read (fs : fsys (list token)) (field : string) (timestep rank : Z) : option R * list (option R) :=
  match fs_read fs field (filename "ASCIILogger" field timestep rank) with
  | None => (None, [])
  | Some (t :: r) =>
    let '(v, ok) := parse_double t in
    if ok then
      match r with
      | TInt z :: r' => (Some v, read_doubles (Z.to_nat z) (Some r'))
      | _ => (Some v, [])
      end
    else (Some v, [])
  | Some [] => (None, [])
  end.
