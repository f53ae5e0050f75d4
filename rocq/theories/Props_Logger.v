(** Properties C10, C11, C12, C47 of the binary and text state loggers. *)
From Coq Require Import ZArith List String Ascii Bool Reals Lia Lra.
From Flocq Require Import Core.
From Verif Require Import Logger LoggerProofs.
Import ListNotations.

(** C10.  A run is any list of saves; [same_key f t r s] : save s has that field, time step and rank.
    Reading returns the last save with the same key; [has_char "/" f = false]: the field name is not a
    path (see C10_slash_lost_refuted). *)
Theorem C10_binary_history :
  forall (before after : list (save double)) (s : save double) (fs : fsys (list N)) (f : string) (t r : Z),
  same_key f t r s -> has_char "/" f = false ->
  Forall (fun s' => ~ same_key f t r s') after ->
  is_double (s_time s) -> Forall is_double (s_state s) -> (Z.of_nat (List.length (s_state s)) < 2^31)%Z ->
  bin_read (bin_saves fs (before ++ s :: after)) f t r = (Some (s_time s), map Some (s_state s)).
Proof. intros before after s fs f t r. exact (bin_history before s after fs f t r). Qed.
Print Assumptions C10_binary_history.

(** a key that was never saved reads as an empty state with the time left alone *)
Theorem C10_binary_never_saved :
  forall (l : list (save double)) f t r, Forall (fun s => ~ same_key f t r s) l ->
  bin_read (bin_saves fs_empty l) f t r = (None, []).
Proof. exact bin_never_saved. Qed.
Print Assumptions C10_binary_never_saved.

(** a field name that contains '/' is silently lost *)
Theorem C10_slash_lost_refuted :
  forall fs field ts rank time state, has_char "/" field = true ->
  bin_read (bin_save fs field ts rank time state) field ts rank = (None, []).
Proof. exact bin_slash_lost. Qed.
Print Assumptions C10_slash_lost_refuted.

Example C10_nonvacuous :
  let s1 := {| s_field := "state"; s_ts := 3; s_rank := 0; s_time := 4607182418800017408%N; s_state := [1%N; 4611686018427387904%N] |} in
  let s2 := {| s_field := "state"; s_ts := 30; s_rank := 0; s_time := 0%N; s_state := [] |} in
  same_key "state" 3 0 s1 /\ Forall (fun s' => ~ same_key "state" 3 0 s') [s2] /\ is_double (s_time s1) /\
  Forall is_double (s_state s1) /\
  bin_read (bin_saves fs_empty [s2; s1; s2]) "state" 3 0 = (Some 4607182418800017408%N, [Some 1%N; Some 4611686018427387904%N]).
Proof.
  cbv zeta. split; [repeat split|]. split. { repeat constructor. intros (_ & H & _). discriminate. }
  split; [reflexivity|]. split; [repeat constructor|]. vm_compute. reflexivity.
Qed.

(** C11: every finite double survives printing with 18 significant digits and correctly rounded input *)
Theorem C11_print_then_read :
  forall (choice : Z -> bool) (x : R), fmt64 x -> parse_double (print_double choice (Fin x)) = (x, true).
Proof. intros choice x H. exact (parse_print choice (Fin x) H). Qed.
Print Assumptions C11_print_then_read.

Theorem C11_ascii_history :
  forall (choice : Z -> bool) (before after : list (save adouble)) (s : save adouble) (fs : fsys (list token)) f t r,
  same_key f t r s -> has_char "/" f = false ->
  Forall (fun s' => ~ same_key f t r s') after ->
  finite_ok (s_time s) -> Forall finite_ok (s_state s) ->
  asc_read (asc_saves choice fs (before ++ s :: after)) f t r
    = (Some (value (s_time s)), map (fun d => Some (value d)) (s_state s)).
Proof. intros choice before after s fs f t r. exact (asc_history choice before s after fs f t r). Qed.
Print Assumptions C11_ascii_history.

(** one NaN or infinity in the state: it is read back as 0 and every later entry is not read at all *)
Theorem C11_nonfinite_refuted :
  forall (choice : Z -> bool) (good rest : list adouble) (bad : adouble) (time : adouble) fs f t r,
  has_char "/" f = false -> finite_ok time -> Forall finite_ok good -> (bad = NaN \/ exists b, bad = Inf b) ->
  asc_read (asc_save choice fs f t r time (good ++ bad :: rest)) f t r
    = (Some (value time), map (fun d => Some (value d)) good ++ Some 0%R :: repeat None (List.length rest)).
Proof. exact asc_nonfinite. Qed.
Print Assumptions C11_nonfinite_refuted.

Example C11_nonvacuous : finite_ok (Fin (3 * / 1024)%R) /\ ~ (exists z : Z, 3 * / 1024 = IZR z)%R.
Proof.
  split.
  - cbn. unfold fmt64. apply generic_format_FLT. exists (Float radix2 3 (-10)); cbn; try lia.
    unfold F2R; cbn. lra.
  - intros [z Hz]. assert (0 < IZR z < 1)%R by lra. destruct H as [A B].
    apply lt_IZR in A. apply lt_IZR in B. lia.
Qed.

(** C12 *)
Theorem C12_filenames_injective :
  forall prefix f t r f' t' r', filename prefix f t r = filename prefix f' t' r' <-> (f = f' /\ t = t' /\ r = r').
Proof.
  intros. split; [apply filename_inj|]. intros (-> & -> & ->). reflexivity.
Qed.
Print Assumptions C12_filenames_injective.

(** the two loggers never write to each other's files *)
Theorem C12_loggers_disjoint :
  forall f t r f' t' r', filename "ASCIILogger" f t r <> filename "BinaryLogger/" f' t' r'.
Proof. intros. discriminate. Qed.
Print Assumptions C12_loggers_disjoint.

Example C12_tricky : filename "BinaryLogger/" "a_1" 2 3 <> filename "BinaryLogger/" "a" 12 3 /\
                     filename "BinaryLogger/" "state" (-1) 0 = "BinaryLogger//state_-1_0"%string.
Proof. split; [discriminate|reflexivity]. Qed.

(** C47: crash points of a save.  [firstn n] = the first n bytes reached the disk.  The saved prefix is
    read back, the missing entries are unspecified and no error is reported. *)
Theorem C47_torn_save_prefix_partial :
  forall time state fs field ts rank (n : nat),
  has_char "/" field = false -> is_double time -> Forall is_double state -> (Z.of_nat (List.length state) < 2^31)%Z ->
  fs (filename "BinaryLogger/" field ts rank) = Some (firstn n (bin_contents time state)) ->
  (12 <= n)%nat ->
  bin_read fs field ts rank
    = (Some time, map Some (firstn ((n - 12) / 8) state) ++ repeat None (List.length state - (n - 12) / 8)).
Proof. exact bin_torn. Qed.
Print Assumptions C47_torn_save_prefix_partial.

Theorem C47_torn_save_detected_refuted :
  forall time state fs field ts rank (n : nat),
  has_char "/" field = false -> is_double time -> Forall is_double state -> (Z.of_nat (List.length state) < 2^31)%Z ->
  fs (filename "BinaryLogger/" field ts rank) = Some (firstn n (bin_contents time state)) ->
  (12 <= n < 12 + 8 * List.length state)%nat ->
  In None (snd (bin_read fs field ts rank)) /\ List.length (snd (bin_read fs field ts rank)) = List.length state.
Proof. exact bin_torn_incomplete. Qed.
Print Assumptions C47_torn_save_detected_refuted.

Theorem C47_torn_header_partial :
  forall time state fs field ts rank (n : nat),
  has_char "/" field = false ->
  fs (filename "BinaryLogger/" field ts rank) = Some (firstn n (bin_contents time state)) ->
  (n < 8)%nat -> bin_read fs field ts rank = (None, []).
Proof. exact bin_torn_header. Qed.
Print Assumptions C47_torn_header_partial.
