From Coq Require Import ZArith List String Ascii Bool Reals Decimal DecimalString DecimalZ DecimalFacts Nnat Lia Lra Psatz.
From Flocq Require Import Core.
From Verif Require Import Logger.
Import ListNotations.

(** ** file names *)
Lemma append_assoc (a b c : string) : ((a ++ b) ++ c = a ++ (b ++ c))%string.
Proof. induction a as [|x a IH]; cbn; [reflexivity|]. rewrite IH; reflexivity. Qed.
Lemma has_char_app c a b : has_char c (a ++ b)%string = has_char c a || has_char c b.
Proof. induction a as [|x a IH]; cbn; [reflexivity|]. rewrite IH, orb_assoc. reflexivity. Qed.

Lemma uint_no_underscore d : has_char "_" (NilEmpty.string_of_uint d) = false.
Proof. induction d; cbn; auto. Qed.
Lemma to_string_no_underscore z : has_char "_" (to_string z) = false.
Proof.
  unfold to_string, NilZero.string_of_int, NilZero.string_of_uint.
  destruct (Z.to_int z) as [u|u]; destruct u; cbn; try reflexivity; apply uint_no_underscore.
Qed.
Lemma to_string_inj a b : to_string a = to_string b -> a = b.
Proof.
  intros H. rewrite <- (DecimalZ.of_to a), <- (DecimalZ.of_to b).
  assert (E : NilZero.int_of_string (to_string a) = NilZero.int_of_string (to_string b)) by (rewrite H; reflexivity).
  unfold to_string in E.
  assert (G : forall z, exists d, NilZero.int_of_string (NilZero.string_of_int (Z.to_int z)) = Some d /\ Z.of_int d = Z.of_int (Z.to_int z)).
  { intros z. destruct (Z.to_int z) as [u|u] eqn:Ez.
    - destruct u; eexists; split; try (rewrite NilZero.isi; [reflexivity|discriminate|discriminate]); try reflexivity.
    - destruct u; eexists; split; try (rewrite NilZero.isi; [reflexivity|discriminate|discriminate]); try reflexivity. }
  destruct (G a) as (d & Ed & Hd). destruct (G b) as (d' & Ed' & Hd'). rewrite Ed, Ed' in E. injection E as <-.
  congruence.
Qed.

(* splitting at the last underscore *)
Lemma split_last (a b x y : string) :
  (a ++ "_" ++ x = b ++ "_" ++ y)%string -> has_char "_" x = false -> has_char "_" y = false -> a = b /\ x = y.
Proof.
  revert b. induction a as [|c a IH]; intros b H Hx Hy.
  - destruct b as [|d b]; cbn in H.
    + injection H as H. auto.
    + injection H as <- H. exfalso. rewrite H in Hx. rewrite has_char_app in Hx. cbn in Hx. rewrite orb_true_r in Hx. discriminate.
  - destruct b as [|d b]; cbn in H.
    + injection H as -> H. exfalso. rewrite <- H in Hy. rewrite has_char_app in Hy. cbn in Hy. rewrite orb_true_r in Hy. discriminate.
    + injection H as <- H. destruct (IH b H Hx Hy) as [-> ->]. auto.
Qed.
Lemma append_inj_l (p a b : string) : (p ++ a = p ++ b)%string -> a = b.
Proof. induction p as [|c p IH]; cbn; intros H; [exact H|]. injection H as H. auto. Qed.

Lemma filename_inj prefix f t r f' t' r' : filename prefix f t r = filename prefix f' t' r' -> f = f' /\ t = t' /\ r = r'.
Proof.
  unfold filename. intros H. apply append_inj_l in H. apply (append_inj_l "/") in H.
  assert (H2 : ((f ++ "_" ++ to_string t) ++ "_" ++ to_string r = (f' ++ "_" ++ to_string t') ++ "_" ++ to_string r')%string).
  { rewrite !append_assoc. exact H. }
  apply split_last in H2; [|apply to_string_no_underscore|apply to_string_no_underscore].
  destruct H2 as [H2 Hr]. apply split_last in H2; [|apply to_string_no_underscore|apply to_string_no_underscore].
  destruct H2 as [Hf Ht]. auto using to_string_inj.
Qed.

(** ** bytes *)
Lemma le_bytes_length k n : List.length (le_bytes k n) = k.
Proof. revert n; induction k as [|k IH]; intros n; cbn; [reflexivity|]. rewrite IH; reflexivity. Qed.
Lemma le_value_bytes k : forall n, (n < 256 ^ N.of_nat k)%N -> le_value (le_bytes k n) = n.
Proof.
  induction k as [|k IH]; intros n H.
  - cbn in H. cbn. lia.
  - cbn [le_bytes le_value]. rewrite IH.
    + pose proof (N.div_mod n 256 ltac:(lia)). lia.
    + apply N.div_lt_upper_bound; [lia|]. rewrite Nnat.Nat2N.inj_succ, N.pow_succ_r' in H. exact H.
Qed.
Lemma int_value_bytes z : (- 2^31 <= z < 2^31)%Z -> int_value (int_bytes z) = z.
Proof.
  intros H. unfold int_value, int_bytes.
  assert (Hm : (0 <= z mod 2^32 < 2^32)%Z) by (apply Z.mod_pos_bound; lia).
  rewrite le_value_bytes.
  - rewrite Z2N.id by lia. destruct (Z.ltb_spec (z mod 2^32) (2^31)) as [Hl|Hl].
    + destruct (Z.lt_ge_cases z 0) as [Hn|Hp].
      * assert (E : (z mod 2^32 = z + 2^32)%Z). { symmetry. apply (Z.mod_unique z (2^32) (-1)); lia. } lia.
      * apply Z.mod_small; lia.
    + destruct (Z.lt_ge_cases z 0) as [Hn|Hp].
      * assert (E : (z mod 2^32 = z + 2^32)%Z). { symmetry. apply (Z.mod_unique z (2^32) (-1)); lia. } lia.
      * rewrite Z.mod_small in Hl; lia.
  - apply N2Z.inj_lt. rewrite Z2N.id by lia. cbn. cbn in Hm. lia.
Qed.

Definition is_double (d : double) : Prop := (d < 2^64)%N.

Lemma take_bytes_app k l r : List.length l = k -> take_bytes k (Some (l ++ r)) = (Some l, Some r).
Proof.
  intros H. unfold take_bytes. rewrite app_length, H. destruct (Nat.leb_spec k (k + List.length r)); [|lia].
  subst k. rewrite firstn_app, skipn_app, Nat.sub_diag, firstn_all, skipn_all, firstn_O, skipn_O, List.app_nil_r. reflexivity.
Qed.

Lemma take_doubles_ok state rest : Forall is_double state ->
  take_doubles (List.length state) (Some (flat_map (le_bytes 8) state ++ rest)) = map Some state.
Proof.
  induction 1 as [|d state Hd Hs IH]; [reflexivity|].
  cbn [List.length take_doubles flat_map map]. rewrite <- List.app_assoc. rewrite take_bytes_app by apply le_bytes_length.
  cbn [option_map]. rewrite IH, le_value_bytes; [reflexivity|]. exact Hd.
Qed.

Lemma bin_roundtrip time state fs field ts rank :
  has_char "/" field = false -> is_double time -> Forall is_double state -> (Z.of_nat (List.length state) < 2^31)%Z ->
  fs (filename "BinaryLogger/" field ts rank) = Some (bin_contents time state) ->
  bin_read fs field ts rank = (Some time, map Some state).
Proof.
  intros Hf Ht Hs Hl E. unfold bin_read, fs_read. rewrite Hf, E. unfold bin_contents.
  rewrite take_bytes_app by apply le_bytes_length. rewrite take_bytes_app by apply le_bytes_length.
  cbn [option_map]. rewrite le_value_bytes by exact Ht. rewrite int_value_bytes by lia. rewrite Nat2Z.id.
  rewrite <- (List.app_nil_r (flat_map _ state)). rewrite take_doubles_ok by exact Hs. reflexivity.
Qed.

(** ** histories of saves *)
Record save (V : Type) := { s_field : string; s_ts : Z; s_rank : Z; s_time : V; s_state : list V }.
Arguments s_field {V}. Arguments s_ts {V}. Arguments s_rank {V}. Arguments s_time {V}. Arguments s_state {V}.
Definition same_key {V} (f : string) (t r : Z) (s : save V) : Prop := s_field s = f /\ s_ts s = t /\ s_rank s = r.

Definition bin_saves (fs : fsys (list N)) (l : list (save double)) :=
  fold_left (fun fs s => bin_save fs (s_field s) (s_ts s) (s_rank s) (s_time s) (s_state s)) l fs.
Definition asc_saves choice (fs : fsys (list token)) (l : list (save adouble)) :=
  fold_left (fun fs s => asc_save choice fs (s_field s) (s_ts s) (s_rank s) (s_time s) (s_state s)) l fs.

Section Hist.
Context {A V : Type} (prefix : string) (contents : V -> list V -> A).
Definition gsaves (fs : fsys A) (l : list (save V)) :=
  fold_left (fun fs s => fs_write fs (s_field s) (filename prefix (s_field s) (s_ts s) (s_rank s)) (contents (s_time s) (s_state s))) l fs.

Lemma gsaves_other l : forall fs f t r, Forall (fun s => ~ same_key f t r s) l ->
  gsaves fs l (filename prefix f t r) = fs (filename prefix f t r).
Proof.
  induction l as [|s l IH]; intros fs f t r H; [reflexivity|]. inversion H as [|? ? Hs Hl]; subst.
  unfold gsaves in *. cbn [fold_left]. rewrite IH by exact Hl. unfold fs_write.
  destruct (has_char "/" (s_field s)); [reflexivity|].
  destruct (String.eqb_spec (filename prefix f t r) (filename prefix (s_field s) (s_ts s) (s_rank s))) as [E|_]; [|reflexivity].
  exfalso. apply Hs. apply filename_inj in E. destruct E as (-> & -> & ->). repeat split.
Qed.

Lemma gsaves_last before s after fs f t r : same_key f t r s -> has_char "/" f = false ->
  Forall (fun s => ~ same_key f t r s) after ->
  gsaves fs (before ++ s :: after) (filename prefix f t r) = Some (contents (s_time s) (s_state s)).
Proof.
  intros (<- & <- & <-) Hf Ha. unfold gsaves. rewrite fold_left_app. cbn [fold_left].
  fold (gsaves fs before). set (fs1 := gsaves fs before).
  change (gsaves (fs_write fs1 (s_field s) (filename prefix (s_field s) (s_ts s) (s_rank s)) (contents (s_time s) (s_state s))) after
    (filename prefix (s_field s) (s_ts s) (s_rank s)) = Some (contents (s_time s) (s_state s))).
  rewrite gsaves_other by exact Ha. unfold fs_write. rewrite Hf, String.eqb_refl. reflexivity.
Qed.
End Hist.

Lemma bin_history before s after fs f t r :
  same_key f t r s -> has_char "/" f = false ->
  Forall (fun s => ~ same_key f t r s) after ->
  is_double (s_time s) -> Forall is_double (s_state s) -> (Z.of_nat (List.length (s_state s)) < 2^31)%Z ->
  bin_read (bin_saves fs (before ++ s :: after)) f t r = (Some (s_time s), map Some (s_state s)).
Proof.
  intros Hk Hf Ha Ht Hs Hl. apply bin_roundtrip; auto.
  exact (gsaves_last "BinaryLogger/" bin_contents before s after fs f t r Hk Hf Ha).
Qed.

Lemma bin_never_saved l f t r : Forall (fun s => ~ same_key f t r s) l ->
  bin_read (bin_saves fs_empty l) f t r = (None, []).
Proof.
  intros H. unfold bin_read, fs_read. destruct (has_char "/" f); [reflexivity|].
  pose proof (gsaves_other "BinaryLogger/" bin_contents l fs_empty f t r H) as E.
  unfold bin_saves. unfold gsaves in E. unfold bin_save. rewrite E. reflexivity.
Qed.

Lemma bin_slash_lost fs field ts rank time state : has_char "/" field = true ->
  bin_read (bin_save fs field ts rank time state) field ts rank = (None, []).
Proof. intros H. unfold bin_read, fs_read. rewrite H. reflexivity. Qed.

(** ** a save interrupted after [n] bytes reached the file *)
Lemma take_doubles_none k : take_doubles k None = repeat None k.
Proof. induction k as [|k IH]; cbn; [reflexivity|]. rewrite IH; reflexivity. Qed.
Lemma firstn_all_app {A} k (l r : list A) : List.length l = k -> forall n, firstn (k + n) (l ++ r) = l ++ firstn n r.
Proof. intros <- n. rewrite firstn_app, firstn_all2 by lia. f_equal. f_equal. lia. Qed.
Lemma take_bytes_short k l : (List.length l < k)%nat -> take_bytes k (Some l) = (None, None).
Proof. intros H. unfold take_bytes. destruct (Nat.leb_spec k (List.length l)); [lia|reflexivity]. Qed.

Lemma take_doubles_torn state : Forall is_double state -> forall n, 
  take_doubles (List.length state) (Some (firstn n (flat_map (le_bytes 8) state)))
    = map Some (firstn (n / 8) state) ++ repeat None (List.length state - n / 8).
Proof.
  induction 1 as [|d state Hd Hs IH]; intros n.
  - rewrite !firstn_nil. reflexivity.
  - cbn [List.length take_doubles flat_map].
    destruct (Nat.lt_ge_cases n 8) as [Hn|Hn].
    + rewrite take_bytes_short. 2:{ rewrite firstn_length. lia. }
      rewrite Nat.div_small by lia. cbn [option_map]. rewrite take_doubles_none, Nat.sub_0_r. reflexivity.
    + replace n with (8 + (n - 8))%nat by lia. rewrite (firstn_all_app 8) by apply le_bytes_length.
      rewrite take_bytes_app by apply le_bytes_length. cbn [option_map].
      rewrite le_value_bytes by exact Hd. rewrite IH.
      replace ((8 + (n - 8)) / 8)%nat with (S ((n - 8) / 8)).
      2:{ replace (8 + (n - 8))%nat with ((n - 8) + 1 * 8)%nat by lia. rewrite Nat.div_add by lia. lia. }
      cbn [firstn map List.app Nat.sub]. reflexivity.
Qed.

Lemma bin_torn time state fs field ts rank n :
  has_char "/" field = false -> is_double time -> Forall is_double state -> (Z.of_nat (List.length state) < 2^31)%Z ->
  fs (filename "BinaryLogger/" field ts rank) = Some (firstn n (bin_contents time state)) ->
  (12 <= n)%nat ->
  bin_read fs field ts rank
    = (Some time, map Some (firstn ((n - 12) / 8) state) ++ repeat None (List.length state - (n - 12) / 8)).
Proof.
  intros Hf Ht Hs Hl E Hn. unfold bin_read, fs_read. rewrite Hf, E. unfold bin_contents.
  replace n with (8 + (4 + (n - 12)))%nat at 1 by lia.
  rewrite (firstn_all_app 8) by apply le_bytes_length. rewrite take_bytes_app by apply le_bytes_length.
  rewrite (firstn_all_app 4) by apply le_bytes_length. rewrite take_bytes_app by apply le_bytes_length.
  cbn [option_map]. rewrite le_value_bytes by exact Ht. rewrite int_value_bytes by lia. rewrite Nat2Z.id.
  rewrite take_doubles_torn by exact Hs. reflexivity.
Qed.

Lemma bin_torn_header time state fs field ts rank n :
  has_char "/" field = false ->
  fs (filename "BinaryLogger/" field ts rank) = Some (firstn n (bin_contents time state)) ->
  (n < 8)%nat -> bin_read fs field ts rank = (None, []).
Proof.
  intros Hf E Hn. unfold bin_read, fs_read. rewrite Hf, E. rewrite take_bytes_short. 2:{ rewrite firstn_length. lia. }
  reflexivity.
Qed.

Lemma bin_torn_incomplete time state fs field ts rank n :
  has_char "/" field = false -> is_double time -> Forall is_double state -> (Z.of_nat (List.length state) < 2^31)%Z ->
  fs (filename "BinaryLogger/" field ts rank) = Some (firstn n (bin_contents time state)) ->
  (12 <= n < 12 + 8 * List.length state)%nat ->
  In None (snd (bin_read fs field ts rank)) /\ List.length (snd (bin_read fs field ts rank)) = List.length state.
Proof.
  intros Hf Ht Hs Hl E Hn. rewrite (bin_torn time state) with (n := n); try assumption; try lia. cbn [snd].
  assert (Hk : ((n - 12) / 8 < List.length state)%nat) by (apply Nat.div_lt_upper_bound; lia).
  split.
  - apply in_or_app. right. destruct (List.length state - (n - 12) / 8)%nat eqn:Ed; [lia|]. left; reflexivity.
  - rewrite app_length, map_length, firstn_length, repeat_length. lia.
Qed.

(** ** 18 decimal digits are enough *)
Local Open Scope R_scope.
Section Dec.
Let fexp2 := FLT_exp (-1074) 53.
Let fexp10 := FLX_exp 18.
#[local] Instance prec53 : Prec_gt_0 53. Proof. unfold Prec_gt_0; lia. Qed.
#[local] Instance prec18 : Prec_gt_0 18. Proof. unfold Prec_gt_0; lia. Qed.
#[local] Instance valid2 : Valid_exp fexp2. Proof. apply FLT_exp_valid; exact prec53. Qed.
#[local] Instance valid10 : Valid_exp fexp10. Proof. apply FLX_exp_valid; exact prec18. Qed.

Lemma dec_error choice x : x <> 0 ->
  Rabs (round radix10 fexp10 (Znearest choice) x - x) <= 5 * /10^18 * Rabs x.
Proof.
  intros Hx. eapply Rle_trans; [apply error_le_half_ulp; apply valid10|].
  rewrite ulp_neq_0 by exact Hx. unfold cexp, fexp10, FLX_exp.
  destruct (mag radix10 x) as [k Hk]. cbn [mag_val]. specialize (Hk Hx). destruct Hk as [Hk _].
  replace (k - 18)%Z with ((k - 1) + (-17))%Z by lia. rewrite bpow_plus.
  replace (5 * / 10 ^ 18 * Rabs x) with (/2 * (Rabs x * / 10^17)) by (simpl; field).
  apply Rmult_le_compat_l; [lra|].
  replace (bpow radix10 (-17)) with (/ 10^17).
  2:{ cbn. lra. }
  apply Rmult_le_compat_r; [|exact Hk]. apply Rlt_le, Rinv_0_lt_compat, pow_lt; lra.
Qed.

(* all format members at least as large as 2^(k-1) are integer multiples of bpow (fexp2 k) *)
Lemma fmt_multiple x k : generic_format radix2 fexp2 x -> bpow radix2 (k - 1) <= Rabs x ->
  exists m : Z, x = IZR m * bpow radix2 (fexp2 k).
Proof.
  intros Hf Hk. assert (Hx : x <> 0). { intros ->. rewrite Rabs_R0 in Hk. pose proof (bpow_gt_0 radix2 (k-1)). lra. }
  assert (Hm : (k <= mag radix2 x)%Z) by (apply mag_ge_bpow; exact Hk).
  assert (He : (fexp2 k <= cexp radix2 fexp2 x)%Z). { unfold cexp, fexp2, FLT_exp. lia. }
  unfold generic_format, F2R in Hf. cbn [Fnum Fexp] in Hf.
  set (M := Ztrunc (scaled_mantissa radix2 fexp2 x)) in *.
  exists (M * 2 ^ (cexp radix2 fexp2 x - fexp2 k))%Z. rewrite Hf at 1.
  rewrite mult_IZR, (IZR_Zpower radix2) by lia. rewrite Rmult_assoc, <- bpow_plus. f_equal. f_equal. lia.
Qed.

Lemma print_parse choice x : generic_format radix2 fexp2 x ->
  round radix2 fexp2 ZnearestE (round radix10 fexp10 (Znearest choice) x) = x.
Proof.
  intros Hf. destruct (Req_dec x 0) as [->|Hx].
  { rewrite round_0 by apply valid_rnd_N. apply round_0, valid_rnd_N. }
  set (d := round radix10 fexp10 (Znearest choice) x). set (y := round radix2 fexp2 ZnearestE d).
  assert (Hd : Rabs (d - x) <= 5 * /10^18 * Rabs x) by (apply dec_error; exact Hx).
  assert (Hy : generic_format radix2 fexp2 y) by (apply generic_format_round; [apply valid2|apply valid_rnd_N]).
  assert (Hn : Rabs (y - d) <= Rabs (x - d)).
  { destruct (round_N_pt radix2 fexp2 (fun z => negb (Z.even z)) d) as [_ H]. apply H. exact Hf. }
  assert (Hxy : Rabs (x - y) <= 10 * /10^18 * Rabs x).
  { replace (x - y) with ((x - d) + (d - y)) by lra. eapply Rle_trans; [apply Rabs_triang|].
    rewrite (Rabs_minus_sym d y). rewrite (Rabs_minus_sym d x) in Hd. lra. }
  destruct (mag radix2 x) as [e He]. specialize (He Hx). destruct He as [He1 He2].
  destruct (Req_dec x y) as [E|Hne]; [symmetry; exact E|exfalso].
  (* |x-y| < 2^(e-54) *)
  assert (Hsmall : Rabs (x - y) < bpow radix2 (e - 54)).
  { eapply Rle_lt_trans; [exact Hxy|].
    replace (e - 54)%Z with (e + (-54))%Z by lia. rewrite bpow_plus.
    assert (Hc : 10 * / 10^18 < bpow radix2 (-54)).
    { replace (bpow radix2 (-54)) with (/ 2^54) by (cbn; lra). simpl. lra. }
    pose proof (bpow_gt_0 radix2 e). pose proof (Rabs_pos x).
    assert (0 < 10 * / 10^18) by (simpl; lra). nra. }
  assert (Hk : bpow radix2 (e - 1 - 1) <= Rabs y).
  { assert (Rabs x <= Rabs (x - y) + Rabs y).
    { replace x with ((x - y) + y) at 1 by lra. apply Rabs_triang. }
    assert (bpow radix2 (e - 1) = 2 * bpow radix2 (e - 1 - 1)).
    { replace (e - 1)%Z with ((e - 1 - 1) + 1)%Z at 1 by lia. rewrite bpow_plus. cbn. lra. }
    assert (bpow radix2 (e - 54) <= bpow radix2 (e - 1 - 1)) by (apply bpow_le; lia). lra. }
  destruct (fmt_multiple x (e - 1) Hf) as [m Em].
  { eapply Rle_trans; [|exact He1]. apply bpow_le; lia. }
  destruct (fmt_multiple y (e - 1) Hy Hk) as [n En].
  set (u := bpow radix2 (fexp2 (e - 1))) in *.
  assert (Hu : bpow radix2 (e - 54) <= u). { unfold u. apply bpow_le. unfold fexp2, FLT_exp. lia. }
  assert (Hu0 : 0 < u) by apply bpow_gt_0.
  assert (Hmn : m <> n) by congruence.
  assert (Habs : 1 <= Rabs (IZR m - IZR n)).
  { rewrite <- minus_IZR, <- abs_IZR. apply IZR_le. lia. }
  assert (Rabs (x - y) = Rabs (IZR m - IZR n) * u).
  { rewrite Em, En, <- Rmult_minus_distr_r, Rabs_mult, (Rabs_right u); lra. }
  nra.
Qed.
End Dec.

Definition finite_ok (d : adouble) : Prop := match d with Fin x => fmt64 x | _ => False end.
Definition value (d : adouble) : R := match d with Fin x => x | _ => 0 end.

Lemma parse_print choice d : finite_ok d -> parse_double (print_double choice d) = (value d, true).
Proof. destruct d; cbn; try tauto. intros H. rewrite (print_parse choice x H). reflexivity. Qed.

Lemma read_doubles_ok choice state rest : Forall finite_ok state ->
  read_doubles (List.length state) (Some (map (print_double choice) state ++ rest)) = map (fun d => Some (value d)) state.
Proof.
  induction 1 as [|d state Hd Hs IH]; [reflexivity|].
  cbn [List.length read_doubles map List.app]. rewrite parse_print by exact Hd. cbn. rewrite IH. reflexivity.
Qed.

Lemma asc_history choice before s after fs f t r :
  same_key f t r s -> has_char "/" f = false ->
  Forall (fun s => ~ same_key f t r s) after ->
  finite_ok (s_time s) -> Forall finite_ok (s_state s) ->
  asc_read (asc_saves choice fs (before ++ s :: after)) f t r
    = (Some (value (s_time s)), map (fun d => Some (value d)) (s_state s)).
Proof.
  intros Hk Hf Ha Ht Hs.
  pose proof (gsaves_last "ASCIILogger" (asc_contents choice) before s after fs f t r Hk Hf Ha) as E.
  unfold asc_read, fs_read. rewrite Hf. unfold asc_saves, asc_save. unfold gsaves in E. rewrite E.
  unfold asc_contents. rewrite parse_print by exact Ht. rewrite Nat2Z.id.
  rewrite <- (List.app_nil_r (map _ _)). rewrite read_doubles_ok by exact Hs. reflexivity.
Qed.

Lemma read_doubles_none k : read_doubles k None = repeat None k.
Proof. induction k as [|k IH]; cbn; [reflexivity|]. rewrite IH; reflexivity. Qed.

Lemma asc_nonfinite choice good rest bad time fs f t r :
  has_char "/" f = false -> finite_ok time -> Forall finite_ok good -> (bad = NaN \/ exists b, bad = Inf b) ->
  asc_read (asc_save choice fs f t r time (good ++ bad :: rest)) f t r
    = (Some (value time), map (fun d => Some (value d)) good ++ Some 0%R :: repeat None (List.length rest)).
Proof.
  intros Hf Ht Hg Hb. unfold asc_read, fs_read, asc_save, fs_write. rewrite Hf, String.eqb_refl.
  unfold asc_contents. rewrite parse_print by exact Ht. rewrite Nat2Z.id. f_equal.
  rewrite app_length, map_app. cbn [List.length map].
  induction Hg as [|d good Hd Hg IH].
  - cbn [List.length map List.app Nat.add read_doubles].
    destruct Hb as [->|[[|] ->]]; cbn [print_double parse_double]; rewrite read_doubles_none; reflexivity.
  - cbn [List.length map List.app Nat.add read_doubles]. rewrite parse_print by exact Hd. cbn [List.app].
    rewrite IH. reflexivity.
Qed.
