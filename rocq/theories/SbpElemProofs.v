(** Proofs about the concrete SBP elements: an integer check of the tables with a bound on its own rounding, lifted to all polynomials. *)
From Coq Require Import Reals QArith Qreals List Arith ZArith Lia Lra Bool Psatz.
From Coquelicot Require Import Coquelicot.
From Verif Require Import Num Vec Sbp SbpTables SbpElem SbpPolySpec.
Import ListNotations.
Local Open Scope R_scope.

(** ** the integer check: everything rounded down to multiples of 1/BB *)
Definition BB : Z := Z.pow 2 58.
Definition rz (q : Q) : Z := (Qnum q * BB / Zpos (Qden q))%Z.
Definition mulr (a b : Z) : Z := Z.shiftr (a * b) 58.
Fixpoint zpow (x : Z) (a : nat) : Z := match a with O => BB | S a' => mulr x (zpow x a') end.
Fixpoint zmono (e : list nat) (X : list Z) : Z :=
  match e with nil => BB | cons a e' => mulr (zpow (hd 0%Z X) a) (zmono e' (tl X)) end.
(** the first n products of two lists *)
Fixpoint zdot (n : nat) (a b : list Z) : Z :=
  match n with O => 0%Z | S k => (hd 0 b * hd 0 a + zdot k (tl a) (tl b))%Z end.
(** all exponent lists of length d and sum at most p *)
Fixpoint exps (d p : nat) : list (list nat) :=
  match d with
  | O => [nil]
  | S d' => flat_map (fun a => map (cons a) (exps d' (p - a))) (seq 0 (S p))
  end.
Fixpoint dec_at (k : nat) (e : list nat) : list nat :=
  match e, k with
  | nil, _ => nil
  | cons a e', O => cons (pred a) e'
  | cons a e', S k' => cons a (dec_at k' e')
  end.

Definition xz (el : element) : list (list Z) := map (fun t => map rz (fst t)) (enodes el).
Definition hz (el : element) : list Z := map (fun t => rz (snd t)) (enodes el).
Definition oz (el : element) (k : nat) : list Z := map rz (nth k (eops el) []).

(** coordinates lie in [0,1] and there are edim of them *)
Definition unit_ok (q : Q) : bool := andb (Z.leb 0 (Qnum q)) (Z.leb (Qnum q) (Zpos (Qden q))).
Definition data_ok (el : element) : bool :=
  forallb (fun t => andb (unit_ok (snd t)) (forallb unit_ok (fst t))) (enodes el).
(** rounding of n products of monomials of degree p in d variables stays below 1/(2E) *)
Definition room (E : Z) (n d p : nat) : bool := Z.leb (2 * E * Z.of_nat ((n + p) * (2 * p + d + 2))) BB.
Definition small (l : list Z) : bool := forallb (fun z => Z.leb (Z.abs z + 2) BB) l.
Definition zclose (E L den N D : Z) : bool := Z.leb (Z.abs (L * D - N * den) * (2 * E)) (den * D).

(** derivative check: row i of Q_k applied to the monomial e *)
Definition deriv_ok (E : Z) (p : nat) (el : element) : bool :=
  let n := nnode el in let X := xz el in let Hs := hz el in let BB2 := (BB * BB)%Z in
  andb (room E n (edim el) p) (forallb (fun k =>
    let T := oz el k in
    andb (small T) (forallb (fun e =>
      let mons := map (zmono e) X in
      let ek := nth k e 0%nat in
      let e' := dec_at k e in
      forallb (fun i =>
        zclose E (zdot n (skipn (i * n) T) mons - (if Nat.eqb ek 0 then 0 else nth i Hs 0 * Z.of_nat ek * zmono e' (nth i X [])))%Z BB2 0 1)
        (seq 0 n)) (exps (edim el) p))) (seq 0 (edim el))).

(** ** lifting *)
Definition RB : R := IZR BB.
Lemma RB_pos : 0 < RB. Proof. apply (IZR_lt 0 BB). reflexivity. Qed.
Lemma BB_pos : (0 < BB)%Z. Proof. reflexivity. Qed.
(** z approximates x within c units *)
Definition near (c : R) (z : Z) (x : R) : Prop := Rabs (IZR z / RB - x) <= c / RB.
Lemma near_mono c c' z x : c <= c' -> near c z x -> near c' z x.
Proof. intros Hc Hn. unfold near in *. eapply Rle_trans; [exact Hn|]. apply Rmult_le_compat_r; [left; apply Rinv_0_lt_compat, RB_pos|exact Hc]. Qed.
Lemma near_exact x c : 0 <= c -> IZR x / RB = 1 -> near c x 1.
Proof. intros Hc E. unfold near. rewrite E, (Rminus_eq_0 1), Rabs_R0. apply Rmult_le_pos; [exact Hc|left; apply Rinv_0_lt_compat, RB_pos]. Qed.
Lemma div_floor (a b : Z) : (0 < b)%Z -> IZR (a / b) <= IZR a / IZR b < IZR (a / b) + 1.
Proof.
  intros Hb. pose proof (Z.div_mod a b ltac:(lia)) as E. pose proof (Z.mod_pos_bound a b Hb) as M.
  apply IZR_lt in Hb. assert (Eq : IZR a = IZR b * IZR (a / b) + IZR (a mod b)) by (rewrite <- mult_IZR, <- plus_IZR; f_equal; exact E).
  destruct M as [M1 M2]. apply IZR_le in M1. apply IZR_lt in M2. split.
  - apply (Rmult_le_reg_r (IZR b)); [exact Hb|]. unfold Rdiv. rewrite Rmult_assoc, Rinv_l, Rmult_1_r by lra. nra.
  - apply (Rmult_lt_reg_r (IZR b)); [exact Hb|]. unfold Rdiv. rewrite Rmult_assoc, Rinv_l, Rmult_1_r by lra. nra.
Qed.
Lemma rz_near q : near 1 (rz q) (Q2R q).
Proof.
  unfold near, rz. pose proof (div_floor (Qnum q * BB) (Zpos (Qden q)) ltac:(reflexivity)) as F. rewrite mult_IZR in F. fold RB in F.
  pose proof RB_pos as P. unfold Q2R. set (z := IZR (Qnum q * BB / Z.pos (Qden q))) in *.
  assert (D : 0 < IZR (Zpos (Qden q))) by (apply (IZR_lt 0); reflexivity).
  replace (IZR (Qnum q) * RB / IZR (Zpos (Qden q))) with (RB * (IZR (Qnum q) * / IZR (Zpos (Qden q)))) in F by (field; lra).
  set (x := IZR (Qnum q) * / IZR (Zpos (Qden q))) in *.
  replace (z / RB - x) with ((z - RB * x) / RB) by (field; lra).
  unfold Rdiv. rewrite Rabs_mult, (Rabs_pos_eq (/ RB)) by (left; apply Rinv_0_lt_compat; exact P).
  apply Rmult_le_compat_r; [left; apply Rinv_0_lt_compat; exact P|]. apply Rabs_le. lra.
Qed.
Lemma mulr_floor a b : IZR (mulr a b) <= IZR a * IZR b / RB < IZR (mulr a b) + 1.
Proof.
  unfold mulr. rewrite Z.shiftr_div_pow2 by lia. pose proof (div_floor (a * b) BB BB_pos) as F. rewrite mult_IZR in F. exact F.
Qed.
Definition unit_z (z : Z) : Prop := (0 <= z <= BB)%Z.
Lemma unit_z_R z : unit_z z -> 0 <= IZR z / RB <= 1.
Proof.
  intros [A B]. apply IZR_le in A, B. fold RB in B. pose proof RB_pos as P. split.
  - apply Rmult_le_pos; [exact A|left; apply Rinv_0_lt_compat; exact P].
  - apply (Rmult_le_reg_r RB); [exact P|]. unfold Rdiv. rewrite Rmult_assoc, Rinv_l by lra. lra.
Qed.
Lemma mulr_unit a b : unit_z a -> unit_z b -> unit_z (mulr a b).
Proof.
  intros [A A'] [B B']. unfold mulr. rewrite Z.shiftr_div_pow2 by lia. change (2 ^ 58)%Z with BB. split.
  - apply Z.div_pos; [nia|exact BB_pos].
  - apply Z.div_le_upper_bound; [exact BB_pos|nia].
Qed.
Lemma mulr_near i j a b x y : unit_z a -> 0 <= y <= 1 -> near i a x -> near j b y -> near (i + j + 1) (mulr a b) (x * y).
Proof.
  intros Ua Hy Ha Hb. unfold near in *. pose proof RB_pos as P. pose proof (mulr_floor a b) as F.
  assert (Q : 0 < / RB) by (apply Rinv_0_lt_compat; exact P). pose proof (unit_z_R a Ua) as Ra.
  set (al := IZR a / RB) in *. set (be := IZR b / RB) in *.
  assert (E : IZR a * IZR b / RB = RB * (al * be)) by (unfold al, be; field; lra). rewrite E in F.
  assert (M : Rabs (IZR (mulr a b) / RB - al * be) <= 1 / RB).
  { replace (IZR (mulr a b) / RB - al * be) with ((IZR (mulr a b) - RB * (al * be)) / RB) by (field; lra).
    unfold Rdiv. rewrite Rabs_mult, (Rabs_pos_eq (/ RB)) by lra. apply Rmult_le_compat_r; [lra|]. apply Rabs_le. lra. }
  replace (IZR (mulr a b) / RB - x * y) with ((IZR (mulr a b) / RB - al * be) + (al * (be - y) + (al - x) * y)) by ring.
  eapply Rle_trans; [apply Rabs_triang|]. eapply Rle_trans; [apply Rplus_le_compat; [exact M|apply Rabs_triang]|].
  rewrite !Rabs_mult, (Rabs_pos_eq al), (Rabs_pos_eq y) by lra.
  assert (T1 : al * Rabs (be - y) <= j / RB) by (pose proof (Rabs_pos (be - y)); nra).
  assert (T2 : Rabs (al - x) * y <= i / RB) by (pose proof (Rabs_pos (al - x)); nra).
  replace ((i + j + 1) / RB) with (1 / RB + (j / RB + i / RB)) by (field; lra). lra.
Qed.
Lemma BB_unit : unit_z BB. Proof. split; [discriminate|apply Z.le_refl]. Qed.
Lemma BB_near c : 0 <= c -> near c BB 1.
Proof. intros Hc. apply near_exact; [exact Hc|]. unfold RB. field. apply Rgt_not_eq, RB_pos. Qed.
Lemma pow_unit x a : 0 <= x <= 1 -> 0 <= x ^ a <= 1.
Proof. intros Hx. induction a as [|a IH]; cbn; [lra|]. nra. Qed.
Lemma zpow_unit z a : unit_z z -> unit_z (zpow z a).
Proof. intros U. induction a as [|a IH]; cbn [zpow]; [exact BB_unit|]. apply mulr_unit; assumption. Qed.
Lemma zpow_near z x a : unit_z z -> 0 <= x <= 1 -> near 1 z x -> near (2 * INR a) (zpow z a) (x ^ a).
Proof.
  intros U Hx Hn. induction a as [|a IH].
  - cbn [zpow pow INR]. apply BB_near. lra.
  - cbn [zpow pow]. apply (near_mono (1 + 2 * INR a + 1)); [rewrite S_INR; lra|].
    apply mulr_near; auto using pow_unit.
Qed.
Lemma mono_ext e x y : (forall k, (k < length e)%nat -> x k = y k) -> mono e x = mono e y.
Proof.
  revert x y. induction e as [|a e IH]; intros x y Hxy; [reflexivity|]. cbn [mono].
  rewrite (Hxy 0%nat) by (cbn; lia). f_equal. apply IH. intros k Hk. apply Hxy. cbn; lia.
Qed.
Lemma mono_unit e : forall x, (forall k, 0 <= x k <= 1) -> 0 <= mono e x <= 1.
Proof.
  induction e as [|a e IH]; intros x Hx; [cbn; lra|]. cbn [mono]. specialize (IH (fun k => x (S k)) ltac:(intros; apply Hx)).
  pose proof (pow_unit (x 0%nat) a (Hx 0%nat)). nra.
Qed.
Lemma nth_tl {A} (d : A) j l : nth j (tl l) d = nth (S j) l d.
Proof. destruct l; [destruct j; reflexivity|reflexivity]. Qed.
Lemma hd_nth0 {A} (d : A) l : hd d l = nth 0 l d. Proof. destruct l; reflexivity. Qed.
Lemma zmono_unit e : forall X, (forall k, unit_z (nth k X 0%Z)) -> unit_z (zmono e X).
Proof.
  induction e as [|a e IH]; intros X HX; [exact BB_unit|]. cbn [zmono]. apply mulr_unit.
  - apply zpow_unit. rewrite hd_nth0. apply HX.
  - apply IH. intros k. rewrite nth_tl. apply HX.
Qed.
Lemma zmono_near e : forall X x, (forall k, unit_z (nth k X 0%Z)) -> (forall k, 0 <= x k <= 1) -> (forall k, near 1 (nth k X 0%Z) (x k)) ->
  near (2 * INR (list_sum e) + INR (length e)) (zmono e X) (mono e x).
Proof.
  induction e as [|a e IH]; intros X x HU Hx HX; [cbn [zmono mono]; apply BB_near; cbn; lra|].
  cbn [zmono mono].
  apply (near_mono (2 * INR a + (2 * INR (list_sum e) + INR (length e)) + 1)).
  { change (list_sum (a :: e)) with (a + list_sum e)%nat. change (length (a :: e)) with (S (length e)). rewrite plus_INR, S_INR. lra. }
  apply mulr_near.
  - apply zpow_unit. rewrite hd_nth0. apply HU.
  - apply mono_unit. intros; apply Hx.
  - apply zpow_near; [rewrite hd_nth0; apply HU|apply Hx|rewrite hd_nth0; apply HX].
  - apply IH; intros k; try rewrite nth_tl; auto.
Qed.
Lemma nth_skipn {A} (d : A) m : forall l j, nth j (skipn m l) d = nth (m + j) l d.
Proof. induction m as [|m IH]; intros l j; [reflexivity|]. destruct l as [|a l]; [destruct j; reflexivity|]. cbn. apply IH. Qed.
Lemma rsum_shift n f : rsum (S n) f = f 0%nat + rsum n (fun j => f (S j)).
Proof. induction n as [|n IH]; [cbn; ring|]. change (rsum (S (S n)) f) with (rsum (S n) f + f (S n)). rewrite IH. cbn [rsum]. ring. Qed.
Lemma zdot_rsum n : forall a b, IZR (zdot n a b) = rsum n (fun j => IZR (nth j a 0%Z) * IZR (nth j b 0%Z)).
Proof.
  induction n as [|n IH]; intros a b; [reflexivity|]. rewrite rsum_shift. cbn [zdot]. rewrite plus_IZR, mult_IZR, IH, !hd_nth0, Rmult_comm. f_equal.
  apply rsum_ext. intros j _. rewrite !nth_tl. reflexivity.
Qed.
Lemma rsum_abs n f : Rabs (rsum n f) <= rsum n (fun j => Rabs (f j)).
Proof.
  induction n as [|n IH]; [cbn [rsum]; rewrite Rabs_R0; lra|]. cbn [rsum]. eapply Rle_trans; [apply Rabs_triang|]. lra.
Qed.
Lemma rsum_bound n f c : (forall j, (j < n)%nat -> f j <= c) -> rsum n f <= INR n * c.
Proof.
  induction n as [|n IH]; intros Hf; [cbn; lra|]. cbn [rsum]. rewrite S_INR. specialize (IH ltac:(intros; apply Hf; lia)).
  specialize (Hf n ltac:(lia)). lra.
Qed.
(** a sum of n products of approximated factors: weights within 2 units and at most 1, values within c units *)
Lemma zdot_near n c W M (w m : nat -> R) : 0 <= c -> (forall j, (j < n)%nat -> near 2 (nth j W 0%Z) (w j)) ->
  (forall j, (j < n)%nat -> Rabs (w j) <= 1) -> (forall j, (j < n)%nat -> unit_z (nth j M 0%Z) /\ near c (nth j M 0%Z) (m j)) ->
  Rabs (IZR (zdot n W M) / (RB * RB) - rsum n (fun j => w j * m j)) <= INR n * (c + 2) / RB.
Proof.
  intros Hc HW Hw HM. pose proof RB_pos as P. rewrite zdot_rsum.
  replace (rsum n (fun j => IZR (nth j W 0%Z) * IZR (nth j M 0%Z)) / (RB * RB))
    with (rsum n (fun j => (IZR (nth j W 0%Z) / RB) * (IZR (nth j M 0%Z) / RB))).
  2:{ unfold Rdiv at 3. rewrite Rmult_comm, <- rsum_scal. apply rsum_ext. intros j _. field. lra. }
  replace (rsum n (fun j => IZR (nth j W 0%Z) / RB * (IZR (nth j M 0%Z) / RB)) - rsum n (fun j => w j * m j))
    with (rsum n (fun j => IZR (nth j W 0%Z) / RB * (IZR (nth j M 0%Z) / RB) + (-1) * (w j * m j))).
  2:{ rewrite rsum_plus, rsum_scal. ring. }
  eapply Rle_trans; [apply rsum_abs|]. unfold Rdiv at 3. rewrite Rmult_assoc. apply rsum_bound. intros j Hj.
  specialize (HW j Hj). specialize (Hw j Hj). destruct (HM j Hj) as [U N]. unfold near in *. apply unit_z_R in U.
  set (a := IZR (nth j W 0%Z) / RB) in *. set (b := IZR (nth j M 0%Z) / RB) in *.
  replace (a * b + -1 * (w j * m j)) with (w j * (b - m j) + (a - w j) * b) by ring.
  eapply Rle_trans; [apply Rabs_triang|]. rewrite !Rabs_mult, (Rabs_pos_eq b) by lra.
  assert (T1 : Rabs (w j) * Rabs (b - m j) <= c / RB) by (pose proof (Rabs_pos (b - m j)); pose proof (Rabs_pos (w j)); nra).
  assert (T2 : Rabs (a - w j) * b <= 2 / RB) by (pose proof (Rabs_pos (a - w j)); nra).
  replace ((c + 2) * / RB) with (c / RB + 2 / RB) by (field; lra). lra.
Qed.
Lemma zclose_spec E L den N D : (0 < E)%Z -> (0 < den)%Z -> (0 < D)%Z -> zclose E L den N D = true ->
  Rabs (IZR L / IZR den - IZR N / IZR D) <= 1 / (2 * IZR E).
Proof.
  intros HE Hd HD Hc. apply Z.leb_le in Hc. apply IZR_le in Hc. rewrite !mult_IZR, abs_IZR, minus_IZR, !mult_IZR in Hc.
  apply IZR_lt in HE, Hd, HD.
  replace (IZR L / IZR den - IZR N / IZR D) with ((IZR L * IZR D - IZR N * IZR den) / (IZR den * IZR D)) by (field; lra).
  assert (P : 0 < IZR den * IZR D) by (apply Rmult_lt_0_compat; assumption).
  unfold Rdiv at 1. rewrite Rabs_mult, (Rabs_pos_eq (/ _)) by (left; apply Rinv_0_lt_compat; exact P).
  apply (Rmult_le_reg_r (IZR den * IZR D)); [exact P|]. rewrite Rmult_assoc, Rinv_l, Rmult_1_r by lra.
  apply (Rmult_le_reg_r (2 * IZR E)); [lra|].
  replace (1 / (2 * IZR E) * (IZR den * IZR D) * (2 * IZR E)) with (IZR den * IZR D) by (field; lra). exact Hc.
Qed.
Lemma room_spec E n d p : (0 < E)%Z -> room E n d p = true -> INR (n + p) * (2 * INR p + INR d + 2) / RB <= 1 / (2 * IZR E).
Proof.
  intros HE Hr. apply Z.leb_le in Hr. apply IZR_le in Hr. rewrite !mult_IZR, <- INR_IZR_INZ, mult_INR in Hr. fold RB in Hr.
  assert (Eq : INR (2 * p + d + 2) = 2 * INR p + INR d + 2) by (rewrite !plus_INR, mult_INR; cbn [INR]; ring). rewrite Eq in Hr.
  apply IZR_lt in HE. pose proof RB_pos as P. apply (Rmult_le_reg_r (RB * (2 * IZR E))); [nra|].
  replace (INR (n + p) * (2 * INR p + INR d + 2) / RB * (RB * (2 * IZR E))) with (2 * IZR E * (INR (n + p) * (2 * INR p + INR d + 2))) by (field; lra).
  replace (1 / (2 * IZR E) * (RB * (2 * IZR E))) with RB by (field; lra). exact Hr.
Qed.
Lemma small_spec l j x : small l = true -> near 2 (nth j l 0%Z) x -> Rabs x <= 1.
Proof.
  intros Hs Hn. pose proof RB_pos as P.
  assert (A : (Z.abs (nth j l 0%Z) + 2 <= BB)%Z).
  { destruct (Nat.lt_ge_cases j (length l)) as [L|L].
    - unfold small in Hs. rewrite forallb_forall in Hs. apply Z.leb_le. apply Hs. apply nth_In. exact L.
    - rewrite nth_overflow by exact L. discriminate. }
  apply IZR_le in A. rewrite plus_IZR, abs_IZR in A. fold RB in A. unfold near in Hn. set (z := IZR (nth j l 0%Z)) in *.
  assert (Q : 0 < / RB) by (apply Rinv_0_lt_compat; exact P).
  assert (B : Rabs (z / RB) = Rabs z / RB) by (unfold Rdiv; rewrite Rabs_mult, (Rabs_pos_eq (/ RB)) by lra; reflexivity).
  replace x with (z / RB - (z / RB - x)) by ring. unfold Rminus at 1. eapply Rle_trans; [apply Rabs_triang|]. rewrite Rabs_Ropp, B.
  assert (C : Rabs z / RB + 2 / RB <= 1).
  { apply (Rmult_le_reg_r RB); [exact P|]. replace ((Rabs z / RB + 2 / RB) * RB) with (Rabs z + 2) by (field; lra). lra. }
  lra.
Qed.
Lemma exps_complete d : forall p e, length e = d -> (list_sum e <= p)%nat -> In e (exps d p).
Proof.
  induction d as [|d IH]; intros p e Hl Hs.
  - destruct e; [left; reflexivity|discriminate].
  - destruct e as [|a e]; [discriminate|]. cbn in Hl, Hs. fold (list_sum e) in Hs. cbn [exps].
    apply in_flat_map. exists a. split; [apply in_seq; lia|]. apply in_map. apply IH; lia.
Qed.
Lemma dec_length k e : length (dec_at k e) = length e.
Proof. revert k. induction e as [|a e IH]; intros [|k]; cbn; congruence. Qed.
Lemma list_sum_cons a e : list_sum (a :: e) = (a + list_sum e)%nat. Proof. reflexivity. Qed.
Lemma dec_sum k e : (0 < nth k e 0)%nat -> S (list_sum (dec_at k e)) = list_sum e.
Proof.
  revert k. induction e as [|a e IH]; intros [|k]; cbn [dec_at nth]; try lia; rewrite !list_sum_cons; intros Ha.
  - destruct a; [lia|]. reflexivity.
  - specialize (IH k Ha). lia.
Qed.

(** derivative of a monomial *)
Definition dmono (k : nat) (e : list nat) (x : nat -> R) : R := INR (nth k e 0%nat) * mono (dec_at k e) x.
Lemma dmono_spec e : forall k x, (k < length e)%nat -> is_derive (fun t => mono e (upd_at x k t)) (x k) (dmono k e x).
Proof.
  induction e as [|a e IH]; intros k x Hk; [cbn in Hk; lia|].
  destruct k as [|k].
  - unfold dmono. cbn [nth dec_at].
    apply (is_derive_ext (fun t => t ^ a * mono e (fun k => x (S k)))).
    { intros t. cbn [mono]. unfold upd_at at 1. cbn. f_equal. }
    cbn [mono]. auto_derive; [exact I|]. ring.
  - unfold dmono. cbn [nth dec_at mono].
    apply (is_derive_ext (fun t => x 0%nat ^ a * mono e (upd_at (fun k => x (S k)) k t))).
    { intros t. unfold upd_at at 1. cbn. f_equal. }
    specialize (IH k (fun j => x (S j)) ltac:(cbn in Hk; lia)).
    replace (INR (nth k e 0%nat) * (x 0%nat ^ a * mono (dec_at k e) (fun k0 : nat => x (S k0))))
      with (x 0%nat ^ a * dmono k e (fun j => x (S j))) by (unfold dmono; ring).
    apply (is_derive_scal (fun t => mono e (upd_at (fun j => x (S j)) k t)) _ (x 0%nat ^ a)). exact IH.
Qed.
Fixpoint dpoly (k : nat) (f : poly) (x : nat -> R) : R :=
  match f with nil => 0 | cons (c, e) f' => c * dmono k e x + dpoly k f' x end.
Lemma dpoly_spec d p k f x : has_degree d p f -> (k < d)%nat -> is_partial (peval f) k x (dpoly k f x).
Proof.
  intros Hf Hk. unfold is_partial. induction Hf as [|[c e] f [Hl Hs] Hf IH]; cbn [peval dpoly].
  - apply (is_derive_const 0 (x k)).
  - apply (is_derive_plus (fun t => c * mono e (upd_at x k t)) (fun t => peval f (upd_at x k t))); [|exact IH].
    apply (is_derive_scal (fun t => mono e (upd_at x k t)) _ c). apply dmono_spec. cbn in Hl. lia.
Qed.

(** ** reading the data *)
Section Data.
Variable el : element.
Hypothesis Hok : data_ok el = true.
Lemma node_ok i : unit_ok (snd (nth i (enodes el) ([], 0%Q))) = true /\ forallb unit_ok (fst (nth i (enodes el) ([], 0%Q))) = true.
Proof.
  pose proof Hok as A. unfold data_ok in A. rewrite forallb_forall in A.
  destruct (Nat.lt_ge_cases i (length (enodes el))) as [L|L].
  - specialize (A _ (nth_In (enodes el) ([], 0%Q) L)). apply andb_prop in A. exact A.
  - rewrite nth_overflow by exact L. split; reflexivity.
Qed.
Lemma unit_R q : unit_ok q = true -> 0 <= Q2R q <= 1 /\ unit_z (rz q).
Proof.
  intros H. apply andb_prop in H. destruct H as [A B]. apply Z.leb_le in A, B. unfold rz, unit_z. split.
  - assert (D : 0 < IZR (Zpos (Qden q))) by (apply (IZR_lt 0); reflexivity). apply IZR_le in A, B. unfold Q2R. split.
    + apply Rmult_le_pos; [exact A|left; apply Rinv_0_lt_compat; exact D].
    + apply (Rmult_le_reg_r (IZR (Zpos (Qden q)))); [exact D|]. rewrite Rmult_assoc, Rinv_l by lra. lra.
  - split.
    + apply Z.div_pos; [|reflexivity]. apply Z.mul_nonneg_nonneg; [exact A|discriminate].
    + apply Z.div_le_upper_bound; [reflexivity|]. apply Z.mul_le_mono_nonneg_r; [discriminate|exact B].
Qed.
Lemma nth_rz l k : nth k (map rz l) 0%Z = rz (nth k l 0%Q).
Proof. replace 0%Z with (rz 0%Q) by reflexivity. apply map_nth. Qed.
Lemma nth_unit l k : forallb unit_ok l = true -> unit_ok (nth k l 0%Q) = true.
Proof.
  intros Hl. destruct (Nat.lt_ge_cases k (length l)) as [L|L].
  - rewrite forallb_forall in Hl. apply Hl. apply nth_In. exact L.
  - rewrite nth_overflow by exact L. reflexivity.
Qed.
Lemma xz_nth i k : nth k (nth i (xz el) []) 0%Z = rz (nth k (fst (nth i (enodes el) ([], 0%Q))) 0%Q).
Proof.
  unfold xz. change (@nil Z) with ((fun t : list Q * Q => map rz (fst t)) ([], 0%Q)). rewrite map_nth. apply nth_rz.
Qed.
Lemma coord_unit i k : 0 <= coord el i k <= 1.
Proof. apply unit_R. apply nth_unit. apply node_ok. Qed.
Lemma xz_unit i k : unit_z (nth k (nth i (xz el) []) 0%Z).
Proof. rewrite xz_nth. apply unit_R. apply nth_unit. apply node_ok. Qed.
Lemma xz_spec i k : near 1 (nth k (nth i (xz el) []) 0%Z) (coord el i k).
Proof. rewrite xz_nth. apply rz_near. Qed.
Lemma hz_spec i : near 1 (nth i (hz el) 0%Z) (Hof el i).
Proof.
  unfold hz, Hof. change 0%Z with ((fun t : list Q * Q => rz (snd t)) ([], 0%Q)). rewrite map_nth. apply rz_near.
Qed.
Lemma H_unit i : 0 <= Hof el i <= 1.
Proof. apply unit_R. apply node_ok. Qed.
Lemma oz_spec k j i : near 1 (nth (j + i * nnode el) (oz el k) 0%Z) (Qof el k j i).
Proof. unfold oz. rewrite nth_rz. apply rz_near. Qed.
Lemma mono_node e i : unit_z (zmono e (nth i (xz el) [])) /\
  near (2 * INR (list_sum e) + INR (length e)) (zmono e (nth i (xz el) [])) (mono e (coord el i)).
Proof.
  split; [apply zmono_unit; intros; apply xz_unit|]. apply zmono_near; intros; [apply xz_unit|apply coord_unit|apply xz_spec].
Qed.
Lemma mons_spec e j p : (list_sum e <= p)%nat -> (j < nnode el)%nat -> unit_z (nth j (map (zmono e) (xz el)) 0%Z) /\
  near (2 * INR p + INR (length e)) (nth j (map (zmono e) (xz el)) 0%Z) (mono e (coord el j)).
Proof.
  intros Hp Hj. rewrite (nth_indep _ 0%Z (zmono e [])) by (rewrite map_length; unfold xz; rewrite map_length; exact Hj).
  rewrite map_nth. destruct (mono_node e j) as [A B]. split; [exact A|]. eapply near_mono; [|exact B]. apply le_INR in Hp. lra.
Qed.

Lemma deriv_mono E p e k i : (0 < E)%Z -> deriv_ok E p el = true -> length e = edim el -> (list_sum e <= p)%nat ->
  (k < edim el)%nat -> (i < nnode el)%nat ->
  Rabs (rsum (nnode el) (fun j => getQ (Qof el) k i j * mono e (coord el j)) - Hof el i * dmono k e (coord el i)) <= 1 / IZR E.
Proof.
  intros HE Hd Hl Hs Hk Hi. unfold deriv_ok in Hd. apply andb_prop in Hd. destruct Hd as [Hr Hd]. rewrite forallb_forall in Hd.
  specialize (Hd k ltac:(apply in_seq; lia)). cbv zeta in Hd. apply andb_prop in Hd. destruct Hd as [Hsm Hd]. rewrite forallb_forall in Hd.
  specialize (Hd e (exps_complete _ _ _ Hl Hs)). rewrite forallb_forall in Hd.
  specialize (Hd i ltac:(apply in_seq; lia)).
  pose proof RB_pos as P. assert (Q : 0 < / RB) by (apply Rinv_0_lt_compat; exact P).
  apply zclose_spec in Hd; [|exact HE|reflexivity|reflexivity]. rewrite minus_IZR, mult_IZR in Hd. fold RB in Hd.
  apply (room_spec _ _ _ _ HE) in Hr.
  pose proof (zdot_near (nnode el) (2 * INR p + INR (edim el)) (skipn (i * nnode el) (oz el k)) (map (zmono e) (xz el)) (fun j => Qof el k j i) (fun j => mono e (coord el j))) as Z.
  specialize (Z ltac:(pose proof (pos_INR p); pose proof (pos_INR (edim el)); lra)).
  assert (N2 : forall j, near 2 (nth j (skipn (i * nnode el) (oz el k)) 0%Z) (Qof el k j i)).
  { intros j. rewrite nth_skipn, (Nat.add_comm (i * nnode el)). eapply near_mono; [|apply oz_spec]. lra. }
  specialize (Z ltac:(intros; apply N2)).
  specialize (Z ltac:(intros j _; apply (small_spec (oz el k) (j + i * nnode el)); [exact Hsm|]; eapply near_mono; [|apply oz_spec]; lra)).
  specialize (Z ltac:(intros j Hj; rewrite <- Hl; apply mons_spec; assumption)).
  set (zd := IZR (zdot (nnode el) (skipn (i * nnode el) (oz el k)) (map (zmono e) (xz el)))) in *.
  unfold getQ. set (S := rsum (nnode el) (fun j => Qof el k j i * mono e (coord el j))) in *.
  set (zr := if Nat.eqb (nth k e 0%nat) 0 then 0%Z else (nth i (hz el) 0 * Z.of_nat (nth k e 0%nat) * zmono (dec_at k e) (nth i (xz el) []))%Z) in *.
  assert (HR : Rabs (IZR zr / (RB * RB) - Hof el i * dmono k e (coord el i)) <= INR p * (2 * INR p + INR (edim el) + 2) / RB).
  { assert (PP : 0 <= INR p * (2 * INR p + INR (edim el) + 2) / RB).
    { apply Rmult_le_pos; [|lra]. pose proof (pos_INR p); pose proof (pos_INR (edim el)). nra. }
    unfold zr, dmono. destruct (Nat.eqb_spec (nth k e 0%nat) 0) as [E0|E0].
    - rewrite E0. cbn [INR]. replace (0 / (RB * RB) - Hof el i * (0 * mono (dec_at k e) (coord el i))) with 0 by (field; lra). rewrite Rabs_R0. exact PP.
    - rewrite !mult_IZR, <- INR_IZR_INZ. set (ek := INR (nth k e 0%nat)).
      destruct (mono_node (dec_at k e) i) as [U Nm]. rewrite dec_length, Hl in Nm. pose proof (hz_spec i) as Nh. pose proof (H_unit i) as Uh.
      unfold near in Nm, Nh. apply unit_z_R in U. set (a := IZR (nth i (hz el) 0%Z)) in *. set (b := IZR (zmono (dec_at k e) (nth i (xz el) []))) in *.
      set (h := Hof el i) in *. set (m := mono (dec_at k e) (coord el i)) in *.
      replace (a * ek * b / (RB * RB) - h * (ek * m)) with (ek * (h * (b / RB - m) + (a / RB - h) * (b / RB))) by (field; lra).
      assert (Ek : 0 <= ek <= INR p).
      { unfold ek. split; [apply pos_INR|]. apply le_INR.
        assert (G : forall (l : list nat) k, (nth k l 0 <= list_sum l)%nat).
        { intros l. induction l as [|x l IH]; intros [|k']; cbn [nth]; try (cbn; lia). rewrite list_sum_cons. specialize (IH k'). lia. }
        specialize (G e k). lia. }
      assert (Ls : INR (list_sum (dec_at k e)) <= INR p).
      { apply le_INR. pose proof (dec_sum k e ltac:(lia)). lia. }
      rewrite Rabs_mult, (Rabs_pos_eq ek) by lra. unfold Rdiv at 4. rewrite Rmult_assoc.
      apply Rmult_le_compat; [lra|apply Rabs_pos|lra|]. eapply Rle_trans; [apply Rabs_triang|].
      rewrite !Rabs_mult, (Rabs_pos_eq h), (Rabs_pos_eq (b / RB)) by lra.
      assert (T1 : h * Rabs (b / RB - m) <= (2 * INR p + INR (edim el)) * / RB).
      { assert (Rabs (b / RB - m) <= (2 * INR p + INR (edim el)) * / RB).
        { eapply Rle_trans; [exact Nm|]. apply Rmult_le_compat_r; lra. }
        pose proof (Rabs_pos (b / RB - m)). nra. }
      assert (T2 : Rabs (a / RB - h) * (b / RB) <= 2 * / RB).
      { pose proof (Rabs_pos (a / RB - h)). assert (Rabs (a / RB - h) <= 2 * / RB) by (unfold Rdiv at 2 in Nh; lra). nra. }
      lra. }
  assert (HD : Rabs (zd / (RB * RB) - IZR zr / (RB * RB)) <= 1 / (2 * IZR E)).
  { replace (zd / (RB * RB) - IZR zr / (RB * RB)) with ((zd - IZR zr) / (RB * RB) - 0 / 1) by (field; lra). exact Hd. }
  assert (Tot : INR (nnode el) * (2 * INR p + INR (edim el) + 2) / RB + INR p * (2 * INR p + INR (edim el) + 2) / RB <= 1 / (2 * IZR E)).
  { eapply Rle_trans; [|exact Hr]. rewrite plus_INR. apply Req_le. field. lra. }
  apply IZR_lt in HE. replace (1 / IZR E) with (1 / (2 * IZR E) + 1 / (2 * IZR E)) by (field; lra).
  replace (S - Hof el i * dmono k e (coord el i))
    with ((zd / (RB * RB) - IZR zr / (RB * RB)) + (-(zd / (RB * RB) - S) + (IZR zr / (RB * RB) - Hof el i * dmono k e (coord el i)))) by ring.
  eapply Rle_trans; [apply Rabs_triang|]. eapply Rle_trans; [apply Rplus_le_compat_l, Rabs_triang|]. rewrite Rabs_Ropp. lra.
Qed.
End Data.

(** linear functionals of polynomials *)
Lemma poly_bound (d p : nat) (eps : R) (F G : list nat -> R) (f : poly) :
  (forall e, length e = d -> (list_sum e <= p)%nat -> Rabs (F e - G e) <= eps) -> has_degree d p f ->
  Rabs (fold_right (fun t s => fst t * F (snd t) + s) 0 f - fold_right (fun t s => fst t * G (snd t) + s) 0 f) <= eps * psize f.
Proof.
  intros HFG Hf. induction Hf as [|[c e] f [Hl Hs] Hf IH]; cbn [fold_right psize fst snd].
  - rewrite Rminus_0_r, Rabs_R0. lra.
  - replace (c * F e + fold_right (fun t s => fst t * F (snd t) + s) 0 f - (c * G e + fold_right (fun t s => fst t * G (snd t) + s) 0 f))
      with (c * (F e - G e) + (fold_right (fun t s => fst t * F (snd t) + s) 0 f - fold_right (fun t s => fst t * G (snd t) + s) 0 f)) by ring.
    eapply Rle_trans; [apply Rabs_triang|]. rewrite Rabs_mult, Rmult_plus_distr_l.
    apply Rplus_le_compat; [|exact IH]. rewrite (Rmult_comm eps). apply Rmult_le_compat_l; [apply Rabs_pos|]. apply HFG; assumption.
Qed.
Lemma rsum_peval n (w : nat -> R) (X : nat -> nat -> R) f :
  rsum n (fun j => w j * peval f (X j)) = fold_right (fun t s => fst t * rsum n (fun j => w j * mono (snd t) (X j)) + s) 0 f.
Proof.
  induction f as [|[c e] f IH]; cbn [peval fold_right fst snd].
  - rewrite (rsum_ext _ _ (fun _ => 0)) by (intros; ring). apply rsum_0.
  - rewrite <- IH, <- rsum_scal, <- rsum_plus. apply rsum_ext. intros; ring.
Qed.
Lemma dpoly_fold k f x h : h * dpoly k f x = fold_right (fun t s => fst t * (h * dmono k (snd t) x) + s) 0 f.
Proof. induction f as [|[c e] f IH]; cbn [dpoly fold_right fst snd]; [ring|]. rewrite <- IH. ring. Qed.

Lemma deriv_poly el E p f k i : data_ok el = true -> (0 < E)%Z -> deriv_ok E p el = true -> has_degree (edim el) p f ->
  (k < edim el)%nat -> (i < nnode el)%nat ->
  Rabs (rsum (nnode el) (fun j => getQ (Qof el) k i j * peval f (coord el j)) - Hof el i * dpoly k f (coord el i)) <= 1 / IZR E * psize f.
Proof.
  intros Hok HE Hd Hf Hk Hi. rewrite (rsum_peval _ (fun j => getQ (Qof el) k i j)), dpoly_fold.
  apply (poly_bound (edim el) p (1 / IZR E) (fun e => rsum (nnode el) (fun j => getQ (Qof el) k i j * mono e (coord el j)))
          (fun e => Hof el i * dmono k e (coord el i))); [|exact Hf].
  intros e Hl Hs. apply (deriv_mono el Hok E p); assumption.
Qed.

(** ** the other table checks *)
Definition qopp_eq (a b : Q) : bool := andb (Z.eqb (Qnum a) (- Qnum b)) (Pos.eqb (Qden a) (Qden b)).
Definition skew_ok (el : element) : bool :=
  let n := nnode el in
  forallb (fun k => let T := nth k (eops el) [] in
    forallb (fun i => let row := skipn (i * n) T in
      forallb (fun j => orb (Nat.eqb i j) (qopp_eq (nth j row 0%Q) (nth (i + j * n)%nat T 0%Q))) (seq 0 n)) (seq 0 n))
    (seq 0 (edim el)).
Definition pos_ok (el : element) : bool := forallb (fun t => Z.ltb 0 (Qnum (snd t))) (enodes el).
(** sum_i w_i mono e x_i against num/den, for all monomials of degree at most p *)
Definition quad_ok (E : Z) (p : nat) (el : element) (W : list Z) (num den : list nat -> Z) : bool :=
  let n := nnode el in let X := xz el in let BB2 := (BB * BB)%Z in
  andb (andb (room E n (edim el) p) (small W)) (forallb (fun e =>
    let mons := map (zmono e) X in
    andb (Z.ltb 0 (den e)) (zclose E (zdot n W mons) BB2 (num e) (den e))) (exps (edim el) p)).
Lemma quad_mono el E p W w num den e : data_ok el = true -> (0 < E)%Z -> quad_ok E p el W num den = true ->
  (forall j, (j < nnode el)%nat -> near 2 (nth j W 0%Z) (w j)) -> length e = edim el -> (list_sum e <= p)%nat ->
  Rabs (rsum (nnode el) (fun j => w j * mono e (coord el j)) - IZR (num e) / IZR (den e)) <= 1 / IZR E.
Proof.
  intros Hok HE Hq HW Hl Hs. unfold quad_ok in Hq. apply andb_prop in Hq. destruct Hq as [Hr Hq]. apply andb_prop in Hr. destruct Hr as [Hr Hsm].
  rewrite forallb_forall in Hq. specialize (Hq e (exps_complete _ _ _ Hl Hs)).
  cbv zeta in Hq. apply andb_prop in Hq. destruct Hq as [Hp Hq]. apply Z.ltb_lt in Hp.
  apply zclose_spec in Hq; [|exact HE|reflexivity|exact Hp]. rewrite mult_IZR in Hq. fold RB in Hq.
  apply (room_spec _ _ _ _ HE) in Hr. pose proof RB_pos as P. assert (Q : 0 < / RB) by (apply Rinv_0_lt_compat; exact P).
  pose proof (zdot_near (nnode el) (2 * INR p + INR (edim el)) W (map (zmono e) (xz el)) w (fun j => mono e (coord el j))) as Z.
  specialize (Z ltac:(pose proof (pos_INR p); pose proof (pos_INR (edim el)); lra) HW).
  specialize (Z ltac:(intros j Hj; apply (small_spec W j); [exact Hsm|apply HW; exact Hj])).
  specialize (Z ltac:(intros j Hj; rewrite <- Hl; apply (mons_spec el Hok); assumption)).
  set (zd := IZR (zdot (nnode el) W (map (zmono e) (xz el)))) in *. set (S := rsum (nnode el) (fun j => w j * mono e (coord el j))) in *.
  assert (Tot : INR (nnode el) * (2 * INR p + INR (edim el) + 2) / RB <= 1 / (2 * IZR E)).
  { eapply Rle_trans; [|exact Hr]. apply Rmult_le_compat_r; [lra|]. pose proof (pos_INR p); pose proof (pos_INR (edim el)).
    apply Rmult_le_compat_r; [lra|]. apply le_INR. lia. }
  apply IZR_lt in HE. replace (1 / IZR E) with (1 / (2 * IZR E) + 1 / (2 * IZR E)) by (field; lra).
  replace (S - IZR (num e) / IZR (den e)) with ((zd / (RB * RB) - IZR (num e) / IZR (den e)) + -(zd / (RB * RB) - S)) by ring.
  eapply Rle_trans; [apply Rabs_triang|]. rewrite Rabs_Ropp. lra.
Qed.
Lemma skew_exact el k i j : data_ok el = true -> skew_ok el = true -> (k < edim el)%nat -> (i < nnode el)%nat -> (j < nnode el)%nat -> i <> j ->
  getQ (Qof el) k i j = - getQ (Qof el) k j i.
Proof.
  intros Hok Hs Hk Hi Hj Hij. unfold skew_ok in Hs. cbv zeta in Hs. rewrite forallb_forall in Hs. specialize (Hs k ltac:(apply in_seq; lia)).
  rewrite forallb_forall in Hs. specialize (Hs i ltac:(apply in_seq; lia)).
  rewrite forallb_forall in Hs. specialize (Hs j ltac:(apply in_seq; lia)).
  apply orb_prop in Hs. destruct Hs as [Hs|Hs]; [apply Nat.eqb_eq in Hs; contradiction|].
  rewrite nth_skipn in Hs. apply andb_prop in Hs. destruct Hs as [H1 H2]. apply Z.eqb_eq in H1. apply Pos.eqb_eq in H2.
  unfold getQ, Qof, Q2R. rewrite (Nat.add_comm j). rewrite H1, H2, opp_IZR. ring.
Qed.
Lemma pos_exact el i : data_ok el = true -> pos_ok el = true -> (i < nnode el)%nat -> 0 < Hof el i.
Proof.
  intros Hok Hp Hi. unfold pos_ok in Hp. rewrite forallb_forall in Hp.
  specialize (Hp _ (nth_In (enodes el) ([], 0%Q) Hi)). apply Z.ltb_lt in Hp. unfold Hof, Q2R.
  apply Rmult_lt_0_compat; [apply IZR_lt; exact Hp|]. apply Rinv_0_lt_compat. apply (IZR_lt 0). reflexivity.
Qed.
(** exact values of the simplex integrals *)
Fixpoint zfact (n : nat) : Z := match n with O => 1%Z | S k => (Z.of_nat (S k) * zfact k)%Z end.
Definition zfacts (e : list nat) : Z := fold_right (fun a s => (zfact a * s)%Z) 1%Z e.
(** int over the d-simplex of x^e = e! / (|e| + d)! *)
Definition vol_num (e : list nat) : Z := zfacts e.
Definition vol_den (d : nat) (e : list nat) : Z := zfact (list_sum e + d).
(** boundary integral of x^e n_k: e!/(|e|+d-1)! minus, when e_k = 0, the integral over the face x_k = 0, which has the same value *)
Definition bdr_num (k : nat) (e : list nat) : Z := if Nat.eqb (nth k e 0%nat) 0 then 0%Z else zfacts e.
