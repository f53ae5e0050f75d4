From Coq Require Import Reals List QArith Qreals Arith Lia Lra Bool.
From Verif Require Import Num Vec RootFind RootFindProofs RKSpec RungeKutta.
Import ListNotations.

(** ** Order conditions *)
Section Trees.
Fixpoint tab (n : nat) : nat -> list (list rtree) :=
  match n with
  | O => fun _ => [[]]
  | S n' => fun m =>
    if Nat.eqb m (S n')
    then flat_map (fun k => flat_map (fun g => map (fun f => Node g :: f) (tab n' (n' - k))) (tab n' k)) (seq 0 (S n'))
    else tab n' m
  end.
Definition forder (f : list rtree) : nat := fold_right (fun c n => order c + n)%nat 0%nat f.
Lemma tab_complete : forall n m f, (m <= n)%nat -> forder f = m -> In f (tab n m).
Proof.
  induction n as [|n IH]; intros m f Hm Hf.
  - destruct f as [|[l] f]; [left; reflexivity|]. cbn in Hf. lia.
  - cbn [tab]. destruct (Nat.eqb_spec m (S n)) as [->|Hne]; [|apply IH; lia].
    destruct f as [|[g] f]; [cbn in Hf; lia|].
    assert (E : (forder g + forder f = n)%nat) by (cbn in Hf; fold (forder g) in Hf; fold (forder f) in Hf; lia).
    apply in_flat_map. exists (forder g). split; [apply in_seq; lia|].
    apply in_flat_map. exists g. split; [apply IH; lia|].
    apply in_map_iff. exists f. split; [reflexivity|]. apply IH; lia.
Qed.
Lemma trees_complete (P : rtree -> bool) N :
  forallb (fun m => forallb (fun f => P (Node f)) (tab N m)) (seq 0 (S N)) = true ->
  forall t, (order t <= S N)%nat -> P t = true.
Proof.
  intros H [f] Ho. rewrite forallb_forall in H. cbn [order] in Ho. fold (forder f) in Ho.
  assert (Hs : In (forder f) (seq 0 (S N))) by (apply in_seq; lia).
  specialize (H _ Hs). rewrite forallb_forall in H. apply H. apply tab_complete; [lia|reflexivity].
Qed.

End Trees.

Definition qA (i j : nat) : Q := if Nat.ltb j i then nth (packed i j) RRK6_a 0%Q else 0%Q.
Definition qb (i : nat) : Q := nth i RRK6_b 0%Q.
Definition qc (i : nat) : Q := match i with O => 0%Q | S i => nth i RRK6_c 0%Q end.
Local Open Scope R_scope.
Definition A6 (i j : nat) : R := Q2R (qA i j).
Definition b6 (i : nat) : R := Q2R (qb i).
Definition c6 (i : nat) : R := Q2R (qc i).

Lemma Rabs_div (a b : R) : b <> 0 -> Rabs (a / b) = Rabs a / Rabs b.
Proof. intros H. unfold Rdiv. rewrite Rabs_mult, Rabs_inv. reflexivity. Qed.
Lemma ratio_le x d T : 0 < d -> 0 < T -> x * T <= d -> x / d <= 1 / T.
Proof.
  intros Hd HT H. apply Rmult_le_reg_r with T; [assumption|]. apply Rmult_le_reg_r with d; [assumption|].
  replace (x / d * T * d) with (x * T) by (field; lra). replace (1 / T * T * d) with d by (field; lra). exact H.
Qed.
Lemma ratio_lt x d T : 0 < d -> 0 < T -> d < x * T -> 1 / T < x / d.
Proof.
  intros Hd HT H. apply Rmult_lt_reg_r with T; [assumption|]. apply Rmult_lt_reg_r with d; [assumption|].
  replace (x / d * T * d) with (x * T) by (field; lra). replace (1 / T * T * d) with d by (field; lra). exact H.
Qed.
(** all entries are integers over 10^43 *)
Definition D : Z := (10 ^ 43)%Z.
Definition zof (q : Q) : Z := (Qnum q * (D / Zpos (Qden q)))%Z.
Definition zAtab : list Z := Eval vm_compute in map zof RRK6_a.
Definition zbtab : list Z := Eval vm_compute in map zof RRK6_b.
Definition zA (i j : nat) : Z := if Nat.ltb j i then nth (packed i j) zAtab 0%Z else 0%Z.
Definition zb (i : nat) : Z := nth i zbtab 0%Z.
Lemma zA_of i j : zA i j = zof (qA i j).
Proof.
  unfold zA, qA. destruct (Nat.ltb j i); [|reflexivity].
  change zAtab with (map zof RRK6_a). change 0%Z with (zof 0%Q) at 1. apply map_nth.
Qed.
Lemma zb_of i : zb i = zof (qb i).
Proof. unfold zb, qb. change zbtab with (map zof RRK6_b). change 0%Z with (zof 0%Q) at 1. apply map_nth. Qed.
Lemma D_pos : 0 < IZR D. Proof. apply IZR_lt. reflexivity. Qed.
Lemma zof_ok q : (D mod Zpos (Qden q) = 0)%Z -> Q2R q = IZR (zof q) / IZR D.
Proof.
  intros H. unfold Q2R, zof. rewrite mult_IZR. assert (Hd := D_pos).
  assert (E : IZR D = IZR (Zpos (Qden q)) * IZR (D / Zpos (Qden q))).
  { rewrite <- mult_IZR. f_equal. apply Z.div_exact; [discriminate|exact H]. }
  assert (0 < IZR (Zpos (Qden q))) by (apply IZR_lt; reflexivity).
  rewrite E in Hd |- *. field. split; nra.
Qed.
Lemma den_ok l : forallb (fun q => Z.eqb (D mod Zpos (Qden q)) 0) l = true -> forall i, (D mod Zpos (Qden (nth i l 0%Q)) = 0)%Z.
Proof.
  intros H i. destruct (Nat.lt_ge_cases i (length l)) as [Hi|Hi].
  - rewrite forallb_forall in H. apply Z.eqb_eq. apply H. apply nth_In. exact Hi.
  - rewrite nth_overflow by exact Hi. apply Z.mod_1_r.
Qed.
Lemma zA_ok i j : A6 i j = IZR (zA i j) / IZR D.
Proof. rewrite zA_of. unfold A6. apply zof_ok. unfold qA. destruct (Nat.ltb j i); [|apply Z.mod_1_r]. apply den_ok. vm_compute. reflexivity. Qed.
Lemma zb_ok i : b6 i = IZR (zb i) / IZR D.
Proof. rewrite zb_of. unfold b6. apply zof_ok. unfold qb. apply den_ok. vm_compute. reflexivity. Qed.

Fixpoint zsum (n : nat) (f : nat -> Z) : Z := match n with O => 0%Z | S k => (zsum k f + f k)%Z end.
Lemma zsum_ok n f : IZR (zsum n f) = rsum n (fun i => IZR (f i)).
Proof. induction n as [|n IH]; cbn [zsum rsum]; [reflexivity|]. rewrite plus_IZR, IH. reflexivity. Qed.
Fixpoint zweights (t : rtree) : list Z :=
  match t with Node l =>
    fold_right (fun c w => let wc := zweights c in
       map (fun i => (zsum 8 (fun j => zA i j * nth j wc 0) * nth i w 0)%Z) (seq 0 8)) (repeat 1%Z 8) l
  end.
Lemma nth_map_seq {A} (f : nat -> A) n i d : (i < n)%nat -> nth i (map f (seq 0 n)) d = f i.
Proof. intros H. rewrite nth_indep with (d' := f 0%nat) by (rewrite map_length, seq_length; exact H).
  rewrite map_nth, seq_nth by exact H. reflexivity. Qed.

Section TreeInd.
Variable P : rtree -> Prop.
Hypothesis H : forall l, Forall P l -> P (Node l).
Fixpoint rtree_ind' (t : rtree) : P t :=
  match t with Node l => H l ((fix go l := match l return Forall P l with [] => Forall_nil P | c :: r => Forall_cons c (rtree_ind' c) (go r) end) l) end.
End TreeInd.

Lemma zweights_ok : forall t i, (i < 8)%nat -> weight 8 A6 t i = IZR (nth i (zweights t) 0%Z) / IZR D ^ (order t - 1).
Proof.
  assert (HD := D_pos).
  apply (rtree_ind' (fun t => forall i, (i < 8)%nat -> weight 8 A6 t i = IZR (nth i (zweights t) 0%Z) / IZR D ^ (order t - 1))).
  intros l Hl. cbn [zweights weight order]. fold (forder l). induction Hl as [|c l Hc Hl IH]; intros i Hi.
  - cbn [fold_right forder]. do 8 (destruct i as [|i]; [cbn; lra|]). lia.
  - cbn [fold_right]. fold (forder l) in *. rewrite nth_map_seq by exact Hi. rewrite IH by exact Hi. rewrite mult_IZR, zsum_ok.
    rewrite (rsum_ext 8 _ (fun j => IZR (zA i j * nth j (zweights c) 0%Z) * / IZR D ^ order c)).
    2: { intros j Hj. rewrite Hc by exact Hj. rewrite zA_ok, mult_IZR.
         destruct (order c) as [|o] eqn:Eo; [destruct c; discriminate|]. cbn [Nat.sub pow]. rewrite Nat.sub_0_r. field.
         split; [apply pow_nonzero|]; lra. }
    rewrite rsum_scal_r. cbn [forder fold_right]. fold (forder l).
    replace (S (order c + forder l) - 1)%nat with (order c + (S (forder l) - 1))%nat by lia.
    rewrite pow_add. field. split; apply pow_nonzero; lra.
Qed.
Lemma density_pos : forall t, (0 < density t)%nat.
Proof.
  apply rtree_ind'. intros l Hl. cbn [density order]. apply Nat.mul_pos_pos; [lia|].
  induction Hl as [|c l Hc Hl IH]; cbn [fold_right]; [lia|]. apply Nat.mul_pos_pos; assumption.
Qed.
(** numerator of the defect over density * D^order *)
Definition zdefect (t : rtree) : Z := (Z.of_nat (density t) * zsum 8 (fun i => zb i * nth i (zweights t) 0) - D ^ Z.of_nat (order t))%Z.
Lemma zdefect_ok t : defect 8 A6 b6 t = IZR (zdefect t) / (INR (density t) * IZR D ^ order t).
Proof.
  assert (HD := D_pos). assert (Hg : 0 < INR (density t)) by (apply lt_0_INR, density_pos).
  unfold defect, zdefect. rewrite minus_IZR, mult_IZR, zsum_ok, <- INR_IZR_INZ, <- pow_IZR.
  rewrite (rsum_ext 8 _ (fun i => IZR (zb i * nth i (zweights t) 0%Z) * / IZR D ^ order t)).
  2: { intros i Hi. rewrite zweights_ok by exact Hi. rewrite zb_ok, mult_IZR.
       destruct (order t) as [|o] eqn:Eo; [destruct t; discriminate|]. cbn [Nat.sub pow]. rewrite Nat.sub_0_r. field.
       split; [apply pow_nonzero|]; lra. }
  rewrite rsum_scal_r. field. split; [apply pow_nonzero|]; lra.
Qed.
Definition zcheck (tol : Z) (t : rtree) : bool :=
  Z.leb (Z.abs (zdefect t) * tol) (Z.of_nat (density t) * D ^ Z.of_nat (order t)).
Lemma zcheck_ok tol t : (0 < tol)%Z -> zcheck tol t = true -> Rabs (defect 8 A6 b6 t) <= 1 / IZR tol.
Proof.
  intros Ht H. apply Z.leb_le in H. apply IZR_le in H. rewrite !mult_IZR, abs_IZR, <- pow_IZR, <- INR_IZR_INZ in H.
  assert (0 < IZR tol) by (apply IZR_lt; exact Ht). assert (HD := D_pos).
  assert (Hg : 0 < INR (density t)) by (apply lt_0_INR, density_pos).
  assert (Hp : 0 < IZR D ^ order t) by (apply pow_lt; exact HD).
  rewrite zdefect_ok. rewrite Rabs_div by (apply Rgt_not_eq; nra).
  rewrite (Rabs_pos_eq (INR (density t) * _)) by nra.
  apply ratio_le; [nra|assumption|exact H].
Qed.

Lemma order6_check : forallb (fun m => forallb (fun f => zcheck (10^34) (Node f)) (tab 5 m)) (seq 0 6) = true.
Proof. vm_compute. reflexivity. Qed.
Lemma order6 : forall t, (order t <= 6)%nat -> Rabs (defect 8 A6 b6 t) <= 1 / 10 ^ 34.
Proof.
  intros t Ht. assert (H := trees_complete _ 5 order6_check t Ht). apply zcheck_ok in H; [|reflexivity].
  rewrite pow_IZR. exact H.
Qed.
Lemma row_sums : forall i, (i < 8)%nat -> Rabs (rsum i (fun j => A6 i j) - c6 i) <= 1 / 10 ^ 37.
Proof.
  intros i Hi. assert (HD := D_pos).
  assert (Ec : c6 i = IZR (zof (qc i)) / IZR D).
  { unfold c6. apply zof_ok. unfold qc. destruct i; [apply Z.mod_1_r|]. apply den_ok. vm_compute. reflexivity. }
  assert (H : Z.leb (Z.abs (zsum i (zA i) - zof (qc i)) * 10 ^ 37) D = true).
  { do 8 (destruct i as [|i]; [vm_compute; reflexivity|]). lia. }
  apply Z.leb_le, IZR_le in H. rewrite mult_IZR, abs_IZR, minus_IZR, zsum_ok in H.
  rewrite Ec, (rsum_ext i _ (fun j => IZR (zA i j) * / IZR D)) by (intros; apply zA_ok). rewrite rsum_scal_r.
  replace (rsum i (fun j => IZR (zA i j)) * / IZR D - IZR (zof (qc i)) / IZR D) with
    ((rsum i (fun j => IZR (zA i j)) - IZR (zof (qc i))) / IZR D) by (field; lra).
  rewrite Rabs_div by lra. rewrite (Rabs_pos_eq (IZR D)) by lra. rewrite pow_IZR.
  assert (0 < IZR (10 ^ Z.of_nat 37)) by (apply IZR_lt; reflexivity).
  apply ratio_le; [lra|assumption|exact H].
Qed.
Definition zbig (tol : Z) (t : rtree) : bool :=
  Z.ltb (Z.of_nat (density t) * D ^ Z.of_nat (order t)) (Z.abs (zdefect t) * tol).
Lemma zbig_ok tol t : (0 < tol)%Z -> zbig tol t = true -> 1 / IZR tol < Rabs (defect 8 A6 b6 t).
Proof.
  intros Ht H. apply Z.ltb_lt in H. apply IZR_lt in H. rewrite !mult_IZR, abs_IZR, <- pow_IZR, <- INR_IZR_INZ in H.
  assert (0 < IZR tol) by (apply IZR_lt; exact Ht). assert (HD := D_pos).
  assert (Hg : 0 < INR (density t)) by (apply lt_0_INR, density_pos).
  assert (Hp : 0 < IZR D ^ order t) by (apply pow_lt; exact HD).
  rewrite zdefect_ok. rewrite Rabs_div by (apply Rgt_not_eq; nra).
  rewrite (Rabs_pos_eq (INR (density t) * _)) by nra.
  apply ratio_lt; [nra|assumption|exact H].
Qed.
(** one order higher the conditions fail *)
Lemma order7_fails : exists t, order t = 7%nat /\ 1 / 10 ^ 7 < Rabs (defect 8 A6 b6 t).
Proof.
  set (l := Node []). exists (Node [Node [Node [Node [l; l; l]]]]). split; [reflexivity|].
  rewrite pow_IZR. apply zbig_ok; [reflexivity|]. vm_compute. reflexivity.
Qed.
Lemma table_sizes : length RRK6_a = (RRK6_s * (RRK6_s - 1) / 2)%nat /\ length RRK6_b = RRK6_s /\ length RRK6_c = (RRK6_s - 1)%nat.
Proof. repeat split. Qed.

(** ** The marchers *)
From Coq Require Import FunctionalExtensionality.
Definition linear_op (M : vec -> vec) : Prop := forall u v s, M (axpy u s v) = axpy (M u) s (M v).
Lemma linear_zero M : linear_op M -> M (fun _ => 0) = (fun _ => 0).
Proof.
  intros H. extensionality i. assert (E := f_equal (fun w => w i) (H (fun _ => 0) (fun _ => 0) 1)). unfold axpy in E. cbn in E.
  replace (fun _ : nat => 0 + 1 * 0) with (fun _ : nat => 0) in E by (extensionality j; ring). lra.
Qed.
Lemma linear_incr M x s k i : linear_op M -> M (vsub (axpy x s k) x) i = s * M k i.
Proof.
  intros H. replace (vsub (axpy x s k) x) with (axpy (fun _ => 0) s k) by (extensionality j; unfold vsub, axpy; ring).
  rewrite H, linear_zero by exact H. unfold axpy. ring.
Qed.

Lemma ptc_backward_euler f kold M Res x t dt x' t' :
  linear_op M ->
  (forall i, M (ec_implicit f (t + dt) dt x kold) i + Res (t + dt) (axpy x dt (ec_implicit f (t + dt) dt x kold)) i = 0) ->
  ptc_step f kold x t dt = (x', t') ->
  t' = t + dt /\ forall i, M (vsub x' x) i + dt * Res t' x' i = 0.
Proof.
  intros HM HI H. unfold ptc_step in H. injection H as <- <-. split; [reflexivity|]. intros i.
  rewrite linear_incr by exact HM. specialize (HI i). nra.
Qed.

Lemma midpoint_step f kold M Res x t dt x' t' :
  let k := ec_implicit f (t + dt / 2) (dt / 2) x kold in
  linear_op M ->
  (forall i, M k i + Res (t + dt / 2) (axpy x (dt / 2) k) i = 0) ->
  rrk_midpoint_step f kold x t dt = Some (x', t') ->
  exists gamma, t' = t + gamma * dt /\
  (forall i, x' i = x i + gamma * dt * k i) /\
  (forall i, M (vsub x' x) i + gamma * dt * Res (t + dt / 2) (axpy x (dt / 2) k) i = 0).
Proof.
  intros k HM HI H. unfold rrk_midpoint_step in H. fold k in H.
  destruct (relax_gamma _) as [gamma|]; [|discriminate]. injection H as <- <-. exists gamma. split; [reflexivity|]. split.
  - intros i. unfold axpy. reflexivity.
  - intros i. rewrite linear_incr by exact HM. specialize (HI i). nra.
Qed.

Lemma stage_inner_spec a dt k : forall cnt j l y,
  stage_inner a dt k cnt j l y = ((fun d => y d + dt * rsum cnt (fun q => a (l + q)%nat * k (j + q)%nat d)), (l + cnt)%nat).
Proof.
  induction cnt as [|cnt IH]; intros j l y; cbn [stage_inner].
  - f_equal; [|lia]. extensionality d. cbn. ring.
  - rewrite IH. f_equal; [|lia]. extensionality d. rewrite rsum_shift. unfold axpy. rewrite !Nat.add_0_r.
    rewrite (rsum_ext cnt (fun i => a (l + S i)%nat * k (j + S i)%nat d) (fun q => a (S l + q)%nat * k (S j + q)%nat d)) by
      (intros q _; rewrite <- !plus_n_Sm; reflexivity). ring.
Qed.
Lemma accumulate_spec b dt k : forall cnt i acc d,
  accumulate b dt k cnt i acc d = acc d + dt * rsum cnt (fun q => b (i + q)%nat * k (i + q)%nat d).
Proof.
  induction cnt as [|cnt IH]; intros i acc d; cbn [accumulate]; [cbn; ring|].
  rewrite IH, rsum_shift. unfold axpy. rewrite !Nat.add_0_r.
  rewrite (rsum_ext cnt (fun q => b (i + S q)%nat * k (i + S q)%nat d) (fun q => b (S i + q)%nat * k (S i + q)%nat d)) by
    (intros q _; rewrite <- !plus_n_Sm; reflexivity). ring.
Qed.
Lemma tri i : (S i * (S i - 1) / 2 = i * (i - 1) / 2 + i)%nat.
Proof.
  replace (S i * (S i - 1))%nat with (i * (i - 1) + i * 2)%nat by (destruct i; cbn; lia).
  rewrite Nat.div_add by lia. reflexivity.
Qed.

(** the stage times used by the code: stage 0 at t, stage i at t + c[i-1] dt *)
Definition cs (c : nat -> R) (i : nat) : R := match i with O => 0 | S i => c i end.
Lemma stages_spec f a b c x t dt : forall cnt i K de (y0 : nat -> vec),
  (1 <= i)%nat ->
  (forall q, (q < i)%nat -> (forall d, y0 q d = x d + dt * rsum q (fun j => a (packed q j) * K j d)) /\ K q = ec_mult f (t + cs c q * dt) (y0 q)) ->
  let '(K', de') := stages f a b c x t dt cnt i (i * (i - 1) / 2) K de in
  exists y', (forall q, (q < i)%nat -> K' q = K q /\ y' q = y0 q) /\
  (forall q, (q < i + cnt)%nat -> (forall d, y' q d = x d + dt * rsum q (fun j => a (packed q j) * K' j d)) /\ K' q = ec_mult f (t + cs c q * dt) (y' q)) /\
  de' = de + rsum cnt (fun q => b (i + q)%nat * ec_change f (t + cs c (i + q) * dt) (cs c (i + q) * dt) (y' (i + q)%nat) (K' (i + q)%nat)).
Proof.
  induction cnt as [|cnt IH]; intros i K de y0 Hi HK; cbn [stages].
  - exists y0. split; [auto|]. split; [intros q Hq; apply HK; lia|]. cbn. ring.
  - rewrite stage_inner_spec.
    set (y := fun d : nat => axpy x (a (i * (i - 1) / 2)%nat * dt) (K 0%nat) d + _).
    set (ki := ec_mult f (t + c (i - 1)%nat * dt) y). set (de1 := de + _).
    replace (S (i * (i - 1) / 2) + (i - 1))%nat with (S i * (S i - 1) / 2)%nat by (rewrite tri; lia).
    assert (Ey : forall d, y d = x d + dt * rsum i (fun j => a (packed i j) * K j d)).
    { intros d. unfold y, axpy. destruct i as [|i]; [lia|]. rewrite (rsum_shift i). unfold packed. rewrite Nat.add_0_r.
      replace (S i - 1)%nat with i by lia.
      rewrite (rsum_ext i (fun j => a (S i * i / 2 + S j)%nat * K (S j) d) (fun q => a (S (S i * i / 2) + q)%nat * K (1 + q)%nat d)).
      - ring.
      - intros q _. rewrite <- plus_n_Sm. reflexivity. }
    specialize (IH (S i) (upd K i ki) de1 (upd y0 i y) ltac:(lia)).
    assert (Hpre : forall q, (q < S i)%nat ->
      (forall d, upd y0 i y q d = x d + dt * rsum q (fun j => a (packed q j) * upd K i ki j d)) /\
      upd K i ki q = ec_mult f (t + cs c q * dt) (upd y0 i y q)).
    { intros q Hq.
      assert (Er : forall d, rsum q (fun j => a (packed q j) * upd K i ki j d) = rsum q (fun j => a (packed q j) * K j d)).
      { intros d. apply rsum_ext. intros j Hj. unfold upd. destruct (Nat.eqb_spec j i); [lia|reflexivity]. }
      unfold upd at 1 3 4. destruct (Nat.eqb_spec q i) as [->|Hne].
      - split; [intros d; rewrite Er; apply Ey|]. unfold ki. destruct i as [|i']; [lia|]. cbn [cs].
        replace (S i' - 1)%nat with i' by lia. reflexivity.
      - destruct (HK q ltac:(lia)) as [H1 H2]. split; [intros d; rewrite Er; apply H1|exact H2]. }
    specialize (IH Hpre). destruct (stages f a b c x t dt cnt (S i) (S i * (S i - 1) / 2) (upd K i ki) de1) as [K' de'].
    destruct IH as (y' & I1 & I2 & I3). exists y'. split; [|split].
    + intros q Hq. destruct (I1 q ltac:(lia)) as [J1 J2]. unfold upd in J1, J2. destruct (Nat.eqb_spec q i); [lia|auto].
    + intros q Hq. apply I2. lia.
    + rewrite I3, rsum_shift. unfold de1. destruct (I1 i ltac:(lia)) as [J1 J2]. unfold upd in J1, J2. rewrite Nat.eqb_refl in J1, J2.
      rewrite Nat.add_0_r, J1, J2.
      replace (cs c i) with (c (i - 1)%nat) by (destruct i as [|i']; [lia|cbn; f_equal; lia]).
      rewrite (rsum_ext cnt (fun q => b (i + S q)%nat * ec_change f (t + cs c (i + S q) * dt) (cs c (i + S q) * dt) (y' (i + S q)%nat) (K' (i + S q)%nat))
        (fun q => b (S i + q)%nat * ec_change f (t + cs c (S i + q) * dt) (cs c (S i + q) * dt) (y' (S i + q)%nat) (K' (S i + q)%nat)))
        by (intros q _; rewrite <- !plus_n_Sm; reflexivity).
      fold ki. ring.
Qed.

Lemma explicit_step f s a b c kold x t dt x' t' : (1 <= s)%nat ->
  rrk_explicit_step f s a b c kold x t dt = Some (x', t') ->
  exists K Y gamma delta,
    (forall i, (i < s)%nat -> (forall d, Y i d = x d + dt * rsum i (fun j => a (packed i j) * K j d)) /\ K i = ec_mult f (t + cs c i * dt) (Y i)) /\
    delta = rsum s (fun i => b i * ec_change f (t + cs c i * dt) (cs c i * dt) (Y i) (K i)) /\
    (forall d, x' d = x d + gamma * dt * rsum s (fun i => b i * K i d)) /\
    t' = t + gamma * dt /\
    relax_gamma (fun g => ec_entropy f (fun d => x d + g * dt * rsum s (fun i => b i * K i d)) - ec_entropy f x + g * dt * delta) = Returned gamma.
Proof.
  intros Hs H. unfold rrk_explicit_step in H. set (k0 := ec_mult f t x) in *. set (de0 := b 0%nat * _) in *.
  assert (P := stages_spec f a b c x t dt (s - 1) 1 (upd kold 0 k0) de0 (fun _ => x) (le_n 1)).
  assert (Hpre : forall q, (q < 1)%nat -> (forall d, x d = x d + dt * rsum q (fun j => a (packed q j) * upd kold 0 k0 j d)) /\
     upd kold 0 k0 q = ec_mult f (t + cs c q * dt) x).
  { intros q Hq. replace q with 0%nat by lia. split; [intros d; cbn; ring|]. cbn. unfold k0. f_equal. ring. }
  specialize (P Hpre). cbn [Nat.mul Nat.sub Nat.add] in P. change (0 / 2)%nat with 0%nat in P.
  destruct (stages f a b c x t dt (s - 1) 1 0 (upd kold 0 k0) de0) as [K de]. destruct P as (Y & P1 & P2 & P3).
  assert (Ei : forall d, accumulate b dt K (s - 1) 1 (vscal (b 0%nat * dt) (K 0%nat)) d = dt * rsum s (fun i => b i * K i d)).
  { intros d. rewrite accumulate_spec. unfold vscal. destruct s as [|s]; [lia|]. rewrite rsum_shift.
    replace (S s - 1)%nat with s by lia. cbn [Nat.add]. ring. }
  set (incr := accumulate _ _ _ _ _ _) in *.
  assert (Ef : explicit_entropyFun f x incr dt de = (fun g => ec_entropy f (fun d => x d + g * dt * rsum s (fun i => b i * K i d)) - ec_entropy f x + g * dt * de)).
  { extensionality g. unfold explicit_entropyFun. do 3 f_equal. extensionality d. unfold axpy. rewrite Ei. ring. }
  rewrite Ef in H. destruct (relax_gamma _) as [gamma|] eqn:Eg; [|discriminate]. injection H as <- <-.
  exists K, Y, gamma, de. split; [|split; [|split; [|split]]].
  - intros i Hi. apply P2. lia.
  - rewrite P3. unfold de0. destruct s as [|s]; [lia|]. replace (S s - 1)%nat with s by lia. rewrite rsum_shift. cbn [Nat.add].
    destruct (P1 0%nat ltac:(lia)) as [Q1 Q2]. rewrite Q1, Q2. unfold upd. cbn [Nat.eqb cs].
    replace (t + 0 * dt) with t by ring. replace (0 * dt) with 0 by ring. reflexivity.
  - intros d. unfold axpy. rewrite Ei. ring.
  - reflexivity.
  - exact Eg.
Qed.
