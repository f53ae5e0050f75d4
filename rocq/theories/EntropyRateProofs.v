(** The reported entropy change is the entropy-weighted residual; the mass matrix; discrete balance laws. *)
From Coq Require Import Reals Arith Lra Lia Psatz Bool List FunctionalExtensionality.
From Coquelicot Require Import Coquelicot.
From Verif Require Import Num Vec Euler EulerSpec EulerProofs EulerDeriv IsmailRoeProofs FluxProofs BoundaryProofs NavierStokes NavierStokesProofs
  Sbp SbpSpec SbpProofs SbpProofs2 SbpProofs3 SbpMesh SbpMeshSpec SbpMeshProofs SmoothCalc Vortex FlowJac FlowJacSpec FluxSmooth2 FlowJacProofs
  ViscWall ViscWallSpec ViscWallProofs ViscWallProofs2 EntropyRate EntropyRateSpec.
Import ListNotations.
Local Open Scope R_scope.

(** ** boundary terms *)
Lemma in_place_rate d dir qbnd q e : physical d q -> dot (d + 2) (calcEntropyVars d false q) (boundaryFluxECInPlace d dir qbnd q e) = dot d (mom q) dir + e.
Proof.
  intros H. unfold boundaryFluxECInPlace. cbv zeta. set (w := calcEntropyVars d false q). set (f := boundaryFluxInPlace d dir qbnd q). set (A := calcdQdWProduct d q w).
  assert (N : dot (d + 2) w A <> 0).
  { intros E. pose proof (same_E d _ _ (dqdw_definite d q w H E)) as Z. pose proof (ent_last_neg d q H) as L. unfold w in Z. lra. }
  set (c := (dot (d + 2) w f - dot d (mom q) dir - e) / dot (d + 2) w A).
  assert (E : dot (d + 2) w (fun i => f i - c * A i) = dot (d + 2) w f - c * dot (d + 2) w A).
  { unfold dot. rewrite <- rsum_scal, <- rsum_minus. apply rsum_ext. intros; ring. }
  rewrite E. unfold c. field. exact N.
Qed.
Lemma describes_ent d entvar q rho u p : 0 < rho -> 0 < p -> describes d entvar q rho u p -> ent_of d (calcEntropyVars d entvar q) rho u p.
Proof. intros Hr Hp H. destruct entvar; [exact H|]. apply entvars_prim; assumption. Qed.
Lemma conv_same d entvar q rho u p : 0 < rho -> 0 < p -> describes d entvar q rho u p ->
  same d (calcEntropyVars d entvar q) (calcEntropyVars d false (calcConservativeVars d entvar q)).
Proof.
  intros Hr Hp H. apply (ent_unique d _ _ rho u p); [apply describes_ent; assumption|]. apply entvars_prim; [assumption..|].
  apply (describes_cons d entvar q rho u p Hr Hp H).
Qed.
Lemma dot_same d (a b x : vec) : same d a b -> dot (d + 2) a x = dot (d + 2) b x.
Proof. intros H. unfold dot. apply rsum_ext. intros i Hi. rewrite (H i Hi). reflexivity. Qed.
Lemma bcFun_rate d entvar b f dir q rho u p : 0 < rho -> 0 < p -> describes d entvar q rho u p ->
  bcFun d entvar b f dir q = dot (d + 2) (calcEntropyVars d entvar q) (bcFlux d entvar b f dir q).
Proof.
  intros Hr Hp H. destruct b; try reflexivity. unfold bcFun, bcFlux. cbv zeta.
  rewrite !(dot_same d _ _ _ (conv_same d entvar q rho u p Hr Hp H)).
  assert (P : physical d (calcConservativeVars d entvar q)) by (exists rho, u, p; pose proof (describes_cons d entvar q rho u p Hr Hp H); tauto).
  rewrite in_place_rate, bndEC by exact P. reflexivity.
Qed.

Section Rate.
Context (d N : nat) (entvar : bool) (lps : R) (visc : option viscosity) (ifc : option R) (M : mesh) (WF : well_formed N M).
Context (bcs : R -> bface -> bc) (walls : R -> list vface) (VE : visc <> None -> entvar = false).
Context (u : nat -> vec) (g : gas) (VG : valid_gas d entvar N u g).
Let w := fun i => calcEntropyVars d entvar (u i).
Lemma fluxes_fit G : well_formed N (with_fluxes M G).
Proof.
  destruct WF as (A & B & C). split; [exact A|]. split; [exact B|]. intros b Hb. cbn [bfs with_fluxes] in Hb. apply in_map_iff in Hb.
  destruct Hb as (b' & <- & Hb). exact (C b' Hb).
Qed.
Lemma domain_rate e : In e (els M) ->
  lsum (fun E : element -> (nat -> vec) -> R => E e (fun i => u (e_glob e i))) (domainEnergies d entvar lps visc) =
  lsum (fun integ => test (e_n e) (d + 2) (fun i => w (e_glob e i)) (integ e (fun i => u (e_glob e i)))) (domainIntegrators d entvar lps visc).
Proof.
  intros He. unfold domainEnergies, domainIntegrators. rewrite !lsum_app. apply f_equal2; [|apply f_equal2].
  - reflexivity.
  - destruct (Rlt_dec 0 lps); reflexivity.
  - destruct visc as [vp|]; [|reflexivity]. unfold w. rewrite VE by discriminate. reflexivity.
Qed.
Lemma inviscid_rate t r : flowResidual d entvar lps visc ifc (with_fluxes M (fun b => bcFlux d entvar (bcs t b))) u = Some r ->
  test N (d + 2) w r =
  lsum (fun e => lsum (fun E : element -> (nat -> vec) -> R => E e (fun i => u (e_glob e i))) (domainEnergies d entvar lps visc)) (els M)
  + match ifc with None => 0 | Some c => lsum (fun f => ifaceEnergy d entvar c f (fun i => u (f_globL f i)) (fun i => u (f_globR f i))) (ifs M) end
  + lsum (fun b => boundaryEnergy d entvar (bcs t b) b (fun i => u (b_glob b i))) (bfs M).
Proof.
  intros E. rewrite (flow_test d N entvar lps visc ifc _ (fluxes_fit _) u r w E). apply f_equal2; [apply f_equal2|].
  - cbn [els with_fluxes]. apply lsum_ext. intros e He. symmetry. apply domain_rate. exact He.
  - unfold fsum, dsbp, ic. destruct ifc as [c|]; [|reflexivity]. cbn [ifs with_fluxes]. reflexivity.
  - unfold bsum. cbn [bfs with_fluxes]. rewrite lsum_map. apply lsum_ext. intros b Hb. unfold boundaryEnergy. apply rsum_ext. intros k Hk.
    destruct WF as (_ & _ & C). destruct (C b Hb) as (C1 & C2). unfold bnode, set_flux. cbn [b_wt b_glob b_idx b_flux b_nrm b_nf] in *.
    destruct (VG (b_glob b (b_idx b k))) as (Hr & Hp & D); [apply C1, C2; exact Hk|].
    rewrite (bcFun_rate d entvar (bcs t b) k _ _ _ _ _ Hr Hp D). unfold w. ring.
Qed.
End Rate.
Lemma change_is_weighted_residual d N entvar lps visc ifc M bcs walls u g time dt sd rate r : well_formed N M -> (visc <> None -> entvar = false) ->
  valid_gas d entvar N u g -> (forall f, In f (walls (time + dt)) -> wall_fits N f) ->
  residualAt d entvar lps visc ifc M bcs walls (time + dt) u = Some r ->
  calcEntropyChange d entvar lps visc ifc M bcs walls time dt u sd = Some rate ->
  rate = test N (d + 2) (fun i => calcEntropyVars d entvar (u i)) r.
Proof.
  intros WF VE VG WW ER EC. unfold residualAt in ER. cbv zeta in ER. unfold calcEntropyChange, formOutput in EC.
  destruct visc as [vp|].
  - destruct ifc as [c|]; [discriminate|]. injection EC as <-.
    destruct (flowResidual _ _ _ _ _ (with_fluxes M _) u) as [r0|] eqn:E0; [|discriminate]. injection ER as <-.
    rewrite (fold_read (test N (d + 2) _) _ (fun f => wallFaceEnergy d vp f (fun i => u (e_glob (w_el f) i)))).
    + rewrite (inviscid_rate d N entvar lps (Some vp) None M WF bcs VE u g VG _ _ E0). reflexivity.
    + intros t f Hf. destruct (WW f Hf) as (A & B & _). rewrite test_scatter by exact A. f_equal.
      rewrite (face_test' d N vp (fun i => calcEntropyVars d entvar (u i)) u f (WW f Hf)). unfold wallFaceEnergy, wallEnergy. cbv zeta. apply rsum_ext. intros k Hk. unfold wallFun.
      rewrite (VE ltac:(discriminate)). unfold wall_flux, wnode. rewrite viscous_grad. change (wall_grad d f u k) with (SbpProofs3.grad (e_n (w_el f)) d (e_H (w_el f)) (e_Q (w_el f)) (e_adj (w_el f)) (e_detJ (w_el f)) (fun j => calcEntropyVars d false (u (e_glob (w_el f) j))) (w_idx f k)). rewrite Rmult_1_r. apply Rmult_comm.
  - rewrite (inviscid_rate d N entvar lps None ifc M WF bcs VE u g VG _ _ ER). destruct ifc as [c|]; injection EC as EC; rewrite <- EC; apply Rplus_0_r.
Qed.

(** ** the mass matrix *)
Definition massEntry (d : nat) (steady : bool) (e : element) (i : nat) : R :=
  if steady then e_H e i * e_detJ e i / Rpower (e_detJ e i) (1 / INR d) else e_H e i * e_detJ e i.
Lemma set_miss (f : nat -> nat) x a b ns A : (forall k, (k < ns)%nat -> ~ (a = f k /\ b = f k)) ->
  loop ns (fun k A => set2 A (f k) (f k) x) A a b = A a b.
Proof.
  induction ns as [|ns IH]; intros H; [reflexivity|]. cbn [loop]. unfold set2 at 1. destruct (Nat.eqb_spec a (f ns)), (Nat.eqb_spec b (f ns)); cbn [andb]; try (apply IH; intros; apply H; lia).
  exfalso. apply (H ns); [lia|split; assumption].
Qed.
Lemma set_hit (f : nat -> nat) x m ns A : (m < ns)%nat -> loop ns (fun k A => set2 A (f k) (f k) x) A (f m) (f m) = x.
Proof.
  induction ns as [|ns IH]; intros H; [lia|]. cbn [loop]. unfold set2 at 1. destruct (Nat.eqb_spec (f m) (f ns)) as [E|E]; cbn [andb]; [reflexivity|].
  apply IH. destruct (Nat.eq_dec m ns) as [->|]; [contradiction|lia].
Qed.
Lemma mass_element d ns steady e i m j k : (i < e_n e)%nat -> (j < e_n e)%nat -> (m < ns)%nat -> (k < ns)%nat ->
  diagMassElement d ns steady e (i + m * e_n e)%nat (j + k * e_n e)%nat = (if Nat.eqb i j && Nat.eqb m k then massEntry d steady e i else 0).
Proof.
  intros Hi Hj Hm Hk. unfold diagMassElement.
  set (body := fun i0 elmat => _).
  assert (U : forall a b c c', (a < e_n e)%nat -> (b < e_n e)%nat -> (a + c * e_n e = b + c' * e_n e)%nat -> a = b /\ c = c').
  { intros a b c c' Ha Hb E. assert (c = c') by nia. subst. lia. }
  assert (G : forall n, (n <= e_n e)%nat -> loop n body zero2 (i + m * e_n e)%nat (j + k * e_n e)%nat =
     if Nat.ltb i n then (if Nat.eqb i j && Nat.eqb m k then massEntry d steady e i else 0) else 0).
  { induction n as [|n IH]; intros Hn; [reflexivity|]. cbn [loop]. unfold body at 1. cbv zeta. destruct (Nat.eq_dec i n) as [->|Hne].
    - replace (Nat.ltb n (S n)) with true by (symmetry; apply Nat.ltb_lt; lia).
      destruct (Nat.eqb_spec n j) as [->|Hj']; [destruct (Nat.eqb_spec m k) as [->|Hm']|]; cbn [andb].
      + rewrite (set_hit (fun k => (j + k * e_n e)%nat)) by exact Hm. unfold massEntry. destruct steady; reflexivity.
      + rewrite (set_miss (fun k => (j + k * e_n e)%nat)).
        * rewrite IH by lia. replace (Nat.ltb j j) with false by (symmetry; apply Nat.ltb_ge; lia). reflexivity.
        * intros c Hc (E1 & E2). apply U in E1; [|assumption..]. apply U in E2; [|assumption..]. lia.
      + rewrite (set_miss (fun k => (n + k * e_n e)%nat)).
        * rewrite IH by lia. replace (Nat.ltb n n) with false by (symmetry; apply Nat.ltb_ge; lia). reflexivity.
        * intros c Hc (E1 & E2). apply U in E2; [|lia..]. lia.
    - rewrite (set_miss (fun k => (n + k * e_n e)%nat)).
      + rewrite IH by lia. replace (Nat.ltb i (S n)) with (Nat.ltb i n); [reflexivity|].
        destruct (Nat.ltb_spec i n), (Nat.ltb_spec i (S n)); try reflexivity; lia.
      + intros c Hc (E1 & E2). apply U in E1; [|lia..]. lia. }
  rewrite G by lia. replace (Nat.ltb i (e_n e)) with true by (symmetry; apply Nat.ltb_lt; lia). reflexivity.
Qed.
Section Mass.
Context (d N ns : nat) (steady : bool) (M : mesh) (WF : well_formed N M).
Notation A := (massMatrix d ns steady M).
Lemma mass_test W v : test4 N ns W A v = lsum (fun e => rsum (e_n e) (fun i => massEntry d steady e i * dot ns (W (e_glob e i)) (v (e_glob e i)))) (els M).
Proof.
  destruct WF as (We & _ & _). unfold massMatrix.
  rewrite (fold_read (fun J => test4 N ns W J v) _ (fun e => rsum (e_n e) (fun i => massEntry d steady e i * dot ns (W (e_glob e i)) (v (e_glob e i))))).
  - rewrite test4_zero. ring.
  - intros J e He. rewrite test4_scatter by (apply We; exact He). f_equal. unfold test4r. apply rsum_ext. intros i Hi. unfold dot. rewrite <- rsum_scal. apply rsum_ext. intros m Hm.
    replace (rsum (e_n e) _) with (massEntry d steady e i * v (e_glob e i) m); [ring|].
    rewrite (rsum_ext (e_n e) _ (fun j => delta i j * (massEntry d steady e i * v (e_glob e j) m))).
    + rewrite rsum_delta_l by exact Hi. reflexivity.
    + intros j Hj. rewrite (rsum_ext ns _ (fun k => delta m k * (delta i j * (massEntry d steady e i * v (e_glob e j) k)))).
      * rewrite rsum_delta_l by exact Hm. reflexivity.
      * intros k Hk. rewrite mass_element by assumption. unfold delta. destruct (Nat.eqb i j), (Nat.eqb m k); cbn [andb]; ring.
Qed.
(** diagonal entry of a node *)
Definition nodeMass (i : nat) : R := lsum (fun e => rsum (e_n e) (fun a => delta (e_glob e a) i * massEntry d steady e a)) (els M).
Lemma mass_mult v i m : (i < N)%nat -> (m < ns)%nat -> massMult N ns A v i m = nodeMass i * v i m.
Proof.
  intros Hi Hm. unfold massMult. rewrite <- (test4_point N ns A v i m Hi Hm), mass_test. unfold nodeMass.
  rewrite (Rmult_comm _ (v i m)), <- lsum_scal. apply lsum_ext. intros e He. rewrite <- rsum_scal. apply rsum_ext. intros a Ha.
  unfold dot. rewrite (rsum_ext ns _ (fun k => delta k m * (delta (e_glob e a) i * v (e_glob e a) k))) by (intros; ring).
  rewrite rsum_delta_r by exact Hm. unfold delta. destruct (Nat.eqb_spec (e_glob e a) i) as [->|]; ring.
Qed.
Lemma massEntry_pos e a : In e (els M) -> (a < e_n e)%nat -> positive_mesh M -> 0 < massEntry d steady e a.
Proof.
  intros He Ha HP. destruct (HP e He a Ha) as (P1 & P2). unfold massEntry. assert (0 < e_H e a * e_detJ e a) by (apply Rmult_lt_0_compat; assumption).
  destruct steady; [|assumption]. apply Rdiv_lt_0_compat; [assumption|]. unfold Rpower. apply exp_pos.
Qed.
Lemma nodeMass_pos i : positive_mesh M -> (exists e a, In e (els M) /\ (a < e_n e)%nat /\ e_glob e a = i) -> 0 < nodeMass i.
Proof.
  intros HP (e & a & He & Ha & E). unfold nodeMass. pose proof (massEntry_pos e a He Ha HP) as P.
  assert (NN : forall e, In e (els M) -> forall a, (a < e_n e)%nat -> 0 <= delta (e_glob e a) i * massEntry d steady e a).
  { intros e' He' a' Ha'. pose proof (massEntry_pos e' a' He' Ha' HP). unfold delta. destruct (Nat.eqb _ _); lra. }
  revert He NN. induction (els M) as [|e0 l IH]; intros He NN; [destruct He|]. cbn [lsum fold_right].
  assert (Hl : 0 <= lsum (fun e => rsum (e_n e) (fun a => delta (e_glob e a) i * massEntry d steady e a)) l).
  { apply lsum_nonneg. intros e' He'. apply rsum_nonneg. intros a' Ha'. apply NN; [right; exact He'|exact Ha']. }
  unfold lsum in Hl |- *. destruct He as [->|He].
  - destruct (Rle_lt_or_eq_dec 0 (rsum (e_n e) (fun a => delta (e_glob e a) i * massEntry d steady e a))) as [L|L].
    + apply rsum_nonneg. intros a' Ha'. apply NN; [left; reflexivity|exact Ha'].
    + lra.
    + exfalso. pose proof (rsum_nonneg_zero (e_n e) (fun a => delta (e_glob e a) i * massEntry d steady e a) (fun a' Ha' => NN e (or_introl eq_refl) a' Ha') (eq_sym L) a Ha) as Z.
      cbv beta in Z. rewrite E, delta_refl, Rmult_1_l in Z. lra.
  - assert (0 <= rsum (e_n e0) (fun a => delta (e_glob e0 a) i * massEntry d steady e0 a)) by (apply rsum_nonneg; intros a' Ha'; apply NN; [left; reflexivity|exact Ha']).
    assert (IH' := IH He (fun e' He' => NN e' (or_intror He'))). unfold lsum in IH'. lra.
Qed.
End Mass.
