(** The residual of a configuration. *)
From Coq Require Import Reals List String Bool ZArith Lia Lra.
From Verif Require Import Num Vec Euler Options OptionsProofs BdrArray BdrArrayProofs Sbp SbpSpec SbpProofs SbpProofs3 SbpMesh SbpMeshSpec SbpMeshProofs ViscWall ViscWallSpec ViscWallProofs ViscWallProofs2 Aero FlowJac FlowOptions FlowOptionsSpec FlowOptionsProofs.
Import ListNotations.
Local Open Scope R_scope.

Lemma accepted d entvar nattr o s : given o s -> runnable d entvar s -> attributes_ok nattr s ->
  exists c, flowConfig d entvar nattr o = Ok c /\ c_par c = paramsOf s /\ c_ess c = [] /\ c_dom c = domS d s /\ c_ifs c = ifsS s /\ c_steady c = s_steady s /\
    forall attr, (1 <= attr <= nattr)%nat -> map fst (filter (fun km => marked (snd km) attr) (c_bnd c)) = listed s attr.
Proof.
  intros G ((R1 & R2 & R3) & RE & RB & RV) A. rewrite (config_eq d entvar nattr o s G). unfold expected.
  replace (s_roll s =? s_pitch s)%Z with false by (symmetry; apply Z.eqb_neq; exact R3).
  replace ((s_roll s <? 0)%Z || (2 <? s_roll s)%Z) with false by (symmetry; apply orb_false_iff; split; apply Z.ltb_ge; lia).
  replace ((s_pitch s <? 0)%Z || (2 <? s_pitch s)%Z) with false by (symmetry; apply orb_false_iff; split; apply Z.ltb_ge; lia). cbn [orb].
  replace (negb (s_flux s =? "IR")%string && entvar) with false by (destruct entvar; [rewrite (RE eq_refl); reflexivity|symmetry; apply andb_false_r]).
  replace ((s_basis s =? "dsbp")%string && s_viscous s) with false.
  2:{ destruct (String.eqb_spec (s_basis s) "dsbp") as [X|X]; [rewrite (RB X); reflexivity|reflexivity]. }
  destruct (terms_ok nattr (s_bcs s) (names s)) as (t & ET & FT); [intros n k a b HI EA HB; exact (A n k a b HI EA HB)|].
  assert (EB : boundaryS d nattr s = Ok t).
  { unfold boundaryS. unfold names in ET. destruct (s_viscous s) eqn:EV; [exact ET|].
    replace (_ && _) with false; [exact ET|]. destruct (attributes "vortex" (s_bcs s)) eqn:EA; [|reflexivity]. rewrite RV by (try discriminate; reflexivity). reflexivity. }
  rewrite EB. cbn [bind]. eexists. split; [reflexivity|]. cbn. repeat split. exact FT.
Qed.
Lemma refused d entvar nattr o s : given o s -> attributes_ok nattr s -> ~ runnable d entvar s -> flowConfig d entvar nattr o = ThrowMISO.
Proof.
  intros G A NR. rewrite (config_eq d entvar nattr o s G). unfold expected.
  destruct (((s_roll s =? s_pitch s) || ((s_roll s <? 0) || (2 <? s_roll s)) || ((s_pitch s <? 0) || (2 <? s_pitch s)))%Z) eqn:E1; [reflexivity|].
  destruct (negb (s_flux s =? "IR")%string && entvar) eqn:E2; [reflexivity|]. destruct ((s_basis s =? "dsbp")%string && s_viscous s) eqn:E3; [reflexivity|].
  destruct (terms_ok nattr (s_bcs s) (names s)) as (t & ET & FT); [intros n k a b HI EA HB; exact (A n k a b HI EA HB)|].
  unfold boundaryS. unfold names in ET. destruct (s_viscous s) eqn:EV; [|destruct (_ && negb (d =? 2)%nat) eqn:E4; [reflexivity|]]; exfalso; apply NR;
  rewrite !orb_false_iff in E1; destruct E1 as ((E1 & E5 & E6) & E7 & E8); apply Z.eqb_neq in E1; apply Z.ltb_ge in E5, E6, E7, E8; (split; [unfold axes_ok; lia|]); (split; [intros ->; rewrite andb_true_r in E2; apply negb_false_iff in E2; apply String.eqb_eq; exact E2|]); split.
  - intros X. rewrite X in E3. discriminate.
  - rewrite EV. discriminate.
  - intros _. exact EV.
  - intros _ X. destruct (attributes "vortex" (s_bcs s)); [|congruence]. apply negb_false_iff in E4. apply Nat.eqb_eq. exact E4.
Qed.
Lemma out_of_range d entvar nattr o s : given o s -> runnable d entvar s -> ~ attributes_ok nattr s -> flowConfig d entvar nattr o = Undefined.
Proof.
  intros G ((R1 & R2 & R3) & RE & RB & RV) A. rewrite (config_eq d entvar nattr o s G). unfold expected.
  replace (s_roll s =? s_pitch s)%Z with false by (symmetry; apply Z.eqb_neq; exact R3).
  replace ((s_roll s <? 0)%Z || (2 <? s_roll s)%Z) with false by (symmetry; apply orb_false_iff; split; apply Z.ltb_ge; lia).
  replace ((s_pitch s <? 0)%Z || (2 <? s_pitch s)%Z) with false by (symmetry; apply orb_false_iff; split; apply Z.ltb_ge; lia). cbn [orb].
  replace (negb (s_flux s =? "IR")%string && entvar) with false by (destruct entvar; [rewrite (RE eq_refl); reflexivity|symmetry; apply andb_false_r]).
  replace ((s_basis s =? "dsbp")%string && s_viscous s) with false.
  2:{ destruct (String.eqb_spec (s_basis s) "dsbp") as [X|X]; [rewrite (RB X); reflexivity|reflexivity]. }
  assert (ET : termsS nattr (s_bcs s) (names s) = Undefined).
  { assert (D : attributes_ok nattr s \/ exists n k a b, In (n, k) (names s) /\ attributes n (s_bcs s) = Some a /\ In b a /\ ~ (1 <= b <= Z.of_nat nattr)%Z).
    { unfold attributes_ok. induction (names s) as [|(n, k) l IH]; [left; intros n k a b []|]. destruct IH as [IH|(n' & k' & a & b & H & H')]; [|right; exists n', k', a, b; split; [right; exact H|exact H']].
      destruct (attributes n (s_bcs s)) as [a|] eqn:EA.
      - destruct (Forall_Exists_dec (fun b => (1 <= b <= Z.of_nat nattr)%Z) (fun b => ltac:(destruct (Z_le_dec 1 b); [destruct (Z_le_dec b (Z.of_nat nattr)); [left; lia|right; lia]|right; lia])) a) as [F|F].
        + left. intros n' k' a' b [X|X] EA' HB; [injection X as <- <-; rewrite EA in EA'; injection EA' as <-; rewrite Forall_forall in F; exact (F b HB)|exact (IH n' k' a' b X EA' HB)].
        + apply Exists_exists in F. destruct F as (b & HB & NB). right. exists n, k, a, b. split; [left; reflexivity|]. auto.
      - left. intros n' k' a' b [X|X] EA' HB; [injection X as <- <-; congruence|exact (IH n' k' a' b X EA' HB)]. }
    destruct D as [D|(n & k & a & b & HI & EA & HB & NB)]; [contradiction|]. exact (terms_bad nattr (s_bcs s) (names s) n k a b HI EA HB NB). }
  assert (EB : boundaryS d nattr s = Undefined).
  { unfold boundaryS. unfold names in ET. destruct (s_viscous s) eqn:EV; [exact ET|].
    replace (_ && _) with false; [exact ET|]. destruct (attributes "vortex" (s_bcs s)) eqn:EA; [|reflexivity]. rewrite RV by (try discriminate; reflexivity). reflexivity. }
  rewrite EB. reflexivity.
Qed.

(** ** the residual *)
Lemma lsum_flat_map {A B} (f : B -> R) (g : A -> list B) l : lsum f (flat_map g l) = lsum (fun a => lsum f (g a)) l.
Proof. induction l as [|a l IH]; [reflexivity|]. cbn [flat_map]. rewrite lsum_app, IH. reflexivity. Qed.
Lemma lsum_filter {A} (f : A -> R) (p : A -> bool) l : lsum (fun a => if p a then f a else 0) l = lsum f (filter p l).
Proof. induction l as [|a l IH]; [reflexivity|]. cbn [lsum fold_right filter]. fold (lsum (fun a => if p a then f a else 0) l). rewrite IH. destruct (p a); cbn; [reflexivity|]. ring_simplify. reflexivity. Qed.
Section Residual.
Context (d N nattr : nat) (entvar : bool) (mms : bool -> element -> (nat -> vec) -> nat -> nat -> R) (s : settings) (c : config) (x : bdata) (t : R).
Context (E : list element) (F : list iface) (B : list (tagged vface)) (u : nat -> vec).
Context (HE : forall e, In e E -> forall i, (i < e_n e)%nat -> (e_glob e i < N)%nat).
Context (HF : forall f, In f F -> (forall i, (i < f_nL f)%nat -> (f_globL f i < N)%nat) /\ (forall i, (i < f_nR f)%nat -> (f_globR f i < N)%nat) /\
     (forall k, (k < f_nf f)%nat -> (f_idxL f k < f_nL f)%nat /\ (f_idxR f k < f_nR f)%nat /\ 0 <= f_wt f k)).
Context (HB : forall b, In b B -> face_in N nattr b).
Context (EP : c_par c = paramsOf s) (ED : c_dom c = domS d s) (EI : c_ifs c = ifsS s).
Context (EB : forall attr, (1 <= attr <= nattr)%nat -> map fst (filter (fun km => marked (snd km) attr) (c_bnd c)) = listed s attr).
Context (HIR : s_flux s = "IR"%string) (HM1 : s_imms s = false) (HM2 : s_vmms s = false).
Definition vp : viscosity := {| v_Re := s_Re s; v_Pr := s_Pr s; v_mu := s_mu s |}.
Definition cflux (b : tagged vface) (k : bkind) (j : nat) : vec := condition_flux d entvar vp (t_face b) u (condition d (paramsOf s) x t (t_face b) k) j.
Lemma free_ok : freeStream d (paramsOf s) 0%nat <> 0.
Proof. unfold freeStream, getFreeStreamQ. cbv zeta. destruct (d =? 1)%nat; cbn; lra. Qed.
Lemma fits b w : In b B -> wall_ok w -> wall_fits N (with_wall (t_face b) w).
Proof. intros Hb Hw. destruct (HB b Hb) as (P & Q & _). split; [exact P|]. split; [exact Q|exact Hw]. Qed.
Lemma cond_ok b k w : condition d (paramsOf s) x t (t_face b) k = inr w -> wall_ok w.
Proof. destruct k; cbn; intros H; try discriminate; injection H as <-; cbn; try exact I; exact free_ok. Qed.
Lemma face_cond_test W b k : In b B ->
  test (e_n (w_el (t_face b))) (d + 2) (fun i => W (e_glob (w_el (t_face b)) i)) (faceVectorOf d entvar (paramsOf s) (t_face b) (condition d (paramsOf s) x t (t_face b) k) (fun i => u (e_glob (w_el (t_face b)) i))) =
  rsum (w_nf (t_face b)) (fun j => w_wt (t_face b) j * dot (d + 2) (W (wnode (t_face b) j)) (cflux b k j)).
Proof.
  intros Hb. unfold cflux. destruct (condition d (paramsOf s) x t (t_face b) k) as [bcd|w] eqn:EC; cbn [faceVectorOf condition_flux].
  - destruct (HB b Hb) as (P & Q & _). rewrite (boundary_test (e_n (w_el (t_face b))) (w_nf (t_face b))) by exact Q. rewrite Rmult_1_l. reflexivity.
  - apply (face_test' d N vp W u (with_wall (t_face b) w) (fits b w Hb (cond_ok b k w EC))).
Qed.
Definition doms : list (element -> (nat -> vec) -> mat) := domainIntegrators d entvar (s_lps s) (if s_viscous s then Some vp else None).
Definition ifo : option R := if String.eqb (s_basis s) "dsbp" then Some (s_iface s) else None.
Lemma config_test W : test N (d + 2) W (configResidual d entvar mms c x t E F B u) =
  lsum (fun e => lsum (fun integ => test (e_n e) (d + 2) (fun i => W (e_glob e i)) (integ e (fun i => u (e_glob e i)))) doms) E +
  (if dsbp ifo then lsum (fun f => rsum (f_nf f) (fun k => dot (d + 2) (fun m => W (lnode f k) m - W (rnode f k) m) (ifaceFlux d entvar (ic ifo) (fun c => f_nrm f k c * f_wt f k) (u (lnode f k)) (u (rnode f k))))) F else 0) +
  lsum (fun b => lsum (fun k => rsum (w_nf (t_face b)) (fun j => w_wt (t_face b) j * dot (d + 2) (W (wnode (t_face b) j)) (cflux b k j))) (listed s (t_attr b))) B.
Proof.
  unfold configResidual. cbv zeta. rewrite EP.
  rewrite (fold_read (test N (d + 2) W) _ (fun b => lsum (fun k => rsum (w_nf (t_face b)) (fun j => w_wt (t_face b) j * dot (d + 2) (W (wnode (t_face b) j)) (cflux b k j))) (listed s (t_attr b)))).
  2:{ intros r b Hb. rewrite (fold_read (test N (d + 2) W) _ (fun km => if marked (snd km) (t_attr b) then rsum (w_nf (t_face b)) (fun j => w_wt (t_face b) j * dot (d + 2) (W (wnode (t_face b) j)) (cflux b (fst km) j)) else 0)).
      - f_equal. rewrite lsum_filter. rewrite <- (EB (t_attr b)) by (apply HB; exact Hb). rewrite lsum_map. reflexivity.
      - intros r' km _. destruct (marked (snd km) (t_attr b)); [|ring]. rewrite test_scatter by (apply HB; exact Hb). f_equal. apply face_cond_test. exact Hb. }
  f_equal. rewrite EI.
  match goal with |- test _ _ _ (fold_left ?st F ?r0) = _ => set (R1 := r0); set (step := st) end.
  assert (E1 : test N (d + 2) W R1 = lsum (fun e => lsum (fun integ => test (e_n e) (d + 2) (fun i => W (e_glob e i)) (integ e (fun i => u (e_glob e i)))) doms) E).
  { unfold R1. rewrite (fold_read (test N (d + 2) W) _ (fun e => lsum (fun integ => test (e_n e) (d + 2) (fun i => W (e_glob e i)) (integ e (fun i => u (e_glob e i)))) doms)).
    - rewrite test_zero. ring.
    - intros r e He. rewrite (fold_read (test N (d + 2) W) _ (fun dt => test (e_n e) (d + 2) (fun i => W (e_glob e i)) (volumeTerm d entvar mms dt e (fun i => u (e_glob e i))))).
      + f_equal. rewrite ED. unfold domS, doms, domainIntegrators, vp. rewrite HIR, HM1, HM2. cbn [String.eqb Ascii.eqb Bool.eqb]. destruct (Rlt_dec 0 (s_lps s)), (s_viscous s); reflexivity.
      + intros r' dt _. apply test_scatter. apply HE. exact He. }
  rewrite <- E1. unfold step, ifsS, ifo, dsbp, ic. destruct (s_basis s =? "dsbp")%string.
  - apply (fold_read (test N (d + 2) W)). intros r f Hf. cbn [fold_left]. cbv zeta. destruct (HF f Hf) as (P & Q & C).
    rewrite (test_scatter N (d + 2) W (f_nR f)) by exact Q. rewrite (test_scatter N (d + 2) W (f_nL f)) by exact P.
    rewrite Rplus_assoc. f_equal.
    rewrite (face_test (f_nL f) (f_nR f) (f_nf f) (d + 2) 1 (f_idxL f) (f_idxR f) (f_wt f) (f_nrm f)) by (intros; apply C; assumption).
    rewrite Rmult_1_l. reflexivity.
  - rewrite Rplus_0_r. cbn [fold_left]. clear. f_equal. induction F; [reflexivity|]. exact IHl.
Qed.
Lemma mesh_fits : well_formed N (meshOf d entvar x t s E F B).
Proof.
  split; [exact HE|]. split; [exact HF|]. intros b Hb. cbn [bfs meshOf] in Hb. apply in_flat_map in Hb. destruct Hb as (tb & Ht & Hb). apply in_flat_map in Hb. destruct Hb as (cd & _ & Hb).
  destruct cd as [cd|]; [|destruct Hb]. destruct Hb as [<-|[]]. destruct (HB tb Ht) as (P & Q & _). split; [exact P|exact Q].
Qed.
Lemma walls_fit f : In f (wallsOf d x t s B) -> wall_fits N f.
Proof.
  intros Hb. apply in_flat_map in Hb. destruct Hb as (tb & Ht & Hb). apply in_flat_map in Hb. destruct Hb as (cd & Hc & Hb).
  destruct cd as [|w]; [destruct Hb|]. destruct Hb as [<-|[]]. unfold active in Hc. apply in_map_iff in Hc. destruct Hc as (k & Ek & _). apply fits; [exact Ht|]. exact (cond_ok tb k w Ek).
Qed.
Lemma inviscid_no_walls : s_viscous s = false -> wallsOf d x t s B = [].
Proof.
  intros HV. unfold wallsOf. clear HB. induction B as [|b l IH]; [reflexivity|]. cbn [flat_map]. rewrite IH, app_nil_r. unfold active, listed, names. rewrite HV.
  cbn [inviscid_names filter map flat_map fst snd app].
  destruct (match attributes "vortex" (s_bcs s) with Some a => _ | None => _ end), (match attributes "slip-wall" (s_bcs s) with Some a => _ | None => _ end), (match attributes "far-field" (s_bcs s) with Some a => _ | None => _ end),
   (match attributes "pump" (s_bcs s) with Some a => _ | None => _ end), (match attributes "control" (s_bcs s) with Some a => _ | None => _ end); reflexivity.
Qed.
(** boundary faces with inviscid conditions and walls together are the active conditions *)
Lemma split_sum W : bsum (meshOf d entvar x t s E F B) (fun b k => dot (d + 2) (W (bnode b k)) (b_flux b k (b_nrm b k) (u (bnode b k)))) +
  wsum (wallsOf d x t s B) (fun f k => dot (d + 2) (W (wnode f k)) (wall_flux d vp f u k)) =
  lsum (fun b => lsum (fun k => rsum (w_nf (t_face b)) (fun j => w_wt (t_face b) j * dot (d + 2) (W (wnode (t_face b) j)) (cflux b k j))) (listed s (t_attr b))) B.
Proof.
  unfold bsum, wsum, wallsOf. cbn [bfs meshOf]. rewrite !lsum_flat_map, <- lsum_plus. apply lsum_ext. intros b Hb. rewrite !lsum_flat_map, <- lsum_plus. unfold active. rewrite lsum_map. apply lsum_ext. intros k _.
  unfold cflux. destruct (condition d (paramsOf s) x t (t_face b) k) as [cd|w]; cbn [lsum fold_right condition_flux]; [rewrite !Rplus_0_r|rewrite Rplus_0_l, Rplus_0_r]; reflexivity.
Qed.
Lemma residual_inviscid : s_viscous s = false -> exists r, flowResidual d entvar (s_lps s) None ifo (meshOf d entvar x t s E F B) u = Some r /\
  forall i m, (i < N)%nat -> (m < d + 2)%nat -> configResidual d entvar mms c x t E F B u i m = r i m.
Proof.
  intros HV. assert (X : exists r, flowResidual d entvar (s_lps s) None ifo (meshOf d entvar x t s E F B) u = Some r).
  { unfold flowResidual. destruct ifo; eexists; reflexivity. } destruct X as (r & X). exists r. split; [exact X|]. intros i m Hi Hm.
  rewrite <- (test_point N (d + 2) r i m Hi Hm), <- (test_point N (d + 2) (configResidual d entvar mms c x t E F B u) i m Hi Hm). set (W := fun a b => delta a i * delta b m).
  rewrite config_test, (flow_test d N entvar (s_lps s) None ifo _ mesh_fits u r W X), <- split_sum, (inviscid_no_walls HV). unfold doms. rewrite HV. unfold wsum. cbn [lsum fold_right]. rewrite Rplus_0_r. reflexivity.
Qed.
Lemma residual_viscous : s_viscous s = true -> entvar = false -> ifo = None -> exists r, viscousFlowResidual d (s_lps s) vp (meshOf d false x t s E F B) (wallsOf d x t s B) u = Some r /\
  forall i m, (i < N)%nat -> (m < d + 2)%nat -> configResidual d false mms c x t E F B u i m = r i m.
Proof.
  intros HV HEV HI. assert (X : exists r, viscousFlowResidual d (s_lps s) vp (meshOf d false x t s E F B) (wallsOf d x t s B) u = Some r).
  { unfold viscousFlowResidual, flowResidual. eexists; reflexivity. } destruct X as (r & X). exists r. split; [exact X|]. intros i m Hi Hm.
  rewrite <- (test_point N (d + 2) r i m Hi Hm), <- (test_point N (d + 2) (configResidual d false mms c x t E F B u) i m Hi Hm). set (W := fun a b => delta a i * delta b m).
  pose proof (config_test W) as CT. pose proof (split_sum W) as SS. pose proof mesh_fits as MF. rewrite HEV in CT, SS, MF. rewrite CT, <- SS. unfold doms. rewrite HEV, HV, HI. cbn [dsbp].
  destruct (viscous_residual_test d N (s_lps s) vp _ _ walls_fit W u r X) as (r0 & X0 & ->).
  rewrite (flow_test d N false (s_lps s) (Some vp) None _ MF u r0 W X0). unfold wsum, fsum, dsbp.
  rewrite (lsum_ext (fun f => test (e_n (w_el f)) (d + 2) _ _) (fun f => rsum (w_nf f) (fun k => w_wt f k * dot (d + 2) (W (wnode f k)) (wall_flux d vp f u k)))) by (intros f Hf; apply (face_test' d N vp W u f (walls_fit f Hf))).
  cbn [els meshOf]. ring.
Qed.
End Residual.
