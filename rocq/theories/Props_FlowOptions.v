(** C139, C140: from the options to the flow residual. *)
From Coq Require Import Reals List String Bool ZArith Lia Lra.
From Verif Require Import Num Vec Euler EulerSpec EulerProofs IsmailRoeProofs BoundaryProofs Options OptionsProofs BdrArray BdrArrayProofs Sbp SbpSpec SbpProofs SbpProofs3 SbpMesh SbpMeshSpec SbpMeshProofs SbpMeshProofs2
  ViscWall ViscWallSpec ViscWallProofs2 Aero FlowJac FlowOptions FlowOptionsSpec FlowOptionsProofs FlowOptionsProofs2.
Import ListNotations.
Local Open Scope R_scope.

(** ** C139 *)
(** settings that can be run are accepted, and the residual has exactly the terms they ask for *)
Theorem C139_accepted :
  forall d entvar nattr o s, given o s -> runnable d entvar s -> attributes_ok nattr s ->
  exists c, flowConfig d entvar nattr o = Ok c /\
    (p_mach (c_par c) = s_mach s /\ p_aoa (c_par c) = s_degrees s * PI / 180 /\ p_roll (c_par c) = s_roll s /\ p_pitch (c_par c) = s_pitch s /\
     p_visc (c_par c) = s_viscous s /\ p_mu (c_par c) = s_mu s /\ p_Re (c_par c) = s_Re s /\ p_Pr (c_par c) = s_Pr s /\ p_entropy (c_par c) = s_entropy s) /\
    c_steady c = s_steady s /\ c_ess c = [] /\
    (In DIsmailRoe (c_dom c) <-> s_flux s = "IR"%string) /\ (In DEuler (c_dom c) <-> s_flux s <> "IR"%string) /\ (In DInviscidMMS (c_dom c) <-> s_imms s = true) /\
    (forall k, In (DLps k) (c_dom c) <-> 0 < s_lps s /\ k = s_lps s) /\
    (forall re pr mu, In (DViscous re pr mu) (c_dom c) <-> s_viscous s = true /\ re = s_Re s /\ pr = s_Pr s /\ mu = s_mu s) /\
    (forall re pr n, In (DViscousMMS re pr n) (c_dom c) <-> s_viscous s = true /\ s_vmms s = true /\ re = s_Re s /\ pr = s_Pr s /\ n = (if Nat.eqb d 2 then 2 else 3)%nat) /\ NoDup (c_dom c) /\
    c_ifs c = (if String.eqb (s_basis s) "dsbp" then [s_iface s] else []).
Proof.
  intros d entvar nattr o s G RN A. destruct (accepted d entvar nattr o s G RN A) as (c & EC & EP & EE & ED & EI & ES & _). exists c. split; [exact EC|].
  rewrite EP, ES, EE, EI, ED. split; [repeat split|]. split; [reflexivity|]. split; [reflexivity|]. unfold domS.
  destruct (String.eqb_spec (s_flux s) "IR") as [HF|HF], (s_imms s), (Rlt_dec 0 (s_lps s)) as [HL|HL], (s_viscous s), (s_vmms s); cbn [app In];
  (split; [intuition (congruence || discriminate)|]); (split; [intuition (congruence || discriminate)|]); (split; [intuition (congruence || discriminate)|]);
  (split; [intros; split; [intros H; decompose [or] H; try contradiction; try congruence; match goal with K : DLps _ = DLps _ |- _ => injection K as <-; auto end|intros (K & ->); first [contradiction|tauto]]|]);
  (split; [intros; split; [intros H; decompose [or] H; try contradiction; try congruence; match goal with K : DViscous _ _ _ = DViscous _ _ _ |- _ => injection K as <- <- <-; auto end|intros (K & -> & -> & ->); first [discriminate|tauto]]|]);
  (split; [intros; split; [intros H; decompose [or] H; try contradiction; try congruence; match goal with K : DViscousMMS _ _ _ = DViscousMMS _ _ _ |- _ => injection K as <- <- <-; auto end|intros (K & K' & -> & -> & ->); first [discriminate|tauto]]|]);
  (split; [|reflexivity]); repeat constructor; cbn [In]; intuition (congruence || discriminate).
Qed.
Print Assumptions C139_accepted.
(** on a boundary attribute act exactly the conditions that list it *)
Theorem C139_boundaries :
  forall d entvar nattr o s c, given o s -> runnable d entvar s -> attributes_ok nattr s -> flowConfig d entvar nattr o = Ok c ->
  forall attr k, (1 <= attr <= nattr)%nat ->
  (In k (map fst (filter (fun km => marked (snd km) attr) (c_bnd c))) <->
   exists name a, In (name, k) (if s_viscous s then viscous_names else inviscid_names) /\ attributes name (s_bcs s) = Some a /\ In (Z.of_nat attr) a).
Proof.
  intros d entvar nattr o s c G RN A EC attr k HA. destruct (accepted d entvar nattr o s G RN A) as (c' & EC' & _ & _ & _ & _ & _ & EB). rewrite EC in EC'. injection EC' as <-. rewrite EB by exact HA.
  unfold listed. rewrite in_map_iff. split.
  - intros ((n, k') & <- & H). apply filter_In in H. destruct H as (HI & H). cbn [fst] in H. destruct (attributes n (s_bcs s)) as [a|] eqn:EA; [|discriminate]. destruct (in_dec Z.eq_dec (Z.of_nat attr) a) as [X|]; [|discriminate]. exists n, a. auto.
  - intros (n & a & HI & EA & H). exists (n, k). split; [reflexivity|]. apply filter_In. split; [exact HI|]. cbn [fst]. rewrite EA. destruct (in_dec Z.eq_dec (Z.of_nat attr) a); [reflexivity|contradiction].
Qed.
Print Assumptions C139_boundaries.
(** settings that cannot be run are refused with the library's exception; attributes the mesh does not have are not *)
Theorem C139_refused :
  forall d entvar nattr o s, given o s -> (attributes_ok nattr s -> ~ runnable d entvar s -> flowConfig d entvar nattr o = ThrowMISO) /\
  (runnable d entvar s -> ~ attributes_ok nattr s -> flowConfig d entvar nattr o = Undefined).
Proof. intros d entvar nattr o s G. split; [apply refused; exact G|apply out_of_range; exact G]. Qed.
Print Assumptions C139_refused.
(** without options: Ismail-Roe fluxes with unit local projection, inviscid, unsteady, no boundary condition *)
Theorem C139_defaults :
  forall d nattr user, user = JObj [] -> exists c, flowConfig d false nattr (construct dflt user) = Ok c /\ c_dom c = [DIsmailRoe; DLps 1] /\ c_ifs c = [] /\ c_bnd c = [] /\ c_steady c = false /\
  c_par c = {| p_visc := false; p_mu := -1; p_mach := 1/2; p_aoa := 0; p_Re := 0; p_Pr := 72/100; p_roll := 0; p_pitch := 1; p_entropy := false |}.
Proof.
  intros d nattr user ->. cbn. destruct (Rlt_dec 0 1); [|lra]. cbn. eexists. split; [reflexivity|]. cbn. repeat split. f_equal. lra.
Qed.
Print Assumptions C139_defaults.

(** ** what is not checked *)
Definition with_options (flow space bcs : list (string * opts)) : opts := construct dflt (JObj [("flow-param"%string, JObj flow); ("space-dis"%string, JObj space); ("bcs"%string, JObj bcs)]).
(** every flux function but "IR" means the plain Euler flux, also a misspelt one *)
Theorem C139_flux_names_refuted :
  ~ (forall d nattr o f, holds o ["space-dis"; "flux-fun"]%string (LStr f) -> f <> "IR"%string -> f <> "Euler"%string -> forall c, flowConfig d false nattr o <> Ok c).
Proof.
  intros H. specialize (H 2%nat 1%nat (with_options [] [("flux-fun", JLeaf (LStr "ir")); ("lps-coeff", JLeaf (LInt 0))]%string []) "ir"%string eq_refl ltac:(discriminate) ltac:(discriminate)).
  assert (X : exists c, flowConfig 2 false 1 (with_options [] [("flux-fun", JLeaf (LStr "ir")); ("lps-coeff", JLeaf (LInt 0))]%string []) = Ok c).
  { cbn. destruct (Rlt_dec 0 0); [lra|]. cbn. eexists. reflexivity. }
  destruct X as (c & X). exact (H c X).
Qed.
Print Assumptions C139_flux_names_refuted.
(** conditions the chosen equations do not know are ignored: an adiabatic wall of an inviscid flow, a misspelt condition *)
Theorem C139_every_condition_applied_refuted :
  ~ (forall d nattr o c name (bm : list (string * opts)) a, flowConfig d false nattr o = Ok c -> at_path o ["bcs"%string] = Some (JObj bm) -> find name bm = Some (JLeaf (LInts (a :: nil))) -> (1 <= a <= Z.of_nat nattr)%Z ->
     exists km, In km (c_bnd c) /\ marked (snd km) (Z.to_nat a) = true).
Proof.
  intros H. set (o := with_options [] [("lps-coeff", JLeaf (LInt 0))]%string [("no-slip-adiabatic", JLeaf (LInts [1%Z])); ("farfield", JLeaf (LInts [2%Z]))]%string).
  assert (X : exists c, flowConfig 2 false 2 o = Ok c /\ c_bnd c = []).
  { cbn. destruct (Rlt_dec 0 0); [lra|]. cbn. eexists. split; reflexivity. }
  destruct X as (c & X & E). destruct (H 2%nat 2%nat o c "no-slip-adiabatic"%string _ 1%Z X eq_refl eq_refl ltac:(lia)) as (km & HI & _). rewrite E in HI. destruct HI.
Qed.
Print Assumptions C139_every_condition_applied_refuted.
(** options without flow-param are announced to be refused with an exception: the constructor reads them first *)
Theorem C139_missing_section_refuted :
  ~ (forall d nattr o, at_path o ["flow-param"%string] = None -> flowConfig d false nattr o = ThrowMISO) /\
  (forall d nattr user, user = JObj [("flow-param"%string, JNull)] -> at_path (construct dflt user) ["flow-param"%string] = None /\ flowConfig d false nattr (construct dflt user) = Undefined).
Proof.
  assert (X : forall d nattr user, user = JObj [("flow-param"%string, JNull)] -> at_path (construct dflt user) ["flow-param"%string] = None /\ flowConfig d false nattr (construct dflt user) = Undefined) by (intros d nattr user ->; split; reflexivity).
  split; [|exact X]. intros H. destruct (X 2%nat 1%nat _ eq_refl) as (A & B). rewrite (H 2%nat 1%nat _ A) in B. discriminate.
Qed.
Print Assumptions C139_missing_section_refuted.
(** a coefficient of the wrong kind: true is not above 0.0, so no stabilisation and no error; a text is, and throws *)
Theorem C139_lps_kind_refuted :
  ~ (forall d nattr o v, at_path o ["space-dis"; "lps-coeff"]%string = Some v -> asReal v = ThrowType -> flowConfig d false nattr o = ThrowType) /\
  (forall d nattr o, o = with_options [] [("lps-coeff", JLeaf (LStr "1.0"))]%string [] -> flowConfig d false nattr o = ThrowType).
Proof.
  split; [|intros d nattr o ->; reflexivity]. intros H. pose proof (H 2%nat 1%nat (with_options [] [("lps-coeff", JLeaf (LBool true))]%string []) _ eq_refl eq_refl) as X. discriminate X.
Qed.
Print Assumptions C139_lps_kind_refuted.
(** the axes are checked against three dimensions, whatever the dimension of the mesh; in two dimensions a roll axis 2 is
    accepted and the free stream has no velocity along it: its momentum is not the Mach number *)
Theorem C139_axes_refuted :
  ~ (forall d nattr o s c, (2 <= d)%nat -> given o s -> flowConfig d false nattr o = Ok c -> s_degrees s = 0 -> dot d (mom (freeStream d (c_par c))) (mom (freeStream d (c_par c))) = s_mach s * s_mach s).
Proof.
  intros H. set (o := with_options [("roll-axis", JLeaf (LInt 2)); ("pitch-axis", JLeaf (LInt 0))]%string [("lps-coeff", JLeaf (LInt 0))]%string []).
  set (s := {| s_viscous := false; s_mu := -1; s_mach := 1/2; s_degrees := 0; s_Re := 0; s_Pr := 72/100; s_roll := 2; s_pitch := 0; s_entropy := false; s_flux := "IR"; s_lps := 0; s_basis := "csbp"; s_iface := 1;
    s_imms := false; s_vmms := false; s_steady := false; s_bcs := [] |}%string).
  assert (G : given o s).
  { repeat split; try reflexivity; try (left; reflexivity). right. exists 0%Z. split; reflexivity. }
  assert (X : exists c, flowConfig 2 false 1 o = Ok c /\ c_par c = paramsOf s).
  { cbn. destruct (Rlt_dec 0 0); [lra|]. cbn. eexists. split; reflexivity. }
  destruct X as (c & X & E). specialize (H 2%nat 1%nat o s c ltac:(lia) G X eq_refl). rewrite E in H. unfold freeStream, getFreeStreamQ, dot, mom, s in H. cbn in H. change (Pos.to_nat 2) with 2%nat in H. cbn iota in H.
  replace (0 * PI / 180) with 0 in H by lra. rewrite sin_0 in H. lra.
Qed.
Print Assumptions C139_axes_refuted.

(** a wing-like case: slip wall on 1, far field on 2 and 3; conservative variables, discontinuous basis *)
Definition wing_options : opts := with_options [("aoa", JLeaf (LInt 3))]%string [("basis-type", JLeaf (LStr "dsbp")); ("iface-coeff", JLeaf (LReal (1/2)))]%string [("slip-wall", JLeaf (LInts [1%Z])); ("far-field", JLeaf (LInts [3%Z; 2%Z]))]%string.
Definition wing : settings := {| s_viscous := false; s_mu := -1; s_mach := 1/2; s_degrees := 3; s_Re := 0; s_Pr := 72/100; s_roll := 0; s_pitch := 1; s_entropy := false; s_flux := "IR"; s_lps := 1; s_basis := "dsbp"; s_iface := 1/2;
    s_imms := false; s_vmms := false; s_steady := false; s_bcs := [("slip-wall", [1%Z]); ("far-field", [3%Z; 2%Z])] |}%string.
Lemma bcs_find (l : list (string * list Z)) n : find n (map (fun na => (fst na, JLeaf (LInts (snd na)))) l) = match attributes n l with Some a => Some (JLeaf (LInts a)) | None => None end.
Proof. induction l as [|(n', a) l IH]; [reflexivity|]. cbn [map find attributes fst snd]. destruct (String.eqb n n'); [reflexivity|exact IH]. Qed.
Example C139_case : given wing_options wing /\ runnable 2 false wing /\ attributes_ok 3 wing /\ listed wing 1 = [KSlip] /\ listed wing 2 = [KFarField] /\ listed wing 3 = [KFarField] /\
  ~ runnable 2 true {| s_viscous := false; s_mu := -1; s_mach := 1/2; s_degrees := 3; s_Re := 0; s_Pr := 72/100; s_roll := 0; s_pitch := 1; s_entropy := false; s_flux := "Euler"; s_lps := 1; s_basis := "csbp"; s_iface := 1/2;
    s_imms := false; s_vmms := false; s_steady := false; s_bcs := [] |}%string.
Proof.
  split; [|split; [|split; [|repeat split; try reflexivity]]].
  - assert (AB : at_path wing_options ["bcs"%string] = Some (JObj (map (fun na : string * list Z => (fst na, JLeaf (LInts (snd na)))) (s_bcs wing)))) by reflexivity.
    unfold given, holds_real. rewrite AB. clear AB. repeat (split; [first [reflexivity|left; reflexivity|right; exists 3%Z; split; reflexivity]|]). intros n. apply bcs_find.
  - repeat split; cbn; try lia; try discriminate.
  - intros n k a b HI EA HB. cbn in HI. unfold wing in EA. cbn [s_bcs attributes] in EA. destruct (n =? "slip-wall")%string; [injection EA as <-; cbn in HB; lia|]. destruct (n =? "far-field")%string; [injection EA as <-; cbn in HB; lia|discriminate].
  - intros (_ & X & _). specialize (X eq_refl). discriminate X.
Qed.

(** ** C140 *)
(** the residual of accepted settings (Ismail-Roe, no manufactured source) is the inviscid flow residual of C51, or the
    viscous one of C130, on the mesh whose boundary faces carry exactly the conditions that list their attribute *)
Theorem C140_residual :
  forall d N nattr entvar mms o s c x t E F B u, given o s -> runnable d entvar s -> attributes_ok nattr s -> flowConfig d entvar nattr o = Ok c ->
  s_flux s = "IR"%string -> s_imms s = false -> s_vmms s = false -> (s_viscous s = true -> entvar = false) ->
  well_formed N {| els := E; ifs := F; bfs := [] |} -> (forall b, In b B -> face_in N nattr b) ->
  exists r, (if s_viscous s then viscousFlowResidual d (s_lps s) {| v_Re := s_Re s; v_Pr := s_Pr s; v_mu := s_mu s |} (meshOf d entvar x t s E F B) (wallsOf d x t s B) u
             else flowResidual d entvar (s_lps s) None (if String.eqb (s_basis s) "dsbp" then Some (s_iface s) else None) (meshOf d entvar x t s E F B) u) = Some r /\
  forall i m, (i < N)%nat -> (m < d + 2)%nat -> configResidual d entvar mms c x t E F B u i m = r i m.
Proof.
  intros d N nattr entvar mms o s c x t E F B u G RN A EC HIR HM1 HM2 HEV (WE & WF & _) HB.
  destruct (accepted d entvar nattr o s G RN A) as (c' & EC' & EP & _ & ED & EI & _ & EB). rewrite EC in EC'. injection EC' as <-.
  destruct (s_viscous s) eqn:HV.
  - rewrite (HEV eq_refl) in *. apply (residual_viscous d N nattr false mms s c x t E F B u WE WF HB EP ED EI EB HIR HM1 HM2 HV eq_refl).
    unfold ifo. destruct (String.eqb_spec (s_basis s) "dsbp") as [X|]; [|reflexivity]. destruct RN as (_ & _ & RB & _). rewrite (RB X) in HV. discriminate.
  - apply (residual_inviscid d N nattr entvar mms s c x t E F B u WE WF HB EP ED EI EB HIR HM1 HM2 HV).
Qed.
Print Assumptions C140_residual.
(** end to end: what the residual adds up to is the flux of the listed conditions, each over the faces that carry its
    attributes; a face whose attribute is not listed contributes nothing, one listed twice contributes twice *)
Theorem C140_conservation :
  forall d N nattr entvar mms o s c x t E F B u m, given o s -> runnable d entvar s -> attributes_ok nattr s -> flowConfig d entvar nattr o = Ok c ->
  s_flux s = "IR"%string -> s_imms s = false -> s_vmms s = false -> (s_viscous s = true -> entvar = false) ->
  well_formed N {| els := E; ifs := F; bfs := [] |} -> (forall b, In b B -> face_in N nattr b) ->
  gcl d {| els := E; ifs := F; bfs := [] |} -> positive_mesh {| els := E; ifs := F; bfs := [] |} -> proj_kills_constants {| els := E; ifs := F; bfs := [] |} -> (m < d + 2)%nat ->
  rsum N (fun i => configResidual d entvar mms c x t E F B u i m) =
  lsum (fun b => lsum (fun k => rsum (w_nf (t_face b)) (fun j => w_wt (t_face b) j *
      condition_flux d entvar {| v_Re := s_Re s; v_Pr := s_Pr s; v_mu := s_mu s |} (t_face b) u (condition d (c_par c) x t (t_face b) k) j m)) (listed s (t_attr b))) B.
Proof.
  intros d N nattr entvar mms o s c x t E F B u m G RN A EC HIR HM1 HM2 HEV WF HB HG HP HK Hm.
  destruct (accepted d entvar nattr o s G RN A) as (c' & EC' & EP & _ & ED & EI & _ & EB). rewrite EC in EC'. injection EC' as <-. rewrite EP.
  destruct WF as (WE & WI & WB).
  assert (MF : well_formed N (meshOf d entvar x t s E F B)) by (apply (mesh_fits d N nattr entvar s x t E F B WE WI HB)).
  destruct (C140_residual d N nattr entvar mms o s c x t E F B u G RN A EC HIR HM1 HM2 HEV (conj WE (conj WI WB)) HB) as (r & ER & EQ).
  rewrite (rsum_ext N _ (fun i => r i m)) by (intros; apply EQ; assumption).
  pose proof (split_sum d entvar s x t E F B u (fun _ j => delta j m)) as SS.
  assert (DD : forall f : vec, dot (d + 2) (fun j => delta j m) f = f m) by (intros f; unfold dot; apply (rsum_delta_r (d + 2) m f Hm)).
  unfold cflux, bsum, wsum in SS. cbn beta in SS.
  transitivity (bsum (meshOf d entvar x t s E F B) (fun b k => b_flux b k (b_nrm b k) (u (bnode b k)) m) + wsum (wallsOf d x t s B) (fun f k => wall_flux d {| v_Re := s_Re s; v_Pr := s_Pr s; v_mu := s_mu s |} f u k m)).
  - destruct (s_viscous s) eqn:HV.
    + rewrite (HEV eq_refl) in *. apply (viscous_conservation d N (s_lps s) _ _ _ MF) with (1 := fun f Hf => walls_fit d N nattr s x t B HB f Hf); assumption.
    + rewrite (inviscid_no_walls d s x t B HV). unfold wsum. cbn [lsum fold_right]. rewrite Rplus_0_r. apply (conservation d N entvar (s_lps s) None _ _ MF u r m Hm HG HP HK ER).
  - etransitivity; [|etransitivity; [exact SS|]].
    + unfold bsum, wsum. apply f_equal2; apply lsum_ext; intros b _; apply rsum_ext; intros k _; rewrite DD; reflexivity.
    + apply lsum_ext. intros b _. apply lsum_ext. intros k _. apply rsum_ext. intros j _. rewrite DD. reflexivity.
Qed.
Print Assumptions C140_conservation.
(** uniform free stream in a domain surrounded by far field: the residual vanishes, inviscid or viscous, whatever the Mach
    number, angle of attack and axes (within the dimension) *)
Definition axes_within (d : nat) (s : settings) : Prop := d = 1%nat \/ ((2 <= d)%nat /\ (s_roll s < Z.of_nat d)%Z /\ (s_pitch s < Z.of_nat d)%Z).
Theorem C140_free_stream :
  forall d N nattr mms o s c x t E F B, given o s -> runnable d false s -> attributes_ok nattr s -> flowConfig d false nattr o = Ok c ->
  s_flux s = "IR"%string -> s_imms s = false -> s_vmms s = false -> axes_within d s ->
  let M := {| els := E; ifs := F; bfs := map (fun b => outline (t_face b)) B |} in
  well_formed N M -> (forall b, In b B -> (1 <= t_attr b <= nattr)%nat /\ listed s (t_attr b) = [KFarField]) ->
  gcl d M -> divergence_theorem d (String.eqb (s_basis s) "dsbp") M -> positive_mesh M -> proj_kills_constants M ->
  forall i m, (i < N)%nat -> (m < d + 2)%nat -> configResidual d false mms c x t E F B (fun _ => freeStream d (c_par c)) i m = 0.
Proof.
  intros d N nattr mms o s c x t E F B G RN A EC HIR HM1 HM2 HX M (WE & WI & WB) HL HG HD HP HK i m Hi Hm.
  destruct (accepted d false nattr o s G RN A) as (c' & EC' & EP & _ & _). rewrite EC in EC'. injection EC' as <-.
  assert (HB : forall b, In b B -> face_in N nattr b).
  { intros b Hb. destruct (WB (outline (t_face b))) as (P & Q); [apply in_map_iff; exists b; auto|]. split; [exact P|]. split; [exact Q|apply HL; exact Hb]. }
  destruct (C140_residual d N nattr false mms o s c x t E F B (fun _ => freeStream d (c_par c)) G RN A EC HIR HM1 HM2 (fun _ => eq_refl) (conj WE (conj WI (fun b (H : In b []) => match H with end))) HB) as (r & ER & EQ).
  rewrite EQ by assumption. rewrite EP in *.
  assert (ST : exists v, is_state d (freeStream d (paramsOf s)) 1 v (5/7)).
  { unfold freeStream. destruct HX as [->|(D2 & X1 & X2)]; [exists (fun _ => s_mach s); apply fs_1d|]. destruct RN as ((Y1 & Y2 & Y3) & _). eexists. cbn [paramsOf p_mach p_aoa p_roll p_pitch]. apply fs_nd; lia. }
  destruct ST as (v & ST).
  assert (BM : bfs (meshOf d false x t s E F B) = map (fun b => with_flux (t_face b) (bcFlux d false (FarField (freeStream d (paramsOf s))))) B).
  { cbn [bfs meshOf]. clear - HL. induction B as [|b l IH]; [reflexivity|]. cbn [flat_map map]. rewrite IH by (intros; apply HL; right; assumption). unfold active. destruct (HL b (or_introl eq_refl)) as (_ & ->). reflexivity. }
  assert (WM : wallsOf d x t s B = []).
  { clear - HL. induction B as [|b l IH]; [reflexivity|]. unfold wallsOf in *. cbn [flat_map]. rewrite IH by (intros; apply HL; right; assumption). unfold active. destruct (HL b (or_introl eq_refl)) as (_ & ->). reflexivity. }
  assert (MF : well_formed N (meshOf d false x t s E F B)) by (apply (mesh_fits d N nattr false s x t E F B WE WI HB)).
  assert (MD : divergence_theorem d (String.eqb (s_basis s) "dsbp") (meshOf d false x t s E F B)).
  { intros di psi Hdi. etransitivity; [exact (HD di psi Hdi)|]. apply f_equal2; [|reflexivity]. unfold bsum. rewrite BM. cbn [bfs M]. rewrite !lsum_map. reflexivity. }
  assert (MC : forall b k, In b (bfs (meshOf d false x t s E F B)) -> (k < b_nf b)%nat -> euler_flux d (b_nrm b k) 1 v (5/7) (b_flux b k (b_nrm b k) (freeStream d (paramsOf s)))).
  { intros b k Hb Hk. rewrite BM in Hb. apply in_map_iff in Hb. destruct Hb as (tb & <- & _). cbn [with_flux b_flux b_nrm bcFlux]. unfold calcFarFieldFlux. apply bnd_consistent; try lra; [exact ST|exact ST]. }
  destruct (s_viscous s) eqn:HV.
  - rewrite WM in ER. unfold viscousFlowResidual in ER. cbn [fold_left] in ER.
    destruct (flowResidual d false (s_lps s) (Some _) None (meshOf d false x t s E F B) (fun _ => freeStream d (paramsOf s))) as [r'|] eqn:ER'; [|discriminate]. injection ER as <-.
    assert (NB : (s_basis s =? "dsbp")%string = false). { destruct (String.eqb_spec (s_basis s) "dsbp") as [X|]; [|reflexivity]. destruct RN as (_ & _ & RB & _). rewrite (RB X) in HV. discriminate. }
    rewrite NB in MD. exact (free_stream d N (s_lps s) (Some _) None _ _ MF 1 (5/7) v ltac:(lra) ltac:(lra) ST r' HG MD HP HK MC ER' i m Hi Hm).
  - refine (free_stream d N (s_lps s) None _ _ _ MF 1 (5/7) v ltac:(lra) ltac:(lra) ST r HG _ HP HK MC ER i m Hi Hm).
    destruct (s_basis s =? "dsbp")%string; exact MD.
Qed.
Print Assumptions C140_free_stream.
(** the pump is a piston: its state moves with the piston's speed and is an isentropic gas compressed by the piston *)
Theorem C140_pump_state :
  forall t, let L := 1/20 * (1 - cos t) in
  is_state 2 (pumpState t) (1 / (1 - L)) (fun i => match i with O => 1/20 * sin t | _ => 0 end) (Rpower (1 / (1 - L)) (7/5)) /\ 0 < 1 / (1 - L) /\
  derivable_pt_lim (fun t : R => 1/20 * (1 - cos t)) t (1/20 * sin t).
Proof.
  intros t L. assert (HL : 0 < 1 - L) by (unfold L; pose proof (COS_bound t); lra).
  split; [|split; [apply Rdiv_lt_0_compat; lra|replace (1/20 * sin t) with (1/20 * (0 - - sin t)) by lra; exact (derivable_pt_lim_scal _ _ _ _ (derivable_pt_lim_minus _ _ _ _ _ (derivable_pt_lim_const 1 t) (derivable_pt_lim_cos t)))]].
  unfold pumpState. cbv zeta. replace (5 / 100 * (1 - cos t)) with L by (unfold L; lra). clearbody L. unfold is_state, dot, gamma, gami. cbn. repeat split.
  - intros i Hi. destruct i as [|[|i]]; cbn; [field; lra|ring|lia].
  - replace (14 / 10) with (7 / 5) by lra. field. lra.
Qed.
Print Assumptions C140_pump_state.

(** the discontinuous basis is also selected by "DSBP" (C116-C120), for which no interface terms are added: the elements
    are not coupled and the free stream is not preserved *)
Definition duct_face (g i : nat) (n : R) : tagged vface :=
  {| t_attr := 1; t_face := {| w_el := seg0 g; w_nf := 1; w_idx := fun _ => i; w_wt := fun _ => 1; w_nrm := fun _ _ => n; w_bc := ViscSlip |} |}.
Definition duct_faces : list (tagged vface) := [duct_face 0 0 (-1); duct_face 2 1 1].
Definition duct_options (basis : string) : opts := with_options [] [("basis-type", JLeaf (LStr basis)); ("lps-coeff", JLeaf (LInt 0))]%string [("far-field", JLeaf (LInts [1%Z]))]%string.
Definition duct_settings (basis : string) : settings := {| s_viscous := false; s_mu := -1; s_mach := 1/2; s_degrees := 0; s_Re := 0; s_Pr := 72/100; s_roll := 0; s_pitch := 1; s_entropy := false; s_flux := "IR"; s_lps := 0; s_basis := basis; s_iface := 1;
    s_imms := false; s_vmms := false; s_steady := false; s_bcs := [("far-field", [1%Z])] |}%string.
Lemma duct_given b : given (duct_options b) (duct_settings b).
Proof.
  assert (AB : at_path (duct_options b) ["bcs"%string] = Some (JObj (map (fun na : string * list Z => (fst na, JLeaf (LInts (snd na)))) (s_bcs (duct_settings b))))) by reflexivity.
  unfold given, holds_real. rewrite AB. clear AB. repeat (split; [first [reflexivity|left; reflexivity|right; exists 0%Z; split; reflexivity]|]). intros n. apply bcs_find.
Qed.
Lemma duct_runs b : runnable 1 false (duct_settings b) /\ attributes_ok 1 (duct_settings b) /\ axes_within 1 (duct_settings b) /\ listed (duct_settings b) 1 = [KFarField].
Proof.
  split; [|split; [|split; [left; reflexivity|reflexivity]]].
  - repeat split; cbn; try lia; try discriminate. intros _ X. exfalso. apply X. reflexivity.
  - intros n k a b' HI EA HB. unfold duct_settings in EA. cbn [s_bcs attributes] in EA. destruct (n =? "far-field")%string; [injection EA as <-; cbn in HB; lia|discriminate].
Qed.
Lemma duct_mesh : let M := {| els := els duct; ifs := ifs duct; bfs := map (fun b => outline (t_face b)) duct_faces |} in
  well_formed 4 M /\ gcl 1 M /\ divergence_theorem 1 true M /\ positive_mesh M /\ proj_kills_constants M /\ (forall b, In b duct_faces -> face_in 4 1 b).
Proof.
  destruct duct_valid as ((W1 & W2 & W3) & G & D & P & K). cbv zeta. split; [|split; [exact G|split; [exact D|split; [exact P|split; [exact K|]]]]].
  - split; [exact W1|]. split; [exact W2|]. intros b [<-|[<-|[]]]; (split; [intros i Hi; cbn in *; lia|intros k Hk; cbn in *; lia]).
  - intros b [<-|[<-|[]]]; (split; [intros i Hi; cbn in *; lia|split; [intros k Hk; cbn in *; lia|cbn; lia]]).
Qed.
Theorem C140_basis_spelling_refuted :
  ~ (forall d N nattr mms o s c x t E F B, given o s -> runnable d false s -> attributes_ok nattr s -> flowConfig d false nattr o = Ok c ->
     s_flux s = "IR"%string -> s_imms s = false -> s_vmms s = false -> axes_within d s ->
     let M := {| els := E; ifs := F; bfs := map (fun b => outline (t_face b)) B |} in
     well_formed N M -> (forall b, In b B -> (1 <= t_attr b <= nattr)%nat /\ listed s (t_attr b) = [KFarField]) ->
     gcl d M -> divergence_theorem d (String.eqb (s_basis s) "dsbp" || String.eqb (s_basis s) "DSBP") M -> positive_mesh M -> proj_kills_constants M ->
     forall i m, (i < N)%nat -> (m < d + 2)%nat -> configResidual d false mms c x t E F B (fun _ => freeStream d (c_par c)) i m = 0).
Proof.
  intros H. destruct (duct_runs "DSBP") as (RN & A & AX & L1). destruct duct_mesh as (W & G & D & P & K & FI).
  destruct (accepted 1 false 1 (duct_options "DSBP") (duct_settings "DSBP") (duct_given "DSBP") RN A) as (c & EC & EP & _).
  set (x := {| x_pos := fun _ _ _ => 0; x_exact := fun _ _ _ => 0; x_control := 0; x_scale := fun _ _ => 0 |}).
  specialize (H 1%nat 4%nat 1%nat (fun _ _ _ _ _ => 0) (duct_options "DSBP") (duct_settings "DSBP") c x 0 (els duct) (ifs duct) duct_faces (duct_given "DSBP") RN A EC eq_refl eq_refl eq_refl AX W).
  specialize (H ltac:(intros b [<-|[<-|[]]]; (split; [cbn; lia|exact L1])) G D P K 1%nat 0%nat ltac:(lia) ltac:(lia)).
  destruct W as (WE & WI & WB).
  destruct (C140_residual 1 4 1 false (fun _ _ _ _ _ => 0) (duct_options "DSBP") (duct_settings "DSBP") c x 0 (els duct) (ifs duct) duct_faces (fun _ => freeStream 1 (c_par c)) (duct_given "DSBP") RN A EC eq_refl eq_refl eq_refl (fun _ => eq_refl)
     (conj WE (conj WI (fun b (H : In b []) => match H with end))) FI) as (r & ER & EQ).
  rewrite EQ in H by lia. cbn [duct_settings s_viscous s_basis s_lps String.eqb Ascii.eqb Bool.eqb] in ER. rewrite EP in ER.
  rewrite <- (test_point 4 3 r 1 0) in H by lia. set (q := freeStream 1 (paramsOf (duct_settings "DSBP"))) in *.
  assert (ST : is_state 1 q 1 (fun _ => 1/2) (5/7)) by apply fs_1d.
  change 3%nat with (1 + 2)%nat in H.
  rewrite (flow_test 1 4 false 0 None None _ (mesh_fits 1 4 1 false (duct_settings "DSBP") x 0 (els duct) (ifs duct) duct_faces WE WI FI) (fun _ => q) r _ ER) in H.
  unfold fsum, dsbp, bsum, domainIntegrators in H. destruct (Rlt_dec 0 0) as [Y|_]; [lra|]. cbn [app lsum fold_right els meshOf duct bfs] in H.
  unfold duct_faces in H. cbn [flat_map] in H. unfold active in H. cbn [t_attr duct_face] in H. rewrite L1 in H. cbn [map condition flat_map app lsum fold_right rsum with_flux b_nf b_wt t_face w_nf w_wt] in H.
  assert (T0 : test (e_n (seg0 0)) (1 + 2) (fun i b => delta (e_glob (seg0 0) i) 1 * delta b 0) (irVector 1 false (seg0 0) (fun _ => q)) = - (1 / 2)).
  { change (fun i b => delta (e_glob (seg0 0) i) 1 * delta b 0) with (fun i b => delta i 1 * delta b 0). rewrite test_point by (cbn; lia). unfold irVector.
    rewrite (dyadic_uniform (e_n (seg0 0)) 1 (e_Q (seg0 0)) (1 + 2) 1 (e_adj (seg0 0)) (fun di i Hdi Hi => G (seg0 0) (or_introl eq_refl) di i Hdi Hi)) by (cbn; lia).
    cbn [rsum]. unfold irFlux. destruct (di_consistent 1 0 q q 1 (fun _ => 1/2) (5/7) ltac:(lia) ltac:(lra) ltac:(lra) ST ST) as (-> & _). unfold dot, unitv, getSymEntry. cbn. lra. }
  assert (T2 : test (e_n (seg0 2)) (1 + 2) (fun i b => delta (e_glob (seg0 2) i) 1 * delta b 0) (irVector 1 false (seg0 2) (fun _ => q)) = 0).
  { unfold test, dot. rewrite (rsum_ext _ _ (fun _ => 0)); [apply rsum_0|]. intros i Hi. rewrite (rsum_ext _ _ (fun _ => 0)); [apply rsum_0|]. intros j Hj. unfold delta at 1. cbn. ring. }
  rewrite T0, T2 in H. unfold bnode, dot, delta in H. cbn in H. lra.
Qed.
Print Assumptions C140_basis_spelling_refuted.
Example C140_case : given (duct_options "dsbp") (duct_settings "dsbp") /\ runnable 1 false (duct_settings "dsbp") /\ attributes_ok 1 (duct_settings "dsbp") /\ axes_within 1 (duct_settings "dsbp") /\
  listed (duct_settings "dsbp") 1 = [KFarField] /\
  (let M := {| els := els duct; ifs := ifs duct; bfs := map (fun b => outline (t_face b)) duct_faces |} in well_formed 4 M /\ gcl 1 M /\ divergence_theorem 1 true M /\ positive_mesh M /\ proj_kills_constants M).
Proof. destruct (duct_runs "dsbp") as (RN & A & AX & L1). destruct duct_mesh as (W & G & D & P & K & _). split; [apply duct_given|]. tauto. Qed.
