(** Proofs about flow options. *)
From Coq Require Import Reals List String Bool ZArith Lia Lra.
From Verif Require Import Num Vec Options OptionsProofs BdrArray BdrArrayProofs SbpSpec SbpMesh ViscWall ViscWallSpec Aero FlowJac FlowOptions FlowOptionsSpec.
Import ListNotations.
Local Open Scope string_scope.

Lemma at2 (o : opts) a b v : at_path o [a; b] = Some v -> exists m fm, o = JObj m /\ find a m = Some (JObj fm) /\ find b fm = Some v.
Proof.
  intros H. destruct o as [| |m]; try discriminate. cbn [at_path] in H. destruct (find a m) as [v1|] eqn:E; [|discriminate].
  destruct v1 as [| |fm]; try discriminate. exists m, fm. split; [reflexivity|]. split; [exact E|]. destruct (find b fm) as [x|] eqn:E2; [|discriminate]. exact H.
Qed.
Lemma real_leaf (o : opts) a b r : holds_real o [a; b] r -> exists j, at_path o [a; b] = Some j /\ asReal j = Ok r /\ positive j = (if Rlt_dec 0 r then true else false).
Proof.
  intros [H|(z & H & E)]; eexists; (split; [exact H|]); cbn; [|rewrite E]; split; reflexivity.
Qed.
Definition subs (o : opts) (a b : string) (j : opts) : Prop := exists f, sub o a = Ok f /\ sub f b = Ok j.
Section Read.
Context (m fm : list (string * opts)).
Lemma sub_of a b v : find a m = Some (JObj fm) -> at_path (JObj m) [a; b] = Some v -> find b fm = Some v.
Proof. intros H E. cbn [at_path] in E. rewrite H in E. destruct (find b fm); [exact E|discriminate]. Qed.
End Read.

(** ** the boundary terms *)
Definition btermS (nattr : nat) (bcs : list (string * list Z)) (n : string) (k : bkind) : outcome (list (bkind * list Z)) :=
  match attributes n bcs with Some a => match attrVecToArray a (repeat 0%Z nattr) with Some mk => Ok [(k, mk)] | None => Undefined end | None => Ok [] end.
Fixpoint termsS (nattr : nat) (bcs : list (string * list Z)) (l : list (string * bkind)) : outcome (list (bkind * list Z)) :=
  match l with
  | [] => Ok []
  | (n, k) :: r => do a <- btermS nattr bcs n k; do b <- termsS nattr bcs r; Ok (a ++ b)%list
  end.
Section Terms.
Context (nattr : nat) (s : settings) (bm : list (string * opts)).
Context (HB : forall n, find n bm = match attributes n (s_bcs s) with Some a => Some (JLeaf (LInts a)) | None => None end).
Lemma bterm_eq n k : bterm nattr (JObj bm) n k = btermS nattr (s_bcs s) n k.
Proof. unfold bterm, btermS, contains, sub. rewrite HB. destruct (attributes n (s_bcs s)) as [a|]; reflexivity. Qed.
Lemma contains_eq n : contains (JObj bm) n = match attributes n (s_bcs s) with Some _ => true | None => false end.
Proof. unfold contains. rewrite HB. destruct (attributes n (s_bcs s)); reflexivity. Qed.
Lemma inviscid_eq d : inviscidTerms d nattr (JObj bm) =
  if (match attributes "vortex" (s_bcs s) with Some _ => true | None => false end) && negb (Nat.eqb d 2) then ThrowMISO else termsS nattr (s_bcs s) inviscid_names.
Proof.
  unfold inviscidTerms. rewrite contains_eq. destruct (_ && _) eqn:E; [reflexivity|]. rewrite !bterm_eq. unfold inviscid_names. cbn [termsS].
  destruct (btermS _ _ "vortex" _); [|reflexivity..]. destruct (btermS _ _ "slip-wall" _); [|reflexivity..]. destruct (btermS _ _ "far-field" _); [|reflexivity..].
  destruct (btermS _ _ "pump" _); [|reflexivity..]. destruct (btermS _ _ "control" _); [|reflexivity..]. cbn [bind]. rewrite app_nil_r. reflexivity.
Qed.
Lemma viscous_eq : viscousTerms nattr (JObj bm) = termsS nattr (s_bcs s) viscous_names.
Proof.
  unfold viscousTerms. rewrite !bterm_eq. unfold viscous_names. cbn [termsS].
  destruct (btermS _ _ "slip-wall" _); [|reflexivity..]. destruct (btermS _ _ "no-slip-adiabatic" _); [|reflexivity..]. destruct (btermS _ _ "far-field" _); [|reflexivity..].
  destruct (btermS _ _ "viscous-mms" _); [|reflexivity..]. destruct (btermS _ _ "control" _); [|reflexivity..]. cbn [bind]. rewrite app_nil_r. reflexivity.
Qed.
End Terms.
Definition boundaryS (d nattr : nat) (s : settings) : outcome (list (bkind * list Z)) :=
  if s_viscous s then termsS nattr (s_bcs s) viscous_names
  else if (match attributes "vortex" (s_bcs s) with Some _ => true | None => false end) && negb (Nat.eqb d 2) then ThrowMISO
  else termsS nattr (s_bcs s) inviscid_names.
Definition expected (d : nat) (entvar : bool) (nattr : nat) (s : settings) : outcome config :=
  if ((s_roll s =? s_pitch s) || ((s_roll s <? 0) || (2 <? s_roll s)) || ((s_pitch s <? 0) || (2 <? s_pitch s)))%Z then ThrowMISO
  else if negb (String.eqb (s_flux s) "IR") && entvar then ThrowMISO
  else if String.eqb (s_basis s) "dsbp" && s_viscous s then ThrowMISO
  else do b <- boundaryS d nattr s;
  Ok {| c_par := paramsOf s; c_ess := []; c_dom := domS d s; c_ifs := if String.eqb (s_basis s) "dsbp" then [s_iface s] else []; c_bnd := b; c_steady := s_steady s |}.
Lemma config_eq d entvar nattr o s : given o s -> flowConfig d entvar nattr o = expected d entvar nattr s.
Proof.
  intros (G1 & G2 & G3 & G4 & G5 & G6 & G7 & G8 & G9 & G10 & G11 & G12 & G13 & G14 & G15 & G16 & G17 & G18).
  destruct (real_leaf _ _ _ _ G2) as (j2 & A2 & B2 & _). destruct (real_leaf _ _ _ _ G3) as (j3 & A3 & B3 & _). destruct (real_leaf _ _ _ _ G4) as (j4 & A4 & B4 & _).
  destruct (real_leaf _ _ _ _ G5) as (j5 & A5 & B5 & _). destruct (real_leaf _ _ _ _ G6) as (j6 & A6 & B6 & _). destruct (real_leaf _ _ _ _ G13) as (j13 & A13 & B13 & P13).
  destruct (real_leaf _ _ _ _ G15) as (j15 & A15 & B15 & _). unfold holds in *.
  destruct (at2 _ _ _ _ G1) as (m & fm & -> & F & E1). destruct (at2 _ _ _ _ G12) as (m' & sm & X & S & E12). injection X as <-.
  destruct (at2 _ _ _ _ G16) as (m'' & tm & X & T & E16). injection X as <-.
  apply (sub_of m fm _ _ _ F) in A2, A3, A4, A5, A6, G7, G8, G9, G10, G11. apply (sub_of m sm _ _ _ S) in A13, G14, A15.
  cbn [at_path] in G17, G18.
  assert (IM : valueBool (JObj m) "implicit" false = Ok false) by (unfold valueBool; destruct (find "implicit" m); [discriminate|reflexivity]).
  assert (ES : essential nattr (JObj m) = Ok []).
  { unfold essential, contains, sub. destruct (find "bcs" m) as [b|]; [|reflexivity]. destruct b as [| |bm]; try contradiction. cbn [bind]. destruct G18 as (-> & _). reflexivity. }
  unfold flowConfig, expected, setOptions_. rewrite IM. cbn [bind]. unfold sub at 1. rewrite F. cbn [bind]. unfold sub at 1. rewrite E1. cbn [bind asBool].
  unfold sub at 1. rewrite A2. cbn [bind]. rewrite B2. cbn [bind]. unfold sub at 1. rewrite A3. cbn [bind]. rewrite B3. cbn [bind]. unfold sub at 1. rewrite A4. cbn [bind]. rewrite B4. cbn [bind].
  unfold sub at 1. rewrite A5. cbn [bind]. rewrite B5. cbn [bind]. unfold sub at 1. rewrite A6. cbn [bind]. rewrite B6. cbn [bind].
  unfold sub at 1. rewrite G7. cbn [bind asInt]. unfold sub at 1. rewrite G8. cbn [bind asInt]. unfold sub at 1. rewrite G9. cbn [bind asBool]. rewrite ES.
  destruct (s_roll s =? s_pitch s)%Z; [reflexivity|]. destruct ((s_roll s <? 0)%Z || (2 <? s_roll s)%Z); [reflexivity|]. destruct ((s_pitch s <? 0)%Z || (2 <? s_pitch s)%Z); [reflexivity|]. cbn [orb bind].
  unfold contains at 1 2. rewrite F, S. cbn [negb orb]. unfold sub at 1. rewrite F. cbn [bind]. unfold sub at 1. rewrite S. cbn [bind fst snd].
  assert (DT : domainTerms d entvar (paramsOf s) (JObj fm) (JObj sm) = if negb (String.eqb (s_flux s) "IR") && entvar then ThrowMISO else Ok (domS d s)).
  { unfold domainTerms. unfold sub at 1. rewrite E12. cbn [bind equals]. unfold valueBool. rewrite G10, G11. cbn [asBool].
    unfold sub. rewrite A13, E1. cbn [bind asBool]. rewrite P13, B13. unfold domS. destruct (String.eqb (s_flux s) "IR"), entvar; cbn [negb andb bind]; try reflexivity;
    destruct (Rlt_dec 0 (s_lps s)), (s_viscous s), (s_vmms s); reflexivity. }
  assert (IT : interfaceTerms (JObj fm) (JObj sm) = if String.eqb (s_basis s) "dsbp" && s_viscous s then ThrowMISO else Ok (if String.eqb (s_basis s) "dsbp" then [s_iface s] else [])).
  { unfold interfaceTerms, sub. rewrite G14, A15, E1. cbn [bind equals asBool]. rewrite B15. destruct (String.eqb (s_basis s) "dsbp"), (s_viscous s); reflexivity. }
  fold (paramsOf s). rewrite DT. destruct (negb (String.eqb (s_flux s) "IR") && entvar); [reflexivity|]. cbn [bind]. rewrite IT.
  destruct (String.eqb (s_basis s) "dsbp" && s_viscous s); [reflexivity|]. cbn [bind].
  assert (BT : (if contains (JObj m) "bcs" then do bcs <- sub (JObj m) "bcs"; boundaryTerms d nattr (JObj fm) bcs else Ok []) = boundaryS d nattr s).
  { unfold contains, sub. unfold boundaryS. destruct (find "bcs" m) as [b|] eqn:EB.
    - destruct b as [| |bm]; try contradiction. destruct G18 as (_ & G18). cbn [bind]. unfold boundaryTerms, sub. rewrite E1. cbn [bind asBool].
      destruct (s_viscous s); [apply viscous_eq; exact G18|apply inviscid_eq; exact G18].
    - rewrite G18. destruct (s_viscous s); reflexivity. }
  rewrite BT. destruct (boundaryS d nattr s); [|reflexivity..]. cbn [bind]. unfold sub. rewrite T. cbn [bind]. rewrite E16. cbn [bind asBool]. reflexivity.
Qed.

(** ** which conditions act where *)
Lemma repeat_len n : Datatypes.length (repeat 0%Z n) = n. Proof. apply repeat_length. Qed.
Lemma terms_ok nattr bcs l : (forall n k a b, In (n, k) l -> attributes n bcs = Some a -> In b a -> (1 <= b <= Z.of_nat nattr)%Z) ->
  exists t, termsS nattr bcs l = Ok t /\
  forall attr, (1 <= attr <= nattr)%nat -> map fst (filter (fun km => marked (snd km) attr) t) =
    map snd (filter (fun nk => match attributes (fst nk) bcs with Some a => if in_dec Z.eq_dec (Z.of_nat attr) a then true else false | None => false end) l).
Proof.
  induction l as [|(n, k) l IH]; intros H; [exists []; split; reflexivity|]. destruct IH as (t & E & F); [intros; eapply H; [right|..]; eassumption|].
  cbn [termsS]. rewrite E. unfold btermS. destruct (attributes n bcs) as [a|] eqn:EA.
  - destruct (attr_spec a (repeat 0%Z nattr)) as (mk & EM & LM & MK); [rewrite repeat_len; intros b Hb; eapply H; [left; reflexivity|exact EA|exact Hb]|].
    rewrite EM. cbn [bind]. exists ((k, mk) :: t). split; [reflexivity|]. intros attr HA. cbn [filter fst snd]. rewrite EA.
    rewrite repeat_len in LM. specialize (MK (Z.of_nat attr)). rewrite LM in MK. specialize (MK ltac:(lia)).
    assert (MV : marked mk attr = if in_dec Z.eq_dec (Z.of_nat attr) a then true else false).
    { unfold marked. replace (Z.to_nat (Z.of_nat attr - 1)) with (attr - 1)%nat in MK by lia. rewrite (nth_indep mk 0%Z (-1)%Z) by lia. rewrite MK. destruct (in_dec _ _ _); reflexivity. }
    rewrite MV. destruct (in_dec Z.eq_dec (Z.of_nat attr) a); cbn [map fst snd]; rewrite F by exact HA; reflexivity.
  - cbn [bind]. exists t. split; [reflexivity|]. intros attr HA. cbn [filter fst]. rewrite EA. apply F. exact HA.
Qed.
Lemma terms_bad nattr bcs l n k a b : In (n, k) l -> attributes n bcs = Some a -> In b a -> ~ (1 <= b <= Z.of_nat nattr)%Z -> termsS nattr bcs l = Undefined.
Proof.
  induction l as [|(n', k') l IH]; intros HI EA HB HN; [destruct HI|]. cbn [termsS]. destruct HI as [X|HI].
  - injection X as -> ->. unfold btermS. rewrite EA. rewrite (attr_ub a (repeat 0%Z nattr) b HB) by (rewrite repeat_len; exact HN). reflexivity.
  - rewrite (IH HI EA HB HN). unfold btermS. destruct (attributes n' bcs) as [a'|]; [destruct (attrVecToArray _ _)|]; reflexivity.
Qed.
