(** C61–C64: electromagnetic material coefficients. *)
From Coq Require Import Reals ZArith String List Bool Lra Lia Psatz.
From Coquelicot Require Import Coquelicot.
From Verif Require Import Vec Coef CoefMix CoefProofs EmCoef EmCoefProofs MmsProofs.
Import ListNotations.
Local Open Scope R_scope.

(** ---- C61 ---- the CAL2 loss coefficient is linear in the temperature between the two polynomials of the flux density *)
Theorem C61_value T0 k0 T1 k1 f B : T1 <> T0 -> poly k0 B <> 0 ->
  (forall T, k_eval T0 k0 T1 k1 T f B = Some (interp T0 k0 T1 k1 T B))
  /\ k_eval T0 k0 T1 k1 T0 f B = Some (poly k0 B) /\ k_eval T0 k0 T1 k1 T1 f B = Some (poly k1 B).
Proof.
  intros HT Hp. assert (K : forall T, k_eval T0 k0 T1 k1 T f B = Some (interp T0 k0 T1 k1 T B)).
  { intros T. unfold k_eval, interp. rewrite !ploop_poly. cbn [pow]. rewrite !Rmult_1_l, !Rplus_0_l.
    rewrite odiv_some by (apply Rmult_integral_contrapositive_currified; [lra|exact Hp]). f_equal. field. split; lra. }
  split; [exact K|]. split; rewrite K; unfold interp; f_equal; field; lra.
Qed.
Print Assumptions C61_value.
(** every derivative method returns the derivative of that function, away from zero flux density *)
Theorem C61_derivatives T0 k0 T1 k1 T f B : T1 <> T0 -> poly k0 B <> 0 -> B <> 0 ->
  (exists a, k_d1 T0 k0 T1 k1 T f B = Some a /\ is_derive (fun T => interp T0 k0 T1 k1 T B) T a)
  /\ (exists a, k_d3 T0 k0 T1 k1 T f B = Some a /\ is_derive (fun B => interp T0 k0 T1 k1 T B) B a)
  /\ (exists a, k_d33 T0 k0 T1 k1 T f B = Some a /\ is_derive (Derive (fun B => interp T0 k0 T1 k1 T B)) B a)
  /\ (exists a, k_d13 T0 k0 T1 k1 T f B = Some a
       /\ is_derive (fun B => Derive (fun T => interp T0 k0 T1 k1 T B) T) B a
       /\ is_derive (fun T => Derive (fun B => interp T0 k0 T1 k1 T B) B) T a)
  /\ (k_zero T f B = Some 0 /\ is_derive (Derive (fun T => interp T0 k0 T1 k1 T B)) T 0).
Proof.
  intros HT Hp HB. split; [|split; [|split; [|split]]].
  - unfold k_d1. rewrite !ploop_poly. cbn [pow]. rewrite !Rmult_1_l, !Rplus_0_l.
    rewrite odiv_some by (apply Rmult_integral_contrapositive_currified; [lra|exact Hp]).
    eexists; split; [reflexivity|]. eapply D_eq; [exact (interp_dT T0 k0 T1 k1 T B)|]. req. field. split; lra.
  - unfold k_d3. rewrite !dploop_dsum by exact HB. rewrite odiv_some by lra. cbn [omap2]. eexists; split; [reflexivity|].
    eapply D_eq; [exact (interp_dB T0 k0 T1 k1 T B)|]. req. ring.
  - unfold k_d33. rewrite !ddploop_ddsum by exact HB. rewrite odiv_some by lra. cbn [omap2]. eexists; split; [reflexivity|].
    eapply D_eq; [exact (interp_dBB T0 k0 T1 k1 T B)|]. req. ring.
  - unfold k_d13. rewrite !dploop_dsum by exact HB. cbn [omap2]. rewrite odiv_some by lra. eexists; split; [reflexivity|]. split.
    + eapply D_eq; [exact (interp_dTB T0 k0 T1 k1 T B)|]. req. f_equal; ring.
    + eapply D_eq; [exact (interp_dBT T0 k0 T1 k1 T B)|]. req. f_equal; ring.
  - split; [reflexivity|exact (interp_dTT T0 k0 T1 k1 T B)].
Qed.
Print Assumptions C61_derivatives.
Example C61_concrete : poly [1; 2; 3] 2 = 17 /\ (373 : R) <> 293 /\ k_eval 293 [1; 2; 3] 373 [2; 2; 3] 333 50 2 = Some (175 / 10).
Proof.
  assert (poly [1; 2; 3] 2 = 17) by (cbn; lra). split; [assumption|]. split; [lra|].
  destruct (C61_value 293 [1; 2; 3] 373 [2; 2; 3] 50 2) as [H1 _]; [lra|lra|]. rewrite H1. f_equal. unfold interp. cbn. field.
Qed.
(** the value of every element: a component's polynomial data, each from the options when given there and else from the
    library; the library's constant for a component without loss options; 1 for an attribute of no component *)
Theorem C61_table l cs t : CAL2 l cs = Built t ->
  forall a T f B,
  (forall c n o T0 k0 T1 k1, In c cs -> (exists la, eattrs c = Some la /\ In a la) ->
     emat c = MObj n (Some o) ->
     let s := lib_sub l n "CAL2" in
     resolved o s "T0" (VNum T0) -> resolved o s "kh_T0" (VVec k0) -> resolved o s "T1" (VNum T1) -> resolved o s "kh_T1" (VVec k1) ->
     CAL2_eval t a T f B = k_eval T0 k0 T1 k1 T f B)
  /\ (forall c n m, In c cs -> (exists la, eattrs c = Some la /\ In a la) -> (emat c = MName n \/ emat c = MObj n None) ->
       sfind n l = Some m -> CAL2_eval t a T f B = Some (match plain m with Some v => v | None => 1 end))
  /\ ((forall c la, In c cs -> eattrs c = Some la -> ~ In a la) -> CAL2_eval t a T f B = Some 1).
Proof.
  intros H a T f B. unfold CAL2 in H. pose proof (reg_components_throw (cal2_build l) cs []) as Hone.
  assert (Hno : forall c y, In c cs -> eattr c = Some y -> y = (-1)%Z).
  { intros c y Hc He. destruct (Z.eq_dec y (-1)) as [E|E]; [exact E|]. exfalso. refine (Hone _ t H). exists c, y. auto. }
  destruct (reg_components_spec _ _ _ _ _ H (NoDup_nil _)) as [Hu Hin].
  assert (G : forall c x, In c cs -> (exists la, eattrs c = Some la /\ In a la) -> cal2_build l c = Built x -> mfind a t = Some x).
  { intros c x Hc Hl Hx. apply mfind_some; [exact Hu|]. apply Hin. right. exists c. split; [exact Hc|]. unfold gives.
    destruct (eattr c) as [y|] eqn:E; [rewrite (Hno c y Hc E)|]; cbn; auto. }
  split; [|split].
  - intros c n o T0 k0 T1 k1 Hc Hl Hm s r1 r2 r3 r4. unfold CAL2_eval.
    rewrite (G c (KPoly T0 k0 T1 k1) Hc Hl); [reflexivity|]. unfold cal2_build. rewrite Hm. cbv zeta. fold s.
    rewrite (proj2 (num_resolved o s "T0" T0) r1), (proj2 (vec_resolved o s "kh_T0" k0) r2),
      (proj2 (num_resolved o s "T1" T1) r3), (proj2 (vec_resolved o s "kh_T1" k1) r4). reflexivity.
  - intros c n m Hc Hl Hm Hn. unfold CAL2_eval.
    rewrite (G c (KConst (match plain m with Some v => v | None => 1 end)) Hc Hl); [reflexivity|].
    unfold cal2_build. destruct Hm as [-> | ->]; unfold cal2_default, lib_number; rewrite Hn; reflexivity.
  - intros Hnone. unfold CAL2_eval. destruct (mfind a t) as [x|] eqn:E; [|reflexivity]. exfalso.
    apply mfind_some in E; [|exact Hu]. apply Hin in E. destruct E as [[]|(c & Hc & Hg)]. unfold gives in Hg.
    destruct (eattr c) as [y|] eqn:Ey.
    + rewrite (Hno c y Hc Ey) in Hg. cbn in Hg. destruct Hg as [(la & Hla & Hi) _]. exact (Hnone c la Hc Hla Hi).
    + destruct Hg as [(la & Hla & Hi) _]. exact (Hnone c la Hc Hla Hi).
Qed.
Print Assumptions C61_table.
Definition steel : libmat := {| plain := Some 7; sub_of := fun m => if String.eqb m "CAL2"
  then Some [("T0"%string, VNum 293); ("kh_T0"%string, VVec [1; 2]); ("T1"%string, VNum 373); ("kh_T1"%string, VVec [2; 2])] else None |}.
Example C61_table_met : exists t, CAL2 [("steel"%string, steel)]
    [{| emat := MObj "steel" (Some [("T1"%string, VNum 400)]); eattr := None; eattrs := Some [1%Z; 2%Z] |};
     {| emat := MName "steel"; eattr := Some (-1)%Z; eattrs := Some [3%Z] |}] = Built t
  /\ (forall T f B, CAL2_eval t 2 T f B = k_eval 293 [1; 2] 400 [2; 2] T f B) /\ (forall T f B, CAL2_eval t 3 T f B = Some 7).
Proof. eexists. split; [reflexivity|]. split; intros; reflexivity. Qed.
(** but where the first polynomial vanishes the value is not finite, at any temperature, and at zero flux density the derivative
    with respect to it is not finite, although the interpolated loss coefficient is smooth there *)
Theorem C61_finite_refuted : (forall T0 k0 T1 k1 T f B, poly k0 B = 0 -> k_eval T0 k0 T1 k1 T f B = None)
  /\ (forall T0 k0 T1 k1 T f, k0 <> [] -> k_d3 T0 k0 T1 k1 T f 0 = None /\ k_d33 T0 k0 T1 k1 T f 0 = None /\ k_d13 T0 k0 T1 k1 T f 0 = None)
  /\ (forall T0 k0 T1 k1 T, ex_derive (fun B => interp T0 k0 T1 k1 T B) 0).
Proof.
  split; [|split].
  - intros T0 k0 T1 k1 T f B H. unfold k_eval. rewrite !ploop_poly. cbn [pow]. rewrite !Rmult_1_l, !Rplus_0_l, H, odiv_zero by ring. reflexivity.
  - intros T0 k0 T1 k1 T f H. unfold k_d3, k_d33, k_d13. rewrite dploop_at_0, ddploop_at_0 by exact H. cbn [omap2].
    destruct (odiv _ _); repeat split.
  - intros T0 k0 T1 k1 T. eexists. apply interp_dB.
Qed.
Print Assumptions C61_finite_refuted.
(** and a component whose attribute is given by "attr" cannot be used at all: the constructor does not complete *)
Theorem C61_single_attribute_refuted l cs : (exists c y, In c cs /\ eattr c = Some y /\ y <> (-1)%Z) ->
  (forall t, CAL2 l cs <> Built t) /\ (forall t, PMDemag l cs <> Built t) /\ (forall t, DemagFlux l cs <> Built t).
Proof. intros H. split; [|split]; intros t; apply reg_components_throw; exact H. Qed.
Print Assumptions C61_single_attribute_refuted.

(** ---- C62 ---- the demagnetisation constraint compares, at the local flux density, the field on the recoil line through
    (0, Br) and the knee with the field on the line through the knee and (Hci, 0) *)
Theorem C62_value p B T : Bk p T <> 0 -> Bk p T <> Br p T ->
  C_eval p B T = recoil (Hk p T) (Bk p T) (Br p T) B - irrev (Hk p T) (Hci p T) (Bk p T) B
  /\ recoil (Hk p T) (Bk p T) (Br p T) (Br p T) = 0 /\ recoil (Hk p T) (Bk p T) (Br p T) (Bk p T) = Hk p T
  /\ irrev (Hk p T) (Hci p T) (Bk p T) 0 = Hci p T /\ irrev (Hk p T) (Hci p T) (Bk p T) (Bk p T) = Hk p T
  /\ C_eval p (Bk p T) T = 0.
Proof.
  intros H1 H2. assert (Bk p T - Br p T <> 0) by lra. split; [exact (C_lines p B T H1 H2)|].
  rewrite (C_lines p (Bk p T) T H1 H2). unfold recoil, irrev. repeat split; field; try split; assumption.
Qed.
Print Assumptions C62_value.
(** when the recoil line is the steeper one, the constraint is positive exactly above the knee flux density, negative below *)
Theorem C62_sign p B T : Bk p T <> 0 -> Bk p T <> Br p T ->
  (Hk p T - Hci p T) / Bk p T < Hk p T / (Bk p T - Br p T) ->
  (0 < C_eval p B T <-> Bk p T < B) /\ (C_eval p B T < 0 <-> B < Bk p T) /\ (C_eval p B T = 0 <-> B = Bk p T).
Proof.
  intros H1 H2 H3.
  assert (E : C_eval p B T = (Hk p T / (Bk p T - Br p T) - (Hk p T - Hci p T) / Bk p T) * (B - Bk p T)).
  { unfold C_eval. field. split; [exact H1|lra]. }
  rewrite E. set (s := Hk p T / (Bk p T - Br p T) - (Hk p T - Hci p T) / Bk p T) in *.
  assert (Hs : 0 < s) by (unfold s; lra). repeat split; intros H; nra.
Qed.
Print Assumptions C62_sign.
Theorem C62_derivatives p B T : Bk p T <> 0 -> Bk p T <> Br p T -> Br0 p <> 0 ->
  is_derive (fun B => C_eval p B T) B (C_dB p B T) /\ is_derive (fun T => C_eval p B T) T (C_dT p B T)
  /\ is_derive (fun B => C_dB p B T) B (C_dBB B T) /\ is_derive (fun T => C_dB p B T) T (C_dBT p B T)
  /\ is_derive (fun B => C_dT p B T) B (C_dBT p B T) /\ is_derive (fun T => C_dT p B T) T (C_dTT p B T).
Proof.
  intros H1 H2 H3. destruct (C_dB_derive p B T) as [d1 d2]. split; [exact d1|]. split; [exact (C_dT_derive p B T H1 H2 H3)|].
  split; [exact d2|]. split; [exact (C_dBT_derive p B T H1 H2)|]. split; [exact (C_dTB_derive p B T)|exact (C_dTT_derive p B T H1 H2 H3)].
Qed.
Print Assumptions C62_derivatives.
(** the parameters of a component: each from the options when given there, else from the library; no constraint (0) without
    "Demag" options or for an attribute of no component *)
Theorem C62_table l cs t : PMDemag l cs = Built t ->
  forall a B T,
  (forall c n o p, In c cs -> (exists la, eattrs c = Some la /\ In a la) -> emat c = MObj n (Some o) ->
     let r k v := resolved o (lib_sub l n "Demag") k (VNum v) in
     r "T0"%string (dT0 p) -> r "alpha_B_r"%string (aBr p) -> r "B_r_T0"%string (Br0 p) -> r "alpha_H_ci"%string (aHci p) ->
     r "H_ci_T0"%string (Hci0 p) -> r "alpha_B_knee"%string (aBk p) -> r "beta_B_knee"%string (bBk p) ->
     r "alpha_H_knee"%string (aHk p) -> r "beta_H_knee"%string (bHk p) ->
     PMDemag_eval t a B T = C_eval p B T)
  /\ (forall c n, In c cs -> (exists la, eattrs c = Some la /\ In a la) -> (emat c = MName n \/ emat c = MObj n None) -> PMDemag_eval t a B T = 0)
  /\ ((forall c la, In c cs -> eattrs c = Some la -> ~ In a la) -> PMDemag_eval t a B T = 0).
Proof.
  intros H a B T. unfold PMDemag in H. pose proof (reg_components_throw (pmd_build l) cs []) as Hone.
  assert (Hno : forall c y, In c cs -> eattr c = Some y -> y = (-1)%Z).
  { intros c y Hc He. destruct (Z.eq_dec y (-1)) as [E|E]; [exact E|]. exfalso. refine (Hone _ t H). exists c, y. auto. }
  destruct (reg_components_spec _ _ _ _ _ H (NoDup_nil _)) as [Hu Hin].
  assert (G : forall c x, In c cs -> (exists la, eattrs c = Some la /\ In a la) -> pmd_build l c = Built x -> mfind a t = Some x).
  { intros c x Hc Hl Hx. apply mfind_some; [exact Hu|]. apply Hin. right. exists c. split; [exact Hc|]. unfold gives.
    destruct (eattr c) as [y|] eqn:E; [rewrite (Hno c y Hc E)|]; cbn; auto. }
  split; [|split].
  - intros c n o p Hc Hl Hm r r1 r2 r3 r4 r5 r6 r7 r8 r9. unfold PMDemag_eval.
    rewrite (G c (PEq p) Hc Hl); [reflexivity|]. unfold pmd_build. rewrite Hm. cbv zeta. unfold r in *.
    apply num_resolved in r1, r2, r3, r4, r5, r6, r7, r8, r9.
    rewrite r1, r2, r3, r4, r5, r6, r7, r8, r9. destruct p; reflexivity.
  - intros c n Hc Hl Hm. unfold PMDemag_eval. rewrite (G c PConst Hc Hl); [reflexivity|].
    unfold pmd_build. destruct Hm as [-> | ->]; reflexivity.
  - intros Hnone. unfold PMDemag_eval. destruct (mfind a t) as [x|] eqn:E; [|reflexivity]. exfalso.
    apply mfind_some in E; [|exact Hu]. apply Hin in E. destruct E as [[]|(c & Hc & Hg)]. unfold gives in Hg.
    destruct (eattr c) as [y|] eqn:Ey.
    + rewrite (Hno c y Hc Ey) in Hg. cbn in Hg. destruct Hg as [(la & Hla & Hi) _]. exact (Hnone c la Hc Hla Hi).
    + destruct Hg as [(la & Hla & Hi) _]. exact (Hnone c la Hc Hla Hi).
Qed.
Print Assumptions C62_table.
(** a NdFeB-like magnet at 100 C: the hypotheses of the value, sign and derivative theorems hold *)
Definition nd : demag := {| dT0 := 293; aBr := -12/100; Br0 := 139/100; aHci := -50/100; Hci0 := -500; aBk := 7/1000; bBk := -24/10; aHk := 3; bHk := -1400 |}.
Example C62_met : Bk nd 373 <> 0 /\ Bk nd 373 <> Br nd 373 /\ Br0 nd <> 0
  /\ (Hk nd 373 - Hci nd 373) / Bk nd 373 < Hk nd 373 / (Bk nd 373 - Br nd 373).
Proof.
  assert (E1 : Bk nd 373 = 211 / 1000) by (unfold Bk; cbn; lra). assert (E2 : Br nd 373 = 1256560 / 1000000) by (unfold Br; cbn; lra).
  assert (E3 : Hk nd 373 = -281) by (unfold Hk; cbn; lra). assert (E4 : Hci nd 373 = -300) by (unfold Hci; cbn; lra).
  rewrite E1, E2, E3, E4. cbn. repeat split; lra.
Qed.

(** ---- C63 ---- conductivity: the value on an element *)
Theorem C63_conductivity l cs t : Conductivity l cs = Built t ->
  forall a X T,
  (forall c n o al tr g, In c cs -> names c a -> emat c = MObj n (Some o) -> sfind "model" o = Some (VStr "linear") ->
     let r k v := resolved o (lib_sub l n "linear") k (VNum v) in
     r "alpha_resistivity"%string al -> r "T_ref"%string tr -> r "sigma_T_ref"%string g ->
     Eval3 (Conductivity_mesh t) a X T = g / (1 + al * (T - tr)))
  /\ (forall c n m, In c cs -> names c a -> sfind n l = Some m ->
       (emat c = MName n \/ emat c = MObj n None \/ exists o, emat c = MObj n (Some o) /\ sfind "model" o = Some (VStr "constant")) ->
       Eval3 (Conductivity_mesh t) a X T = match plain m with Some v => v | None => 58140000 end)
  /\ ((forall c, In c cs -> ~ names c a) -> Eval3 (Conductivity_mesh t) a X T = 58140000).
Proof.
  intros H a X T. destruct (table_both _ _ _ H) as [Hu Ht].
  assert (G : forall c x, In c cs -> names c a -> cond_build l c = Built x -> mfind a t = Some x) by (intros c x H1 H2 H3; apply Ht; eauto).
  unfold Eval3, choose, Conductivity_mesh; cbn [material_map default_coeff]. rewrite map_mfind. split; [|split].
  - cbv zeta beta. intros c n o al tr g Hc Hn Hm Hmod r1 r2 r3. rewrite (G c (CLin al tr g) Hc Hn); [reflexivity|].
    unfold cond_build. rewrite Hm, Hmod. cbn [String.eqb Ascii.eqb Bool.eqb]. apply num_resolved in r1, r2, r3. rewrite r1, r2, r3. reflexivity.
  - intros c n m Hc Hn Hl Hm. rewrite (G c (CConst (match plain m with Some v => v | None => 58140000 end)) Hc Hn); [reflexivity|].
    unfold cond_build. destruct Hm as [-> |[-> |(o & -> & ->)]]; unfold cond_const, lib_number; cbn; rewrite Hl; reflexivity.
  - intros Hn. rewrite (unnamed _ _ _ a H Hn). reflexivity.
Qed.
Print Assumptions C63_conductivity.
Definition copper : libmat := {| plain := None; sub_of := fun m => if String.eqb m "linear"
  then Some [("alpha_resistivity"%string, VNum (393/100000)); ("T_ref"%string, VNum 293); ("sigma_T_ref"%string, VNum 58000000)] else None |}.
Example C63_conductivity_met : exists t, Conductivity [("cu"%string, copper)]
    [{| emat := MObj "cu" (Some [("model"%string, VStr "linear"); ("T_ref"%string, VNum 300)]); eattr := Some 1%Z; eattrs := None |};
     {| emat := MName "cu"; eattr := None; eattrs := Some [2%Z; 3%Z] |}] = Built t
  /\ forall X, Eval3 (Conductivity_mesh t) 1 X 300 = 58000000 /\ Eval3 (Conductivity_mesh t) 3 X 300 = 58140000 /\ Eval3 (Conductivity_mesh t) 7 X 1 = 58140000.
Proof. eexists. split; [reflexivity|]. intros X. split; [|split; reflexivity]. unfold Eval3, choose. cbn. unfold s_eval. field. Qed.
(** its derivative methods are derivatives wherever the resistivity 1 + alpha (T - T_ref) of the element's material is nonzero *)
Theorem C63_conductivity_derivatives l cs t a X T : Conductivity l cs = Built t ->
  (forall al tr g, mfind a t = Some (CLin al tr g) -> 1 + al * (T - tr) <> 0) ->
  is_derive (Eval3 (Conductivity_mesh t) a X) T (EvalStateDeriv (Conductivity_mesh t) a X T)
  /\ is_derive (EvalStateDeriv (Conductivity_mesh t) a X) T (EvalState2ndDeriv (Conductivity_mesh t) a X T).
Proof.
  intros _ Hn. unfold Eval3, EvalStateDeriv, EvalState2ndDeriv, choose, Conductivity_mesh; cbn [material_map default_coeff].
  rewrite map_mfind. destruct (mfind a t) as [[v|al tr g]|].
  - split; [exact (D_const v T)|exact (D_const 0 T)].
  - exact (s_derive al tr g T (Hn al tr g eq_refl)).
  - split; [exact (D_const 58140000 T)|exact (D_const 0 T)].
Qed.
Print Assumptions C63_conductivity_derivatives.
(** the linear model never returns a non-positive conductivity where the resistivity is positive, is sigma_T_ref at T_ref, and is the reciprocal of
    a resistivity linear in the temperature *)
Theorem C63_conductivity_model al tr g T : 0 < g -> 0 < 1 + al * (T - tr) ->
  0 < s_eval al tr g T /\ s_eval al tr g tr = g /\ / s_eval al tr g T = / g * (1 + al * (T - tr)).
Proof.
  intros Hg H. unfold s_eval. split; [apply Rdiv_lt_0_compat; assumption|]. split.
  - field_simplify; [reflexivity|]. intros E. ring_simplify in E. lra.
  - field. split; lra.
Qed.
Print Assumptions C63_conductivity_model.
(** an unknown model throws as soon as it is reached: the constructor never completes *)
Theorem C63_unknown_model l cs c n o m a : In c cs -> names c a -> emat c = MObj n (Some o) -> sfind "model" o = Some (VStr m) ->
  (m <> "constant"%string /\ m <> "linear"%string -> forall t, Conductivity l cs <> Built t)
  /\ (m <> "linear"%string /\ m <> "lognu"%string /\ m <> "bh"%string -> forall t, Reluctivity l cs <> Built t).
Proof.
  intros Hc Hn Hm Hmod.
  assert (K : forall A (b : ecomponent -> built A) t, b c = Threw -> reg_components b b cs [] <> Built t).
  { intros A b t Hb H. unfold reg_components in H.
    assert (R : forall cs t0 t, In c cs -> reg_components b b cs t0 <> Built t).
    { clear -Hn Hb. induction cs as [|d r IH]; intros t0 t Hc; [destruct Hc|]. cbn [reg_components].
      destruct Hc as [->|Hc].
      - unfold reg. destruct Hn as [[He Ha]|[He (la & Hla & Hin)]].
        + rewrite He. destruct (Z.eqb_spec a (-1)); [contradiction|]. cbn. rewrite Hb. discriminate.
        + assert (E : Z.eqb (match eattr c with Some a0 => a0 | None => (-1)%Z end) (-1) = true) by (destruct He as [-> | ->]; reflexivity).
          rewrite E, Hla, Hb. destruct la; [destruct Hin|]. cbn. discriminate.
      - destruct (reg b b t0 d); cbn; try discriminate. apply IH; exact Hc. }
    exact (R cs [] t Hc H). }
  split; intros Hneq t; apply K.
  - unfold cond_build. rewrite Hm, Hmod. destruct Hneq as [H1 H2]. apply String.eqb_neq in H1, H2. rewrite H1, H2. reflexivity.
  - unfold nu_build. rewrite Hm, Hmod. destruct Hneq as (H1 & H2 & H3). apply String.eqb_neq in H1, H2, H3. rewrite H1, H2, H3. reflexivity.
Qed.
Print Assumptions C63_unknown_model.
(** remnant flux density: linear in the temperature with the documented defaults, and its derivatives *)
Theorem C63_remnant o r T : remnant_build o = Built r ->
  (forall v, sfind "alpha_B_r" o = Some (VNum v) -> rAlpha r = v) /\ (sfind "alpha_B_r" o = None -> rAlpha r = - 12 / 100)
  /\ (forall v, sfind "T_ref" o = Some (VNum v) -> rT r = v) /\ (sfind "T_ref" o = None -> rT r = 29315 / 100)
  /\ (forall v, sfind "B_r_T_ref" o = Some (VNum v) -> rB r = v) /\ (sfind "B_r_T_ref" o = None -> rB r = 139 / 100)
  /\ r_eval r T = rB r + rB r * rAlpha r / 100 * (T - rT r) /\ r_eval r (rT r) = rB r
  /\ is_derive (r_eval r) T (r_d r T) /\ is_derive (r_d r) T (r_dd r T).
Proof.
  intros H. unfold remnant_build in H.
  destruct (sfind "alpha_B_r" o) as [[v1|v1|v1]|]; cbn in H; try discriminate;
  destruct (sfind "T_ref" o) as [[v2|v2|v2]|]; cbn in H; try discriminate;
  destruct (sfind "B_r_T_ref" o) as [[v3|v3|v3]|]; cbn in H; try discriminate;
  injection H as <-; cbn [rAlpha rT rB]; (split; [congruence|]); (split; [congruence|]); (split; [congruence|]); (split; [congruence|]);
  (split; [congruence|]); (split; [congruence|]); (split; [unfold r_eval; cbn; field|]); (split; [unfold r_eval; cbn; field|]);
  apply r_derive.
Qed.
Print Assumptions C63_remnant.
Example C63_remnant_met : exists r, remnant_build [("T_ref"%string, VNum 300)] = Built r /\ r_eval r 300 = 139 / 100.
Proof. eexists. split; [reflexivity|]. unfold r_eval; cbn. field. Qed.
(** knee flux density *)
Theorem C63_demag_flux l cs t : DemagFlux l cs = Built t -> forall a X T,
  is_derive (Eval3 (DemagFlux_mesh t) a X) T (EvalStateDeriv (DemagFlux_mesh t) a X T)
  /\ is_derive (EvalStateDeriv (DemagFlux_mesh t) a X) T (EvalState2ndDeriv (DemagFlux_mesh t) a X T)
  /\ (forall c n o al be, In c cs -> (exists la, eattrs c = Some la /\ In a la) -> emat c = MObj n (Some o) ->
       let r k v := resolved o (lib_sub l n "Demag") k (VNum v) in
       r "alpha_B_knee"%string al -> r "beta_B_knee"%string be -> Eval3 (DemagFlux_mesh t) a X T = al * T + be).
Proof.
  intros H a X T. unfold Eval3, EvalStateDeriv, EvalState2ndDeriv, choose, DemagFlux_mesh; cbn [material_map default_coeff].
  rewrite map_mfind. 
  assert (D : forall al be, is_derive (fun T => al * T + be) T al) by (intros; auto_derive; [trivial|req; ring]).
  split; [|split].
  - destruct (mfind a t) as [[|al be]|]; cbn; [exact (D_const 0 T)|exact (D al be)|exact (D_const 0 T)].
  - destruct (mfind a t) as [[|al be]|]; cbn; [exact (D_const 0 T)|exact (D_const al T)|exact (D_const 0 T)].
  - cbv zeta beta. intros c n o al be Hc Hl Hm r1 r2.
    destruct (reg_components_spec _ _ _ _ _ H (NoDup_nil _)) as [Hu Hin].
    assert (E : mfind a t = Some (DLin al be)).
    { apply mfind_some; [exact Hu|]. apply Hin. right. exists c. split; [exact Hc|].
      assert (B : dfl_build l c = Built (DLin al be)).
      { unfold dfl_build. rewrite Hm. apply num_resolved in r1, r2. rewrite r1, r2. reflexivity. }
      unfold gives. destruct (eattr c) as [y|] eqn:Ey; [|auto]. destruct (Z.eqb_spec y (-1)); [auto|].
      exfalso. refine (reg_components_throw (dfl_build l) cs [] _ t H). exists c, y. auto. }
    rewrite E. reflexivity.
Qed.
Print Assumptions C63_demag_flux.

(** ---- C64 ---- reluctivity: which model an element gets *)
Theorem C64_choice l cs t : Reluctivity l cs = Built t -> forall a,
  (forall c n m, In c cs -> names c a -> sfind n l = Some m ->
     (emat c = MName n \/ emat c = MObj n None \/ exists o, emat c = MObj n (Some o) /\ sfind "model" o = Some (VStr "linear")) ->
     mfind a t = Some (NLin (1 / ((match plain m with Some v => v | None => 1 end) * mu_0))))
  /\ (forall c n o, In c cs -> names c a -> emat c = MObj n (Some o) ->
       (sfind "model" o = Some (VStr "lognu") -> mfind a t = Some NLog) /\ (sfind "model" o = Some (VStr "bh") -> mfind a t = Some NBH))
  /\ ((forall c, In c cs -> ~ names c a) -> mfind a t = None).
Proof.
  intros H a. destruct (table_both _ _ _ H) as [Hu Ht].
  assert (G : forall c x, In c cs -> names c a -> nu_build l c = Built x -> mfind a t = Some x) by (intros c x H1 H2 H3; apply Ht; eauto).
  split; [|split].
  - intros c n m Hc Hn Hl Hm. apply (G c); [exact Hc|exact Hn|].
    unfold nu_build. destruct Hm as [-> |[-> |(o & -> & ->)]]; unfold nu_lin, lib_number; cbn; rewrite Hl; reflexivity.
  - intros c n o Hc Hn Hm. split; intros Hmod; apply (G c); try assumption; unfold nu_build; rewrite Hm, Hmod; reflexivity.
  - exact (unnamed _ _ _ a H).
Qed.
Print Assumptions C64_choice.
(** lognu model: the derivative methods are right below and above the last knot, for any spline whose own derivatives are *)
Theorem C64_lognu s b_max b : (b < b_max -> has_derivatives s b) -> b <> b_max ->
  is_derive (L_eval s b_max) b (L_d s b_max b) /\ is_derive (L_d s b_max) b (L_dd s b_max b) /\ 0 < L_eval s b_max b.
Proof.
  intros Hs Hb. assert (P : 0 < L_eval s b_max b) by (unfold L_eval; destruct (Rle_dec b b_max); [apply exp_pos|exact nu0_pos]).
  destruct (Rtotal_order b b_max) as [H|[H|H]]; [|contradiction|].
  - destruct (L_below s b_max b H (Hs H)) as [d1 d2]. split; [exact d1|]. split; [exact d2|exact P].
  - destruct (L_above s b_max b H) as [d1 d2]. split; [exact d1|]. split; [exact d2|exact P].
Qed.
Print Assumptions C64_lognu.
(** but the reluctivity jumps at the last knot unless the spline happens to end at the vacuum value: with control points that end
    anywhere else it is not even continuous, so no derivative can be right there *)
Theorem C64_lognu_refuted s b_max : exp (sv s b_max) <> nu0 -> ~ continuous (L_eval s b_max) b_max /\ ~ ex_derive (L_eval s b_max) b_max.
Proof.
  intros H. assert (N : ~ continuous (L_eval s b_max) b_max) by (intros Hc; exact (H (L_jump s b_max Hc))).
  split; [exact N|]. intros He. exact (N (ex_derive_continuous _ _ He)).
Qed.
Print Assumptions C64_lognu_refuted.
Example C64_lognu_met : exists s, has_derivatives s 1 /\ exp (sv s 2) <> nu0.
Proof.
  exists {| sv := fun _ => 0; sd := fun _ => 0; sdd := fun _ => 0 |}. split; [split; exact (D_const 0 1)|]. cbn. rewrite exp_0.
  unfold nu0, mu_0. intros H. assert (P := PI_4). pose proof PI_RGT_0. assert (4 / 10000000 * PI = 1); [|lra].
  apply (f_equal (fun x => x * (4 / 10000000 * PI))) in H. field_simplify in H; lra.
Qed.
(** BH model: the reluctivity times the flux density is the field of the curve, continued with the vacuum slope beyond the last
    knot, continuously; the first derivative is right except at and next to zero flux density and at the last knot *)
Theorem C64_bh s b_max h_max : 0 < b_max -> tiny < b_max -> sv s 1 = h_max -> continuous (sv s) 1 ->
  (forall b, tiny < b -> H_eval s b_max h_max b * b = (if Rle_dec b b_max then sv s (b / b_max) else h_max + nu0 * (b - b_max)))
  /\ continuous (H_eval s b_max h_max) b_max
  /\ (forall b, tiny < b -> b <> b_max -> (b < b_max -> is_derive (sv s) (b / b_max) (sd s (b / b_max))) ->
       exists a, H_d s b_max h_max b = Some a /\ is_derive (H_eval s b_max h_max) b a).
Proof.
  intros Hm Ht Hs Hc. split; [intros b; apply H_value|]. split; [exact (H_cont s b_max h_max Hm Ht Hs Hc)|].
  intros b Hb Hne Hd. destruct (Rtotal_order b b_max) as [H|[H|H]]; [|contradiction|].
  - exact (H_below s b_max h_max b Hm (conj Hb H) (Hd H)).
  - exact (H_above s b_max h_max b Hm Ht H).
Qed.
Print Assumptions C64_bh.
Example C64_bh_met : exists s, sv s 1 = 3 /\ continuous (sv s) 1 /\ is_derive (sv s) (1 / 2) (sd s (1 / 2)) /\ tiny < 2.
Proof.
  exists {| sv := fun t => 3 * t; sd := fun _ => 3; sdd := fun _ => 0 |}. cbn. split; [ring|].
  assert (D : forall x, is_derive (fun t => 3 * t) x 3) by (intros x; auto_derive; [trivial|req; ring]).
  split; [apply (ex_derive_continuous (fun t => 3 * t)); exists 3; apply D|]. split; [apply D|].
  unfold tiny. assert (1 <= 10 ^ 14) by (apply pow_R1_Rle; lra). apply Rmult_lt_reg_r with (10 ^ 14); [lra|]. unfold Rdiv. rewrite Rmult_assoc, Rinv_l by lra. lra.
Qed.
(** at zero flux density the derivative method's result is not finite, although the reluctivity is finite and constant next to it
    for a straight curve; and the second-derivative method returns 0 whatever the curve *)
Theorem C64_bh_refuted :
  (forall s b_max h_max, 0 < b_max -> H_d s b_max h_max 0 = None)
  /\ (exists s b_max h_max, 0 < b_max /\ is_derive (H_eval s b_max h_max) 0 0 /\ H_d s b_max h_max 0 = None)
  /\ (exists s b_max h_max b, tiny < b < b_max /\ (forall x, has_derivatives s x) /\
        ~ is_derive (Derive (H_eval s b_max h_max)) b (H_dd s b_max h_max b)).
Proof.
  assert (K : forall s b_max h_max, 0 < b_max -> H_d s b_max h_max 0 = None).
  { intros s m h Hm. unfold H_d. destruct (Rle_dec 0 m); [|lra]. rewrite odiv_zero by ring. reflexivity. }
  assert (T0 : 0 < tiny) by (unfold tiny; apply Rdiv_lt_0_compat; [lra|apply pow_lt; lra]).
  assert (T1 : tiny < 1).
  { unfold tiny. assert (10 <= 10 ^ 14) by (change (10 ^ 14) with (10 * 10 ^ 13); assert (1 <= 10 ^ 13) by (apply pow_R1_Rle; lra); lra).
    apply Rmult_lt_reg_r with (10 ^ 14); [lra|]. unfold Rdiv. rewrite Rmult_assoc, Rinv_l by lra. lra. }
  split; [exact K|]. split.
  - exists {| sv := fun t => 3 * t; sd := fun _ => 3; sdd := fun _ => 0 |}, 2, 3. split; [lra|]. split; [|apply K; lra].
    eapply is_derive_ext_loc; [|exact (D_const (3 / 2) 0)].
    eapply filter_imp; [|exact (below_loc 0 tiny T0)]. intros t Ht. cbv beta in *. unfold H_eval. cbn. destruct (Rle_dec t tiny); [reflexivity|lra].
  - exists {| sv := fun t => t ^ 3; sd := fun t => 3 * t ^ 2; sdd := fun t => 6 * t |}, 2, 1, 1. split; [lra|]. split.
    + intros x. split; cbn; auto_derive; trivial; req; ring.
    + intros D. unfold H_dd in D.
      assert (L : forall b, tiny < b < 2 -> Derive (H_eval {| sv := fun t => t ^ 3; sd := fun t => 3 * t ^ 2; sdd := fun t => 6 * t |} 2 1) b = b / 4).
      { intros b [Hb1 Hb2]. apply is_derive_unique.
        assert (E : is_derive (fun t => t ^ 2 / 8) b (b / 4)) by (auto_derive; [trivial|req; field]).
        eapply is_derive_ext_loc; [|exact E].
        eapply filter_imp; [|exact (filter_and _ _ (above_loc b tiny Hb1) (below_loc b 2 Hb2))]. intros t [H1 H2]. cbv beta in *.
        unfold H_eval. destruct (Rle_dec t tiny); [lra|]. destruct (Rle_dec t 2); [|lra]. cbn [sv]. req. field. lra. }
      assert (E : is_derive (fun t => t / 4) 1 0).
      { eapply is_derive_ext_loc; [|exact D]. eapply filter_imp; [|exact (filter_and _ _ (above_loc 1 tiny T1) (below_loc 1 2 ltac:(lra)))].
        intros t Ht. exact (L t Ht). }
      assert (E' : is_derive (fun t : R => t / 4) 1 (1 / 4)) by (auto_derive; [trivial|req; field]).
      pose proof (eq_trans (eq_sym (is_derive_unique _ _ _ E)) (is_derive_unique _ _ _ E')) as F. change (@eq R 0 (1 / 4)) in F. lra.
Qed.
Print Assumptions C64_bh_refuted.
