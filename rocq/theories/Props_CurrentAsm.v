(** C94 - C97: the 3-D current load. *)
From Coq Require Import Reals ZArith List Bool Arith Lia Lra FunctionalExtensionality.
From Coquelicot Require Import Coquelicot.
From Verif Require Import Vec Deriv EmInteg EmIntegSpec EmMeshProofs SbpSpec SbpMeshProofs CommonFun CommonFunProofs Projector ProjectorSpec ProjectorProofs Props_Projector CurrentAsm CurrentAsmSpec CurrentAsmProofs.
Import ListNotations.
Local Open Scope R_scope.

Section Claims.
Variables (dim n m NN : nat) (M : list celem) (hess : nat -> bool) (G : mat) (pcg : mat -> vec -> vec) (gmres : mat -> vec -> vec -> vec) (hpcg : mat -> vec -> vec) (ess : nat -> bool).
Notation P := (map c_el M).
(** the load object after a sequence of calls *)
Variables (X0 : mat) (c0 : density) (j0 k0 l0 : vec) (cs : list lcall).
Notation s := (lhistory dim M n m hess G pcg gmres hpcg ess (new_load X0 c0 j0 k0 l0) cs).
Notation add_load := (add_load dim M n m hess G pcg gmres ess).
Notation vjp_mesh := (vjp_mesh dim M n m hess G pcg gmres hpcg ess).
Notation vjp_density := (vjp_density dim M n m hess G pcg gmres ess).
(** the mesh and the current density last given by the caller *)
Notation X := (last_mesh X0 cs).
Notation c := (last_density c0 cs).
Hypothesis HN : pnumbered n m NN P.
Hypothesis HP : pvalid P X.
Hypothesis HV : lvalid M X.
Hypothesis HG : takes_gradients dim n G P.
Hypothesis HS : solves_system n pcg (eliminated hess (diffusion dim P X)).
Hypothesis HM : solves_from m gmres (nd_mass dim M X).

Lemma same_inner : same_mass dim M -> forall y z, field_product dim M X y z = nd_inner dim P X y z.
Proof.
  intros E y z. unfold field_product, nd_inner, inner. rewrite lsum_map. apply lsum_ext. intros e He.
  assert (K : forall r, (forall q, (q < r_nq r)%nat -> r_W r q (nodes_at X e) <> 0) -> rsum (r_nq r) (fun q => r_pw r q * r_W r q (nodes_at X e) * dot dim (nedelec dim X e r y q) (nedelec dim X e r z q)) =
    rsum (p_nd (c_el e)) (fun i => rsum (p_nd (c_el e)) (fun j => d_el (c_el e) y i * el_vmass dim r (nodes_at X e) i j * d_el (c_el e) z j))).
  { intros r W. rewrite (rsum_ext (p_nd (c_el e)) _ (fun i => rsum (p_nd (c_el e)) (fun j => d_el (c_el e) y i * rsum (r_nq r) (fun q => r_pw r q / r_W r q (nodes_at X e) * rsum dim (fun k => Vxt dim r (nodes_at X e) q i k * Vxt dim r (nodes_at X e) q j k)) * d_el (c_el e) z j))).
    - rewrite (pull_point (r_nq r) (p_nd (c_el e)) (p_nd (c_el e)) dim (fun q => r_pw r q / r_W r q (nodes_at X e)) (Vxt dim r (nodes_at X e)) (Vxt dim r (nodes_at X e))).
      apply rsum_ext. intros q Hq. unfold nedelec. rewrite dot_covariant by (now apply W). reflexivity.
    - intros i _. apply rsum_ext. intros j _. now rewrite el_vmass_eq. }
  rewrite K by (intros q Hq; apply Rgt_not_eq, (proj1 (HV e He) q Hq)).
  etransitivity; [|symmetry; exact (K (p_rule (c_el e)) (fun q Hq => Rgt_not_eq _ _ (proj2 (HP (c_el e) q (in_map c_el M e He) Hq))))].
  apply rsum_ext. intros i _. apply rsum_ext. intros j _. now rewrite (E e _ i j He).
Qed.
Lemma added : exists g, forall tv i, fst (add_load tv s) i = tv i - (if ess i then 0 else
   mv m (nd_mass dim M X) (free_part dim n m M hess G pcg X (gmres (nd_mass dim M X) (nd_load dim M c X) g)) i).
Proof.
  destruct (history_ok dim n m M hess G pcg gmres hpcg ess cs _ (good_new dim n m M hess G pcg gmres ess X0 c0 j0 k0 l0)) as [Gs [E1 E2]].
  destruct (clean_ok dim n m M hess G pcg gmres ess s Gs) as [_ [C1 [C2 [_ [g [A1 [A2 A3]]]]]]].
  exists g. intros tv i. unfold CurrentAsm.add_load. cbn [fst l_load]. rewrite A3, A2, A1, C1, C2, E1, E2. reflexivity.
Qed.

(** ** C94 *)
(** what addLoad subtracts, off the essential dofs: the dual of a weakly divergence-free field; no gradient of a function that
    vanishes on the boundary feels it; a weakly divergence-free field feels exactly the given current; a current that is
    itself weakly divergence free is left alone *)
Theorem C94_load : same_mass dim M -> exists load,
  (forall tv i, fst (add_load tv s) i = tv i - (if ess i then 0 else load i)) /\
  (exists k, weakly_divergence_free dim n hess P X k /\ forall y, dot m y load = field_product dim M X k y) /\
  (forall phi, vanishes n hess phi -> dot m (mv n G phi) load = 0) /\
  (forall y, weakly_divergence_free dim n hess P X y -> dot m y load = current_product dim M X c y) /\
  ((forall phi, vanishes n hess phi -> current_product dim M X c (mv n G phi) = 0) ->
    forall i, (i < m)%nat -> load i = current_product dim M X c (fun l => if Nat.eqb l i then 1 else 0)).
Proof.
  intros SM. destruct added as [g A]. set (j := gmres (nd_mass dim M X) (nd_load dim M c X) g) in *. set (k := free_part dim n m M hess G pcg X j) in *.
  exists (mv m (nd_mass dim M X) k).
  assert (W : weakly_divergence_free dim n hess P X k).
  { destruct (C89_irrotational dim n m NN P hess G pcg X HN HP HG HS j) as [_ [_ W]]. exact W. }
  assert (F : forall y, dot m y (mv m (nd_mass dim M X) k) = field_product dim M X k y).
  { intros y. rewrite (mass_form dim n m NN M HN), (mass_product dim M X k y HV). apply mform_comm. }
  assert (Gr : forall x phi, nd_inner dim P X x (mv n G phi) = inner dim P X (fun e => field_of dim e X x) (fun e => grad_of dim e X phi)).
  { intros x phi. unfold nd_inner. apply inner_ext; [reflexivity|]. intros e q a He Hq _. now apply (field_gradient dim n P G X). }
  assert (Z : forall phi, vanishes n hess phi -> dot m (mv n G phi) (mv m (nd_mass dim M X) k) = 0).
  { intros phi Hp. rewrite F, (same_inner SM), Gr. now apply W. }
  assert (Y : forall y, weakly_divergence_free dim n hess P X y -> dot m y (mv m (nd_mass dim M X) k) = current_product dim M X c y).
  { intros y Wy. rewrite (mass_form dim n m NN M HN).
    assert (Ek : mform dim M X k y = mform dim M X j y - mform dim M X (mv n G (potential n m hess pcg (refresh dim P X new_projector) j)) y).
    { assert (L := mform_lin dim n m NN M HN X j (-1) (mv n G (potential n m hess pcg (refresh dim P X new_projector) j)) y).
      replace k with (fun i => j i + -1 * mv n G (potential n m hess pcg (refresh dim P X new_projector) j) i) by (extensionality i; unfold k, free_part; ring). rewrite L. ring. }
    rewrite Ek. unfold j at 1. rewrite (l2_projection dim n m NN M gmres HN X c g y HM), <- (load_product dim M c X y HV).
    rewrite <- (mass_product dim M X y _ HV), (same_inner SM), Gr.
    rewrite Wy; [ring|]. exact (proj1 (pot_ok dim n m NN P hess pcg HN X j HS)). }
  split; [exact A|]. split; [exists k; split; assumption|]. split; [exact Z|]. split; [exact Y|].
  intros D i Hi. change (fun l => if Nat.eqb l i then 1 else 0) with (unit i). rewrite <- (dot_unit m i (mv m (nd_mass dim M X) k) Hi).
  set (psi := potential n m hess pcg (refresh dim P X new_projector) (unit i)).
  assert (Vp : vanishes n hess psi) by exact (proj1 (pot_ok dim n m NN P hess pcg HN X (unit i) HS)).
  destruct (C89_irrotational dim n m NN P hess G pcg X HN HP HG HS (unit i)) as [_ [_ Wu]]. cbn [irrot_mult snd] in Wu. fold psi in Wu.
  assert (Yu := Y _ Wu). assert (Zp := Z psi Vp). assert (Dp := D psi Vp).
  assert (S1 : dot m (fun l => unit i l - mv n G psi l) (mv m (nd_mass dim M X) k) = dot m (unit i) (mv m (nd_mass dim M X) k) - dot m (mv n G psi) (mv m (nd_mass dim M X) k)).
  { unfold dot. rewrite <- rsum_minus. apply rsum_ext. intros l _. ring. }
  assert (S2 : current_product dim M X c (fun l => unit i l - mv n G psi l) = current_product dim M X c (unit i) - current_product dim M X c (mv n G psi)).
  { rewrite !(load_product dim M c X _ HV), <- !(load_form dim n m NN M HN). unfold dot. rewrite <- rsum_minus. apply rsum_ext. intros l _. ring. }
  rewrite S1, S2 in Yu. lra.
Qed.
(** the right-hand side stays compatible: when the essential dofs lie on the boundary, adding the load changes nothing for
    gradients of functions vanishing on the boundary (the kernel of the curl-curl operator) *)
Theorem C94_compatible : same_mass dim M -> (forall phi i, vanishes n hess phi -> (i < m)%nat -> ess i = true -> mv n G phi i = 0) ->
  forall tv phi, vanishes n hess phi -> dot m (mv n G phi) (fst (add_load tv s)) = dot m (mv n G phi) tv.
Proof.
  intros SM B tv phi Hp. destruct (C94_load SM) as [load [A [_ [Z _]]]].
  rewrite <- (Rminus_0_r (dot m (mv n G phi) tv)), <- (Z phi Hp). unfold dot. rewrite <- rsum_minus. apply rsum_ext. intros i Hi. rewrite A.
  destruct (ess i) eqn:E; [rewrite (B phi i Hp Hi E); ring|ring].
Qed.

(** ** C95: the product with respect to "mesh_coords" adds the derivative, along any movement of the mesh, of the product of
    load_bar with what addLoad leaves after that mesh is set *)
Section Mesh.
Variable V : mat.
Hypothesis HF : rule_sees_fields dim M X m.
Hypothesis HR : rule_sees_gradients dim n hess P X.
Hypothesis HSt : exists d, 0 < d /\ forall t, Rabs t < d -> solves_system n pcg (eliminated hess (diffusion dim P (moved X V t))) /\ solves_from m gmres (nd_mass dim M (moved X V t)).
Hypothesis HT : solves_system n pcg (transposed (eliminated hess (diffusion dim P X))).
Hypothesis HTM : solves_system m hpcg (transposed (nd_mass dim M X)).
Hypothesis HGeo : geometry_rev dim M X.
Hypothesis HRules : same_sensitivity_rules dim M.
Hypothesis HC : density_rev dim M X c.
Theorem C95_mesh_partial : forall tv load_bar acc,
  is_derive (fun t => dot m load_bar (fst (add_load tv (set_load_inputs (Some (moved X V t)) None s)))) 0
    (pairing dim NN (fun k J => fst (vjp_mesh load_bar acc s) k J - acc k J) V).
Proof.
  intros tv lb acc.
  destruct (history_ok dim n m M hess G pcg gmres hpcg ess cs _ (good_new dim n m M hess G pcg gmres ess X0 c0 j0 k0 l0)) as [Gs [E1 E2]].
  set (st := s) in *. cbn [new_load l_X l_cur] in E1, E2.
  destruct (clean_ok dim n m M hess G pcg gmres ess st Gs) as [[Sy _] [C1 [C2 [_ [g0 [A1 [A2 A3]]]]]]].
  set (g := fun t : R => if Req_EM_T t 0 then g0 else l_j st).
  set (psl := cut ess lb).
  assert (Ls : locally 0 (fun t => solves_system n pcg (eliminated hess (diffusion dim P (moved X V t))) /\ solves_from m gmres (nd_mass dim M (moved X V t)))).
  { destruct HSt as [d [Pd Hd]]. exists (mkposreal d Pd). intros t Ht. apply Hd. change (Rabs (t - 0) < d) in Ht. now rewrite Rminus_0_r in Ht. }
  assert (K := load_mesh_derive dim n m NN M hess G pcg gmres hpcg HN X V c psl g HV HF HP HR).
  assert (K1 : is_derive (fun t => mform dim M (moved X V t) (free_part dim n m M hess G pcg (moved X V t) (gmres (nd_mass dim M (moved X V t)) (nd_load dim M c (moved X V t)) (g t))) psl) 0
    (pairing dim NN (fun k J => - (fst (vjp_mesh lb acc st) k J - acc k J)) V)).
  { eapply DV_eq; [apply K|].
    - revert Ls. apply filter_imp. now intros t [_ L].
    - revert Ls. apply filter_imp. now intros t [L _].
    - exact HT.
    - exact HTM.
    - intros e q He Hq. apply in_map_iff in He. destruct He as [e' [<- He]]. destruct (HGeo e' He) as [_ [_ [_ [_ [W _]]]]]. now apply W.
    - intros e q He Hq. apply in_map_iff in He. destruct He as [e' [<- He]]. destruct (HGeo e' He) as [_ [_ [_ [_ [_ W]]]]]. now apply W.
    - intros e He. apply in_map_iff in He. destruct He as [e' [<- He]]. now apply (HGeo e' He).
    - intros e He. apply in_map_iff in He. destruct He as [e' [<- He]]. now apply (HGeo e' He).
    - intros Y psi lam. rewrite !(dform_rule dim P). apply lsum_ext. intros e He. apply in_map_iff in He. destruct He as [e' [<- He]].
      apply rsum_ext. intros i _. apply rsum_ext. intros j _. destruct (HRules e' (pnodes (c_el e') Y) i j He) as [Q _]. now rewrite Q.
    - intros Y z lam. rewrite !(bform_rule dim P). apply lsum_ext. intros e He. apply in_map_iff in He. destruct He as [e' [<- He]].
      apply rsum_ext. intros i _. apply rsum_ext. intros j _. destruct (HRules e' (pnodes (c_el e') Y) i j He) as [_ Q]. now rewrite Q.
    - intros e He. now apply (HGeo e He).
    - intros e He. now apply (HGeo e He).
    - exact HC.
    - unfold g. destruct (Req_EM_T 0 0) as [_|Ne]; [|now elim Ne]. rewrite moved_0'.
      rewrite <- pairing_plus. apply pairing_ext. intros k J _ _. unfold CurrentAsm.vjp_mesh, divfree_vjp_in, irrot_vjp_in, divfree_vjp_mesh, irrot_vjp_mesh.
      unfold in_sync in Sy. rewrite C1, E1 in Sy. rewrite C1, E1, Sy, C2, E2, A2, A1, C1, C2, E1, E2. cbn [fst]. rewrite refresh_idem. fold psl. change (Bmat (refresh dim P X new_projector)) with (weak_div dim P X). ring. }
  apply (DV_ext (fun t => dot m lb tv + -1 * mform dim M (moved X V t) (free_part dim n m M hess G pcg (moved X V t) (gmres (nd_mass dim M (moved X V t)) (nd_load dim M c (moved X V t)) (g t))) psl)).
  - intros t.
    assert (Ft : forall tv i, fst (add_load tv (set_load_inputs (Some (moved X V t)) None st)) i = tv i - cut ess (mv m (nd_mass dim M (moved X V t)) (free_part dim n m M hess G pcg (moved X V t) (gmres (nd_mass dim M (moved X V t)) (nd_load dim M c (moved X V t)) (l_j st)))) i).
    { intros tv' i. unfold CurrentAsm.add_load, CurrentAsm.clean. cbn [set_load_inputs l_dirty].
      destruct (assemble_ok dim n m M hess G pcg gmres (l_cur st) (set_load_inputs (Some (moved X V t)) None st) eq_refl) as [_ [_ [_ [_ [Q5 [Q6 Q7]]]]]].
      cbn [set_load_inputs l_X l_cur l_j] in Q5, Q6, Q7. rewrite E2 in Q5, Q6, Q7. cbn [fst l_load set_load_inputs l_cur]. rewrite E2, Q7, Q6, Q5. reflexivity. }
    assert (Eg : mform dim M (moved X V t) (free_part dim n m M hess G pcg (moved X V t) (gmres (nd_mass dim M (moved X V t)) (nd_load dim M c (moved X V t)) (g t))) psl =
      mform dim M (moved X V t) (free_part dim n m M hess G pcg (moved X V t) (gmres (nd_mass dim M (moved X V t)) (nd_load dim M c (moved X V t)) (l_j st))) psl).
    { unfold g. destruct (Req_EM_T t 0) as [->|_]; [|reflexivity]. rewrite moved_0'.
      assert (U : veq m (gmres (nd_mass dim M X) (nd_load dim M c X) g0) (gmres (nd_mass dim M X) (nd_load dim M c X) (l_j st))).
      { apply (mass_unique dim n m NN M HN X); [exact HV|exact HF|]. intros y. rewrite !(l2_projection dim n m NN M gmres HN X c _ y HM). reflexivity. }
      rewrite <- !(mass_form dim n m NN M HN). apply dot_ext; [intros i _; reflexivity|]. intros i Hi. apply mv_ext; [reflexivity|]. intros l Hl. unfold free_part. rewrite (U l Hl). f_equal.
      f_equal. unfold potential. f_equal. f_equal. extensionality a. f_equal. apply mv_ext; [reflexivity|exact U]. }
    rewrite Eg, <- (mass_form dim n m NN M HN). unfold dot. rewrite <- rsum_scal, <- rsum_plus. apply rsum_ext. intros i _. rewrite Ft. unfold psl, cut. destruct (ess i); ring.
  - eapply DV_eq; [apply DV_plus; [apply DV_const|apply DV_scal; exact K1]|].
    unfold pairing. rewrite Rplus_0_l, <- rsum_scal. apply rsum_ext. intros k _. rewrite <- rsum_scal. apply rsum_ext. intros J _. ring.
Qed.
End Mesh.

(** ** C96: the product with respect to a current density is the derivative: u is the current with this density 1 and the
    others 0, f the current of the other groups *)
Theorem C96_density : rule_sees_fields dim M X m -> rule_sees_gradients dim n hess P X ->
  forall (u : density) (ct : R -> density) (f : Z -> vec -> vec), (forall t a x k, d_eval (ct t) a x k = f a x k + t * d_eval u a x k) ->
  forall tv load_bar (t : R), is_derive (fun t => dot m load_bar (fst (add_load tv (set_load_inputs None (Some (ct t)) s)))) t (fst (vjp_density u load_bar s)).
Proof.
  intros HF HR u ct f Hf tv lb t1.
  destruct (history_ok dim n m M hess G pcg gmres hpcg ess cs _ (good_new dim n m M hess G pcg gmres ess X0 c0 j0 k0 l0)) as [Gs [E1 _]].
  set (st := s) in *. cbn [new_load l_X] in E1.
  set (jj := fun cc => gmres (nd_mass dim M X) (nd_load dim M cc X) (l_j st)).
  set (L := fun cc => mv m (nd_mass dim M X) (free_part dim n m M hess G pcg X (jj cc))).
  assert (Fa : forall cc tv i, fst (add_load tv (set_load_inputs None (Some cc) st)) i = tv i - cut ess (L cc) i).
  { intros cc tv' i. unfold CurrentAsm.add_load, CurrentAsm.clean. cbn [set_load_inputs l_dirty].
    assert (Sy : in_sync dim M (set_load_inputs None (Some cc) st)) by exact (proj1 Gs).
    destruct (assemble_ok dim n m M hess G pcg gmres cc (set_load_inputs None (Some cc) st) Sy) as [_ [_ [_ [_ [Q5 [Q6 Q7]]]]]].
    cbn [set_load_inputs l_X l_cur l_j] in Q5, Q6, Q7. rewrite E1 in Q5, Q6, Q7. cbn [fst l_load set_load_inputs l_cur]. rewrite Q7, Q6, Q5. reflexivity. }
  assert (Fd : fst (vjp_density u lb st) = - dot m (cut ess (L u)) lb).
  { unfold CurrentAsm.vjp_density. cbn [fst].
    destruct (assemble_ok dim n m M hess G pcg gmres u st (proj1 Gs)) as [_ [_ [_ [_ [Q5 [Q6 Q7]]]]]]. rewrite E1 in Q5, Q6, Q7. rewrite Q7, Q6, Q5. reflexivity. }
  assert (LL : forall t i, (i < m)%nat -> L (ct t) i = L (ct 0) i + t * L u i).
  { intros t i Hi. unfold L. rewrite <- mv_lin. apply mv_ext; [reflexivity|].
    assert (J : veq m (jj (ct t)) (fun l => jj (ct 0) l + t * jj u l)).
    { apply (mass_unique dim n m NN M HN X); [exact HV|exact HF|]. intros y. rewrite (mform_lin dim n m NN M HN). unfold jj. rewrite !(l2_projection dim n m NN M gmres HN X _ _ y HM).
      unfold lform. rewrite <- lsum_scal, <- lsum_plus. apply lsum_ext. intros e _. rewrite <- rsum_scal, <- rsum_plus. apply rsum_ext. intros q _.
      unfold dot. rewrite <- !rsum_scal, <- rsum_plus. apply rsum_ext. intros k _. rewrite !Hf. ring. }
    intros l Hl. unfold free_part. rewrite (J l Hl).
    assert (PP : veq n (potential n m hess pcg (refresh dim P X new_projector) (jj (ct t))) (fun a => potential n m hess pcg (refresh dim P X new_projector) (jj (ct 0)) a + t * potential n m hess pcg (refresh dim P X new_projector) (jj u) a)).
    { destruct (pot_ok dim n m NN P hess pcg HN X (jj (ct 0)) HS) as [Ax Bx]. destruct (pot_ok dim n m NN P hess pcg HN X (jj u) HS) as [Ay By].
      apply (pot_unique dim n m NN P hess pcg HN X (jj (ct t)) _ HS HP HR); [now apply vanish_lin|].
      intros chi Ch. rewrite dform_lin, (Bx chi Ch), (By chi Ch), <- !(weak_div_form dim n m NN P HN).
      assert (Q : forall a, mv m (weak_div dim P X) (jj (ct t)) a = mv m (weak_div dim P X) (jj (ct 0)) a + t * mv m (weak_div dim P X) (jj u) a) by (intros a; rewrite <- mv_lin; apply mv_ext; [reflexivity|exact J]).
      unfold dot. rewrite (rsum_ext n (fun i => chi i * mv m (weak_div dim P X) (jj (ct t)) i) (fun i => chi i * mv m (weak_div dim P X) (jj (ct 0)) i + t * (chi i * mv m (weak_div dim P X) (jj u) i))) by (intros; rewrite Q; ring).
      rewrite rsum_plus, rsum_scal. ring. }
    rewrite (mv_ext n G G _ _ l (fun _ _ => eq_refl) PP), mv_lin. ring. }
  apply (DV_ext (fun t => dot m lb (fst (add_load tv (set_load_inputs None (Some (ct 0)) st))) + t * - dot m (cut ess (L u)) lb)).
  - intros t. unfold dot. rewrite <- rsum_opp, <- rsum_scal, <- rsum_plus. apply rsum_ext. intros i Hi. rewrite !Fa. unfold cut. destruct (ess i); [ring|]. rewrite (LL t i Hi). ring.
  - rewrite Fd. eapply DV_eq; [apply DV_plus; [apply DV_const|apply (DV_scal_r (- dot m (cut ess (L u)) lb) (fun t => t)); apply DV_id]|ring].
Qed.
End Claims.
Print Assumptions C94_load.
Print Assumptions C94_compatible.
Print Assumptions C95_mesh_partial.
Print Assumptions C96_density.

(** *** the example: two segments, one inner vertex, one current source on the first *)
Definition wire_el (a b mid ed : nat) : pelem := {| p_nn := 3; p_node := fun j => match j with O => a | S O => b | _ => mid end; p_nh := 2; p_h := fun j => match j with O => a | _ => b end;
  p_nd := 1; p_d := fun _ => ed; p_sg := fun _ => 1; p_rule := gauss1; p_diff_rule := gauss1; p_div_rule := gauss1 |}.
Definition wire (attr : Z) (e : pelem) : celem := {| c_el := e; c_attr := attr; c_mass := gauss1; c_lf := gauss1; c_N := fun _ j => match j with 2%nat => 1 | _ => 0 end |}.
Definition w1 : celem := wire 1 (wire_el 0 2 3 0).
Definition w2 : celem := wire 2 (wire_el 2 1 4 1).
Definition wires : list celem := [w1; w2].
Definition coil : density := {| d_eval := fun a x _ => if Z.eqb a 1 then x 0%nat else 0; d_rev := fun a x b _ => if Z.eqb a 1 then b 0%nat else 0 |}.
Definition wire_gm (A : mat) (b : vec) (_ : vec) : vec := fan_pcg A b.
Definition inner_moves : mat := fun _ j => if Nat.eqb j 2 then 1 else 0.
Notation wline t := (moved line inner_moves t).
Lemma wire_W1 t q : r_W gauss1 q (cnodes w1 (wline t)) = 1 + t.
Proof. unfold cnodes, pnodes, gauss1, seg_rule, seg_slope; cbn; unfold moved, line, inner_moves; cbn. field. Qed.
Lemma wire_W2 t q : r_W gauss1 q (cnodes w2 (wline t)) = 1 - t.
Proof. unfold cnodes, pnodes, gauss1, seg_rule, seg_slope; cbn; unfold moved, line, inner_moves; cbn. field. Qed.
Lemma wire_numbered : pnumbered 3 2 5 (map c_el wires).
Proof. intros e [<-|[<-|[]]]; (split; [|split]); intros [|[|[|i]]] Hi; cbn in *; lia. Qed.
Lemma wire_vmass Y i j : el_vmass 1 gauss1 Y i j = / r_W gauss1 0 Y.
Proof.
  rewrite el_vmass_eq. change (r_nq gauss1) with 1%nat. cbn [rsum]. unfold Vxt, dshapedxt. change (r_pw gauss1 0) with (/ 1). cbn [rsum]. 
  change (r_V gauss1 0 i 0%nat) with 1. change (r_V gauss1 0 j 0%nat) with 1. change (r_Adj gauss1 0 Y 0%nat 0%nat) with 1. unfold Rdiv. rewrite Rinv_1. ring.
Qed.
Lemma wire_diff Y i j : el_diff 1 gauss1 Y i j = (match i with O => -1 | _ => 1 end) * (match j with O => -1 | _ => 1 end) / r_W gauss1 0 Y.
Proof.
  unfold el_diff. change (r_nq gauss1) with 1%nat. cbn [rsum]. unfold Dxt, dshapedxt. change (r_pw gauss1 0) with (/ 1). cbn [rsum].
  change (r_dN gauss1 0 i 0%nat) with (match i with O => -1 | _ => 1 end). change (r_dN gauss1 0 j 0%nat) with (match j with O => -1 | _ => 1 end). change (r_Adj gauss1 0 Y 0%nat 0%nat) with 1. unfold Rdiv. rewrite Rinv_1. ring.
Qed.
Lemma wire_mass t i j : (i < 2)%nat -> (j < 2)%nat -> nd_mass 1 wires (wline t) i j = if Nat.eqb i j then (if Nat.eqb i 0 then / (1 + t) else / (1 - t)) else 0.
Proof.
  intros Hi Hj. unfold nd_mass, wires, lsum. cbn [map fold_right].
  assert (E1 := wire_vmass (cnodes w1 (wline t)) 0%nat 0%nat). assert (E2 := wire_vmass (cnodes w2 (wline t)) 0%nat 0%nat). rewrite wire_W1 in E1. rewrite wire_W2 in E2.
  change (c_mass w1) with gauss1. change (c_mass w2) with gauss1. change (p_nd (c_el w1)) with 1%nat. change (p_nd (c_el w2)) with 1%nat. cbn [rsum]. rewrite E1, E2.
  change (p_d (c_el w1) 0) with 0%nat. change (p_d (c_el w2) 0) with 1%nat. change (p_sg (c_el w1) 0) with 1. change (p_sg (c_el w2) 0) with 1.
  destruct i as [|[|i]]; try lia; destruct j as [|[|j]]; try lia; cbn [Nat.eqb andb]; ring.
Qed.
Lemma wire_D t : diffusion 1 (map c_el wires) (wline t) 2%nat 2%nat = / (1 + t) + / (1 - t).
Proof.
  unfold diffusion, wires, lsum. cbn [map fold_right].
  assert (E1 := fun i j => wire_diff (cnodes w1 (wline t)) i j). assert (E2 := fun i j => wire_diff (cnodes w2 (wline t)) i j).
  change (p_rule (c_el w1)) with gauss1. change (p_rule (c_el w2)) with gauss1. change (p_nh (c_el w1)) with 2%nat. change (p_nh (c_el w2)) with 2%nat. cbn [rsum].
  change (pnodes (c_el w1)) with (cnodes w1). change (pnodes (c_el w2)) with (cnodes w2). rewrite !E1, !E2, !wire_W1, !wire_W2.
  cbn [w1 w2 wire c_el wire_el p_h Nat.eqb andb]. unfold Rdiv. ring.
Qed.
Lemma wire_solve t : Rabs t < 1 / 2 -> solves_system 3 fan_pcg (eliminated seg_ess (diffusion 1 (map c_el wires) (wline t))) /\
  solves_system 3 fan_pcg (transposed (eliminated seg_ess (diffusion 1 (map c_el wires) (wline t)))).
Proof.
  intros H. apply Rabs_def2 in H. set (D := diffusion 1 (map c_el wires) (wline t)).
  assert (N : D 2%nat 2%nat <> 0).
  { unfold D. rewrite wire_D. assert (0 < / (1 + t)) by (apply Rinv_0_lt_compat; lra). assert (0 < / (1 - t)) by (apply Rinv_0_lt_compat; lra). lra. }
  assert (Di : forall i, (i < 3)%nat -> eliminated seg_ess D i i <> 0).
  { intros i Hi. unfold eliminated, seg_ess. destruct (Nat.ltb_spec i 2); cbn; [rewrite Nat.eqb_refl; lra|]. replace i with 2%nat by lia. exact N. }
  assert (Do : forall i j, (i < 3)%nat -> (j < 3)%nat -> i <> j -> eliminated seg_ess D i j = 0).
  { intros i j Hi Hj Ne. unfold eliminated, seg_ess. destruct (Nat.ltb_spec i 2), (Nat.ltb_spec j 2); cbn; try (destruct (Nat.eqb_spec i j); [lia|reflexivity]). lia. }
  split; intros b i Hi; unfold mv, transposed, fan_pcg.
  - rewrite (rsum_ext 3 _ (fun j => if Nat.eqb j i then b j else 0)); [now apply (rsum_delta 3 b)|].
    intros j Hj. destruct (Nat.eqb_spec j i) as [->|E]; [field; now apply Di|]. rewrite Do by (auto; lia). ring.
  - rewrite (rsum_ext 3 _ (fun j => if Nat.eqb j i then b j else 0)); [now apply (rsum_delta 3 b)|].
    intros j Hj. destruct (Nat.eqb_spec j i) as [->|E]; [field; now apply Di|]. rewrite Do by (auto; lia). ring.
Qed.
Lemma wire_mass_solve t : Rabs t < 1 / 2 -> solves_from 2 wire_gm (nd_mass 1 wires (wline t)) /\ solves_system 2 fan_pcg (transposed (nd_mass 1 wires (wline t))).
Proof.
  intros H. apply Rabs_def2 in H. set (A := nd_mass 1 wires (wline t)).
  assert (Di : forall i, (i < 2)%nat -> A i i <> 0).
  { intros i Hi. unfold A. rewrite wire_mass by assumption. rewrite Nat.eqb_refl. destruct (Nat.eqb_spec i 0); apply Rinv_neq_0_compat; lra. }
  assert (Do : forall i j, (i < 2)%nat -> (j < 2)%nat -> i <> j -> A i j = 0).
  { intros i j Hi Hj Ne. unfold A. rewrite wire_mass by assumption. destruct (Nat.eqb_spec i j); [lia|reflexivity]. }
  split; [intros b g i Hi|intros b i Hi]; unfold mv, transposed, wire_gm, fan_pcg.
  - rewrite (rsum_ext 2 _ (fun j => if Nat.eqb j i then b j else 0)); [now apply (rsum_delta 2 b)|].
    intros j Hj. destruct (Nat.eqb_spec j i) as [->|E]; [field; now apply Di|]. rewrite Do by (auto; lia). ring.
  - rewrite (rsum_ext 2 _ (fun j => if Nat.eqb j i then b j else 0)); [now apply (rsum_delta 2 b)|].
    intros j Hj. destruct (Nat.eqb_spec j i) as [->|E]; [field; now apply Di|]. rewrite Do by (auto; lia). ring.
Qed.
Lemma line_0 : wline 0 = line.
Proof. extensionality k. extensionality j. unfold moved. ring. Qed.
Lemma wire_lens : r_W gauss1 0 (nodes_at line w1) = 1 /\ r_W gauss1 0 (nodes_at line w2) = 1.
Proof. unfold nodes_at, gauss1, seg_rule, seg_slope; cbn; unfold line; cbn. split; field. Qed.
Lemma wire_valid : pvalid (map c_el wires) line /\ lvalid wires line.
Proof.
  destruct wire_lens as [L1 L2]. split.
  - intros e q [<-|[<-|[]]] Hq; (destruct q as [|q]; [|cbn in Hq; lia]); (split; [cbn; lra|]).
    + change (0 < r_W gauss1 0 (nodes_at line w1)). lra.
    + change (0 < r_W gauss1 0 (nodes_at line w2)). lra.
  - intros e [<-|[<-|[]]]; (split; intros q Hq; (destruct q as [|q]; [|cbn in Hq; lia])).
    + split; [cbn; lra|]. change (0 < r_W gauss1 0 (nodes_at line w1)). lra.
    + change (r_W gauss1 0 (nodes_at line w1) <> 0). lra.
    + split; [cbn; lra|]. change (0 < r_W gauss1 0 (nodes_at line w2)). lra.
    + change (r_W gauss1 0 (nodes_at line w2) <> 0). lra.
Qed.
Lemma wire_geometry : geometry_rev 1 wires line.
Proof.
  assert (R0 : forall np xi, rule_rev 1 3 (seg_rule np xi)).
  { intros np xi q Hq. split.
    - intros Y V0 B. cbn. unfold pairing. cbn. apply (DV_eq _ 0 0); [|ring]. apply DV_const.
    - intros Y V0 b. cbn. unfold pairing, moved. cbn. auto_derive; [exact Logic.I|]. ring. }
  destruct wire_lens as [L1 L2].
  intros e [<-|[<-|[]]]; (do 4 (split; [exact (R0 _ _)|])); (split; intros q Hq; (destruct q as [|q]; [|cbn in Hq; lia])).
  - change (r_W gauss1 0 (nodes_at line w1) <> 0). lra.
  - change (r_W gauss1 0 (nodes_at line w1) <> 0). lra.
  - change (r_W gauss1 0 (nodes_at line w2) <> 0). lra.
  - change (r_W gauss1 0 (nodes_at line w2) <> 0). lra.
Qed.
(** the load after one addLoad and one product with respect to the density: all hypotheses of C94, C95 and C96 hold *)
Definition wire_calls : list lcall := [LAdd zero_vec; LDensity coil e0; LMesh e0 (fun _ _ => 0)].
Example C94_nonvacuous : last_mesh line wire_calls = line /\ last_density coil wire_calls = coil /\
  pnumbered 3 2 5 (map c_el wires) /\ pvalid (map c_el wires) line /\ lvalid wires line /\ takes_gradients 1 3 seg_G (map c_el wires) /\
  solves_system 3 fan_pcg (eliminated seg_ess (diffusion 1 (map c_el wires) line)) /\ solves_from 2 wire_gm (nd_mass 1 wires line) /\ same_mass 1 wires /\
  (forall phi i, vanishes 3 seg_ess phi -> (i < 2)%nat -> (fun _ => false) i = true -> mv 3 seg_G phi i = 0).
Proof.
  assert (Z : Rabs 0 < 1 / 2) by (rewrite Rabs_R0; lra).
  split; [reflexivity|]. split; [reflexivity|]. split; [exact wire_numbered|]. split; [apply wire_valid|]. split; [apply wire_valid|]. split.
  { intros e q k psi [<-|[<-|[]]] Hq Hk; (destruct k as [|k]; [|lia]); cbn; unfold seg_G; ring. }
  rewrite <- line_0. split; [apply (wire_solve 0 Z)|]. split; [apply (wire_mass_solve 0 Z)|]. split; [|discriminate].
  intros e Y i j [<-|[<-|[]]]; reflexivity.
Qed.
Example C95_nonvacuous : rule_sees_fields 1 wires line 2 /\ rule_sees_gradients 1 3 seg_ess (map c_el wires) line /\
  (exists d, 0 < d /\ forall t, Rabs t < d -> solves_system 3 fan_pcg (eliminated seg_ess (diffusion 1 (map c_el wires) (wline t))) /\ solves_from 2 wire_gm (nd_mass 1 wires (wline t))) /\
  solves_system 3 fan_pcg (transposed (eliminated seg_ess (diffusion 1 (map c_el wires) line))) /\ solves_system 2 fan_pcg (transposed (nd_mass 1 wires line)) /\
  geometry_rev 1 wires line /\ same_sensitivity_rules 1 wires /\ density_rev 1 wires line coil.
Proof.
  assert (Z : Rabs 0 < 1 / 2) by (rewrite Rabs_R0; lra). destruct wire_lens as [L1 L2].
  split.
  { intros y H. assert (K1 := H w1 0%nat 0%nat ltac:(now left) ltac:(cbn; lia) ltac:(lia)). assert (K2 := H w2 0%nat 0%nat ltac:(right; now left) ltac:(cbn; lia) ltac:(lia)).
    unfold nedelec, covariant in K1, K2. change (c_mass w1) with gauss1 in K1. change (c_mass w2) with gauss1 in K2. rewrite L1 in K1. rewrite L2 in K2. cbn in K1, K2.
    intros [|[|i]] Hi; [| |lia]; lra. }
  split.
  { intros psi V H. assert (K1 := H (c_el w1) 0%nat 0%nat ltac:(now left) ltac:(cbn; lia) ltac:(lia)).
    unfold grad_of, covariant in K1. change (p_rule (c_el w1)) with gauss1 in K1. change (fun k j => line k (p_node (c_el w1) j)) with (nodes_at line w1) in K1. rewrite L1 in K1. cbn in K1.
    assert (Z0 := V 0%nat ltac:(lia) eq_refl). assert (Z1 := V 1%nat ltac:(lia) eq_refl). intros [|[|[|i]]] Hi; [assumption|assumption| |lia]. rewrite Z0 in K1. lra. }
  split; [exists (1 / 2); split; [lra|]; intros t Ht; split; [apply (wire_solve t Ht)|apply (wire_mass_solve t Ht)]|].
  rewrite <- line_0 at 1 2. split; [apply (wire_solve 0 Z)|]. split; [apply (wire_mass_solve 0 Z)|]. split; [exact wire_geometry|]. split.
  - intros e Y i j [<-|[<-|[]]]; split; reflexivity.
  - intros e q b d [<-|[<-|[]]] Hq; cbn; unfold dot; cbn.
    + eapply DV_eq; [apply (DV_ext (fun t => b 0%nat * position w1 (nodes_at line w1) q 0%nat + t * (b 0%nat * d 0%nat))); [intros; cbn; ring|]|].
      * apply DV_plus; [apply DV_const|]. apply (DV_scal_r _ (fun t => t)). apply DV_id.
      * ring.
    + eapply DV_eq; [apply (DV_ext (fun t => 0)); [intros; cbn; ring|apply DV_const]|ring].
Qed.
(** the value on the mesh: the load of the current 1/4 on the first segment *)
Example C94_value : fst (add_load 1 wires 3 2 seg_ess seg_G fan_pcg wire_gm (fun _ => false) zero_vec
   (lhistory 1 wires 3 2 seg_ess seg_G fan_pcg wire_gm fan_pcg (fun _ => false) (new_load line coil zero_vec zero_vec zero_vec) wire_calls)) 0%nat = - (1 / 8).
Proof.
  destruct C94_nonvacuous as [_ [_ [HN [HP [HV [HG [HS [HM [SM _]]]]]]]]].
  destruct (C94_load 1 3 2 5 wires seg_ess seg_G fan_pcg wire_gm fan_pcg (fun _ => false) line coil zero_vec zero_vec zero_vec wire_calls HN HP HV HG HS HM SM) as [load [A [_ [Z [Y _]]]]].
  change (last_mesh line wire_calls) with line in *. change (last_density coil wire_calls) with coil in *.
  destruct wire_lens as [L1 L2].
  assert (Z1 := Z (fun i => if Nat.eqb i 2 then 1 else 0)). assert (Y1 := Y (fun _ => 1)).
  assert (V : vanishes 3 seg_ess (fun i => if Nat.eqb i 2 then 1 else 0)) by (intros [|[|[|i]]] Hi E; cbn in *; try reflexivity; try lia; discriminate).
  specialize (Z1 V). unfold dot, mv, seg_G in Z1. cbn in Z1.
  assert (W : weakly_divergence_free 1 3 seg_ess (map c_el wires) line (fun _ => 1)).
  { intros phi Vp. assert (P0 := Vp 0%nat ltac:(lia) eq_refl). assert (P1 := Vp 1%nat ltac:(lia) eq_refl).
    unfold inner, wires, lsum. cbn [map fold_right]. change (p_rule (c_el w1)) with gauss1. change (p_rule (c_el w2)) with gauss1. change (r_nq gauss1) with 1%nat. cbn [rsum].
    unfold field_of, grad_of, covariant. change (p_rule (c_el w1)) with gauss1. change (p_rule (c_el w2)) with gauss1.
    change (fun k j => line k (p_node (c_el w1) j)) with (nodes_at line w1). change (fun k j => line k (p_node (c_el w2) j)) with (nodes_at line w2). unfold dot. cbn [rsum]. rewrite L1, L2. cbn. rewrite P0, P1. field. }
  specialize (Y1 W). unfold current_product, wires, lsum in Y1. cbn [fold_right map] in Y1. change (c_lf w1) with gauss1 in Y1. change (c_lf w2) with gauss1 in Y1. change (r_nq gauss1) with 1%nat in Y1. cbn [rsum] in Y1.
  unfold nedelec, covariant, dot in Y1. cbn [rsum] in Y1. change (c_lf w1) with gauss1 in Y1. change (c_lf w2) with gauss1 in Y1. rewrite L1, L2 in Y1. cbn in Y1. unfold nodes_at in Y1. cbn in Y1.
  rewrite A. unfold zero_vec. lra.
Qed.
Example C96_nonvacuous : exists (u : density) (ct : R -> density) (f : Z -> vec -> vec), (forall t a x k, d_eval (ct t) a x k = f a x k + t * d_eval u a x k) /\ d_eval u 1%Z (fun _ => 1) 0%nat = 1 /\ f 2%Z (fun _ => 1) 0%nat = 3.
Proof.
  exists coil, (fun t => {| d_eval := fun a x k => (if Z.eqb a 2 then 3 else 0) + t * d_eval coil a x k; d_rev := fun _ _ _ _ => 0 |}), (fun a _ _ => if Z.eqb a 2 then 3 else 0).
  split; [reflexivity|]. split; reflexivity.
Qed.

(** ** C97: the two sensitivity integrators on one element: the product with a movement of its nodes is the derivative of the
    adjoint-weighted element matrix times state (VectorFEMassIntegrator), or element vector (VectorFEDomainLFIntegrator) *)
Definition no_points : rule := {| r_nq := 0; r_pw := fun _ => 0; r_dN := fun _ _ _ => 0; r_V := fun _ _ _ => 0; r_Adj := fun _ _ _ _ => 0; r_AdjRev := fun _ _ _ _ _ => 0; r_W := fun _ _ => 0; r_WRev := fun _ _ _ _ _ => 0 |}.
Definition alone (nn nd : nat) (mass lf : rule) (attr : Z) (N : nat -> nat -> R) : celem :=
  {| c_el := {| p_nn := nn; p_node := fun j => j; p_nh := 0; p_h := fun j => j; p_nd := nd; p_d := fun j => j; p_sg := fun _ => 1; p_rule := no_points; p_diff_rule := no_points; p_div_rule := no_points |};
     c_attr := attr; c_mass := mass; c_lf := lf; c_N := N |}.
Theorem C97_mass_partial : forall dim nn nd r X V u psi, rule_rev dim nn r -> (forall q, (q < r_nq r)%nat -> 0 < r_pw r q /\ 0 < r_W r q X) ->
  is_derive (fun t => rsum nd (fun i => rsum nd (fun j => psi i * el_vmass dim r (moved X V t) i j * u j))) 0 (pairing dim nn (vmass_mesh dim nd r 1 X u psi) V).
Proof.
  intros dim nn nd r X V u psi HR HW. set (e := alone nn nd r no_points 0 (fun _ _ => 0)).
  assert (HL : lvalid [e] X) by (intros e' [<-|[]]; split; [exact HW|intros q Hq; cbn in Hq; lia]).
  assert (HR' : forall e', In e' [e] -> rule_rev dim (p_nn (c_el e')) (c_mass e')) by (intros e' [<-|[]]; exact HR).
  eapply DV_ext; [|exact (vmass_element dim [e] X V HL HR' e u psi (or_introl eq_refl))].
  intros t. cbv beta. change (cnodes e (moved X V t)) with (moved X V t). change (c_mass e) with r. change (p_nd (c_el e)) with nd. symmetry.
  rewrite <- (pull_point (r_nq r) nd nd dim (fun q => r_pw r q / r_W r q (moved X V t)) (Vxt dim r (moved X V t)) (Vxt dim r (moved X V t)) psi u).
  apply rsum_ext. intros i _. apply rsum_ext. intros j _. now rewrite el_vmass_eq.
Qed.
(** with a factor other than 1 the part of the weight is wrong *)
Theorem C97_mass_scaled_refuted : ~ forall dim nn nd r X V u psi alpha, rule_rev dim nn r -> (forall q, (q < r_nq r)%nat -> 0 < r_pw r q /\ 0 < r_W r q X) ->
  is_derive (fun t => alpha * rsum nd (fun i => rsum nd (fun j => psi i * el_vmass dim r (moved X V t) i j * u j))) 0 (pairing dim nn (vmass_mesh dim nd r alpha X u psi) V).
Proof.
  intros H. set (Y := fun (k j : nat) => match j with S O => 1 | _ => 0 end : R). set (V := fun (k j : nat) => match j with S O => 1 | _ => 0 end : R).
  assert (R1 : rule_rev 1 3 gauss1) by exact (proj1 (wire_geometry w1 (or_introl eq_refl))).
  assert (W1 : forall q, (q < r_nq gauss1)%nat -> 0 < r_pw gauss1 q /\ 0 < r_W gauss1 q Y) by (intros q _; unfold gauss1, Y; cbn; unfold seg_slope; split; lra).
  assert (A := H 1%nat 3%nat 1%nat gauss1 Y V (fun _ => 1) (fun _ => 1) 2 R1 W1).
  assert (B := DV_scal 2 _ _ _ (C97_mass_partial 1 3 1 gauss1 Y V (fun _ => 1) (fun _ => 1) R1 W1)).
  assert (E := DV_unique _ _ _ _ A B). clear A B H R1 W1. unfold pairing, vmass_mesh in E. change (r_nq gauss1) with 1%nat in E. cbn [rsum] in E.
  unfold at_point, Vxt, dshapedxt, dot in E. unfold gauss1, seg_rule in E. cbn [r_pw r_W r_WRev r_AdjRev r_V r_Adj rsum] in E. unfold seg_slope, Y, V in E. cbn [INR] in E. field_simplify in E. lra.
Qed.
Theorem C97_load : forall dim nn nd r attr N c X V psi alpha, let e := alone nn nd no_points r attr N in rule_rev dim nn r -> (forall q, (q < r_nq r)%nat -> r_W r q X <> 0) ->
  (forall q b d, (q < r_nq r)%nat -> let x := fun k => rsum nn (fun j => X k j * N q j) in
     is_derive (fun t => dot dim b (d_eval c attr (fun k => x k + t * d k))) 0 (dot dim (d_rev c attr x b) d)) ->
  is_derive (fun t => alpha * rsum nd (fun i => psi i * el_vload dim e c (moved X V t) i)) 0 (pairing dim nn (vload_mesh dim e c alpha X psi) V).
Proof.
  intros dim nn nd r attr N c X V psi alpha e HR HW HC.
  assert (HL : lvalid [e] X) by (intros e' [<-|[]]; split; [intros q Hq; cbn in Hq; lia|exact HW]).
  assert (HR' : forall e', In e' [e] -> rule_rev dim (p_nn (c_el e')) (c_lf e')) by (intros e' [<-|[]]; exact HR).
  assert (HC' : density_rev dim [e] X c) by (intros e' q b d [<-|[]] Hq; exact (HC q b d Hq)).
  assert (D : d_el (c_el e) psi = psi) by (extensionality i; unfold d_el; cbn; ring).
  eapply DV_eq; [eapply DV_ext; [|exact (lform_derive dim [e] X V HL HR' c HC' alpha psi)]|].
  - intros t. cbv beta. f_equal. unfold lform, lsum. cbn [map fold_right]. rewrite Rplus_0_r, D. change (cnodes e (moved X V t)) with (moved X V t). change (c_lf e) with r. change (p_nd (c_el e)) with nd.
    unfold el_vload. change (c_lf e) with r. symmetry.
    rewrite (rsum_ext nd _ (fun i => rsum (r_nq r) (fun q => psi i * rsum dim (fun k => Vxt dim r (moved X V t) q i k / r_W r q (moved X V t) * (r_pw r q * r_W r q (moved X V t) * d_eval c (c_attr e) (position e (moved X V t) q) k))))) by (intros; now rewrite rsum_scal).
    rewrite (rsum_swap nd (r_nq r)). apply rsum_ext. intros q _.
    unfold dot, at_point. rewrite <- rsum_scal.
    rewrite (rsum_ext nd _ (fun i => rsum dim (fun k => psi i * (Vxt dim r (moved X V t) q i k / r_W r q (moved X V t) * (r_pw r q * r_W r q (moved X V t) * d_eval c (c_attr e) (position e (moved X V t) q) k))))) by (intros; now rewrite rsum_scal).
    rewrite (rsum_swap nd dim). apply rsum_ext. intros k _. rewrite <- rsum_scal_r, <- rsum_scal. apply rsum_ext. intros i _. unfold Rdiv. ring.
  - unfold lsum. cbn [map fold_right]. rewrite D. change (cnodes e X) with X. change (cnodes e V) with V. rewrite Rplus_0_r. reflexivity.
Qed.
Print Assumptions C97_mass_partial.
Print Assumptions C97_mass_scaled_refuted.
Print Assumptions C97_load.
Example C97_nonvacuous : rule_rev 1 3 gauss1 /\ (forall q, (q < r_nq gauss1)%nat -> 0 < r_pw gauss1 q /\ 0 < r_W gauss1 q (nodes_at line w1)) /\
  (forall q b d, (q < r_nq gauss1)%nat -> let x := position w1 (nodes_at line w1) q in is_derive (fun t => dot 1 b (d_eval coil 1 (fun k => x k + t * d k))) 0 (dot 1 (d_rev coil 1 x b) d)).
Proof.
  split; [exact (proj1 (wire_geometry w1 (or_introl eq_refl)))|]. split; [exact (proj1 (proj2 wire_valid w1 (or_introl eq_refl)))|].
  intros q b d Hq. destruct C95_nonvacuous as [_ [_ [_ [_ [_ [_ [_ D]]]]]]]. exact (D w1 q b d (or_introl eq_refl) Hq).
Qed.
