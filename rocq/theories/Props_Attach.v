(** C143: integrators restricted to mesh attributes, in outputs, loads and residuals. *)
From Coq Require Import Reals String List ZArith Bool Lia Lra.
From Coquelicot Require Import Coquelicot.
From Verif Require Import Num Vec BdrArray BdrArrayProofs AttachSpec Attach AttachProofs.
Import ListNotations.
Local Open Scope R_scope.

(** Whatever sequence of integrators is added to an output, a load or a residual, each to a listed part of the mesh or to
    all of it, the assembled value is the sum of every integrator's contributions from exactly the items of its part.
    (For a residual: all but its attribute-restricted domain integrators, refuted below.) *)
Theorem C143_value : forall (K : kind) (m : mesh) (fields : list string) (nm : string) (l : list request) f,
  (forall it, In it (m_elems m ++ m_bdr m ++ m_ibdr m) -> (1 <= fst it)%Z) ->
  List.Forall (fun q => K = Nonlinear -> rq_region q = Domain -> rq_attrs q = None) l ->
  build (add_of K) m fields nm l empty = Ok f ->
  forall e, value m f e = Some (fold_right (fun q s => part_sum (rq_attrs q) (items m (rq_region q)) (energy (rq_integ q) e) + s) 0 l).
Proof.
  intros K m fields nm l f HG HR HB e. rewrite (value_build K m fields nm l HG HR empty f 0 e HB eq_refl). f_equal. unfold total. ring.
Qed.
Print Assumptions C143_value.

(** Its sensitivity with respect to an input is the partial derivative of that value, provided every integrator's overload
    is one of the code's, its registered kernels are the derivatives of its contribution and its contribution does not
    depend on what it does not register.  Exceptions: ForceIntegrator and CurlCurlNLFIntegrator when restricted, and a
    named SteinmetzLossIntegrator. *)
Theorem C143_sensitivity : forall (K : kind) (m : mesh) (fields : list string) (nm : string) (l : list request) f (n : string) (k : nat) (e : env),
  (forall it, In it (m_elems m ++ m_bdr m ++ m_ibdr m) -> (1 <= fst it)%Z) ->
  List.Forall (fun q => K = Nonlinear -> rq_region q = Domain -> rq_attrs q = None) l ->
  List.Forall (fun q => In (over (rq_integ q)) overloads /\ (over (rq_integ q) = ov_Steinmetz -> inst (rq_integ q) = ""%string) /\
    (rq_attrs q <> None -> over (rq_integ q) <> ov_Force /\ over (rq_integ q) <> ov_CurlCurl)) l ->
  List.Forall (fun q => differentiates (rq_integ q) n k e) l ->
  build (add_of K) m fields nm l empty = Ok f ->
  exists (V : env -> R) d, (forall e', value m f e' = Some (V e')) /\ sensitivity m f n k e = Some d /\ is_partial V e n k d.
Proof.
  intros K m fields nm l f n k e HG HR HO HD HB. exists (total m l), (total_sens m l n k e). split; [|split].
  - intros e'. rewrite (value_build K m fields nm l HG HR empty f 0 e' HB eq_refl). f_equal. ring.
  - assert (HF : List.Forall forwards l).
    { eapply Forall_impl; [|exact HO]. intros q (H1 & _ & H3) Ha. destruct (H3 Ha) as [N1 N2].
      destruct (registry_forwards _ H1) as [E | [E | E]]; [contradiction|contradiction|exact E]. }
    rewrite (sens_build K m fields nm l HG HR HF empty f 0 n k e HB eq_refl). f_equal. ring.
  - apply total_derive. rewrite List.Forall_forall in *. intros q Hq. destruct (HO q Hq) as (H1 & H2 & _). split; [|exact (HD q Hq)].
    now apply registry_consistent.
Qed.
Print Assumptions C143_sensitivity.

(** A call is accepted when its attributes exist (between 1 and the largest one of the mesh) and the fields its overload
    looks up are there. *)
Theorem C143_accepted : forall (K : kind) (m : mesh) (fields : list string) (nm : string) (q : request) f,
  (K = Linear -> rq_region q <> InteriorFace) -> (K = Nonlinear -> rq_region q = Domain -> rq_attrs q = None) ->
  (rq_region q = InteriorFace -> rq_attrs q = None) ->
  (forall a, rq_attrs q = Some a -> exists M,
     (rq_region q = Domain /\ attributes_Max m = Some M \/ rq_region q <> Domain /\ bdr_attributes_Max m = Some M) /\
     forall x, In x a -> (1 <= x <= M)%Z) ->
  (forall n, In n (ov_needs (over (rq_integ q)) nm) -> In n fields) ->
  exists f', add_of K m fields nm (rq_region q) (rq_attrs q) (rq_integ q) f = Ok f'.
Proof.
  intros K m fields nm [r attrs I] f HL HN HI HA HF; simpl in *.
  assert (EF : forallb (fun n => existsb (String.eqb n) fields) (ov_needs (over I) nm) = true).
  { apply forallb_forall. intros n Hn. apply existsb_exists. exists n. split; [now apply HF|apply String.eqb_refl]. }
  destruct attrs as [a|].
  - destruct (HA a eq_refl) as (M & HM & Hx). destruct (newMarker_some M a Hx) as [mk E].
    destruct r.
    + destruct HM as [[_ HM]|[HM _]]; [|easy]. destruct K; simpl; unfold fo_add, lf_add, nf_add, with_marker; try rewrite HM, E; unfold attach; try rewrite EF; eauto.
      discriminate (HN eq_refl eq_refl).
    + destruct HM as [[HM _]|[_ HM]]; [easy|]. destruct K; simpl; unfold fo_add, lf_add, nf_add, with_marker; rewrite HM, E; unfold attach; rewrite EF; eauto.
    + destruct HM as [[HM _]|[_ HM]]; [easy|]. destruct K; simpl; unfold fo_add, lf_add, nf_add, with_marker; rewrite HM, E; unfold attach; rewrite EF; eauto.
    + discriminate (HI eq_refl).
  - destruct K, r; simpl; unfold attach; rewrite ?EF; eauto. now destruct (HL eq_refl).
Qed.
Print Assumptions C143_accepted.

(** An attribute that does not exist on the mesh is not reported: writing its marker is undefined behaviour. *)
Theorem C143_unknown_attribute : forall (K : kind) (m : mesh) (fields : list string) (nm : string) (q : request) a x f,
  rq_attrs q = Some a -> In x a -> rq_region q <> InteriorFace -> (K = Nonlinear -> rq_region q <> Domain) ->
  (forall M, (if match rq_region q with Domain => true | _ => false end then attributes_Max m else bdr_attributes_Max m) = Some M -> ~ (1 <= x <= M)%Z) ->
  add_of K m fields nm (rq_region q) (rq_attrs q) (rq_integ q) f = Undefined.
Proof.
  intros K m fields nm [r attrs I] a x f; simpl. intros -> Hx HI HN HM.
  destruct r; try easy; destruct K; simpl; unfold fo_add, lf_add, nf_add, with_marker; try (now destruct (HN eq_refl));
    rewrite (newMarker_none _ a x Hx HM); reflexivity.
Qed.
Print Assumptions C143_unknown_attribute.

(** A missing field (a functional needing the temperature on a solver that has none, say) is an exception. *)
Theorem C143_missing_field : forall (K : kind) (m : mesh) (fields : list string) (nm : string) (q : request) f n,
  (K = Linear -> rq_region q <> InteriorFace) -> rq_attrs q = None ->
  In n (ov_needs (over (rq_integ q)) nm) -> ~ In n fields ->
  add_of K m fields nm (rq_region q) (rq_attrs q) (rq_integ q) f = Throws.
Proof.
  intros K m fields nm [r attrs I] f n HL; simpl. intros -> Hn HF.
  assert (EF : forallb (fun n => existsb (String.eqb n) fields) (ov_needs (over I) nm) = false).
  { apply not_true_is_false. intros E. rewrite forallb_forall in E. specialize (E n Hn). apply existsb_exists in E as (x & Hx & Ex).
    apply String.eqb_eq in Ex. subst x. contradiction. }
  destruct K, r; simpl; unfold attach; rewrite ?EF; try reflexivity. now destruct (HL eq_refl).
Qed.
Print Assumptions C143_missing_field.

(** two elements (attributes 1, 2) and two boundary elements (attributes 1, 3) *)
Definition bar : mesh := {| m_elems := [(1%Z, 0%nat); (2%Z, 1%nat)]; m_bdr := [(1%Z, 0%nat); (3%Z, 1%nat)]; m_ibdr := []; m_faces := [0%nat] |}.
(** contribution of an item: the first component of one input *)
Definition reader (ov : overload) (nm inp : string) : integrator :=
  {| inst := nm; over := ov; energy := fun e _ => e inp 0%nat;
     grad := fun n k _ _ => if String.eqb n inp then if Nat.eqb k 0 then 1 else 0 else 0 |}.
Lemma reader_partial ov nm inp n k e i : is_partial (fun e' => energy (reader ov nm inp) e' i) e n k (grad (reader ov nm inp) n k e i).
Proof.
  unfold is_partial, with_input; simpl. rewrite (String.eqb_sym inp n). destruct (String.eqb_spec n inp) as [->|]; [|apply (@is_derive_const R_AbsRing R_NormedModule)].
  destruct k as [|k]; simpl; [apply (@is_derive_id R_AbsRing)|apply (@is_derive_const R_AbsRing R_NormedModule)].
Qed.
Definition all_fields : list string := ["mesh_coords"%string; "state"%string; "adjoint"%string; "temperature"%string].

(** a volume functional on attribute 2 plus a boundary functional everywhere: the hypotheses hold, and the value counts
    one element and two boundary elements *)
Example C143_case :
  let l := [{| rq_region := Domain; rq_attrs := Some [2%Z]; rq_integ := reader ov_Volume "" "mesh_coords" |};
            {| rq_region := Boundary; rq_attrs := None; rq_integ := reader ov_BoundaryNormal "" "mesh_coords" |}] in
  exists f, build (add_of Functional) bar all_fields "state" l empty = Ok f /\
    (forall it, In it (m_elems bar ++ m_bdr bar ++ m_ibdr bar) -> (1 <= fst it)%Z) /\
    List.Forall (fun q => In (over (rq_integ q)) overloads /\ (over (rq_integ q) = ov_Steinmetz -> inst (rq_integ q) = ""%string) /\
      (rq_attrs q <> None -> over (rq_integ q) <> ov_Force /\ over (rq_integ q) <> ov_CurlCurl)) l /\
    (forall k e, List.Forall (fun q => differentiates (rq_integ q) "mesh_coords" k e) l) /\
    (forall e, value bar f e = Some (3 * e "mesh_coords"%string 0%nat)) /\
    (forall e, sensitivity bar f "mesh_coords" 0 e = Some 3).
Proof.
  intros l. eexists. split; [unfold l; simpl; reflexivity|]. split; [|split; [|split; [|split]]].
  - simpl. intros it H. intuition (subst; simpl; lia).
  - unfold l. apply Forall_cons; [|apply Forall_cons; [|apply Forall_nil]]; (split; [simpl; tauto|]); (split; [reflexivity|]).
    + intros _. split; intros E; [apply (f_equal ov_marked) in E|apply (f_equal ov_marked) in E]; discriminate E.
    + intros H. now destruct H.
  - intros k e. unfold l. apply Forall_cons; [|apply Forall_cons; [|apply Forall_nil]]; simpl; split.
    + intros _ i. apply (reader_partial ov_Volume "").
    + intros H. destruct H. now left.
    + intros _ i. apply (reader_partial ov_BoundaryNormal "").
    + intros H. destruct H. now left.
  - intros u. unfold value; simpl. f_equal. ring.
  - intros u. unfold sensitivity; simpl. f_equal. ring.
Qed.

(** An attribute-restricted domain integrator of a residual acts on every element, while its sensitivities are restricted:
    with a correct integrator on attribute 1 of the two-element bar, the residual counts both elements, the sensitivity one. *)
Theorem C143_residual_domain_refuted : exists (q : request) f,
  rq_attrs q = Some [1%Z] /\ rq_region q = Domain /\ In (over (rq_integ q)) overloads /\
  (forall n k e i, is_partial (fun e' => energy (rq_integ q) e' i) e n k (grad (rq_integ q) n k e i)) /\
  build (add_of Nonlinear) bar all_fields "adjoint" [q] empty = Ok f /\
  (forall e, value bar f e = Some (2 * e "mesh_coords"%string 0%nat)) /\
  (forall e, sensitivity bar f "mesh_coords" 0 e = Some 1).
Proof.
  exists {| rq_region := Domain; rq_attrs := Some [1%Z]; rq_integ := reader ov_Diffusion "" "mesh_coords" |}.
  eexists. split; [reflexivity|]. split; [reflexivity|]. split; [simpl; tauto|]. split; [intros; apply reader_partial|].
  split; [simpl; reflexivity|]. split; intros e; [unfold value|unfold sensitivity]; simpl; f_equal; ring.
Qed.
Print Assumptions C143_residual_domain_refuted.

(** And because its marker is sized by the boundary attributes, a perfectly good element attribute can be out of range. *)
Theorem C143_residual_domain_attribute_refuted : exists (m : mesh) (q : request),
  rq_region q = Domain /\ rq_attrs q = Some [2%Z] /\ In 2%Z (map fst (m_elems m)) /\
  (exists f, fo_add m all_fields "state" Domain (Some [2%Z]) (rq_integ q) empty = Ok f) /\
  nf_add m all_fields "adjoint" Domain (Some [2%Z]) (rq_integ q) empty = Undefined.
Proof.
  exists {| m_elems := [(1%Z, 0%nat); (2%Z, 1%nat)]; m_bdr := [(1%Z, 0%nat)]; m_ibdr := []; m_faces := [] |},
    {| rq_region := Domain; rq_attrs := Some [2%Z]; rq_integ := reader ov_Diffusion "" "mesh_coords" |}.
  split; [reflexivity|]. split; [reflexivity|]. split; [simpl; tauto|]. split; [eexists; simpl; reflexivity|reflexivity].
Qed.
Print Assumptions C143_residual_domain_attribute_refuted.

(** A restricted ForceIntegrator: its mesh sensitivity is taken over all elements. *)
Theorem C143_force_refuted : exists (I : integrator) f, over I = ov_Force /\
  (forall n k e i, is_partial (fun e' => energy I e' i) e n k (grad I n k e i)) /\
  fo_add bar all_fields "state" Domain (Some [1%Z]) I empty = Ok f /\
  (forall e, value bar f e = Some (e "mesh_coords"%string 0%nat)) /\ (forall e, sensitivity bar f "mesh_coords" 0 e = Some 2).
Proof.
  exists (reader ov_Force "" "mesh_coords"). eexists. split; [reflexivity|]. split; [intros; apply reader_partial|].
  split; [simpl; reflexivity|]. split; intros e; [unfold value|unfold sensitivity]; simpl; f_equal; ring.
Qed.
Print Assumptions C143_force_refuted.

(** A named SteinmetzLossIntegrator reads its peak flux from "max_flux_magnitude:name" but registers the sensitivity under
    "max_flux_magnitude": the derivative with respect to the input it does read is reported as zero. *)
Theorem C143_named_steinmetz_refuted : forall nm, nm <> ""%string -> exists (I : integrator) f,
  let inp := ("max_flux_magnitude" ++ ":" ++ nm)%string in
  inst I = nm /\ over I = ov_Steinmetz /\
  (forall n k e i, is_partial (fun e' => energy I e' i) e n k (grad I n k e i)) /\
  fo_add bar all_fields "state" Domain None I empty = Ok f /\
  (forall e, value bar f e = Some (2 * e inp 0%nat)) /\
  (forall e, sensitivity bar f inp 0 e = Some 0) /\ (forall e, sensitivity bar f "max_flux_magnitude" 0 e = Some 2).
Proof.
  intros nm Hn. assert (E : named "max_flux_magnitude" nm = ("max_flux_magnitude" ++ ":" ++ nm)%string).
  { unfold named. destruct (String.eqb_spec nm ""); [contradiction|reflexivity]. }
  exists (reader ov_Steinmetz nm ("max_flux_magnitude" ++ ":" ++ nm)%string). eexists. intros inp. split; [reflexivity|]. split; [reflexivity|].
  split; [intros; apply reader_partial|]. split; [unfold fo_add, attach; simpl; reflexivity|]. rewrite E.
  split; [|split]; intros u.
  - unfold value, inp; simpl. f_equal. ring.
  - unfold sensitivity, inp; simpl. reflexivity.
  - unfold sensitivity. cbn [sens fold_right map fst snd app ov_pairs over inst reader ov_Steinmetz same empty]. rewrite ?E.
    cbv beta iota. cbn [grad reader]. simpl. rewrite ?String.eqb_refl. simpl. f_equal. ring.
Qed.
Print Assumptions C143_named_steinmetz_refuted.
