(** Proofs about PdeFields.v *)
From Coq Require Import Reals List String Ascii Bool Arith.
From Verif Require Import Options OptionsProofs PdeFields.
Import ListNotations.
Local Open Scope string_scope.

(** * Specification *)
Section MatSpec.
Context {L : Type}.
Variable str : L -> option string.
(** the component carries its own block [m] for the material called [k] *)
Definition inline (c : json L) (k : string) (m : json L) : Prop :=
  at_path c ["material"] = Some m /\ is_obj m = true /\ exists l, at_path m ["name"] = Some (JLeaf l) /\ str l = Some k.
(** the component refers to a material by name *)
Definition by_name (c : json L) (k : string) : Prop := exists l, at_path c ["material"] = Some (JLeaf l) /\ str l = Some k.
Definition well_formed_component (c : json L) : Prop := (exists k, by_name c k) \/ (exists k m, inline c k m).
End MatSpec.

Section MatProofs.
Context {L : Type}.
Variable str : L -> option string.
Notation inline := (inline str). Notation by_name := (by_name str).
Notation addMaterial := (addMaterial str). Notation addMaterials := (addMaterials str).

Lemma find1 (c : json L) k : at_path c [k] = match c with JObj m => find k m | _ => None end.
Proof. destruct c; cbn; try reflexivity. destruct (find k m); reflexivity. Qed.
Lemma inline_fun c k m k' m' : inline c k m -> inline c k' m' -> k = k' /\ m = m'.
Proof. intros [A [B [l [C D]]]] [A' [B' [l' [C' D']]]]. assert (m = m') by congruence. subst m'. split; congruence. Qed.
Lemma inline_not_name c k m k' : inline c k m -> by_name c k' -> False.
Proof. intros [A [B _]] [l [C _]]. rewrite A in C. injection C as ->. discriminate. Qed.

Lemma add_inline lib c k m : inline c k m ->
  addMaterial lib c = (Fine, set k (merge_patch (orNull (find k lib)) m) lib).
Proof.
  intros [A [B [l [C D]]]]. rewrite find1 in A. destruct c; try discriminate. unfold PdeFields.addMaterial. rewrite A.
  destruct m; try discriminate. rewrite find1 in C. rewrite C, D. reflexivity.
Qed.
Lemma add_by_name lib c k : by_name c k -> addMaterial lib c = (Fine, lib).
Proof. intros [l [A B]]. rewrite find1 in A. destruct c; try discriminate. unfold PdeFields.addMaterial. rewrite A, B. reflexivity. Qed.
Lemma add_cases lib c lib' : addMaterial lib c = (Fine, lib') ->
  (exists k, by_name c k /\ lib' = lib) \/ (exists k m, inline c k m /\ lib' = set k (merge_patch (orNull (find k lib)) m) lib).
Proof.
  unfold PdeFields.addMaterial. destruct c as [|l|c]; try discriminate. destruct (find "material" c) as [[|l|m]|] eqn:E; try discriminate.
  - destruct (str l) as [k|] eqn:F; try discriminate. intros H. injection H as <-. left. exists k. split; [|reflexivity].
    exists l. rewrite find1. auto.
  - destruct (find "name" m) as [[|l|?]|] eqn:F; try discriminate. destruct (str l) as [k|] eqn:G; try discriminate.
    intros H. injection H as <-. right. exists k, (JObj m). split; [|reflexivity].
    repeat split; [rewrite find1; exact E|]. exists l. rewrite find1. auto.
Qed.
Lemma add_fine lib c : (exists lib', addMaterial lib c = (Fine, lib')) <-> well_formed_component str c.
Proof.
  split.
  - intros [lib' H]. destruct (add_cases _ _ _ H) as [[k [A _]]|[k [m [A _]]]]; [left|right]; eauto.
  - intros [[k A]|[k [m A]]]; [rewrite (add_by_name lib c k A)|rewrite (add_inline lib c k m A)]; eauto.
Qed.
Lemma adds_fine cs : forall lib, (exists lib', addMaterials lib cs = (Fine, lib')) <-> Forall (well_formed_component str) cs.
Proof.
  induction cs as [|c cs IH]; intros lib; cbn [PdeFields.addMaterials].
  - split; intros _; [constructor | eauto].
  - split.
    + intros [lib' H]. destruct (addMaterial lib c) as [[] l1] eqn:E; try discriminate.
      constructor; [apply (add_fine lib); eauto | apply (IH l1); eauto].
    + intros H. inversion H as [|? ? A B]; subst. apply (add_fine lib) in A. destruct A as [l1 A]. rewrite A. apply IH, B.
Qed.

Lemma find_in (m : list (string * json L)) k v : NoDup (map fst m) -> In (k, v) m -> find k m = Some v.
Proof.
  induction m as [|[a b] m IH]; cbn; [easy|]. intros N [I|I]; [injection I as -> ->; rewrite String.eqb_refl; reflexivity|].
  inversion N; subst. destruct (String.eqb_spec k a) as [->|]; [exfalso; apply H1; apply in_map_iff; exists (a, v); auto | auto].
Qed.
Lemma wf_intro (m : list (string * json L)) : NoDup (map fst m) -> (forall k v, find k m = Some v -> wf v) -> wf (JObj m).
Proof.
  intros N F. cbn. split; [exact N|]. assert (G : forall k v, In (k, v) m -> wf v) by (intros k v I; apply (F k); apply find_in; auto).
  clear N F. induction m as [|[a b] m IH]; [exact I|]. split; [apply (G a); left; reflexivity|]. apply IH. intros k v I. apply (G k). right. exact I.
Qed.
Lemma wf_set k v (lib : list (string * json L)) : wf (JObj lib) -> wf v -> wf (JObj (set k v lib)).
Proof.
  intros H Hv. apply wf_obj in H. destruct H as [N F]. apply wf_intro; [apply keys_set, N|].
  intros k' v' Hf. rewrite find_set in Hf. destruct (String.eqb k' k); [injection Hf as <-; exact Hv | apply (F k' v' Hf)].
Qed.
Lemma wf_merge : forall u d : json L, wf d -> wf u -> wf (merge_patch d u).
Proof.
  refine (json_ind' _ _ _ _); [intros; exact I | intros; exact I|].
  intros m IH d Hd Hu. rewrite merge_obj. pose proof (wf_obj _ Hu) as [Nm Fm]. pose proof (wf_members _ Hd) as Nd.
  apply wf_intro; [apply merge_go_nodup, Nd|]. intros k v Hf. rewrite merge_go_find in Hf by assumption.
  destruct (find k m) as [x|] eqn:E.
  - assert (W : wf (merge_patch (orNull (find k (members d))) x)).
    { rewrite Forall_forall in IH. assert (I : In (k, x) m).
      { clear -E. induction m as [|[a b] m IHm]; cbn in *; [discriminate|]. destruct (String.eqb_spec k a); [left; congruence | right; auto]. }
      apply (IH (k, x) I); [apply wf_orNull, Hd | apply (Fm k), E]. }
    destruct x; try discriminate; injection Hf as <-; exact W.
  - apply (find_members d k v Hd Hf).
Qed.
Lemma wf_find_orNull k (lib : list (string * json L)) : wf (JObj lib) -> wf (orNull (find k lib)).
Proof. intros H. apply (wf_orNull (JObj lib) k H). Qed.
Lemma inline_wf c k m : inline c k m -> wf c -> wf m.
Proof. intros [A _] W. rewrite find1 in A. destruct c; try discriminate. apply (wf_obj _ W) in A. exact A. Qed.
Lemma add_wf lib c lib' : wf (JObj lib) -> wf c -> addMaterial lib c = (Fine, lib') -> wf (JObj lib').
Proof.
  intros W Wc H. destruct (add_cases _ _ _ H) as [[k [_ ->]]|[k [m [A ->]]]]; [exact W|].
  apply wf_set; [exact W|]. apply wf_merge; [apply wf_find_orNull, W | eapply inline_wf; eauto].
Qed.

(** the object at key [k] of the library *)
Lemma at_key_lib (lib : list (string * json L)) k p : at_path (JObj lib) (k :: p) = match find k lib with Some v => at_path v p | None => None end.
Proof. reflexivity. Qed.
Lemma add_other lib c lib' k : addMaterial lib c = (Fine, lib') -> (forall m, ~ inline c k m) -> find k lib' = find k lib.
Proof.
  intros H N. destruct (add_cases _ _ _ H) as [[k' [_ ->]]|[k' [m [A ->]]]]; [reflexivity|].
  rewrite find_set. destruct (String.eqb_spec k k') as [->|]; [exfalso; apply (N m A) | reflexivity].
Qed.
Lemma adds_other cs k : forall lib lib', addMaterials lib cs = (Fine, lib') -> (forall c m, In c cs -> ~ inline c k m) ->
  find k lib' = find k lib.
Proof.
  induction cs as [|c cs IH]; cbn [PdeFields.addMaterials]; intros lib lib' H N; [injection H as <-; reflexivity|].
  destruct (addMaterial lib c) as [[] l1] eqn:E; try discriminate.
  rewrite (IH l1 lib' H) by (intros; apply N; right; assumption). apply (add_other _ _ _ _ E). intros m. apply N. left. reflexivity.
Qed.
Lemma adds_app cs ds : forall lib lib', addMaterials lib (cs ++ ds)%list = (Fine, lib') ->
  exists l1, addMaterials lib cs = (Fine, l1) /\ addMaterials l1 ds = (Fine, lib').
Proof.
  induction cs as [|c cs IH]; cbn; intros lib lib' H; [eauto|].
  destruct (addMaterial lib c) as [[] l1] eqn:E; try discriminate. apply IH, H.
Qed.
Lemma adds_wf cs : forall lib lib', wf (JObj lib) -> Forall wf cs -> addMaterials lib cs = (Fine, lib') -> wf (JObj lib').
Proof.
  induction cs as [|c cs IH]; cbn [PdeFields.addMaterials]; intros lib lib' W F H; [injection H as <-; exact W|].
  destruct (addMaterial lib c) as [[] l1] eqn:E; try discriminate. inversion F; subst. apply (IH l1); auto. eapply add_wf; eauto.
Qed.
Lemma adds_last pre c post lib lib' k m p l : wf (JObj lib) -> Forall wf (pre ++ c :: post)%list ->
  addMaterials lib (pre ++ c :: post)%list = (Fine, lib') -> inline c k m -> (forall c' m', In c' post -> ~ inline c' k m') ->
  at_path m p = Some (JLeaf l) -> at_path (JObj lib') (k :: p) = Some (JLeaf l).
Proof.
  intros W F H A N E. destruct (adds_app _ _ _ _ H) as [l1 [H1 H2]]. apply Forall_app in F. destruct F as [F1 F2].
  cbn [PdeFields.addMaterials] in H2. destruct (addMaterial l1 c) as [[] l2] eqn:Ec; try discriminate.
  rewrite at_key_lib, (adds_other post k l2 lib' H2 N). rewrite (add_inline l1 c k m A) in Ec. injection Ec as <-.
  rewrite find_set, String.eqb_refl. inversion F2; subst. apply merge_set; auto.
  - apply wf_find_orNull. exact (adds_wf _ _ _ W F1 H1).
  - exact (inline_wf _ _ _ A ltac:(assumption)).
Qed.
Lemma adds_null pre c post lib lib' k m p : wf (JObj lib) -> Forall wf (pre ++ c :: post)%list ->
  addMaterials lib (pre ++ c :: post)%list = (Fine, lib') -> inline c k m -> (forall c' m', In c' post -> ~ inline c' k m') ->
  p <> [] -> at_path m p = Some JNull -> at_path (JObj lib') (k :: p) = None.
Proof.
  intros W F H A N Hp E. destruct (adds_app _ _ _ _ H) as [l1 [H1 H2]]. apply Forall_app in F. destruct F as [F1 F2].
  cbn [PdeFields.addMaterials] in H2. destruct (addMaterial l1 c) as [[] l2] eqn:Ec; try discriminate.
  rewrite at_key_lib, (adds_other post k l2 lib' H2 N). rewrite (add_inline l1 c k m A) in Ec. injection Ec as <-.
  rewrite find_set, String.eqb_refl. inversion F2; subst. apply merge_null; auto.
  - apply wf_find_orNull. exact (adds_wf _ _ _ W F1 H1).
  - exact (inline_wf _ _ _ A ltac:(assumption)).
Qed.
Lemma adds_unmentioned cs k p : p <> [] -> forall lib lib', wf (JObj lib) -> Forall wf cs -> addMaterials lib cs = (Fine, lib') ->
  (forall c m, In c cs -> inline c k m -> ~ mentions m p) -> at_path (JObj lib') (k :: p) = at_path (JObj lib) (k :: p).
Proof.
  intros Hp. induction cs as [|c cs IH]; cbn [PdeFields.addMaterials]; intros lib lib' W F H N; [injection H as <-; reflexivity|].
  destruct (addMaterial lib c) as [[] l1] eqn:E; try discriminate. inversion F; subst.
  rewrite (IH l1 lib'); auto; [|eapply add_wf; eauto | intros; eapply N; [right|]; eauto].
  rewrite !at_key_lib. destruct (add_cases _ _ _ E) as [[k' [_ ->]]|[k' [m [A ->]]]]; [reflexivity|].
  rewrite find_set. destruct (String.eqb_spec k k') as [<-|]; [|reflexivity].
  rewrite merge_unmentioned; [|apply wf_find_orNull, W | eapply inline_wf; eauto | apply (N c); [left; reflexivity | exact A]].
  destruct (find k lib) as [v|]; cbn [orNull]; [reflexivity|]. destruct p; [congruence|reflexivity].
Qed.
End MatProofs.

(** * Fields *)
Section FieldProofs.
Context {O : Type}.
Notation fields := (list (string * field O)).

Lemma look_app {A} k (m n : list (string * A)) : look k (m ++ n)%list = match look k m with Some v => Some v | None => look k n end.
Proof. induction m as [|[a b] m IH]; cbn; [reflexivity|]. destruct (String.eqb k a); auto. Qed.
Lemma look_emplace {A} k k' (v : A) m : look k (emplace k' v m) = match look k m with Some w => Some w | None => if String.eqb k k' then Some v else None end.
Proof.
  unfold emplace. destruct (look k' m) eqn:E.
  - destruct (look k m) eqn:F; [reflexivity|]. destruct (String.eqb_spec k k'); [congruence|reflexivity].
  - rewrite look_app. cbn. destruct (look k m); reflexivity.
Qed.
Lemma look_fill k k' c (m : fields) : look k (fill k' c m) =
  match look k m with Some f => Some (if String.eqb k' k then Build_field (f_space f) c else f) | None => None end.
Proof.
  induction m as [|[a b] m IH]; cbn; [reflexivity|]. destruct (String.eqb_spec k' a) as [->|]; cbn.
  - destruct (String.eqb_spec k a) as [->|]; [rewrite String.eqb_refl; reflexivity|]. exact IH.
  - destruct (String.eqb_spec k a) as [->|]; [|exact IH]. destruct (String.eqb_spec k' a); congruence.
Qed.
(** the field an entry of "external-fields" asks for *)
Definition asked (x : external O) : field O := Build_field (ByOptions (x_opts x) (match x_states x with Some n => n | None => 0%nat end)) Zero.
Lemma externals_look l : forall fs fs', addExternals fs l = (Fine, fs') -> forall n,
  look n fs' = match look n fs with Some f => Some f | None => option_map asked (look n l) end.
Proof.
  induction l as [|[a x] l IH]; cbn [addExternals]; intros fs fs' H n.
  - injection H as <-. cbn. destruct (look n fs); reflexivity.
  - unfold addExternal in H. cbn [fst snd] in H. destruct (x_states x) as [k|] eqn:E; [|discriminate].
    rewrite (IH _ _ H n), look_emplace. cbn [look]. destruct (look n fs); [reflexivity|].
    destruct (String.eqb n a); [|reflexivity]. cbn. unfold asked. rewrite E. reflexivity.
Qed.
Lemma externals_fine l : forall fs, (exists fs', addExternals fs l = (Fine, fs')) <-> (forall n (x : external O), In (n, x) l -> x_states x <> None).
Proof.
  induction l as [|[a x] l IH]; cbn [addExternals]; intros fs.
  - split; [intros _ n x [] | intros _; eauto].
  - unfold addExternal. cbn [fst snd]. destruct (x_states x) as [k|] eqn:E.
    + rewrite IH. split; intros H n y I; [|apply (H n); right; exact I]. destruct I as [I|I]; [injection I as <- <-; congruence | eauto].
    + split; [intros [fs' H]; discriminate|]. intros H. exfalso. apply (H a x); [left; reflexivity | exact E].
Qed.
Lemma externals_bad l : forall (fs : fields) e fs', addExternals fs l = (e, fs') -> e = Fine \/ e = TypeError.
Proof.
  induction l as [|[a x] l IH]; cbn [addExternals]; intros fs e fs' H; [injection H as <- <-; auto|].
  unfold addExternal in H. cbn [fst snd] in H. destruct (x_states x); [eauto | injection H as <- <-; auto].
Qed.
Definition reserved (n : string) : bool := existsb (String.eqb n) ["state"; "dirichlet_bc"; "adjoint"].
Lemma pde_look sd k ext fs : pdeFields sd k ext = (Fine, fs) -> forall n,
  look n fs = if reserved n then Some (Build_field (ByOptions sd k) Zero)
              else if String.eqb n "mesh_coords" then Some (Build_field OfMesh Coordinates) else option_map asked (look n ext).
Proof.
  unfold pdeFields. intros H n. rewrite (externals_look _ _ _ H n), !look_emplace. unfold reserved. cbn [existsb look].
  destruct (String.eqb n "state"), (String.eqb n "dirichlet_bc"), (String.eqb n "adjoint"), (String.eqb n "mesh_coords"); reflexivity.
Qed.
Lemma made_look made : forall (fs : fields) n, look n (fold_left (fun fs n => emplace n (Build_field OfState Zero) fs) made fs) =
  match look n fs with Some f => Some f | None => if existsb (String.eqb n) made then Some (Build_field OfState Zero) else None end.
Proof.
  induction made as [|a made IH]; cbn; intros fs n; [destruct (look n fs); reflexivity|].
  rewrite IH, look_emplace. destruct (look n fs); [reflexivity|]. destruct (String.eqb n a); reflexivity.
Qed.
(** what each name holds after the construction of a magnetostatic solver *)
Lemma mag_look sd dg made ext fs : magnetostaticFields sd dg made ext = (Fine, fs) -> forall n,
  look n fs =
    if reserved n then Some (Build_field (ByOptions sd 1) Zero)
    else if String.eqb n "mesh_coords" then Some (Build_field OfMesh Coordinates)
    else if String.eqb n "temperature" then
      Some (Build_field (match look n ext with Some x => f_space (asked x) | None => Linear end) (Const (27315/100)))
    else match look n ext with
         | Some x => Some (asked x)
         | None => if existsb (String.eqb n) made then Some (Build_field OfState Zero)
                   else if String.eqb n "flux_magnitude" || String.eqb n "peak_flux" then Some (Build_field (Dg dg 1) Zero) else None
         end.
Proof.
  unfold magnetostaticFields. destruct (pdeFields sd 1 ext) as [[] f0] eqn:E; try discriminate. intros H n. injection H as <-.
  rewrite !look_emplace, made_look, look_fill, look_emplace, (pde_look _ _ _ _ E n).
  destruct (reserved n) eqn:R.
  - destruct (String.eqb_spec "temperature" n) as [<-|]; [discriminate R | reflexivity].
  - destruct (String.eqb_spec n "mesh_coords") as [->|]; [reflexivity|].
    rewrite (String.eqb_sym "temperature" n). destruct (String.eqb_spec n "temperature") as [->|].
    + destruct (look "temperature" ext); reflexivity.
    + destruct (look n ext); cbn [option_map]; [reflexivity|]. destruct (existsb (String.eqb n) made); [reflexivity|].
      destruct (String.eqb n "flux_magnitude"); [reflexivity|]. destruct (String.eqb n "peak_flux"); reflexivity.
Qed.
Lemma mag_fine sd dg made ext : (exists fs, magnetostaticFields sd dg made ext = (Fine, fs)) <-> (forall n (x : external O), In (n, x) ext -> x_states x <> None).
Proof.
  rewrite <- (externals_fine ext (snd (pdeFields sd 1 []))). unfold magnetostaticFields.
  change (pdeFields sd 1 ext) with (addExternals (snd (pdeFields sd 1 [])) ext).
  split.
  - intros [fs H]. destruct (addExternals (snd (pdeFields sd 1 [])) ext) as [[] f0] eqn:E; try discriminate. eauto.
  - intros [f0 H]. rewrite H. eauto.
Qed.

(** * Outputs *)
Notation solver := (solver O).
(** the supported names: each starts with the text, and means the kind *)
Definition magnetostatic_names : list (string * kind) :=
  [("energy", Energy); ("force", Force); ("torque", Torque); ("flux_density", FluxDensity); ("flux_magnitude", FluxMagnitude);
   ("average_flux_magnitude", AverageFluxMagnitude); ("max_flux_magnitude", MaxFluxMagnitude); ("max_state", MaxState);
   ("dc_loss", DcLoss); ("ac_loss", AcLoss); ("core_loss", CoreLoss); ("mass", Mass); ("volume", Volume); ("heat_source", HeatSource)].
Definition thermal_names : list (string * kind) := [("thermal_flux", ThermalFlux); ("max_state", MaxState); ("average_state", AverageState)].
Definition names (table : list (string * kind)) (name : string) (k : kind) : Prop := exists p r, In (p, k) table /\ name = p ++ r.

Lemma prefix_app p : forall s, prefix p s = true <-> exists r, s = p ++ r.
Proof.
  induction p as [|a p IH]; intros s.
  - cbn. split; [intros _; exists s; reflexivity | intros _; destruct s; reflexivity].
  - destruct s as [|b s]; [split; [discriminate | intros [r H]; discriminate]|].
    cbn [prefix]. destruct (ascii_dec a b) as [<-|N].
    + destruct (IH s) as [I1 I2]. split; intros H; [destruct (I1 H) as [r ->]; exists r; reflexivity|].
      destruct H as [r H]. apply I2. exists r. injection H; auto.
    + split; [discriminate | intros [r H]; injection H as H1 _; congruence].
Qed.
Definition table_add (table : list (string * kind)) (name : string) : option kind :=
  match List.find (fun pk => prefix (fst pk) name) table with Some pk => Some (snd pk) | None => None end.
(** what a call may do to the solver: registered outputs and existing fields stay as they are, new fields start at zero *)
Definition keeps (s s' : solver) : Prop :=
  (forall k f, look k (s_fields s) = Some f -> look k (s_fields s') = Some f) /\
  (forall k o, look k (s_outs s) = Some o -> look k (s_outs s') = Some o).
Lemma keeps_refl s : keeps s s. Proof. split; auto. Qed.
Lemma keeps_trans s1 s2 s3 : keeps s1 s2 -> keeps s2 s3 -> keeps s1 s3.
Proof. intros [A B] [C D]. split; eauto. Qed.
Lemma keeps_field k f (s : solver) : keeps s (withField k f s).
Proof. split; cbn; intros k' x H; [rewrite look_emplace, H; reflexivity | exact H]. Qed.
Lemma keeps_out k o (s : solver) : keeps s (withOut k o s).
Proof. split; cbn; intros k' x H; [exact H | rewrite look_emplace, H; reflexivity]. Qed.
Hint Resolve keeps_refl keeps_field keeps_out : keeps.

(** the outcome of adding an output [name] of kind [k] *)
Definition adds (name : string) (k : kind) (s : solver) (r : ending * solver) : Prop :=
  keeps s (snd r) /\ fst r <> Miso /\
  (forall n f, look n (s_fields s) = None -> look n (s_fields (snd r)) = Some f ->
     (n = name \/ n = "v" ++ name \/ n = "thermal_adjoint") /\ f_is f = Zero) /\
  match fst r with
  | Fine => exists o, o_kind o = k /\ forall n, look n (s_outs (snd r)) = match look n (s_outs s) with Some x => Some x | None => if String.eqb n name then Some o else None end
  | _ => s_outs (snd r) = s_outs s
  end.
Lemma adds_same name k s e : e <> Fine -> e <> Miso -> adds name k s (e, s).
Proof.
  intros H M. split; [auto with keeps|]. split; [exact M|]. split; [cbn; intros; congruence|]. destruct e; cbn; congruence.
Qed.
Lemma adds_out name k s a fld : adds name k s (Fine, withOut name {| o_kind := k; o_attrs := a; o_field := fld |} s).
Proof.
  split; [cbn; auto with keeps|]. split; [discriminate|]. split; [cbn; intros; congruence|]. cbn. eexists. split; [|intros n; apply look_emplace]. reflexivity.
Qed.
Lemma adds_field name k s r n0 f0 : (n0 = name \/ n0 = "v" ++ name \/ n0 = "thermal_adjoint") -> f_is f0 = Zero ->
  adds name k (withField n0 f0 s) r -> adds name k s r.
Proof.
  intros Hn Hf [A [M [B C]]]. split; [eapply keeps_trans; [apply keeps_field|exact A]|]. split; [exact M|]. split.
  - intros n f Hs Hr. destruct (look n (s_fields (withField n0 f0 s))) as [f'|] eqn:E.
    + assert (f = f') by (destruct A as [A _]; rewrite (A n f' E) in Hr; congruence). subst f'.
      cbn in E. rewrite look_emplace, Hs in E. destruct (String.eqb_spec n n0); [|discriminate]. subst n0. injection E as <-. auto.
    + apply (B n f E Hr).
  - destruct (fst r); exact C.
Qed.
Lemma attributes_bad o e a : attributes o = (e, a) -> e <> Fine -> e = TypeError.
Proof. unfold attributes. destruct (contains o "attributes"); [destruct (snd (at_key o "attributes"))|]; intros H N; injection H as <- <-; congruence. Qed.
Lemma adds_plain name k o fld s : adds name k s (plain name k o fld s).
Proof.
  unfold plain. destruct (attributes o) as [e a] eqn:E. destruct e; try apply adds_out;
  (apply adds_same; [discriminate|]; pose proof (attributes_bad o _ a E ltac:(discriminate)); congruence).
Qed.
Lemma need_ok o k ok : need o k ok <> Miso.
Proof. unfold need, at_key. destruct o as [l|]; [destruct (look k l); [destruct (ok v)|]|]; discriminate. Qed.
Lemma andThen_ok e e' : e <> Miso -> e' <> Miso -> andThen e e' <> Miso.
Proof. destruct e; cbn; auto. Qed.
Lemma adds_end name k s e : e <> Miso -> e <> Fine -> adds name k s (e, s).
Proof. intros; apply adds_same; assumption. Qed.
Lemma adds_displacement name (t : bool) o s : adds name (if t then Torque else Force) s (displacement name t o s).
Proof.
  unfold displacement. set (s1 := withField ("v" ++ name) (Build_field OfMesh Zero) s). set (e := if t then andThen (andThen (need o "attributes" isInts) (need o "axis" isVector)) (need o "about" isVector) else andThen (need o "attributes" isInts) (need o "axis" isVector)).
  assert (He : e <> Miso) by (unfold e; destruct t; repeat apply andThen_ok; apply need_ok).
  apply (adds_field name _ s _ ("v" ++ name) (Build_field OfMesh Zero)); [auto | reflexivity|]. fold s1.
  clearbody e. destruct e; try (apply adds_end; congruence).
  destruct (known s1 (if t then "vtorque" else "vforce")); [apply adds_out | apply adds_end; discriminate].
Qed.
Lemma adds_maxState name o s : adds name MaxState s (maxState name o s).
Proof.
  unfold maxState, stateName. destruct o as [l|]; [|apply adds_end; discriminate].
  destruct (look "state" l) as [v|].
  - destruct v; try (apply adds_end; discriminate). destruct (known s s0); [|apply adds_end; discriminate].
    unfold rhoOption. destruct (look "rho" l) as [[]|]; try (apply adds_end; discriminate); apply adds_plain.
  - destruct (known s "state"); [|apply adds_end; discriminate].
    unfold rhoOption. destruct (look "rho" l) as [[]|]; try (apply adds_end; discriminate); apply adds_plain.
Qed.
Lemma adds_averageState name o s : adds name AverageState s (averageState name o s).
Proof.
  unfold averageState, stateName. destruct (contains o "state"); [|apply adds_plain]. destruct o as [l|]; [|apply adds_end; discriminate].
  destruct (look "state" l) as [v|].
  - destruct v; try (apply adds_end; discriminate). destruct (known s s0); [|apply adds_end; discriminate]. apply adds_plain.
  - destruct (known s "state"); [|apply adds_end; discriminate]. apply adds_plain.
Qed.
Lemma at_key_ok o k : fst (at_key o k) <> Miso.
Proof. unfold at_key. destruct o as [l|]; [destruct (look k l)|]; discriminate. Qed.
Lemma adds_heat name o s : adds name HeatSource s (heatSource name o s).
Proof.
  unfold heatSource. pose proof (at_key_ok o "dc_loss") as H1. pose proof (at_key_ok o "ac_loss") as H2. pose proof (at_key_ok o "core_loss") as H3.
  destruct (at_key o "dc_loss") as [e1 v1], (at_key o "ac_loss") as [e2 v2], (at_key o "core_loss") as [e3 v3]. cbn [fst] in *.
  destruct e1; try (apply adds_end; congruence).
  destruct (known s "temperature"); [|apply adds_end; discriminate].
  assert (G : forall r s1, adds name HeatSource s1 r ->
     s1 = match look "temperature" (s_fields s) with Some t => withField "thermal_adjoint" (Build_field (f_space t) Zero) s | None => s end ->
     adds name HeatSource s r).
  { intros r s1 Ha ->. destruct (look "temperature" (s_fields s)); [|exact Ha]. eapply adds_field; [| |exact Ha]; auto. }
  eapply G; [|reflexivity]. destruct e2; try (apply adds_end; congruence). destruct e3; try (apply adds_end; congruence).
  destruct (known s "peak_flux"); [apply adds_out | apply adds_end; discriminate].
Qed.
Lemma mag_adds dim dg cur name o s :
  match table_add magnetostatic_names name with
  | Some k => adds name k s (addOutputMagnetostatic dim dg cur name o s)
  | None => addOutputMagnetostatic dim dg cur name o s = (Miso, s)
  end.
Proof.
  unfold table_add, magnetostatic_names, addOutputMagnetostatic, starts. cbn [List.find fst snd].
  repeat match goal with |- context [if prefix ?p name then _ else _] => destruct (prefix p name) eqn:?; cbn [snd] end;
  try apply adds_plain; try apply (adds_displacement name false); try apply (adds_displacement name true); try apply adds_maxState;
  try apply adds_heat; try apply adds_out; try reflexivity.
  - eapply (adds_field name _ s _ name); [| |apply adds_out]; [auto | reflexivity].
  - destruct (known s name); [apply adds_out | apply adds_end; discriminate].
  - destruct (need o "rho" _) eqn:E; try (apply adds_end; discriminate); [apply adds_plain|]. exfalso. apply (need_ok o "rho" _ E).
Qed.
Lemma thermal_adds name o s :
  match table_add thermal_names name with
  | Some k => adds name k s (addOutputThermal name o s)
  | None => addOutputThermal name o s = (Miso, s)
  end.
Proof.
  unfold table_add, thermal_names, addOutputThermal, starts. cbn [List.find fst snd].
  repeat match goal with |- context [if prefix ?p name then _ else _] => destruct (prefix p name) eqn:?; cbn [snd] end;
  try apply adds_plain; try apply adds_maxState; try apply adds_averageState; reflexivity.
Qed.
Lemma prefix_both p : forall q s, prefix p s = true -> prefix q s = true -> prefix p q = true \/ prefix q p = true.
Proof.
  induction p as [|a p IH]; intros q s Hp Hq; [left; destruct q; reflexivity|].
  destruct q as [|b q]; [right; reflexivity|]. destruct s as [|c s]; [discriminate|]. cbn [prefix] in *.
  destruct (ascii_dec a c) as [->|]; [|discriminate]. destruct (ascii_dec b c) as [->|]; [|discriminate].
  destruct (ascii_dec c c); [|congruence]. apply (IH q s Hp Hq).
Qed.
Definition separate (t : list (string * kind)) : bool :=
  forallb (fun x => forallb (fun y => implb (prefix (fst x) (fst y)) (String.eqb (fst x) (fst y))) t) t.
Definition one_kind (t : list (string * kind)) : Prop := NoDup (map fst t).
Lemma separate_ok t p q k k' : separate t = true -> In (p, k) t -> In (q, k') t -> prefix p q = true -> p = q.
Proof.
  unfold separate. rewrite forallb_forall. intros H A B P. specialize (H _ A). rewrite forallb_forall in H. specialize (H _ B). cbn in H.
  rewrite P in H. cbn in H. apply String.eqb_eq, H.
Qed.
Lemma nodup_kind (t : list (string * kind)) p k k' : one_kind t -> In (p, k) t -> In (p, k') t -> k = k'.
Proof.
  induction t as [|[a b] t IH]; cbn; intros N; [easy|]. inversion N; subst. intros [A|A] [B|B]; try congruence; auto.
  - injection A as -> ->. exfalso. apply H1, in_map_iff. exists (p, k'). auto.
  - injection B as -> ->. exfalso. apply H1, in_map_iff. exists (p, k). auto.
Qed.
Lemma names_fun t name k k' : separate t = true -> one_kind t -> names t name k -> names t name k' -> k = k'.
Proof.
  intros S N [p [r [A Hp]]] [q [r' [B Hq]]].
  assert (P : prefix p name = true) by (apply prefix_app; eauto). assert (Q : prefix q name = true) by (apply prefix_app; eauto).
  assert (p = q). { destruct (prefix_both p q name P Q); [eapply separate_ok; eauto | symmetry; eapply separate_ok; eauto]. }
  subst q. eapply nodup_kind; eauto.
Qed.
Lemma table_names t name k : separate t = true -> one_kind t -> (table_add t name = Some k <-> names t name k).
Proof.
  intros S N. unfold table_add. destruct (List.find (fun pk => prefix (fst pk) name) t) as [[p k']|] eqn:E.
  - apply find_some in E. destruct E as [I P]. cbn in P. apply prefix_app in P. destruct P as [r Hr]. assert (Hn : names t name k') by (exists p, r; auto).
    cbn. split; [intros H; injection H as <-; exact Hn|]. intros H. f_equal. eapply names_fun; eauto.
  - split; [discriminate|]. intros [p [r [I Hr]]]. pose proof (List.find_none _ _ E _ I) as F. cbn in F.
    assert (P : prefix p name = true) by (apply prefix_app; eauto). congruence.
Qed.
Lemma table_none t name : separate t = true -> one_kind t -> (table_add t name = None <-> forall k, ~ names t name k).
Proof.
  intros S N. destruct (table_add t name) as [k|] eqn:E.
  - apply table_names in E; auto. split; [discriminate | intros H; exfalso; apply (H k E)].
  - split; [|reflexivity]. intros _ k H. apply (table_names t name k S N) in H. congruence.
Qed.
Lemma mag_sep : separate magnetostatic_names = true. Proof. vm_compute. reflexivity. Qed.
Lemma mag_one : one_kind magnetostatic_names. Proof. unfold one_kind. cbn. repeat (constructor; [cbn; intuition discriminate|]). constructor. Qed.
Lemma th_sep : separate thermal_names = true. Proof. vm_compute. reflexivity. Qed.
Lemma th_one : one_kind thermal_names. Proof. unfold one_kind. cbn. repeat (constructor; [cbn; intuition discriminate|]). constructor. Qed.

(** a solver class, by its addOutput and its table *)
Definition follows (add : string -> oopts -> solver -> ending * solver) (table : list (string * kind)) : Prop :=
  forall name o s, match table_add table name with Some k => adds name k s (add name o s) | None => add name o s = (Miso, s) end.
Lemma create_keeps add t name o s : follows add t -> keeps s (snd (createOutput add name o s)).
Proof.
  intros F. unfold createOutput. destruct (look name (s_outs s)); [apply keeps_refl|]. specialize (F name o s).
  destruct (table_add t name); [apply F | rewrite F; apply keeps_refl].
Qed.
Lemma history_keeps add t calls : follows add t -> forall s, keeps s (history add calls s).
Proof. intros F. induction calls as [|[n o] l IH]; intros s; cbn; [apply keeps_refl|]. eapply keeps_trans; [eapply create_keeps; eauto | apply IH]. Qed.
Lemma history_sound add t calls : follows add t -> separate t = true -> one_kind t -> forall s n out,
  look n (s_outs (history add calls s)) = Some out -> look n (s_outs s) = Some out \/ names t n (o_kind out).
Proof.
  intros F S N. induction calls as [|[m o] l IH]; intros s n out H; [left; exact H|]. cbn in H.
  destruct (IH _ _ _ H) as [A|A]; [|right; exact A]. unfold createOutput in A. destruct (look m (s_outs s)); [left; exact A|].
  pose proof (F m o s) as G. destruct (table_add t m) as [k|] eqn:E.
  - destruct G as [_ [_ [_ G]]]. destruct (add m o s) as [e s1]. cbn [fst snd] in *. destruct e; try (left; congruence).
    destruct G as [x [Hx G]]. rewrite G in A. destruct (look n (s_outs s)); [left; exact A|].
    destruct (String.eqb_spec n m) as [->|]; [|discriminate]. injection A as ->. right. rewrite Hx. apply table_names; auto.
  - rewrite G in A. left. exact A.
Qed.
End FieldProofs.
