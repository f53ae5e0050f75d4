(** C134 - C136: what a PDE solver owns and how outputs are added *)
From Coq Require Import Reals List String Ascii Bool Arith Lia Lra.
From Verif Require Import Options OptionsProofs PdeFields PdeFieldsProofs.
Import ListNotations.
Local Open Scope string_scope.

(** * C134 materials *)
(** construction succeeds iff every component names a material or carries a block with a name *)
Theorem C134_accepted :
  forall (L : Type) (str : L -> option string) (library : list (string * json L)) (components : list (json L)),
  (exists lib, materials1 str library (Some components) = (Fine, lib)) <-> Forall (well_formed_component str) components.
Proof. intros. apply adds_fine. Qed.
Print Assumptions C134_accepted.

(** a material that no component describes is the library's *)
Theorem C134_library_kept :
  forall (L : Type) (str : L -> option string) library components lib k,
  materials1 str library (Some components) = (Fine, lib) ->
  (forall c m, In c components -> ~ inline str c k m) ->
  forall p, at_path (JObj lib) (k :: p) = at_path (JObj library) (k :: p).
Proof. intros L str library cs lib k H N p. rewrite !at_key_lib. rewrite (adds_other str cs k library lib H N). reflexivity. Qed.
Print Assumptions C134_library_kept.

(** the last component that describes a material decides the values it gives; a null removes; properties that no component
    gives are the library's *)
Theorem C134_last_component_wins :
  forall (L : Type) (str : L -> option string) library pre c post lib k m p,
  wf (JObj library) -> Forall wf (pre ++ c :: post)%list ->
  materials1 str library (Some (pre ++ c :: post)%list) = (Fine, lib) ->
  inline str c k m -> (forall c' m', In c' post -> ~ inline str c' k m') ->
  (forall l, at_path m p = Some (JLeaf l) -> at_path (JObj lib) (k :: p) = Some (JLeaf l)) /\
  (p <> [] -> at_path m p = Some JNull -> at_path (JObj lib) (k :: p) = None).
Proof.
  intros L str library pre c post lib k m p W F H A N. split; intros.
  - eapply adds_last; eauto.
  - eapply adds_null; eauto.
Qed.
Print Assumptions C134_last_component_wins.

Theorem C134_unmentioned_kept :
  forall (L : Type) (str : L -> option string) library components lib k p, p <> [] ->
  wf (JObj library) -> Forall wf components -> materials1 str library (Some components) = (Fine, lib) ->
  (forall c m, In c components -> inline str c k m -> ~ mentions m p) ->
  at_path (JObj lib) (k :: p) = at_path (JObj library) (k :: p).
Proof. intros. eapply adds_unmentioned; eauto. Qed.
Print Assumptions C134_unmentioned_kept.

(** a leaf is a string or a number here *)
Definition leaf_str (l : string + nat) : option string := match l with inl s => Some s | inr _ => None end.
Definition jmat (name : string) (rho : nat) : json (string + nat) :=
  JObj [("material", JObj [("name", JLeaf (inl name)); ("rho", JLeaf (inr rho))])].
Definition jref (name : string) : json (string + nat) := JObj [("material", JLeaf (inl name))].
Definition jlib : list (string * json (string + nat)) := [("air", JObj [("mu_r", JLeaf (inr 1)); ("rho", JLeaf (inr 9))]); ("steel", JObj [("rho", JLeaf (inr 3))])].
Example C134_case :
  materials1 leaf_str jlib (Some [jref "steel"; jmat "air" 5; jmat "glue" 2]) =
    (Fine, [("air", JObj [("mu_r", JLeaf (inr 1)); ("rho", JLeaf (inr 5)); ("name", JLeaf (inl "air"))]); ("steel", JObj [("rho", JLeaf (inr 3))]);
            ("glue", JObj [("name", JLeaf (inl "glue")); ("rho", JLeaf (inr 2))])]) /\
  inline leaf_str (jmat "air" 5) "air" (JObj [("name", JLeaf (inl "air")); ("rho", JLeaf (inr 5))]) /\
  wf (JObj jlib) /\ wf (jmat "air" 5).
Proof.
  split; [reflexivity|]. split; [repeat split; exists (inl "air"); split; reflexivity|].
  split; cbn; repeat split; repeat constructor; cbn; intuition discriminate.
Qed.

(** a component does not always get the material it describes, nor a component that refers to the library the library's: the
    block of another component with the same name is laid over both *)
Theorem C134_own_description_refuted :
  exists (library : list (string * json (string + nat))) c1 c2 c3 lib m,
    materials1 leaf_str library (Some [c1; c2; c3]) = (Fine, lib) /\
    inline leaf_str c1 "air" m /\ at_path m ["rho"] = Some (JLeaf (inr 5)) /\ by_name leaf_str c3 "air" /\
    at_path (JObj library) ["air"; "rho"] = Some (JLeaf (inr 9)) /\ at_path (JObj lib) ["air"; "rho"] = Some (JLeaf (inr 7)).
Proof.
  exists jlib, (jmat "air" 5), (jmat "air" 7), (jref "air"). eexists. exists (JObj [("name", JLeaf (inl "air")); ("rho", JLeaf (inr 5))]).
  split; [reflexivity|]. split; [repeat split; exists (inl "air"); split; reflexivity|]. split; [reflexivity|].
  split; [exists (inl "air"); split; reflexivity|]. split; reflexivity.
Qed.
Print Assumptions C134_own_description_refuted.

(** the constructor of the flow solvers ignores what the components describe *)
Theorem C134_flow_solvers_refuted :
  exists (library : list (string * json (string + nat))) components lib1 lib2,
    materials1 leaf_str library (Some components) = (Fine, lib1) /\ materials2 library (Some components) = (Fine, lib2) /\
    at_path (JObj lib1) ["glue"; "rho"] = Some (JLeaf (inr 2)) /\ at_path (JObj lib2) ["glue"; "rho"] = None.
Proof. exists jlib, [jmat "glue" 2]. do 2 eexists. repeat split. Qed.
Print Assumptions C134_flow_solvers_refuted.

(** * C135 fields *)
Local Open Scope R_scope.
(** which fields a magnetostatic solver has, on which spaces and with which contents, whatever external fields were asked for *)
Theorem C135_magnetostatic_fields :
  forall (O : Type) (space_dis : O) degree made ext fs, magnetostaticFields space_dis degree made ext = (Fine, fs) ->
  (forall n, In n ["state"; "dirichlet_bc"; "adjoint"] -> look n fs = Some (Build_field (ByOptions space_dis 1) Zero)) /\
  look "mesh_coords" fs = Some (Build_field OfMesh Coordinates) /\
  (forall n x k, look n ext = Some x -> x_states x = Some k -> ~ In n ["state"; "dirichlet_bc"; "adjoint"; "mesh_coords"; "temperature"] ->
     look n fs = Some (Build_field (ByOptions (x_opts x) k) Zero)) /\
  (exists sp, look "temperature" fs = Some (Build_field sp (Const 273.15)) /\
     (look "temperature" ext = None -> sp = Linear) /\
     (forall x k, look "temperature" ext = Some x -> x_states x = Some k -> sp = ByOptions (x_opts x) k)) /\
  (forall n, In n ["flux_magnitude"; "peak_flux"] -> look n ext = None -> ~ In n made -> look n fs = Some (Build_field (Dg degree 1) Zero)) /\
  (forall n, look n fs <> None <->
     In n (["state"; "dirichlet_bc"; "adjoint"; "mesh_coords"; "temperature"; "flux_magnitude"; "peak_flux"] ++ made)%list \/ look n ext <> None).
Proof.
  intros O sd dg made ext fs H. pose proof (mag_look sd dg made ext fs H) as G.
  assert (E : forall n, existsb (String.eqb n) made = true <-> In n made).
  { intros n. rewrite existsb_exists. split; [intros [x [A B]]; apply String.eqb_eq in B; congruence | intros A; exists n; split; [exact A | apply String.eqb_refl]]. }
  split; [|split; [|split; [|split; [|split]]]].
  - intros n [<-|[<-|[<-|[]]]]; rewrite G; reflexivity.
  - rewrite G. reflexivity.
  - intros n x k Hx Hk N. rewrite G. unfold reserved. cbn [existsb].
    destruct (String.eqb_spec n "state") as [->|]; [exfalso; apply N; cbn; auto|].
    destruct (String.eqb_spec n "dirichlet_bc") as [->|]; [exfalso; apply N; cbn; auto|].
    destruct (String.eqb_spec n "adjoint") as [->|]; [exfalso; apply N; cbn; auto|]. cbn [orb].
    destruct (String.eqb_spec n "mesh_coords") as [->|]; [exfalso; apply N; cbn; auto|].
    destruct (String.eqb_spec n "temperature") as [->|]; [exfalso; apply N; cbn; auto 6|].
    rewrite Hx. unfold asked. rewrite Hk. reflexivity.
  - exists (match look "temperature" ext with Some x => f_space (asked x) | None => Linear end). split; [|split].
    + rewrite G. cbn -[look]. replace 273.15 with (27315/100) by lra. reflexivity.
    + intros ->. reflexivity.
    + intros x k -> Hk. unfold asked. rewrite Hk. reflexivity.
  - intros n I Hx Hm. rewrite G. destruct (existsb (String.eqb n) made) eqn:M; [apply E in M; contradiction|].
    rewrite Hx. destruct I as [<-|[<-|[]]]; reflexivity.
  - intros n. rewrite in_app_iff, <- (E n), G. unfold reserved. cbn [existsb In].
    destruct (String.eqb_spec n "state") as [->|]; [cbn; intuition discriminate|].
    destruct (String.eqb_spec n "dirichlet_bc") as [->|]; [cbn; intuition discriminate|].
    destruct (String.eqb_spec n "adjoint") as [->|]; [cbn; intuition discriminate|]. cbn [orb].
    destruct (String.eqb_spec n "mesh_coords") as [->|]; [cbn; intuition discriminate|].
    destruct (String.eqb_spec n "temperature") as [->|]; [cbn; intuition discriminate|].
    destruct (look n ext) as [x|]; [intuition discriminate|].
    destruct (existsb (String.eqb n) made); [intuition discriminate|].
    destruct (String.eqb_spec n "flux_magnitude") as [->|]; [cbn; intuition discriminate|].
    destruct (String.eqb_spec n "peak_flux") as [->|]; [cbn; intuition discriminate|]. cbn [orb].
    split; [congruence|]. intros [[X|X]|X]; [|discriminate|congruence].
    destruct X as [X|[X|[X|[X|[X|[X|[X|[]]]]]]]]; symmetry in X; contradiction.
Qed.
Print Assumptions C135_magnetostatic_fields.

(** construction succeeds iff every external field has a number of states; a thermal solver's fields *)
Theorem C135_accepted :
  forall (O : Type) (space_dis : O) degree made (ext : list (string * external O)),
  (exists fs, magnetostaticFields space_dis degree made ext = (Fine, fs)) <-> (forall n x, In (n, x) ext -> x_states x <> None).
Proof. intros. apply mag_fine. Qed.
Print Assumptions C135_accepted.

Theorem C135_thermal_fields :
  forall (O : Type) (space_dis : O) made ext fs, thermalFields space_dis made ext = (Fine, fs) ->
  (forall n, In n ["state"; "dirichlet_bc"; "adjoint"] -> look n fs = Some (Build_field (ByOptions space_dis 1) Zero)) /\
  look "mesh_coords" fs = Some (Build_field OfMesh Coordinates) /\
  (forall n x k, look n ext = Some x -> x_states x = Some k -> ~ In n ["state"; "dirichlet_bc"; "adjoint"; "mesh_coords"] ->
     look n fs = Some (Build_field (ByOptions (x_opts x) k) Zero)) /\
  (look "thermal_load" ext = None -> look "thermal_load" fs = Some (Build_field OfState Zero)).
Proof.
  intros O sd made ext fs. unfold thermalFields. destruct (pdeFields sd 1 ext) as [[] f0] eqn:P; try discriminate.
  intros H. injection H as <-. pose proof (pde_look _ _ _ _ P) as G. split; [|split; [|split]].
  - intros n [<-|[<-|[<-|[]]]]; rewrite look_emplace, made_look, G; reflexivity.
  - rewrite look_emplace, made_look, G; reflexivity.
  - intros n x k Hx Hk N. rewrite look_emplace, made_look, G. unfold reserved. cbn [existsb].
    destruct (String.eqb_spec n "state") as [->|]; [exfalso; apply N; cbn; auto|].
    destruct (String.eqb_spec n "dirichlet_bc") as [->|]; [exfalso; apply N; cbn; auto|].
    destruct (String.eqb_spec n "adjoint") as [->|]; [exfalso; apply N; cbn; auto|]. cbn [orb].
    destruct (String.eqb_spec n "mesh_coords") as [->|]; [exfalso; apply N; cbn; auto|].
    rewrite Hx. unfold asked. cbn. rewrite Hk. reflexivity.
  - intros Hx. rewrite look_emplace, made_look, G, Hx. destruct (existsb (String.eqb "thermal_load") made); reflexivity.
Qed.
Print Assumptions C135_thermal_fields.

(** asking for the size of a field: positive exactly for the names the solver knows, and then the size of the field's space *)
Theorem C135_field_size :
  forall (O : Type) (size : space O -> nat) (nstate : nat) (fs : list (string * field O)),
  (forall n f, look n fs = Some f -> (0 < size (f_space f))%nat) -> (0 < nstate)%nat ->
  (forall n, ~ In n ["state"; "adjoint"; "residual"] ->
     (getFieldSize size nstate fs n = 0%nat <-> look n fs = None) /\
     (forall f, look n fs = Some f -> getFieldSize size nstate fs n = size (f_space f))) /\
  (forall n, In n ["state"; "adjoint"; "residual"] -> getFieldSize size nstate fs n = nstate).
Proof.
  intros O size ns fs Hp Hn. split.
  - intros n N. unfold getFieldSize.
    destruct (String.eqb_spec n "state") as [->|]; [exfalso; apply N; cbn; auto|].
    destruct (String.eqb_spec n "residual") as [->|]; [exfalso; apply N; cbn; auto|].
    destruct (String.eqb_spec n "adjoint") as [->|]; [exfalso; apply N; cbn; auto|]. cbn.
    destruct (look n fs) as [f|] eqn:E; split; try (split; intros; try discriminate; auto); intros; try congruence.
    pose proof (Hp n f E). lia.
  - intros n [<-|[<-|[<-|[]]]]; unfold getFieldSize; cbn; destruct ns; try lia; reflexivity.
Qed.
Print Assumptions C135_field_size.

(** an external field called "state" (or "adjoint", "mesh_coords") is dropped silently; one called "residual" exists but is
    reported with the size of the state; an external temperature loses whatever it held *)
Theorem C135_external_refuted :
  exists (ext : list (string * external nat)) fs x y,
    magnetostaticFields 2%nat 1 [] ext = (Fine, fs) /\
    look "state" ext = Some x /\ look "state" fs <> Some (asked x) /\
    look "residual" ext = Some y /\ look "residual" fs = Some (asked y) /\
    forall size, size (ByOptions (x_opts y) 3) <> 10%nat -> size (f_space (asked y)) <> getFieldSize size 10 fs "residual".
Proof.
  exists [("state", {| x_opts := 5%nat; x_states := Some 2%nat |}); ("residual", {| x_opts := 7%nat; x_states := Some 3%nat |})].
  eexists. exists {| x_opts := 5%nat; x_states := Some 2%nat |}, {| x_opts := 7%nat; x_states := Some 3%nat |}.
  split; [reflexivity|]. split; [reflexivity|]. split; [discriminate|]. split; [reflexivity|]. split; [reflexivity|].
  intros size H. exact H.
Qed.
Print Assumptions C135_external_refuted.

Example C135_case : exists fs, magnetostaticFields 2%nat 1 ["state_dot"] [("temperature", {| x_opts := 4%nat; x_states := Some 1%nat |}); ("peak_flux", {| x_opts := 6%nat; x_states := Some 1%nat |})] = (Fine, fs) /\
  look "peak_flux" fs = Some (Build_field (ByOptions 6%nat 1) Zero) /\ look "flux_magnitude" fs = Some (Build_field (Dg 1 1) Zero).
Proof. eexists. split; [reflexivity|]. split; reflexivity. Qed.

(** * C136 outputs *)
(** the texts that select an output are unambiguous: a name means at most one kind of output *)
Theorem C136_names_unambiguous :
  forall name k k', (names magnetostatic_names name k -> names magnetostatic_names name k' -> k = k') /\
                    (names thermal_names name k -> names thermal_names name k' -> k = k').
Proof. intros. split; apply names_fun; first [exact mag_sep | exact mag_one | exact th_sep | exact th_one]. Qed.
Print Assumptions C136_names_unambiguous.

Lemma follows_mag O dim dg cur : follows (addOutputMagnetostatic (O := O) dim dg cur) magnetostatic_names.
Proof. intros name o s. apply mag_adds. Qed.
Lemma follows_th O : follows (addOutputThermal (O := O)) thermal_names.
Proof. intros name o s. apply thermal_adds. Qed.
Lemma create_outcome O (add : string -> oopts -> solver O -> ending * solver O) t name o s : follows add t -> separate t = true -> one_kind t ->
  let r := createOutput add name o s in
  (fst r = Miso <-> look name (s_outs s) <> None \/ (forall k, ~ names t name k)) /\
  (fst r = Miso -> snd r = s) /\
  (fst r = Fine -> exists out, names t name (o_kind out) /\ look name (s_outs (snd r)) = Some out /\
                   forall n, n <> name -> look n (s_outs (snd r)) = look n (s_outs s)) /\
  (fst r <> Fine -> s_outs (snd r) = s_outs s) /\
  (forall n f, look n (s_fields s) = Some f -> look n (s_fields (snd r)) = Some f) /\
  (forall n f, look n (s_fields s) = None -> look n (s_fields (snd r)) = Some f -> In n [name; "v" ++ name; "thermal_adjoint"] /\ f_is f = Zero).
Proof.
  intros F S N. unfold createOutput. destruct (look name (s_outs s)) as [x|] eqn:E; cbv zeta.
  - cbn. repeat split; auto; try congruence; try discriminate. intros _. left. discriminate.
  - pose proof (F name o s) as G. destruct (table_add t name) as [k|] eqn:T.
    + assert (Hk : names t name k) by (apply table_names; auto). destruct G as [[K1 K2] [M [B C]]].
      split; [split; [intros; contradiction | intros [X|X]; [congruence | exfalso; apply (X k Hk)]]|].
      split; [intros; contradiction|]. split.
      * intros Hf. rewrite Hf in C. destruct C as [out [Ho C]]. exists out. rewrite Ho. split; [exact Hk|].
        split; [rewrite C, E, String.eqb_refl; reflexivity|]. intros n Hn. rewrite C. destruct (look n (s_outs s)); [reflexivity|].
        destruct (String.eqb_spec n name); [contradiction | reflexivity].
      * split; [intros Hf; destruct (fst (add name o s)); try exact C; contradiction|]. split; [exact K1|].
        intros n f H1 H2. destruct (B n f H1 H2) as [[ -> | [ -> | -> ] ] Hz]; split; auto; cbn; auto.
    + rewrite G. cbn. assert (X : forall k, ~ names t name k) by (apply table_none; auto).
      repeat split; auto; try congruence; try discriminate.
Qed.

(** createOutput of a magnetostatic solver: MISOException iff the name is taken or not supported, and then nothing changed; on
    success exactly that name is registered, with the kind its name says; in every case existing fields keep their space and
    contents, existing outputs stay, and a failed call registers nothing *)
Theorem C136_create_magnetostatic :
  forall (O : Type) dim degree current name o (s : solver O),
  let r := createOutput (addOutputMagnetostatic dim degree current) name o s in
  (fst r = Miso <-> look name (s_outs s) <> None \/ (forall k, ~ names magnetostatic_names name k)) /\
  (fst r = Miso -> snd r = s) /\
  (fst r = Fine -> exists out, names magnetostatic_names name (o_kind out) /\ look name (s_outs (snd r)) = Some out /\
                   forall n, n <> name -> look n (s_outs (snd r)) = look n (s_outs s)) /\
  (fst r <> Fine -> s_outs (snd r) = s_outs s) /\
  (forall n f, look n (s_fields s) = Some f -> look n (s_fields (snd r)) = Some f) /\
  (forall n f, look n (s_fields s) = None -> look n (s_fields (snd r)) = Some f -> In n [name; "v" ++ name; "thermal_adjoint"] /\ f_is f = Zero).
Proof. intros. apply create_outcome; [apply follows_mag | exact mag_sep | exact mag_one]. Qed.
Print Assumptions C136_create_magnetostatic.

Theorem C136_create_thermal :
  forall (O : Type) name o (s : solver O),
  let r := createOutput addOutputThermal name o s in
  (fst r = Miso <-> look name (s_outs s) <> None \/ (forall k, ~ names thermal_names name k)) /\
  (fst r = Miso -> snd r = s) /\
  (fst r = Fine -> exists out, names thermal_names name (o_kind out) /\ look name (s_outs (snd r)) = Some out /\
                   forall n, n <> name -> look n (s_outs (snd r)) = look n (s_outs s)) /\
  (fst r <> Fine -> s_outs (snd r) = s_outs s) /\
  (forall n f, look n (s_fields s) = Some f -> look n (s_fields (snd r)) = Some f) /\
  (forall n f, look n (s_fields s) = None -> look n (s_fields (snd r)) = Some f -> In n [name; "v" ++ name; "thermal_adjoint"] /\ f_is f = Zero).
Proof. intros. apply create_outcome; [apply follows_th | exact th_sep | exact th_one]. Qed.
Print Assumptions C136_create_thermal.

(** after any history of calls, succeeding or failing, the outputs present are of the kind their names say, and whatever was
    there stays *)
Theorem C136_history :
  forall (O : Type) dim degree current calls (s : solver O),
  let s' := history (addOutputMagnetostatic dim degree current) calls s in
  (forall n out, look n (s_outs s') = Some out -> look n (s_outs s) = Some out \/ names magnetostatic_names n (o_kind out)) /\
  (forall n out, look n (s_outs s) = Some out -> look n (s_outs s') = Some out) /\
  (forall n f, look n (s_fields s) = Some f -> look n (s_fields s') = Some f).
Proof.
  intros O dim dg cur calls s. split; [|split].
  - intros n out. apply (history_sound _ magnetostatic_names); [apply follows_mag | exact mag_sep | exact mag_one].
  - apply (history_keeps _ magnetostatic_names); apply follows_mag.
  - apply (history_keeps _ magnetostatic_names); apply follows_mag.
Qed.
Print Assumptions C136_history.

(** the attributes option restricts the output, for the outputs that read it *)
Theorem C136_attributes :
  forall (O : Type) dim degree current name k l a (s : solver O), look name (s_outs s) = None -> names magnetostatic_names name k ->
  In k [Energy; AverageFluxMagnitude; CoreLoss; Mass; Volume] -> look "attributes" l = Some (Ints a) ->
  let r := createOutput (addOutputMagnetostatic dim degree current) name (Some l) s in
  fst r = Fine /\ exists out, look name (s_outs (snd r)) = Some out /\ o_attrs out = Some a.
Proof.
  intros O dim dg cur name k l a s Hn Hk Hin Ha. apply table_names in Hk; [|exact mag_sep|exact mag_one].
  unfold createOutput. rewrite Hn. cbv zeta.
  assert (P : forall k fld, plain name k (Some l) fld s = (Fine, withOut name {| o_kind := k; o_attrs := Some a; o_field := fld |} s)).
  { intros k0 fld. unfold plain, attributes, contains, at_key. rewrite Ha. reflexivity. }
  assert (Q : forall k fld, fst (Fine, withOut name {| o_kind := k; o_attrs := Some a; o_field := fld |} s) = Fine /\
     exists out, look name (s_outs (snd (Fine, withOut name {| o_kind := k; o_attrs := Some a; o_field := fld |} s))) = Some out /\ o_attrs out = Some a).
  { intros k0 fld. split; [reflexivity|]. cbn. rewrite look_emplace, Hn, String.eqb_refl. eexists. split; reflexivity. }
  unfold table_add, magnetostatic_names in Hk. cbn [List.find fst snd] in Hk. unfold addOutputMagnetostatic, starts.
  repeat match type of Hk with context [if prefix ?p name then _ else _] => destruct (prefix p name) eqn:? end;
  cbn [snd] in Hk; try discriminate; injection Hk as <-;
  try (rewrite P; apply Q); exfalso; cbn in Hin; intuition discriminate.
Qed.
Print Assumptions C136_attributes.

(** ... but not the winding losses, which use the attributes of the current whatever the option says; without a current they
    are restricted to nothing *)
Theorem C136_loss_attributes_refuted :
  forall (O : Type) dim degree current name l a (s : solver O), look name (s_outs s) = None ->
  names magnetostatic_names name DcLoss \/ names magnetostatic_names name AcLoss -> look "attributes" l = Some (Ints a) ->
  exists out, createOutput (addOutputMagnetostatic dim degree current) name (Some l) s = (Fine, withOut name out s) /\
    o_attrs out = Some (List.concat (List.concat current)) /\ (current = [] -> o_attrs out = Some []).
Proof.
  intros O dim dg cur name l a s Hn Hk Ha. unfold createOutput. rewrite Hn.
  destruct Hk as [Hk|Hk]; (apply table_names in Hk; [|exact mag_sep|exact mag_one]);
  unfold table_add, magnetostatic_names in Hk; cbn [List.find fst snd] in Hk; unfold addOutputMagnetostatic, starts;
  repeat match type of Hk with context [if prefix ?p name then _ else _] => destruct (prefix p name) eqn:? end;
  cbn [snd] in Hk; try discriminate; unfold loss; (eexists; split; [reflexivity|]; split; [reflexivity | intros ->; reflexivity]).
Qed.
Print Assumptions C136_loss_attributes_refuted.

(** createOutput(name) without options: these supported outputs throw a type error although nothing they need is missing in
    the solver *)
Theorem C136_no_options_refuted :
  forall (O : Type) dim degree current name k (s : solver O), look name (s_outs s) = None -> names magnetostatic_names name k ->
  In k [Force; Torque; MaxFluxMagnitude; MaxState; HeatSource] ->
  fst (createOutput (addOutputMagnetostatic dim degree current) name None s) = TypeError.
Proof.
  intros O dim dg cur name k s Hn Hk Hin. apply table_names in Hk; [|exact mag_sep|exact mag_one].
  unfold createOutput. rewrite Hn. unfold table_add, magnetostatic_names in Hk. cbn [List.find fst snd] in Hk. unfold addOutputMagnetostatic, starts.
  repeat match type of Hk with context [if prefix ?p name then _ else _] => destruct (prefix p name) eqn:? end;
  cbn [snd] in Hk; try discriminate; injection Hk as <-; try reflexivity; exfalso; cbn in Hin; intuition discriminate.
Qed.
Print Assumptions C136_no_options_refuted.

(** a name that starts with flux_magnitude needs a field of exactly that name *)
Theorem C136_flux_magnitude :
  forall (O : Type) dim degree current name o (s : solver O), look name (s_outs s) = None -> names magnetostatic_names name FluxMagnitude ->
  (fst (createOutput (addOutputMagnetostatic dim degree current) name o s) = Fine <-> look name (s_fields s) <> None) /\
  (look name (s_fields s) = None -> fst (createOutput (addOutputMagnetostatic dim degree current) name o s) = OutOfRange).
Proof.
  intros O dim dg cur name o s Hn Hk. apply table_names in Hk; [|exact mag_sep|exact mag_one].
  unfold createOutput. rewrite Hn. unfold table_add, magnetostatic_names in Hk. cbn [List.find fst snd] in Hk. unfold addOutputMagnetostatic, starts.
  repeat match type of Hk with context [if prefix ?p name then _ else _] => destruct (prefix p name) eqn:? end;
  cbn [snd] in Hk; try discriminate. unfold known. destruct (look name (s_fields s)); cbn; split; try split; intros; congruence || discriminate || reflexivity.
Qed.
Print Assumptions C136_flux_magnitude.

(** a second flux-magnitude output of a freshly constructed solver always fails; a flux-density output named like an existing
    field takes over that field's space, whatever it is; a state average over another field's space reads the state *)
Theorem C136_second_flux_magnitude_refuted :
  forall (O : Type) (space_dis : O) dim degree made current suffix o fs, suffix <> "" ->
  magnetostaticFields space_dis degree made [] = (Fine, fs) -> ~ In ("flux_magnitude" ++ suffix) made ->
  createOutput (addOutputMagnetostatic dim degree current) ("flux_magnitude" ++ suffix) o {| s_fields := fs; s_outs := [] |}
    = (OutOfRange, {| s_fields := fs; s_outs := [] |}).
Proof.
  intros O sd dim dg made cur suf o fs Hs H Hm. pose proof (C135_magnetostatic_fields O sd dg made [] fs H) as [_ [_ [_ [_ [_ G]]]]].
  assert (E : look ("flux_magnitude" ++ suf) fs = None).
  { destruct (look ("flux_magnitude" ++ suf) fs) eqn:E; [|reflexivity]. exfalso.
    assert (X : look ("flux_magnitude" ++ suf) fs <> None) by congruence. apply G in X. destruct X as [X|X]; [|apply X; reflexivity].
    apply in_app_iff in X. destruct X as [X|X]; [|contradiction].
    destruct X as [X|[X|[X|[X|[X|[X|[X|[]]]]]]]]; try discriminate X. cbn in X. injection X as X. congruence. }
  unfold createOutput. cbn [s_outs look]. unfold addOutputMagnetostatic, starts.
  replace (prefix "flux_magnitude" ("flux_magnitude" ++ suf)) with true by (symmetry; apply prefix_app; eauto).
  cbn [prefix append]. cbn. unfold known. cbn [s_fields]. cbn in E. rewrite E. reflexivity.
Qed.
Print Assumptions C136_second_flux_magnitude_refuted.

Theorem C136_flux_density_space_refuted :
  exists (ext : list (string * external nat)) fs s', magnetostaticFields 2%nat 1 [] ext = (Fine, fs) /\
    createOutput (addOutputMagnetostatic 3 1 []) "flux_density" None {| s_fields := fs; s_outs := [] |} = (Fine, s') /\
    exists out f, look "flux_density" (s_outs s') = Some out /\ look (o_field out) (s_fields s') = Some f /\ f_space f <> Dg 1 3.
Proof.
  exists [("flux_density", {| x_opts := 4%nat; x_states := Some 1%nat |})]. do 2 eexists. split; [reflexivity|]. split; [reflexivity|].
  do 2 eexists. split; [reflexivity|]. split; [reflexivity|]. discriminate.
Qed.
Print Assumptions C136_flux_density_space_refuted.

Theorem C136_average_state_refuted :
  exists (ext : list (string * external nat)) fs s', thermalFields 2%nat [] ext = (Fine, fs) /\
    createOutput addOutputThermal "average_state" (Some [("state", Text "other")]) {| s_fields := fs; s_outs := [] |} = (Fine, s') /\
    exists out, look "average_state" (s_outs s') = Some out /\ o_field out = "state".
Proof.
  exists [("other", {| x_opts := 4%nat; x_states := Some 1%nat |})]. do 2 eexists. split; [reflexivity|]. split; [reflexivity|].
  eexists. split; reflexivity.
Qed.
Print Assumptions C136_average_state_refuted.

Example C136_case : exists fs s', magnetostaticFields 2%nat 1 ["state_dot"] [] = (Fine, fs) /\
  history (addOutputMagnetostatic 2 1 [[[1; 2]; [3]]]%nat) [("energy", None); ("flux_density_a", None); ("nonsense", None); ("energy", None); ("force2", Some [("attributes", Ints [1%nat]); ("axis", Vector)]);
     ("dc_loss", Some [("attributes", Ints [9%nat])])] {| s_fields := fs; s_outs := [] |} = s' /\
  map fst (s_outs s') = ["energy"; "flux_density_a"; "dc_loss"] /\ look "vforce2" (s_fields s') = Some (Build_field OfMesh Zero) /\
  names magnetostatic_names "flux_density_a" FluxDensity.
Proof.
  eexists. eexists. split; [reflexivity|]. split; [reflexivity|]. split; [reflexivity|]. split; [reflexivity|].
  exists "flux_density", "_a". split; [cbn; auto 6 | reflexivity].
Qed.
