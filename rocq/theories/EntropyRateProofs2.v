(** Discrete balance laws of the semi-discrete flow equations, mass matrix included. *)
From Coq Require Import Reals Arith Lra Lia Psatz Bool List FunctionalExtensionality.
From Coquelicot Require Import Coquelicot.
From Verif Require Import Num Vec Euler EulerSpec EulerProofs EulerDeriv IsmailRoeProofs FluxProofs BoundaryProofs NavierStokes NavierStokesProofs
  Sbp SbpSpec SbpProofs SbpProofs2 SbpProofs3 SbpMesh SbpMeshSpec SbpMeshProofs SmoothCalc Vortex FlowJac FlowJacSpec FluxSmooth2 FlowJacProofs
  ViscWall ViscWallSpec ViscWallProofs ViscWallProofs2 EntropyRate EntropyRateSpec EntropyRateProofs.
Import ListNotations.
Local Open Scope R_scope.

Section Slope.
Context (d N ns : nat) (M : mesh) (WF : well_formed N M) (k : nat -> vec) (r : mat).
Context (EQ : forall i m, (i < N)%nat -> (m < ns)%nat -> massMult N ns (massMatrix d ns false M) k i m = - r i m).
Lemma slope_test W : lsum (fun e => rsum (e_n e) (fun i => e_H e i * e_detJ e i * dot ns (W (e_glob e i)) (k (e_glob e i)))) (els M) = - test N ns W r.
Proof.
  transitivity (test4 N ns W (massMatrix d ns false M) k); [symmetry; apply (mass_test d N ns false M WF)|].
  unfold test4, test, dot. rewrite <- rsum_opp. apply rsum_ext. intros i Hi. rewrite <- rsum_opp. apply rsum_ext. intros m Hm.
  change (rsum N _) with (massMult N ns (massMatrix d ns false M) k i m). rewrite EQ by assumption. ring.
Qed.
Lemma slope_content m : (m < ns)%nat -> mesh_integral M (fun i => k i m) = - rsum N (fun i => r i m).
Proof.
  intros Hm. rewrite <- (test_state N ns r m Hm), <- slope_test. unfold mesh_integral. apply lsum_ext. intros e He. apply rsum_ext. intros i Hi.
  f_equal. unfold dot. symmetry. apply (rsum_delta_r ns m (fun b => k (e_glob e i) b) Hm).
Qed.
End Slope.

(** everything that leaves through the boundary at one time *)
Definition outflow (d : nat) (visc : option viscosity) (M : mesh) (bcs : bface -> bc) (walls : list vface) (u : nat -> vec) (m : nat) : R :=
  bsum M (fun b k => bcFlux d false (bcs b) k (b_nrm b k) (u (bnode b k)) m) +
  match visc with None => 0 | Some vp => wsum walls (fun f k => wall_flux d vp f u k m) end.
Lemma bsum_fluxes M G (h : bface -> nat -> R) :
  bsum (with_fluxes M G) h = bsum M (fun b k => h (set_flux b (G b)) k).
Proof. unfold bsum. cbn [bfs with_fluxes]. rewrite lsum_map. reflexivity. Qed.
Lemma residual_total d N lps visc ifc M bcs walls t u r m : well_formed N M -> (forall f, In f (walls t) -> wall_fits N f) -> (m < d + 2)%nat ->
  gcl d M -> positive_mesh M -> proj_kills_constants M ->
  residualAt d false lps visc ifc M bcs walls t u = Some r ->
  rsum N (fun i => r i m) = outflow d visc M (bcs t) (walls t) u m.
Proof.
  intros WF WW Hm HG HP HK E. unfold outflow, residualAt in *. cbv zeta in E.
  pose proof (fluxes_fit N M WF (fun b => bcFlux d false (bcs t b))) as WF'.
  destruct visc as [vp|].
  - destruct ifc as [c|]; [cbn in E; discriminate|].
    rewrite (viscous_conservation d N lps vp _ (walls t) WF' WW u r m Hm HG HP HK E). f_equal. rewrite bsum_fluxes. reflexivity.
  - rewrite (conservation d N false lps None ifc _ WF' u r m Hm HG HP HK E). rewrite bsum_fluxes. rewrite Rplus_0_r. reflexivity.
Qed.

(** ** any Runge-Kutta-like update *)
Lemma mesh_integral_ext N M f g : well_formed N M -> (forall i, (i < N)%nat -> f i = g i) -> mesh_integral M f = mesh_integral M g.
Proof. intros (We & _ & _) H. unfold mesh_integral. apply lsum_ext. intros e He. apply rsum_ext. intros i Hi. rewrite H by (apply We; assumption). reflexivity. Qed.
Lemma mesh_integral_plus M f g : mesh_integral M (fun i => f i + g i) = mesh_integral M f + mesh_integral M g.
Proof. unfold mesh_integral. rewrite <- lsum_plus. apply lsum_ext. intros e He. rewrite <- rsum_plus. apply rsum_ext. intros i Hi. ring. Qed.
Lemma mesh_integral_scal M c f : mesh_integral M (fun i => c * f i) = c * mesh_integral M f.
Proof. unfold mesh_integral. rewrite <- lsum_scal. apply lsum_ext. intros e He. rewrite <- rsum_scal. apply rsum_ext. intros i Hi. ring. Qed.
Lemma mesh_integral_rsum M s f : mesh_integral M (fun i => rsum s (fun j => f j i)) = rsum s (fun j => mesh_integral M (f j)).
Proof.
  induction s as [|s IH].
  - cbn [rsum]. transitivity (0 * mesh_integral M (fun _ => 0)); [|ring]. rewrite <- mesh_integral_scal. unfold mesh_integral. apply lsum_ext. intros e He. apply rsum_ext. intros; ring.
  - cbn [rsum]. rewrite <- IH, <- mesh_integral_plus. reflexivity.
Qed.
Lemma update_content N M (k : nat -> nat -> vec) (b : nat -> R) s dt u u' m : well_formed N M ->
  (forall i, (i < N)%nat -> u' i m = u i m + dt * rsum s (fun j => b j * k j i m)) ->
  mesh_integral M (fun i => u' i m) = mesh_integral M (fun i => u i m) + dt * rsum s (fun j => b j * mesh_integral M (fun i => k j i m)).
Proof.
  intros WF H. rewrite (mesh_integral_ext N M _ (fun i => u i m + dt * rsum s (fun j => b j * k j i m)) WF H).
  rewrite mesh_integral_plus, mesh_integral_scal. f_equal. f_equal. rewrite (mesh_integral_rsum M s (fun j i => b j * k j i m)). apply rsum_ext. intros j Hj. apply mesh_integral_scal.
Qed.

(** ** entropy *)
Lemma entropy_is_integral d entvar N M u g : well_formed N M -> valid_gas d entvar N u g ->
  calcEntropy d entvar M u = mesh_integral M (fun i => math_entropy (g_rho g i) (g_p g i)).
Proof.
  intros (We & _ & _) VG. unfold calcEntropy, mesh_integral. apply lsum_ext. intros e He. unfold volumeEnergy. rewrite Rmult_1_r. apply rsum_ext. intros i Hi.
  destruct (VG (e_glob e i) (We e He i Hi)) as (Hr & Hp & D).
  replace (entropy d entvar (u (e_glob e i))) with (math_entropy (g_rho g (e_glob e i)) (g_p g (e_glob e i))); [ring|]. symmetry.
  destruct entvar; [apply entropy_ent_prim with (u := g_u g (e_glob e i))|apply entropy_prim with (u := g_u g (e_glob e i))]; assumption.
Qed.
Lemma calcEntropy_derive d N M u k : well_formed N M -> (forall i, (i < N)%nat -> physical d (u i)) ->
  is_derive (fun s => calcEntropy d false M (fun i => axpy (u i) s (k i))) 0
    (lsum (fun e => rsum (e_n e) (fun i => e_H e i * e_detJ e i * dot (d + 2) (calcEntropyVars d false (u (e_glob e i))) (k (e_glob e i)))) (els M)).
Proof.
  intros (We & _ & _) P. unfold calcEntropy. apply is_derive_lsum. intros e He. unfold volumeEnergy.
  apply (is_derive_ext (fun s => rsum (e_n e) (fun i => (e_H e i * e_detJ e i) * entropy d false (axpy (u (e_glob e i)) s (k (e_glob e i)))))).
  { intros s. rewrite Rmult_1_r. apply rsum_ext. intros; ring. }
  apply is_derive_rsum. intros i Hi. apply is_derive_scal'. apply entropy_derive. apply P, We; assumption.
Qed.
