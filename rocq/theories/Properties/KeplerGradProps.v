(** C94: gradients of Keplerian orbits (orbits/keplerian.py, core/kepler.py) obtained by automatic differentiation. *)
From Coq Require Import Reals List ZArith Lra.
From Coquelicot Require Import Hierarchy Derive.
From Verif Require Import Base.RealAux Model.Kepler Model.Keplerian Model.LimbDark Model.LightCurves Model.TransitOrbit Model.AutoDiff Model.LightCurveGrad Model.TransitGrad Model.KeplerGrad.
From Verif Require Import Spec.LimbDarkSpec Spec.OccultSpec Spec.KeplerSpec Spec.OrbitSpec Spec.AutoDiffSpec Spec.TransitSpec Spec.KeplerGradSpec.
From Verif Require Import Proof.AutoDiff Proof.KeplerExact Proof.KeplerianProof Proof.LightCurveGradFacts Proof.TransitGrad Proof.KeplerGrad Properties.KeplerianProps.
Import ListNotations.
Local Open Scope R_scope.

(** Finite for every well formed orbit (period and mass not zero, 0 <= eccentricity < 1, zero included), at every time. *)
Theorem C94_gradients_finite : forall au kep d o td t, exact_solver kep -> fin_orbital d o -> fin td t ->
  ob_period o <> 0 -> total_mass o <> 0 -> 0 <= ecc_val o < 1 ->
  (forall px vpx, fin_opt px vpx -> fin_vec (relative_position_d au kep d td px) (relative_position au kep o t vpx) /\ fin_vec (position_d au kep d td px) (position au kep o t vpx)) /\
  (forall sa vsa, fin_opt sa vsa -> fin (radial_velocity_d au kep d td sa) (radial_velocity au kep o t vsa)).
Proof. intros au kep d o td t Hk Ho Ht HP HM He. split; intros; [split; [now apply fin_relative_position|now apply fin_position]|now apply fin_radial_velocity]. Qed.
Print Assumptions C94_gradients_finite.
(** The constructor: finite for physical arguments, unless the argument of periastron is exactly -90 degrees or an impact parameter makes |cos i| = 1. *)
Theorem C94_constructor_finite : forall G c b o mc rc d, 0 < G -> fin mc (c_mass c) -> fin rc (c_radius c) -> fin_body d b ->
  make_orbital G c b = Ok o -> body_physical c b -> (forall e sw cw, ob_ecc o = Some (e, sw, cw) -> sw <> -1) -> (b_impact_param b <> None -> Rabs (ob_cos_incl o) < 1) ->
  exists od, make_orbital_d G mc rc d = Ok od /\ fin_orbital od o.
Proof. exact fin_make. Qed.
Print Assumptions C94_constructor_finite.
(** At -90 degrees, for every eccentricity, no position and no light curve has a gradient at any time, whatever is differentiated; *)
Theorem C94_constructor_finite_refuted : forall G mc rc d od e ve sw cw, make_orbital_d G mc rc d = Ok od ->
  b_eccentricity d = Some e -> b_omega_peri d = None -> b_sin_omega_peri d = Some sw -> b_cos_omega_peri d = Some cw -> fin e ve -> 0 <= ve < 1 -> fin sw (-1) -> fin cw 0 ->
  (forall au kep td px, exists y, relative_position_d au kep od td px = (None, y, None)) /\
  (forall au kep eps quad us td rd, transit_light_curve_d eps quad (kep_lc_orbit_d au kep od rd) us td = None).
Proof. exact peri_undefined. Qed.
Print Assumptions C94_constructor_finite_refuted.
(** at |cos i| = 1 the coordinate along the line of sight has none. *)
Theorem C94_constructor_finite_polar_refuted : forall G c b o mc rc d od, 0 < G -> fin mc (c_mass c) -> fin rc (c_radius c) -> fin_body d b ->
  make_orbital G c b = Ok o -> make_orbital_d G mc rc d = Ok od -> body_physical c b -> (forall e sw cw, ob_ecc o = Some (e, sw, cw) -> sw <> -1) ->
  b_impact_param b <> None -> 1 <= Rabs (ob_cos_incl o) -> forall au kep td px, snd (relative_position_d au kep od td px) = None.
Proof. exact polar_undefined. Qed.
Print Assumptions C94_constructor_finite_polar_refuted.

(** bodies meeting the hypotheses: periastron at -90 degrees; a circular orbit of 10 stellar radii with an impact parameter of 10 *)
Definition ex_behind_d : body_of D :=
  {| b_time_transit := None; b_time_peri := None; b_period := None; b_semimajor := Some (cst 10); b_inclination := None; b_impact_param := None; b_eccentricity := Some (cst 0.5);
     b_omega_peri := None; b_sin_omega_peri := Some (cst (-1)); b_cos_omega_peri := Some (cst 0); b_asc_node := None; b_sin_asc_node := None; b_cos_asc_node := None;
     b_mass := None; b_radius := None; b_semiamplitude := None; b_parallax := None |}.
Example C94_constructor_refuted_sat : exists od, make_orbital_d 2945 (cst 1) (cst 1) ex_behind_d = Ok od /\ fin (cst 0.5) 0.5 /\ fin (cst (-1)) (-1) /\ fin (cst 0) 0.
Proof. eexists. split; [reflexivity|]. split; [apply fin_cst|split; apply fin_cst]. Qed.
Definition ex_polar : body :=
  {| b_time_transit := None; b_time_peri := None; b_period := None; b_semimajor := Some 10; b_inclination := None; b_impact_param := Some 10; b_eccentricity := None;
     b_omega_peri := None; b_sin_omega_peri := None; b_cos_omega_peri := None; b_asc_node := None; b_sin_asc_node := None; b_cos_asc_node := None;
     b_mass := None; b_radius := None; b_semiamplitude := None; b_parallax := None |}.
Definition ex_polar_d : body_of D :=
  {| b_time_transit := None; b_time_peri := None; b_period := None; b_semimajor := Some (cst 10); b_inclination := None; b_impact_param := Some (cst 10); b_eccentricity := None;
     b_omega_peri := None; b_sin_omega_peri := None; b_cos_omega_peri := None; b_asc_node := None; b_sin_asc_node := None; b_cos_asc_node := None;
     b_mass := None; b_radius := None; b_semiamplitude := None; b_parallax := None |}.
Example C94_polar_sat : exists o od, make_orbital 2945 sample_central ex_polar = Ok o /\ make_orbital_d 2945 (cst 1) (cst 1) ex_polar_d = Ok od /\ body_physical sample_central ex_polar /\
  fin_body ex_polar_d ex_polar /\ ob_ecc o = None /\ 1 <= Rabs (ob_cos_incl o).
Proof.
  eexists. eexists. split; [reflexivity|]. split; [reflexivity|]. split; [|split; [|split; [reflexivity|]]].
  - unfold body_physical, ex_polar. cbn. repeat split; intros; try discriminate; try lra. injection H as <-. lra.
  - unfold fin_body, ex_polar, ex_polar_d. cbn. now repeat apply conj; try apply fin_cst.
  - cbn. rewrite Rabs_pos_eq by lra. lra.
Qed.

(** Along any differentiable path of orbits, times and parallaxes the tangent is the derivative of the coordinates and of the velocity. *)
Theorem C94_tangent_is_derivative : forall au kep d o s td tf, exact_solver kep -> tracks_orbital o s d -> tracks tf s td ->
  ob_period (o s) <> 0 -> total_mass (o s) <> 0 -> locally s (fun z => 0 <= ecc_val (o z) < 1) ->
  (forall px fpx, tracks_opt fpx s px -> tracks_vec (fun z => relative_position au kep (o z) (tf z) (fpx z)) s (relative_position_d au kep d td px) /\
                                         tracks_vec (fun z => position au kep (o z) (tf z) (fpx z)) s (position_d au kep d td px)) /\
  (forall sa fsa, tracks_opt fsa s sa -> tracks (fun z => radial_velocity au kep (o z) (tf z) (fsa z)) s (radial_velocity_d au kep d td sa)).
Proof. intros au kep d o s td tf Hk Ho Ht HP HM He. split; intros; [split; [now apply tracks_relative_position|now apply tracks_position]|now apply tracks_radial_velocity]. Qed.
Print Assumptions C94_tangent_is_derivative.
(** Such a path is that of the arguments of the constructors ... *)
Theorem C94_constructor_derivative : forall G (c : R -> central) (b : R -> body) (o : R -> orbital) s mc rc d, 0 < G -> tracks (fun z => c_mass (c z)) s mc -> tracks (fun z => c_radius (c z)) s rc -> tracks_body b s d ->
  (forall z, make_orbital G (c z) (b z) = Ok (o z)) -> body_physical (c s) (b s) -> (forall e sw cw, ob_ecc (o s) = Some (e, sw, cw) -> sw <> -1) -> (b_impact_param (b s) <> None -> Rabs (ob_cos_incl (o s)) < 1) ->
  exists od, make_orbital_d G mc rc d = Ok od /\ tracks_orbital o s od.
Proof. exact tracks_make. Qed.
Print Assumptions C94_constructor_derivative.
(** ... so that differentiating through both gives the derivative of the coordinates and of the velocity in the arguments. *)
Theorem C94_gradient_in_arguments : forall G (c : R -> central) (b : R -> body) (o : R -> orbital) s mc rc d, 0 < G -> tracks (fun z => c_mass (c z)) s mc -> tracks (fun z => c_radius (c z)) s rc -> tracks_body b s d ->
  (forall z, make_orbital G (c z) (b z) = Ok (o z)) -> body_physical (c s) (b s) -> (forall e sw cw, ob_ecc (o s) = Some (e, sw, cw) -> sw <> -1) -> (b_impact_param (b s) <> None -> Rabs (ob_cos_incl (o s)) < 1) ->
  locally s (fun z => 0 <= ecc_val (o z) < 1) ->
  exists od, make_orbital_d G mc rc d = Ok od /\ forall au kep td tf, exact_solver kep -> tracks tf s td ->
    tracks_vec (fun z => relative_position au kep (o z) (tf z) None) s (relative_position_d au kep od td None) /\
    tracks_vec (fun z => position au kep (o z) (tf z) None) s (position_d au kep od td None) /\
    tracks (fun z => radial_velocity au kep (o z) (tf z) None) s (radial_velocity_d au kep od td None).
Proof. exact args_tracks. Qed.
Print Assumptions C94_gradient_in_arguments.
(** A family of bodies: [sample_body] with any impact parameter, differentiated in the impact parameter. *)
Definition ex_family (z : R) : body :=
  {| b_time_transit := Some 2; b_time_peri := None; b_period := None; b_semimajor := Some 10; b_inclination := None; b_impact_param := Some z; b_eccentricity := Some 0.3;
     b_omega_peri := Some 1; b_sin_omega_peri := None; b_cos_omega_peri := None; b_asc_node := None; b_sin_asc_node := None; b_cos_asc_node := None;
     b_mass := Some 0.1; b_radius := Some 0.1; b_semiamplitude := None; b_parallax := None |}.
Definition ex_family_d (z : R) : body_of D :=
  {| b_time_transit := Some (cst 2); b_time_peri := None; b_period := None; b_semimajor := Some (cst 10); b_inclination := None; b_impact_param := Some (Some (z, 1)); b_eccentricity := Some (cst 0.3);
     b_omega_peri := Some (cst 1); b_sin_omega_peri := None; b_cos_omega_peri := None; b_asc_node := None; b_sin_asc_node := None; b_cos_asc_node := None;
     b_mass := Some (cst 0.1); b_radius := Some (cst 0.1); b_semiamplitude := None; b_parallax := None |}.
Lemma ex_family_fin z : fin_body (ex_family_d z) (ex_family z).
Proof. unfold fin_body, ex_family, ex_family_d. cbn. now repeat apply conj; try apply fin_cst; try exact I; exists 1. Qed.
Lemma ex_family_tracks z : tracks_body ex_family z (ex_family_d z).
Proof.
  unfold tracks_body, ex_family, ex_family_d. cbn.
  repeat apply conj; try (intros; reflexivity);
    try (match goal with |- exists g, (forall _, Some ?v = Some (g _)) /\ tracks g _ (cst ?v) => exists (fun _ => v); split; [reflexivity|apply tracks_cst] end).
  exists (fun w => w). split; [reflexivity|apply tracks_seed].
Qed.
Lemma ex_family_cos G o : 0 < G -> make_orbital G sample_central (ex_family 0.2) = Ok o -> Rabs (ob_cos_incl o) < 1 /\ ob_ecc o = Some (0.3, sin 1, cos 1) /\ sin 1 <> -1.
Proof.
  intros HG E. injection E as <-. cbn [ob_cos_incl ob_ecc]. assert (H1 : 0 < sin 1) by (apply sin_gt_0; [lra|]; pose proof PI2_1; lra). pose proof (SIN_bound 1) as H2. split; [|split; [reflexivity|lra]].
  cbn. apply Rabs_def1; lra.
Qed.
Example C94_arguments_sat : exists o, (forall z, make_orbital 2945 sample_central (ex_family z) = Ok (o z)) /\ body_physical sample_central (ex_family 0.2) /\ tracks_body ex_family 0.2 (ex_family_d 0.2) /\
  fin_body (ex_family_d 0.2) (ex_family 0.2) /\ Rabs (ob_cos_incl (o 0.2)) < 1 /\ (forall e sw cw, ob_ecc (o 0.2) = Some (e, sw, cw) -> sw <> -1) /\ locally 0.2 (fun z => 0 <= ecc_val (o z) < 1) /\ exact_solver exact_kepler.
Proof.
  eexists (fun z => _). split; [intros z; reflexivity|].
  destruct (ex_family_cos 2945 _ ltac:(lra) eq_refl) as (H1 & H2 & H3).
  split; [exact sample_physical|]. split; [apply ex_family_tracks|]. split; [apply ex_family_fin|]. split; [exact H1|]. split; [|split; [|exact exact_kepler_exact]].
  - intros e sw cw E. assert (E' := eq_trans (eq_sym E) H2). injection E' as -> -> ->. exact H3.
  - apply filter_forall. intros z. cbn. lra.
Qed.
(** The gradient of the relative position with respect to the time is the relative velocity the package computes in closed form. *)
Theorem C94_time_gradient_is_velocity : forall au kep o t, exact_solver kep -> orbit_ok o -> ob_semiamplitude o = None ->
  exists v, relative_velocity au kep o t None = Ok v /\ position_jvp au kep o t = (Some (vx v), Some (vy v), Some (along v)).
Proof. exact jvp_is_velocity. Qed.
Print Assumptions C94_time_gradient_is_velocity.

(** Light curves: finite whenever the body is not exactly in front of (or behind) the centre of the star; *)
Theorem C94_light_curve_finite : forall au kep eps quad d o us u td t rd r, exact_solver kep -> 0 < eps -> List.Forall2 fin us u -> disk_flux u <> 0 ->
  fin_orbital d o -> fin td t -> fin rd r -> ob_period o <> 0 -> total_mass o <> 0 -> 0 <= ecc_val o < 1 -> c_radius (ob_central o) <> 0 -> r <> 0 ->
  sky_sep (relative_position au kep o t None) <> 0 ->
  fin (transit_light_curve_d eps quad (kep_lc_orbit_d au kep d rd) us td) (transit_light_curve eps quad (kep_lc_orbit au kep (ob_central o) o r) u t).
Proof. exact kep_light_curve_finite. Qed.
Print Assumptions C94_light_curve_finite.
(** undefined there: with an impact parameter of 0 at the time of every transit. *)
Theorem C94_light_curve_finite_refuted : forall G au kep eps quad c b d o us td rd, exact_solver kep -> make_orbital G c b = Ok o -> orbit_ok o -> ob_parallax o = None -> 0 < c_radius c ->
  (forall e sw cw, ob_ecc o = Some (e, sw, cw) -> sw <> -1) -> 0 < ob_sin_incl o -> ob_impact o = 0 ->
  fin_orbital d o -> fin td (ob_time_transit o) -> transit_light_curve_d eps quad (kep_lc_orbit_d au kep d rd) us td = None.
Proof. exact kep_mid_transit_undefined. Qed.
Print Assumptions C94_light_curve_finite_refuted.
Example C94_refuted_sat : exists o, make_orbital 2945 sample_central (ex_family 0) = Ok o /\ orbit_ok o /\ ob_parallax o = None /\ 0 < ob_sin_incl o /\ ob_impact o = 0 /\
  (forall e sw cw, ob_ecc o = Some (e, sw, cw) -> sw <> -1) /\ fin_orbital (const_orbital_d o) o.
Proof.
  assert (H1 : 0 < sin 1) by (apply sin_gt_0; [lra|]; pose proof PI2_1; lra). eexists. split; [reflexivity|].
  split; [|split; [reflexivity|split; [|split; [reflexivity|split; [|apply const_fin_orbital]]]]].
  - apply (make_wf 2945 sample_central (ex_family 0) _ ltac:(lra) eq_refl sample_physical). intros _. cbn -[pow]. rewrite Rmult_0_r, Rabs_R0. lra.
  - cbn -[pow]. rewrite Rmult_0_r. apply sqrt_lt_R0. lra.
  - cbn. intros e sw cw E. injection E as <- <- <-. lra.
Qed.
(** Away from the exceptional points of C92 and from the plane of the sky the tangent of the light curve is its derivative. *)
Theorem C94_light_curve_derivative : forall au kep eps quad us xs o tf r s d td rd, exact_solver kep -> 0 < eps -> List.Forall2 (fun f x => tracks f s x) us xs -> disk_flux (map (fun f => f s) us) <> 0 ->
  tracks_orbital o s d -> tracks tf s td -> tracks r s rd -> ob_period (o s) <> 0 -> total_mass (o s) <> 0 -> locally s (fun z => 0 <= ecc_val (o z) < 1) -> c_radius (ob_central (o s)) <> 0 ->
  0 < sky_sep (relative_position au kep (o s) (tf s) None) -> along (relative_position au kep (o s) (tf s) None) <> 0 ->
  (0 < along (relative_position au kep (o s) (tf s) None) -> regular_point eps quad (sky_sep (relative_position au kep (o s) (tf s) None) / c_radius (ob_central (o s))) (r s / c_radius (ob_central (o s)))) ->
  (along (relative_position au kep (o s) (tf s) None) < 0 -> r s <> 0) ->
  tracks (fun z => transit_light_curve eps quad (kep_lc_orbit au kep (ob_central (o z)) (o z) (r z)) (map (fun f => f z) us) (tf z)) s (transit_light_curve_d eps quad (kep_lc_orbit_d au kep d rd) xs td).
Proof. exact kep_light_curve_tracks. Qed.
Print Assumptions C94_light_curve_derivative.
Example C94_light_curve_sat : exists o, make_orbital 2945 sample_central (ex_family 0.3) = Ok o /\ 0 < ob_period o /\ 0 < total_mass o /\ c_radius (ob_central o) = 1 /\
  0 < sky_sep (relative_position 215 exact_kepler o 2 None) /\ 0 < along (relative_position 215 exact_kepler o 2 None) /\
  regular_point (/ 1000000) [(0, 2)] (sky_sep (relative_position 215 exact_kepler o 2 None) / c_radius (ob_central o)) (0.1 / c_radius (ob_central o)).
Proof.
  assert (H1 : 0 < sin 1) by (apply sin_gt_0; [lra|]; pose proof PI2_1; lra). pose proof (SIN_bound 1) as H2.
  destruct (make_orbital 2945 sample_central (ex_family 0.3)) as [o|] eqn:E; [|discriminate]. exists o. split; [reflexivity|].
  assert (Hc : Rabs (ob_cos_incl o) < 1 /\ 0 < ob_sin_incl o /\ ob_parallax o = None /\ ob_impact o = 0.3 /\ ob_time_transit o = 2 /\ ob_central o = sample_central /\ (forall e sw cw, ob_ecc o = Some (e, sw, cw) -> sw <> -1)).
  { pose proof (mk_fields _ _ _ _ E) as F. injection E as <-. cbn -[pow]. set (q := (1 + 0.3 * sin 1) / (1 - 0.3 ^ 2) * 1 / 10 * 0.3).
    assert (Q : 0 <= q <= 1/2) by (unfold q; cbn; lra).
    split; [apply Rabs_def1; lra|]. split; [apply sqrt_lt_R0; nra|]. repeat (split; [reflexivity|]). intros e sw cw Ee. injection Ee as <- <- <-. lra. }
  destruct Hc as (C1 & C2 & C3 & C4 & C5 & C6 & C7).
  assert (Hok : orbit_ok o) by (apply (make_wf 2945 sample_central (ex_family 0.3) o ltac:(lra) E sample_physical); intros _; exact C1).
  destruct (KeplerianMore.at_transit 2945 215 exact_kepler sample_central (ex_family 0.3) o exact_kepler_exact Hok E C3 ltac:(cbn; lra) C7 C2) as [HS HA].
  rewrite C5, C4 in HS. rewrite C5 in HA. destruct Hok as (_ & HP & HM & _). rewrite C6. cbn [c_radius sample_central] in *.
  rewrite HS. rewrite Rabs_pos_eq by lra. replace (0.3 * 1 / 1) with 0.3 by lra. replace (0.1 / 1) with 0.1 by lra.
  split; [exact HP|]. split; [exact HM|]. split; [reflexivity|]. split; [lra|]. split; [exact HA|exact regular_point_sat].
Qed.
