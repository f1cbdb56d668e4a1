(** C89: the light curves of orbits and systems (light_curves/limb_dark.py, light_curves/emission.py) are visible fluxes. *)
From Coq Require Import Reals Lra Lia ZArith List Bool Arith.
From Coquelicot Require Import Coquelicot.
From Verif Require Import Base.RealAux Model.LimbDark Model.LightCurves Model.TransitOrbit Model.Keplerian
  Spec.LimbDarkSpec Spec.RotationSpec Spec.BasisSpec Spec.DiskSpec Spec.OccultSpec Spec.YlmSpec Spec.SkySpec Spec.ShadowSpec Spec.QuadSpec Spec.KeplerSpec Spec.OrbitSpec Spec.TransitSpec
  Proof.Shadows Proof.TransitFlux.
From Verif Require Proof.TransitProof Proof.LimbDarkArea Proof.GaussLegendre Properties.KeplerianProps.
Import ListNotations.
Open Scope R_scope.

(** the transit light curve of any orbit at any time: the fraction of the star's light that is left, minus 1 *)
Theorem C89_transit : forall orbit u t, 0 < lo_central_radius orbit -> 0 <= lo_radius orbit -> disk_flux u <> 0 ->
  let l := in_front (lo_central_radius orbit) (lo_radius orbit) (lo_relative_position orbit t) in ~ same_disk l ->
  order_limit (fun eps rule => transit_light_curve eps rule orbit u t) (flux_past l (ld_disk u) / ld_flux u - 1).
Proof. exact transit_limit. Qed.
Print Assumptions C89_transit.
(** so it is never above 0 nor below -1, if the limb darkening profile is nowhere negative *)
Theorem C89_transit_bounds : forall orbit u t, 0 < lo_central_radius orbit -> 0 <= lo_radius orbit -> disk_flux u <> 0 -> (forall z, 0 <= z <= 1 -> 0 <= ld_profile u z) ->
  ~ same_disk (in_front (lo_central_radius orbit) (lo_radius orbit) (lo_relative_position orbit t)) -> forall delta, 0 < delta ->
  exists N, forall n rule, (N <= n)%nat -> gauss_legendre n rule -> exists eps0, 0 < eps0 /\ forall eps, 0 < eps <= eps0 -> -1 - delta <= transit_light_curve eps rule orbit u t <= delta.
Proof. exact transit_bounds. Qed.
Print Assumptions C89_transit_bounds.
(** emission: the star's entry is what no body hides, when no point of the star is hidden twice *)
Theorem C89_emission_star : forall r_star u bodies t, 0 < r_star -> (forall bd, In bd bodies -> 0 <= eb_radius bd) -> disk_flux u <> 0 -> ~ same_disk (emission_occultors r_star bodies t) ->
  disjoint_shadows (emission_occultors r_star bodies t) ->
  order_limit (fun eps rule => nth 0 (emission_light_curve eps rule r_star u bodies t) 0) (flux_past (emission_occultors r_star bodies t) (ld_disk u) / ld_flux u).
Proof. intros r_star u bodies t Hs Hr HF Hn D. rewrite <- (disjoint_counted _ _ D). now apply emission_star_limit. Qed.
Print Assumptions C89_emission_star.
(** in general every body takes away all the light behind it *)
Theorem C89_emission_counted : forall r_star u bodies t, 0 < r_star -> (forall bd, In bd bodies -> 0 <= eb_radius bd) -> disk_flux u <> 0 -> ~ same_disk (emission_occultors r_star bodies t) ->
  order_limit (fun eps rule => nth 0 (emission_light_curve eps rule r_star u bodies t) 0) (flux_counted (emission_occultors r_star bodies t) (ld_disk u) / ld_flux u).
Proof. exact emission_star_limit. Qed.
Print Assumptions C89_emission_counted.
(** so that two bodies that both hide the star leave it the flux -1 *)
Theorem C89_emission_overlap_refuted : exists r_star u bodies t, forall eps rule, nth 0 (emission_light_curve eps rule r_star u bodies t) 0 = -1 /\ flux_past (emission_occultors r_star bodies t) (ld_disk u) = 0.
Proof. exists 1, [], [giant; giant], 0. exact emission_overlap. Qed.
Print Assumptions C89_emission_overlap_refuted.
(** the entry of a body: its amplitude times the fraction of its disk that the star does not hide *)
Theorem C89_emission_body : forall r_star u bodies t i bd, nth_error bodies i = Some bd -> 0 < eb_radius bd -> 0 <= r_star -> disk_flux (eb_u bd) <> 0 -> ~ same_disk (behind (eb_radius bd) r_star (eb_relative_position bd t)) ->
  order_limit (fun eps rule => nth (S i) (emission_light_curve eps rule r_star u bodies t) 0) (eb_amplitude bd * (flux_past (behind (eb_radius bd) r_star (eb_relative_position bd t)) (ld_disk (eb_u bd)) / ld_flux (eb_u bd))).
Proof. exact emission_body_limit. Qed.
Print Assumptions C89_emission_body.
(** the depth in the middle of a transit is that of the impact parameter and the radius ratio asked for: Keplerian orbits, *)
Theorem C89_keplerian_mid_transit : forall G au kep c bd o u rp, exact_solver kep -> orbit_ok o -> make_orbital G c bd = Ok o -> ob_parallax o = None -> 0 < c_radius c ->
  (forall e sw cw, ob_ecc o = Some (e, sw, cw) -> sw <> -1) -> 0 < ob_sin_incl o -> 0 <= rp -> disk_flux u <> 0 -> ~ (ob_impact o = 0 /\ rp = c_radius c) ->
  order_limit (fun eps rule => transit_light_curve eps rule (kep_lc_orbit au kep c o rp) u (ob_time_transit o)) (occulted_flux u (Rabs (ob_impact o)) (rp / c_radius c) / disk_flux u - 1).
Proof. exact keplerian_mid. Qed.
Print Assumptions C89_keplerian_mid_transit.
(** every transit of a TransitOrbit *)
Theorem C89_transit_orbit_mid_transit : forall o u k, 0 < to_period o -> 0 < to_duration o -> 0 <= to_ror o -> disk_flux u <> 0 -> ~ (to_impact o = 0 /\ to_ror o = 1) ->
  order_limit (fun eps rule => transit_light_curve eps rule (to_lc_orbit o) u (to_time_transit o + IZR k * to_period o)) (occulted_flux u (Rabs (to_impact o)) (to_ror o) / disk_flux u - 1).
Proof. exact transit_mid. Qed.
Print Assumptions C89_transit_orbit_mid_transit.
(** about which its light curve is exactly symmetric *)
Theorem C89_transit_orbit_symmetric : forall eps rule o u k s, 0 < to_period o ->
  transit_light_curve eps rule (to_lc_orbit o) u (to_time_transit o + IZR k * to_period o + s) = transit_light_curve eps rule (to_lc_orbit o) u (to_time_transit o + IZR k * to_period o - s).
Proof. exact transit_symmetric. Qed.
Print Assumptions C89_transit_orbit_symmetric.

(** a planet of 1/20 of the star's radius in front of it, at half a stellar radius; a body behind the star; rules exist; the Keplerian orbit of C35 *)
Example C89_sat : let o := TransitProof.sample_orbit in
  0 < lo_central_radius o /\ 0 <= lo_radius o /\ disk_flux [0.4; 0.3] <> 0 /\ in_front (lo_central_radius o) (lo_radius o) (lo_relative_position o 0) = [(0 / 2, 1 / 2, 0.1 / 2)] /\ ~ same_disk [(0 / 2, 1 / 2, 0.1 / 2)] /\
  (forall z, 0 <= z <= 1 -> 0 <= ld_profile [0.4; 0.3] z) /\
  (let bd := TransitProof.sample_body in emission_occultors 1 [bd; bd] 0 = [] /\ disjoint_shadows (emission_occultors 1 [bd; bd] 0) /\ behind (eb_radius bd) 1 (eb_relative_position bd 0) = [(- 0 / 0.1, - 0 / 0.1, 1 / 0.1)]) /\
  (exists rule, gauss_legendre 30 rule).
Proof.
  cbv zeta. split; [cbn; lra|split; [cbn; lra|split; [exact (proj1 (proj2 (proj2 TransitProof.transit_lc_sat)))|split; [|split; [|split; [|split; [split; [|split]|]]]]]]].
  - unfold in_front. cbn [TransitProof.sample_orbit lo_central_radius lo_radius lo_relative_position]. destruct (Rlt_dec 0 5); [reflexivity|lra].
  - intros [I|[]]. injection I as I1 I2 I3. lra.
  - intros z Hz. unfold ld_profile. cbn [length bigsum nth pow]. nra.
  - unfold emission_occultors. cbn [flat_map TransitProof.sample_body eb_relative_position]. unfold in_front. destruct (Rlt_dec 0 (-5)); [lra|reflexivity].
  - intros x y _. unfold emission_occultors. cbn [flat_map TransitProof.sample_body eb_relative_position]. unfold in_front. destruct (Rlt_dec 0 (-5)); [lra|]. cbn [app]. unfold times_hidden. cbn [filter length]. lia.
  - unfold behind. cbn [TransitProof.sample_body eb_relative_position eb_radius]. destruct (Rlt_dec (-5) 0); [reflexivity|lra].
  - exact (GaussLegendre.gauss_exists 30).
Qed.
