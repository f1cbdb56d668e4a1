(** C62, C72, C73: surfaces — intensity, spots, rotation velocity (starry/surface.py, starry/ylm.py, starry/doppler.py) *)
From Coq Require Import Reals Lra Lia ZArith List Bool Arith.
From Coquelicot Require Import Coquelicot.
From Verif Require Import Base.RealAux Base.Dict Model.Poly Model.Basis Model.S2fft Model.Rotation Model.Solution Model.Ylm Model.RvMap Model.Surface Model.StarryLightCurve Model.Spot
  Spec.PolySpec Spec.BasisSpec Spec.HarmonicSpec Spec.RotationSpec Spec.DiskSpec Spec.YlmSpec Spec.SurfaceSpec Spec.SpotSpec Spec.SystemSpec
  Proof.YlmProof Proof.YlmFacts Proof.Euler Proof.SurfaceProof Proof.StarryProof Proof.DopplerProof Proof.IntensityProof Proof.SpotProof Proof.SystemLight Proof.SurfaceFacts Proof.ShearProof.
Import ListNotations.
Open Scope R_scope.

(** C73: Surface(y, inc, obl, u, amplitude, normalize) rendered at a sky point: the map of the coefficients d seen there,
    times the limb darkening.  With normalize=True the amplitude argument has no effect *)
Theorem C73_render : forall as_euler d v inc obl u period amp normalize phase radius shear,
  zyz_euler as_euler -> valid_coeffs d -> make_ylm d = Ok v -> (normalize = true -> exists c, In ((0, 0)%Z, c) d /\ c <> 0) ->
  exists s, make_surface (Some v) inc obl u period amp normalize phase radius shear = Ok s /\
  forall x y z theta, on_sphere x y z ->
    surf_intensity_xyz as_euler s x y z theta false = Ok ((if normalize then 1 else amp) * sky_intensity d u inc obl theta (x, y, z)).
Proof. exact render_spec. Qed.
Print Assumptions C73_render.
Theorem C73_normalize_needs_00 : forall d v inc obl u period amp phase radius shear, make_ylm d = Ok v -> ~ In (0, 0)%Z (map fst d) ->
  make_surface (Some v) inc obl u period amp true phase radius shear = Err KeyError.
Proof. exact surface_needs_00. Qed.
Print Assumptions C73_normalize_needs_00.
(** the default surface is uniform: intensity 1/pi times the limb darkening *)
Theorem C73_default : forall as_euler u inc obl, zyz_euler as_euler -> exists s, make_surface None inc obl u None 1 true 0 1 None = Ok s /\
  forall x y z theta, on_sphere x y z -> surf_intensity_xyz as_euler s x y z theta false = Ok (ld_profile u z / PI).
Proof. exact default_uniform. Qed.
Print Assumptions C73_default.
(** the pole of the map, and the sense of rotation: a point c of the map is seen at sky_point inc obl theta c, the
    north pole (0,1,0) stays at pole inc obl *)
Theorem C73_pole : forall inc obl theta c, map_point (Some inc) (Some obl) (Some theta) (sky_point inc obl theta c) = c /\
  sky_point inc obl theta (0, 1, 0) = pole inc obl.
Proof. intros. split; [apply map_sky|apply pole_north]. Qed.
Print Assumptions C73_pole.
(** Surface.intensity(lat, lon) looks at latitude -lat and longitude -lon of the map *)
Theorem C73_intensity_latlon : forall as_euler eps s lat lon, zyz_euler as_euler -> wf_ylm (s_y s) -> 0 <= eps ->
  cos_half_full (surf_inc s - PI / 2) (surf_obl s) 0 0 < 1 - / 100000 - eps ->
  exists mu, surf_intensity as_euler rotvec eps s lat lon =
    Ok (s_amplitude s * (2 / sqrt PI * coeffs_value (y_data (s_y s)) (direction (- lat) (- lon))) * ld_profile (s_u s) mu).
Proof. exact intensity_mirrored. Qed.
Print Assumptions C73_intensity_latlon.
(** so it differs from what is rendered at the point of that latitude and longitude *)
Theorem C73_intensity_latlon_refuted : forall as_euler eps, zyz_euler as_euler -> 0 <= eps <= / 100 -> exists v s lat lon a b,
  make_ylm [((0, 0)%Z, 1); ((1, 1)%Z, 1)] = Ok v /\ make_surface (Some v) (Some (PI / 2)) None [] None 1 true 0 1 None = Ok s /\ 0 < lon < PI / 2 /\
  surf_intensity as_euler rotvec eps s lat lon = Ok a /\ surf_intensity_xyz as_euler s (cos lat * sin lon) (sin lat) (cos lat * cos lon) None false = Ok b /\ a < b.
Proof. exact intensity_refuted. Qed.
Print Assumptions C73_intensity_latlon_refuted.
Theorem C73_rotational_phase : forall s p t, s_period s = Some p -> p <> 0 ->
  exists a, rotational_phase s t = Some a /\ rotational_phase s (t + p) = Some (a + 2 * PI) /\ rotational_phase s 0 = Some (s_phase s).
Proof. exact phase_spec. Qed.
Print Assumptions C73_rotational_phase.
Example C73_sat : zyz_euler rotvec_zyz /\ valid_coeffs [((0, 0)%Z, 2); ((3, -1)%Z, 1.5)] /\ exists v, make_ylm [((0, 0)%Z, 2); ((3, -1)%Z, 1.5)] = Ok v.
Proof.
  split; [exact rotvec_zyz_ok|split; [|eexists; reflexivity]].
  split; [constructor; [intros [H|[]]; discriminate|constructor; [intros []|constructor]]|]. intros k [<-|[<-|[]]]; unfold valid_lm; cbn; lia.
Qed.

(** C72: ylm_spot(ydeg)(contrast, r, lat, lon): a zonal function about the direction (lat, lon), linear in the contrast;
    its coefficients are the smoothed penalised least-squares fit of the sigmoid profile.  [solved] is the matrix
    returned by jnp.linalg.solve *)
Theorem C72_spot : forall as_euler solved ydeg npts fac r, zyz_euler as_euler -> exists g : R -> R,
  (exists w, g = zonal ydeg (fun l => exp (- 0.5 * INR (l * (l + 1)) * bp_smoothing ydeg ^ 2) * w l) /\
     forall eps c, 0 <= eps -> 
       (forall l k, (l <= ydeg)%nat -> (k < npts)%nat ->
          bigsum (S ydeg) (fun m => (bigsum npts (fun j => bp_design (fun l => legendre_deriv l 0) (bp_theta npts) j l * bp_design (fun l => legendre_deriv l 0) (bp_theta npts) j m) + (if (l =? m)%nat then eps else 0)) * solved m k)
          = bp_design (fun l => legendre_deriv l 0) (bp_theta npts) k l) ->
       fit_cost ydeg npts eps (fun k => nth k (bp_theta npts) 0) (fun k => spot_profile (nth k (bp_theta npts) 0) r fac) w
       <= fit_cost ydeg npts eps (fun k => nth k (bp_theta npts) 0) (fun k => spot_profile (nth k (bp_theta npts) 0) r fac) c) /\
  forall contrast lat lon, exists v, ylm_spot as_euler solved ydeg npts fac contrast r lat lon = Ok v /\ valid_coeffs (y_data v) /\ y_deg v = Z.of_nat ydeg /\
  forall p, sphere3 p -> 2 / sqrt PI * coeffs_value (y_data v) p = (1 + contrast * g (dot3 (direction lat lon) p)) / PI.
Proof. exact spot_spec. Qed.
Print Assumptions C72_spot.
(** the profile: between -1 (inside) and 0 (outside), -1/2 at the radius, increasing *)
Theorem C72_profile : forall r f, spot_profile r r f = - / 2 /\ (forall t, -1 < spot_profile t r f < 0) /\
  (0 < f -> forall t t', t < t' -> spot_profile t r f < spot_profile t' r f).
Proof. intros r f. split; [apply profile_mid|split; [intros t; apply profile_range|intros Hf t t'; apply profile_mono, Hf]]. Qed.
Print Assumptions C72_profile.
Example C72_sat : exists solved, forall l k, (l <= 0)%nat -> (k < 3)%nat ->
  bigsum 1 (fun m => (bigsum 3 (fun j => bp_design (fun l => legendre_deriv l 0) (bp_theta 3) j l * bp_design (fun l => legendre_deriv l 0) (bp_theta 3) j m) + (if (l =? m)%nat then 1 else 0)) * solved m k)
  = bp_design (fun l => legendre_deriv l 0) (bp_theta 3) k l.
Proof. exact spot_sat. Qed.

(** C62: the velocity field of a rotating surface is -veq times the derivative, with respect to the rotation angle, of
    the height (towards the observer) of the map point seen there: positive when receding *)
Theorem C62_velocity_field : forall veq inc obl x y z, 
  2 / sqrt PI * map_at 1 (rv_map_expansion (Some veq) (Some inc) (Some obl) None) (x, y, z) = recession veq inc obl (x, y, z) /\
  forall theta c, sky_point inc obl theta c = (x, y, z) ->
    is_derive (fun t : R => snd (sky_point inc obl t c)) theta (- recession 1 inc obl (x, y, z)).
Proof. exact velocity_field. Qed.
Print Assumptions C62_velocity_field.
(** with differential rotation (alpha): the angular speed decreases as 1 - alpha sin(latitude)^2, the sine of the
    latitude of the point p of the sky being pole . p *)
Theorem C62_differential_rotation : forall veq inc obl alpha x y z, on_sphere x y z ->
  2 / sqrt PI * map_at 3 (rv_map_expansion (Some veq) (Some inc) (Some obl) (Some alpha)) (x, y, z) =
  recession veq inc obl (x, y, z) * (1 - alpha * dot3 (pole inc obl) (x, y, z) ^ 2).
Proof. exact shear_field. Qed.
Print Assumptions C62_differential_rotation.
(** rendered with rv=True: intensity times velocity *)
Theorem C62_render_rv : forall as_euler s veq x y z theta, zyz_euler as_euler -> wf_ylm (s_y s) -> surf_veq s = Ok veq -> s_shear s = None -> on_sphere x y z ->
  surf_intensity_xyz as_euler s x y z theta true =
  Ok (s_amplitude s * sky_intensity (y_data (s_y s)) (s_u s) (Some (surf_inc s)) (Some (surf_obl s)) theta (x, y, z) *
      recession veq (match s_inc s with Some i => i | None => PI / 2 end) (angle0 (s_obl s)) (x, y, z)).
Proof. intros as_euler s veq x y z theta Hz Hy Hv Hs Hp. exact (rv_intensity as_euler Hz s Hy veq Hv x y z theta Hs Hp). Qed.
Print Assumptions C62_render_rv.
(** surface_radial_velocity without a transit: amplitude times the flux-weighted mean velocity *)
Theorem C62_radial_velocity : forall as_euler eps low high A2 s veq r x y z theta, zyz_euler as_euler -> wf_ylm (s_y s) -> surf_veq s = Ok veq -> s_shear s = None ->
  let I := seen_intensity (y_data (s_y s)) (s_u s) (s_inc s) (s_obl s) theta in
  visible_flux I <> 0 -> ld_flux (s_u s) <> 0 ->
  (r = None \/ exists r', r = Some r' /\ (1 + r' <= sqrt (none0 x ^ 2 + none0 y ^ 2) \/ none0 z <= 0)) ->
  surface_radial_velocity as_euler eps low high A2 s r x y z theta =
  Ok (s_amplitude s * (visible_flux (fun p => I p * recession veq (match s_inc s with Some i => i | None => PI / 2 end) (angle0 (s_obl s)) p) / visible_flux I)).
Proof. exact radial_velocity_spec. Qed.
Print Assumptions C62_radial_velocity.
(** a velocity should not depend on how bright the star is: it is proportional to the amplitude *)
Theorem C62_amplitude : forall as_euler eps low high A2 s r x y z theta a,
  surface_radial_velocity as_euler eps low high A2 (with_amplitude s a) r x y z theta =
  rbind (surface_radial_velocity as_euler eps low high A2 (with_amplitude s 1) r x y z theta) (fun v => Ok (a * v)).
Proof. exact rv_amplitude. Qed.
Print Assumptions C62_amplitude.
Theorem C62_amplitude_refuted : forall as_euler eps low high A2, zyz_euler as_euler -> exists s s' v, wf_ylm (s_y s) /\
  s' = with_amplitude s 2 /\ s_amplitude s = 1 /\ v <> 0 /\
  surface_radial_velocity as_euler eps low high A2 s None None None None None = Ok v /\
  surface_radial_velocity as_euler eps low high A2 s' None None None None None = Ok (2 * v).
Proof. exact rv_amplitude_refuted. Qed.
Print Assumptions C62_amplitude_refuted.
(** without an inclination the brightness is seen pole-on but the velocity field is edge-on *)
Theorem C62_no_inclination_refuted : forall veq x y z theta,
  2 / sqrt PI * map_at 1 (rv_map_expansion (Some veq) None None None) (x, y, z) = veq * x /\
  map_point None None theta (0, 0, 1) = (0, 1, 0) /\ pole 0 0 = (0, 0, 1).
Proof. exact no_inclination. Qed.
Print Assumptions C62_no_inclination_refuted.
(** errors: no period, or a shear *)
Theorem C62_needs_period : forall as_euler eps low high A2 s r x y z theta row, s_period s = None \/ s_shear s <> None ->
  surface_radial_velocity as_euler eps low high A2 s r x y z theta <> Ok row.
Proof. exact rv_needs_period. Qed.
Print Assumptions C62_needs_period.
