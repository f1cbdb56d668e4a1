(** Statements of Properties/SurfaceProps.v assembled from the lemmas. *)
From Coq Require Import Reals Lra Lia ZArith List Bool Arith Psatz.
From Coquelicot Require Import Coquelicot.
From Verif Require Import Base.RealAux Base.Dict Model.Poly Model.Basis Model.S2fft Model.Rotation Model.Solution Model.SolutionVector Model.Ylm Model.RvMap Model.Surface Model.StarryLightCurve Model.Spot
  Spec.PolySpec Spec.BasisSpec Spec.HarmonicSpec Spec.RotationSpec Spec.DiskSpec Spec.YlmSpec Spec.SurfaceSpec Spec.SpotSpec Spec.SystemSpec
  Proof.LimbDarkGreen Proof.YlmProof Proof.YlmMore Proof.YlmFacts Proof.Euler Proof.AxisAngle Proof.SurfaceProof Proof.StarryProof Proof.DopplerProof Proof.IntensityProof Proof.SpotProof Proof.SystemLight.
Import ListNotations.
Open Scope R_scope.

Lemma sky_none0 d u inc obl theta p : sky_intensity d u (Some (none0 inc)) (Some (none0 obl)) theta p = sky_intensity d u inc obl theta p.
Proof. destruct inc, obl; reflexivity. Qed.
Lemma render_spec as_euler d v inc obl u period amp normalize phase radius shear :
  zyz_euler as_euler -> valid_coeffs d -> make_ylm d = Ok v -> (normalize = true -> exists c, In ((0, 0)%Z, c) d /\ c <> 0) ->
  exists s, make_surface (Some v) inc obl u period amp normalize phase radius shear = Ok s /\
  forall x y z theta, on_sphere x y z ->
    surf_intensity_xyz as_euler s x y z theta false = Ok ((if normalize then 1 else amp) * sky_intensity d u inc obl theta (x, y, z)).
Proof.
  intros Hz V E Hn. destruct normalize.
  - destruct (Hn eq_refl) as (c & Hc & Hc0). destruct (make_surface_norm d v c inc obl u period amp phase radius shear V E Hc Hc0) as (s & Es & W & Ea & Ed & _ & Ei & Eo & Eu & _).
    exists s. split; [exact Es|]. intros x y z theta Hs. rewrite (intensity_ok as_euler Hz s W) by exact Hs. f_equal. unfold surf_inc, surf_obl. rewrite sky_none0, Ea, Ed, Ei, Eo, Eu, sky_div. field. exact Hc0.
  - destruct (make_ylm_wf d v V E) as [W D]. eexists. split; [reflexivity|]. intros x y z theta Hs. rewrite (intensity_ok as_euler Hz) by (exact W || exact Hs). cbn [s_amplitude s_y s_u]. unfold surf_inc, surf_obl. cbn [s_inc s_obl]. rewrite sky_none0, D. reflexivity.
Qed.
Lemma surface_needs_00 d v inc obl u period amp phase radius shear : make_ylm d = Ok v -> ~ In (0, 0)%Z (map fst d) ->
  make_surface (Some v) inc obl u period amp true phase radius shear = Err KeyError.
Proof.
  intros E H. unfold make_surface. cbn [rbind]. assert (Hd : d <> []) by (intros ->; discriminate). destruct (make_ylm_ok d Hd) as (v' & E' & D & _). rewrite E in E'. injection E' as <-.
  rewrite D, E. cbn [rbind]. rewrite (normalize_missing d v E H). reflexivity.
Qed.
Lemma default_uniform as_euler u inc obl : zyz_euler as_euler -> exists s, make_surface None inc obl u None 1 true 0 1 None = Ok s /\
  forall x y z theta, on_sphere x y z -> surf_intensity_xyz as_euler s x y z theta false = Ok (ld_profile u z / PI).
Proof.
  intros Hz. assert (V : valid_coeffs [((0, 0)%Z, 1)]).
  { split; [constructor; [intros []|constructor]|]. intros k [<-|[]]; unfold valid_lm; cbn; lia. }
  destruct (make_ylm_ok [((0, 0)%Z, 1)]) as (v & Ev & _); [discriminate|].
  destruct (render_spec as_euler _ v inc obl u None 1 true 0 1 None Hz V Ev) as (s & Es & H). { intros _. exists 1. split; [now left|lra]. }
  exists s. split. { rewrite <- Es. unfold make_surface, default_ylm. rewrite Ev. reflexivity. }
  intros x y z theta Hs. rewrite H by exact Hs. f_equal. unfold sky_intensity. destruct (map_point inc obl theta (x, y, z)) as [[a b] c]. unfold coeffs_value. cbn [map Rsum fold_right fst snd].
  change (Z.to_nat 0) with 0%nat. rewrite Y00, sq4pi. assert (P := PI_RGT_0). assert (S1 : 0 < sqrt PI) by (apply sqrt_lt_R0; lra). assert (Q : sqrt PI * sqrt PI = PI) by (apply sqrt_sqrt; lra).
  transitivity (ld_profile u z / (sqrt PI * sqrt PI)); [field; lra|now rewrite Q].
Qed.
Lemma intensity_mirrored as_euler eps s lat lon : zyz_euler as_euler -> wf_ylm (s_y s) -> 0 <= eps ->
  cos_half_full (surf_inc s - PI / 2) (surf_obl s) 0 0 < 1 - / 100000 - eps ->
  exists mu, surf_intensity as_euler rotvec eps s lat lon =
    Ok (s_amplitude s * (2 / sqrt PI * coeffs_value (y_data (s_y s)) (direction (- lat) (- lon))) * ld_profile (s_u s) mu).
Proof.
  intros Hz W He Hc. exists (snd (looked_at (surf_inc s) (surf_obl s) lat lon)). rewrite (intensity_latlon as_euler Hz s W eps lat lon He Hc). unfold direction. rewrite !cos_neg, !sin_neg.
  replace (cos lat * - sin lon) with (- cos lat * sin lon) by ring. reflexivity.
Qed.
Lemma phase_spec s p t : s_period s = Some p -> p <> 0 ->
  exists a, rotational_phase s t = Some a /\ rotational_phase s (t + p) = Some (a + 2 * PI) /\ rotational_phase s 0 = Some (s_phase s).
Proof. intros E Hp. unfold rotational_phase. rewrite E. eexists. split; [reflexivity|]. split; f_equal; field; exact Hp. Qed.
Lemma spot_spec as_euler solved ydeg npts fac r : zyz_euler as_euler -> exists g : R -> R,
  (exists w, g = zonal ydeg (fun l => exp (- 0.5 * INR (l * (l + 1)) * bp_smoothing ydeg ^ 2) * w l) /\
     forall eps c, 0 <= eps -> 
       (forall l k, (l <= ydeg)%nat -> (k < npts)%nat ->
          bigsum (S ydeg) (fun m => (bigsum npts (fun j => bp_design (fun l => legendre_deriv l 0) (bp_theta npts) j l * bp_design (fun l => legendre_deriv l 0) (bp_theta npts) j m) + (if (l =? m)%nat then eps else 0)) * solved m k)
          = bp_design (fun l => legendre_deriv l 0) (bp_theta npts) k l) ->
       fit_cost ydeg npts eps (fun k => nth k (bp_theta npts) 0) (fun k => spot_profile (nth k (bp_theta npts) 0) r fac) w
       <= fit_cost ydeg npts eps (fun k => nth k (bp_theta npts) 0) (fun k => spot_profile (nth k (bp_theta npts) 0) r fac) c) /\
  forall contrast lat lon, exists v, ylm_spot as_euler solved ydeg npts fac contrast r lat lon = Ok v /\ valid_coeffs (y_data v) /\ y_deg v = Z.of_nat ydeg /\
  forall p, sphere3 p -> 2 / sqrt PI * coeffs_value (y_data v) p = (1 + contrast * g (dot3 (direction lat lon) p)) / PI.
Proof.
  intros Hz. eexists. split; [eexists (spot_w solved ydeg npts fac r); split; [reflexivity|]|].
  - intros eps c He Hs. rewrite (fit_optimal ydeg npts eps (fun k => nth k (bp_theta npts) 0) (fun k => spot_profile (nth k (bp_theta npts) 0) r fac) (spot_w solved ydeg npts fac r) c He (spot_w_normal solved ydeg npts eps fac r Hs)).
    match goal with |- _ <= _ + (?a + eps * ?b) => assert (0 <= a); [|assert (0 <= b); [|nra]] end.
    + apply bigsum_nonneg. intros. apply pow2_ge_0.
    + apply bigsum_nonneg. intros. apply pow2_ge_0.
  - intros con lat lon. destruct (spot_ok as_euler Hz solved ydeg npts fac con r lat lon) as (v & E & W & D & H). exists v. split; [exact E|split; [apply W|split; [exact D|]]].
    intros p Hp. rewrite H by exact Hp. rewrite sq4pi. assert (P := PI_RGT_0). assert (S1 : 0 < sqrt PI) by (apply sqrt_lt_R0; lra). assert (Q : sqrt PI * sqrt PI = PI) by (apply sqrt_sqrt; lra).
    unfold bp_S. set (X := 1 + _). transitivity (X / (sqrt PI * sqrt PI)); [field; lra|now rewrite Q].
Qed.
Lemma spot_sat : exists solved, forall l k, (l <= 0)%nat -> (k < 3)%nat ->
  bigsum 1 (fun m => (bigsum 3 (fun j => bp_design (fun l => legendre_deriv l 0) (bp_theta 3) j l * bp_design (fun l => legendre_deriv l 0) (bp_theta 3) j m) + (if (l =? m)%nat then 1 else 0)) * solved m k)
  = bp_design (fun l => legendre_deriv l 0) (bp_theta 3) k l.
Proof.
  assert (E : forall k, bp_design (fun l => legendre_deriv l 0) (bp_theta 3) k 0 = 1).
  { intros k. unfold bp_design, legendre_deriv. cbn [INR]. rewrite Rmult_0_r, Rplus_0_l, sqrt_1. cbn. field. }
  exists (fun _ _ => / 4). intros l k Hl Hk. assert (l = 0)%nat by lia. subst l. cbn [bigsum]. rewrite !E. cbn [Nat.eqb]. field.
Qed.
Lemma velocity_field veq inc obl x y z :
  2 / sqrt PI * map_at 1 (rv_map_expansion (Some veq) (Some inc) (Some obl) None) (x, y, z) = recession veq inc obl (x, y, z) /\
  forall theta c, sky_point inc obl theta c = (x, y, z) ->
    is_derive (fun t : R => snd (sky_point inc obl t c)) theta (- recession 1 inc obl (x, y, z)).
Proof.
  split; [apply rv_value|]. intros theta c H. replace (- recession 1 inc obl (x, y, z)) with (snd (cross3 (pole inc obl) (sky_point inc obl theta c))); [apply sky_speed|].
  rewrite H. unfold recession. ring.
Qed.
Lemma radial_velocity_spec as_euler eps low high A2 s veq r x y z theta : zyz_euler as_euler -> wf_ylm (s_y s) -> surf_veq s = Ok veq -> s_shear s = None ->
  let I := seen_intensity (y_data (s_y s)) (s_u s) (s_inc s) (s_obl s) theta in
  visible_flux I <> 0 -> ld_flux (s_u s) <> 0 ->
  (r = None \/ exists r', r = Some r' /\ (1 + r' <= sqrt (none0 x ^ 2 + none0 y ^ 2) \/ none0 z <= 0)) ->
  surface_radial_velocity as_euler eps low high A2 s r x y z theta =
  Ok (s_amplitude s * (visible_flux (fun p => I p * recession veq (match s_inc s with Some i => i | None => PI / 2 end) (angle0 (s_obl s)) p) / visible_flux I)).
Proof.
  intros Hz W Hv Hs I Hf Hl [->|(r' & -> & H)].
  - exact (rv_no_occultor as_euler Hz s W eps low high A2 veq Hv x y z theta Hs Hf Hl).
  - exact (rv_not_occ as_euler Hz s W eps low high A2 veq Hv r' x y z theta Hs Hf Hl H).
Qed.
Lemma rv_needs_period as_euler eps low high A2 s r x y z theta row : s_period s = None \/ s_shear s <> None ->
  surface_radial_velocity as_euler eps low high A2 s r x y z theta <> Ok row.
Proof.
  intros H E. unfold surface_radial_velocity, surf_vdeg, surf_veq in E. destruct (s_shear s) eqn:Es; [discriminate|]. destruct H as [H|H]; [|contradiction]. rewrite H in E.
  destruct (design_matrix _ _ _ _ _ _); [|discriminate]. cbn [rbind] in E. destruct (rotated_y _ _ _ _); [|discriminate]. cbn [rbind] in E. destruct (ld_poly s); [|discriminate]. cbn [rbind] in E.
  destruct (from_dense _ _); [|discriminate]. cbn [rbind] in E. destruct (ld_norm _ _); discriminate.
Qed.
Lemma rv_amplitude as_euler eps low high A2 s r x y z theta a :
  surface_radial_velocity as_euler eps low high A2 (with_amplitude s a) r x y z theta = rbind (surface_radial_velocity as_euler eps low high A2 (with_amplitude s 1) r x y z theta) (fun v => Ok (a * v)).
Proof.
  unfold surface_radial_velocity, surf_vdeg. cbn [with_amplitude s_shear]. destruct (s_shear s); [reflexivity|].
  change (surf_deg (with_amplitude s a)) with (surf_deg s). change (surf_deg (with_amplitude s 1)) with (surf_deg s). change (surf_ydeg (with_amplitude s a)) with (surf_ydeg s). change (surf_ydeg (with_amplitude s 1)) with (surf_ydeg s).
  change (ld_poly (with_amplitude s a)) with (ld_poly s). change (ld_poly (with_amplitude s 1)) with (ld_poly s). change (ld_norm (with_amplitude s a)) with (ld_norm s). change (ld_norm (with_amplitude s 1)) with (ld_norm s).
  change (surf_veq (with_amplitude s a)) with (surf_veq s). change (surf_veq (with_amplitude s 1)) with (surf_veq s). change (rotated_y as_euler (with_amplitude s a)) with (rotated_y as_euler s). change (rotated_y as_euler (with_amplitude s 1)) with (rotated_y as_euler s). cbv zeta. cbn [with_amplitude s_inc s_obl s_amplitude].
  repeat match goal with |- rbind ?x _ = _ => first [match x with rbind ?y _ => destruct y as [?v|?e] end|destruct x as [?v|?e]]; cbn [rbind]; [|reflexivity] end. f_equal. unfold Rdiv. ring.
Qed.
Lemma no_inclination veq x y z theta : 2 / sqrt PI * map_at 1 (rv_map_expansion (Some veq) None None None) (x, y, z) = veq * x /\
  map_point None None theta (0, 0, 1) = (0, 1, 0) /\ pole 0 0 = (0, 0, 1).
Proof.
  split; [|split].
  - rewrite rv_value. unfold recession, rv_inc, pole, cross3. cbn [angle0 snd]. rewrite sin_PI2, cos_0, sin_0. ring.
  - unfold map_point, rot_x, rot_z. cbn [angle0]. rewrite ?Ropp_0, ?cos_0, ?sin_0, ?cos_neg, ?sin_neg, ?cos_PI2, ?sin_PI2. apply triple_eq; ring.
  - unfold pole. rewrite sin_0, cos_0. apply triple_eq; ring.
Qed.
(** a map that is brighter on the receding side *)
Lemma disk_lin a b c : disk_integral (fun x _ => a + b * x + c * (x * x)) = PI * (a + c / 4).
Proof.
  unfold disk_integral. assert (P := PI_RGT_0).
  assert (E1 : forall phi, is_RInt (fun rho => (a + b * (rho * cos phi) + c * (rho * cos phi * (rho * cos phi))) * rho) 0 1 (a / 2 + b * cos phi / 3 + c * (cos phi * cos phi) / 4)).
  { intros phi. replace (a / 2 + b * cos phi / 3 + c * (cos phi * cos phi) / 4) with ((a / 2 * 1 ^ 2 + b * cos phi / 3 * 1 ^ 3 + c * (cos phi * cos phi) / 4 * 1 ^ 4) - (a / 2 * 0 ^ 2 + b * cos phi / 3 * 0 ^ 3 + c * (cos phi * cos phi) / 4 * 0 ^ 4)) by field.
    apply (is_RInt_derive (fun rho => a / 2 * rho ^ 2 + b * cos phi / 3 * rho ^ 3 + c * (cos phi * cos phi) / 4 * rho ^ 4)).
    - intros t _. auto_derive; [exact I|field].
    - intros t _. apply (ex_derive_continuous (fun rho : R => (a + b * (rho * cos phi) + c * (rho * cos phi * (rho * cos phi))) * rho)). auto_derive. exact I. }
  rewrite (RInt_ext _ (fun phi => a / 2 + b * cos phi / 3 + c * (cos phi * cos phi) / 4)) by (intros phi _; apply is_RInt_unique, E1).
  apply is_RInt_unique. 
  replace (PI * (a + c / 4)) with ((a / 2 * (2 * PI) + b * sin (2 * PI) / 3 + c / 8 * (2 * PI + sin (2 * PI) * cos (2 * PI))) - (a / 2 * 0 + b * sin 0 / 3 + c / 8 * (0 + sin 0 * cos 0))) by (rewrite sin_2PI, sin_0; field).
  apply (is_RInt_derive (fun phi => a / 2 * phi + b * sin phi / 3 + c / 8 * (phi + sin phi * cos phi))).
  - intros t _. auto_derive; [exact I|]. pose proof (sin2_cos2 t) as C. unfold Rsqr in C. replace (sin t * (1 * - sin t)) with (cos t * cos t - 1) by lra. field.
  - intros t _. apply (ex_derive_continuous (fun phi : R => a / 2 + b * cos phi / 3 + c * (cos phi * cos phi) / 4)). auto_derive. exact I.
Qed.
Lemma rv_amplitude_refuted as_euler eps low high A2 : zyz_euler as_euler -> exists s s' v, wf_ylm (s_y s) /\
  s' = with_amplitude s 2 /\ s_amplitude s = 1 /\ v <> 0 /\
  surface_radial_velocity as_euler eps low high A2 s None None None None None = Ok v /\
  surface_radial_velocity as_euler eps low high A2 s' None None None None None = Ok (2 * v).
Proof.
  intros Hz. set (d := [((0, 0)%Z, 1); ((1, 1)%Z, 1)]). assert (V : valid_coeffs d).
  { unfold d. split; [constructor; [intros [H|[]]; discriminate|constructor; [intros []|constructor]]|]. intros k [<-|[<-|[]]]; unfold valid_lm; cbn; lia. }
  destruct (make_ylm_ok d) as (v & Ev & _); [discriminate|]. destruct (make_ylm_wf d v V Ev) as [W D].
  set (s := {| s_y := v; s_inc := Some (PI / 2); s_obl := None; s_u := []; s_period := Some 1; s_amplitude := 1; s_normalize := false; s_phase := 0; s_radius := 1; s_shear := None |}).
  assert (P := PI_RGT_0). assert (S1 : 0 < sqrt PI) by (apply sqrt_lt_R0; lra). assert (Q : sqrt PI * sqrt PI = PI) by (apply sqrt_sqrt; lra). assert (S3 : 0 < sqrt 3) by (apply sqrt_lt_R0; lra).
  assert (HV : surf_veq s = Ok (2 * PI * 1 / 1)). { unfold surf_veq. cbn [s_period s s_radius]. destruct (Reqb_spec 1 0); [lra|reflexivity]. }
  assert (HI : forall x y z, seen_intensity (y_data (s_y s)) (s_u s) (s_inc s) (s_obl s) None (x, y, z) = (1 + sqrt 3 * x) / PI).
  { intros x y z. unfold s. cbn [s_y s_u s_inc s_obl]. rewrite D. unfold seen_intensity, seen_point, map_point. cbn [angle0]. rewrite Ropp_0, !RotationMore.rot_z_0, rot_xx. replace (- (PI / 2) + PI / 2) with 0 by ring. rewrite RotationMore.rot_x_0.
    unfold d, coeffs_value, ld_profile. cbn [map Rsum fold_right fst snd length bigsum]. change (Z.to_nat 0) with 0%nat. change (Z.to_nat 1) with 1%nat. rewrite Y00, (Y1pm 1) by lia. cbn [Z.ltb Z.compare]. rewrite sq4pi.
    transitivity ((1 + sqrt 3 * x) / (sqrt PI * sqrt PI)); [field; lra|now rewrite Q]. }
  assert (F1 : visible_flux (seen_intensity (y_data (s_y s)) (s_u s) (s_inc s) (s_obl s) None) = 1).
  { unfold visible_flux. rewrite (disk_ext_in _ (fun x _ => / PI + sqrt 3 / PI * x + 0 * (x * x))) by (intros; rewrite HI; field; lra). rewrite disk_lin. field. lra. }
  assert (FL : ld_flux (s_u s) = PI). { unfold ld_flux. rewrite (disk_ext_in _ (fun x _ => 1 + 0 * x + 0 * (x * x))) by (intros; unfold ld_profile; cbn [s s_u length bigsum]; ring). rewrite disk_lin. field. }
  set (w := visible_flux (fun p => seen_intensity (y_data (s_y s)) (s_u s) (s_inc s) (s_obl s) None p * recession (2 * PI * 1 / 1) (PI / 2) (angle0 (s_obl s)) p) / visible_flux (seen_intensity (y_data (s_y s)) (s_u s) (s_inc s) (s_obl s) None)).
  assert (EV : surface_radial_velocity as_euler eps low high A2 s None None None None None = Ok w).
  { rewrite (radial_velocity_spec as_euler eps low high A2 s _ None None None None None Hz W HV eq_refl); [|rewrite F1; lra|rewrite FL; lra|now left]. f_equal. change (s_amplitude s) with 1. rewrite Rmult_1_l. reflexivity. }
  exists s, (with_amplitude s 2), w. split; [exact W|split; [reflexivity|split; [reflexivity|split; [|split; [exact EV|]]]]].
  - unfold w. rewrite F1. unfold visible_flux. rewrite (disk_ext_in _ (fun x _ => 0 + 2 * x + 2 * sqrt 3 * (x * x))).
    + rewrite disk_lin. assert (0 < PI * (0 + 2 * sqrt 3 / 4) / 1); [|lra]. apply Rdiv_lt_0_compat; [|lra]. apply Rmult_lt_0_compat; lra.
    + intros x y _. rewrite HI. unfold recession, pole, cross3. cbn [s s_obl angle0 snd]. rewrite sin_PI2, ?cos_PI2, cos_0, sin_0. field. lra.
  - pose proof (rv_amplitude as_euler eps low high A2 s None None None None None 1) as E1. pose proof (rv_amplitude as_euler eps low high A2 s None None None None None 2) as E2.
    change (with_amplitude s 1) with s in E1, E2. rewrite EV in E2. exact E2.
Qed.
