(** Proofs about Surface.intensity(lat, lon) (surface.py:206-227). *)
From Coq Require Import Reals Lra Lia ZArith List Bool Arith Psatz.
From Verif Require Import Base.RealAux Base.Dict Model.Poly Model.Basis Model.S2fft Model.Rotation Model.Solution Model.Ylm Model.RvMap Model.Surface
  Spec.PolySpec Spec.BasisSpec Spec.HarmonicSpec Spec.RotationSpec Spec.DiskSpec Spec.YlmSpec Spec.SurfaceSpec
  Proof.YlmProof Proof.YlmMore Proof.YlmFacts Proof.RotationMap Proof.RotationMore Proof.AxisAngle Proof.Euler Proof.SurfaceProof Proof.DopplerProof.
Import ListNotations.
Open Scope R_scope.

(** the sky point at which intensity(lat, lon) looks *)
Definition looked_at (inc obl lat lon : R) : vec3 := rot_z obl (rot_x (PI - inc) (- cos lat * sin lon, cos lat * cos lon, sin lat)).
Lemma rot_zz t p : rot_z (- t) (rot_z t p) = p.
Proof. destruct p as [[x y] z]. unfold rot_z. rewrite cos_neg, sin_neg. pose proof (sin2_cos2 t) as C. unfold Rsqr in C. apply triple_eq; [transitivity (x * (sin t * sin t + cos t * cos t)); [ring|rewrite C; ring]|transitivity (y * (sin t * sin t + cos t * cos t)); [ring|rewrite C; ring]|ring]. Qed.
Lemma rot_xx a b p : rot_x a (rot_x b p) = rot_x (a + b) p.
Proof. destruct p as [[x y] z]. unfold rot_x. rewrite cos_plus, sin_plus. apply triple_eq; ring. Qed.
Lemma looked_point inc obl lat lon : map_point (Some inc) (Some obl) None (looked_at inc obl lat lon) = (- cos lat * sin lon, - sin lat, cos lat * cos lon).
Proof.
  unfold looked_at, map_point. cbn [angle0]. rewrite rot_zz, Ropp_0. rewrite RotationMore.rot_z_0, !rot_xx.
  match goal with |- rot_x ?t _ = _ => replace t with (PI / 2) by field end. unfold rot_x. rewrite cos_PI2, sin_PI2. apply triple_eq; ring.
Qed.
Section Int.
Variable as_euler : R * R * R -> R * R * R.
Hypothesis Hz : zyz_euler as_euler.
Variable s : surface.
Hypothesis Hy : wf_ylm (s_y s).
Lemma sphere_lat lat lon : sphere3 (- cos lat * sin lon, cos lat * cos lon, sin lat).
Proof. unfold sphere3, dot3. pose proof (sin2_cos2 lat) as A. pose proof (sin2_cos2 lon) as B. unfold Rsqr in *. transitivity (cos lat * cos lat * (sin lon * sin lon + cos lon * cos lon) + sin lat * sin lat); [ring|]. rewrite B. lra. Qed.
Lemma sphere_looked inc obl lat lon : sphere3 (looked_at inc obl lat lon).
Proof. unfold looked_at. apply StarryProof.sphere_rot_z, StarryProof.sphere_rot_x, sphere_lat. Qed.
Lemma intensity_latlon eps lat lon : 0 <= eps -> cos_half_full (surf_inc s - PI / 2) (surf_obl s) 0 0 < 1 - / 100000 - eps ->
  surf_intensity as_euler rotvec eps s lat lon =
  Ok (s_amplitude s * (2 / sqrt PI * coeffs_value (y_data (s_y s)) (- cos lat * sin lon, - sin lat, cos lat * cos lon)) * ld_profile (s_u s) (snd (looked_at (surf_inc s) (surf_obl s) lat lon))).
Proof using Hz Hy.
  intros He Hc. unfold surf_intensity. destruct (full_rotation_ok eps (Some (surf_inc s - PI / 2)) (Some (surf_obl s)) (Some 0) (Some 0) He) as (ax & ay & az & an & E & U & V & _). rewrite E. cbn [angle0] in V. specialize (V Hc).
  assert (EP : rotvec (ax * an, ay * an, az * an) (sin (PI / 2 - lat) * cos (lon + PI / 2), sin (PI / 2 - lat) * sin (lon + PI / 2), cos (PI / 2 - lat) * 1) = looked_at (surf_inc s) (surf_obl s) lat lon).
  { replace (ax * an, ay * an, az * an) with (scal3 an (ax, ay, az)) by (unfold scal3; apply triple_eq; ring). rewrite rotvec_axis by exact U. rewrite V.
    unfold looked_at. rewrite Rplus_0_r. f_equal. replace (PI / 2 - (surf_inc s - PI / 2)) with (PI - surf_inc s) by field. f_equal. unfold rot_y. rewrite cos_0, sin_0.
    rewrite sin_shift, cos_shift. rewrite cos_plus, sin_plus, cos_PI2, sin_PI2. apply triple_eq; ring. }
  rewrite EP. destruct (looked_at (surf_inc s) (surf_obl s) lat lon) as [[X Y] Z] eqn:EL. assert (HS : on_sphere X Y Z) by (apply sphere_iff; rewrite <- EL; apply sphere_looked).
  rewrite (intensity_ok as_euler Hz s Hy) by exact HS. unfold sky_intensity. rewrite <- EL, looked_point, EL. cbn [snd]. f_equal. ring.
Qed.
End Int.
(** the map Y_{1,1} seen edge-on: render and intensity disagree *)
Lemma intensity_refuted as_euler eps : zyz_euler as_euler -> 0 <= eps <= / 100 -> exists v s lat lon a b,
  make_ylm [((0, 0)%Z, 1); ((1, 1)%Z, 1)] = Ok v /\ make_surface (Some v) (Some (PI / 2)) None [] None 1 true 0 1 None = Ok s /\ 0 < lon < PI / 2 /\
  surf_intensity as_euler rotvec eps s lat lon = Ok a /\ surf_intensity_xyz as_euler s (cos lat * sin lon) (sin lat) (cos lat * cos lon) None false = Ok b /\ a < b.
Proof.
  intros Hz He. set (d := [((0, 0)%Z, 1); ((1, 1)%Z, 1)]). assert (V : valid_coeffs d).
  { unfold d. split; [constructor; [intros [H|[]]; discriminate|constructor; [intros []|constructor]]|]. intros k [<-|[<-|[]]]; unfold valid_lm; cbn; lia. }
  destruct (make_ylm_ok d) as (v & Ev & _); [discriminate|]. exists v.
  destruct (make_surface_norm d v 1 (Some (PI / 2)) None [] None 1 0 1 None V Ev (or_introl eq_refl) ltac:(lra)) as (s & Es & W & Ea & Ed & _ & Ei & Eo & Eu & _).
  exists s, 0, (PI / 6). assert (P := PI_RGT_0).
  assert (EI : surf_inc s = PI / 2) by (unfold surf_inc; rewrite Ei; reflexivity). assert (EO : surf_obl s = 0) by (unfold surf_obl; rewrite Eo; reflexivity).
  assert (Hc : cos_half_full (surf_inc s - PI / 2) (surf_obl s) 0 0 < 1 - / 100000 - eps).
  { rewrite EI, EO. unfold cos_half_full. replace ((PI / 2 - PI / 2) / 2) with 0 by field. replace ((0 - 0 + 0) / 2) with 0 by field. replace ((0 + 0 + 0) / 2) with 0 by field. rewrite sin_0, cos_0.
    assert (S2 : sqrt 2 * sqrt 2 = 2) by (apply sqrt_sqrt; lra). assert (S0 := sqrt_pos 2). assert (1.4 < sqrt 2) by nra. apply Rle_lt_trans with (/ 1.4).
    - replace ((0 * 1 + 1 * 1) / sqrt 2) with (/ sqrt 2) by (field; lra). apply Rinv_le_contravar; lra.
    - lra. }
  pose proof (intensity_latlon as_euler Hz s W eps 0 (PI / 6) (proj1 He) Hc) as E1.
  assert (HS : on_sphere (cos 0 * sin (PI / 6)) (sin 0) (cos 0 * cos (PI / 6))).
  { apply sphere_iff. unfold sphere3, dot3. rewrite cos_0, sin_0. pose proof (sin2_cos2 (PI / 6)) as A. unfold Rsqr in A. lra. }
  pose proof (intensity_ok as_euler Hz s W _ _ _ None HS) as E2.
  eexists _, _. split; [exact Ev|]. split; [exact Es|]. split; [lra|]. split; [exact E1|]. split; [exact E2|].
  assert (VAL : forall x y z, coeffs_value (y_data (s_y s)) (x, y, z) = (1 + sqrt 3 * x) / sqrt (4 * PI)).
  { intros x y z. rewrite Ed, value_div. unfold d, coeffs_value. cbn [map Rsum fold_right fst snd]. change (Z.to_nat 0) with 0%nat. change (Z.to_nat 1) with 1%nat. rewrite Y00, (Y1pm 1) by lia. cbn [Z.ltb Z.compare]. field.
    apply Rgt_not_eq, sqrt_lt_R0. lra. }
  unfold sky_intensity. rewrite EI, EO. unfold map_point. cbn [angle0]. rewrite Ropp_0, !RotationMore.rot_z_0, rot_xx. replace (- (PI / 2) + PI / 2) with 0 by ring. rewrite RotationMore.rot_x_0.
  rewrite !VAL, Eu, Ea. unfold ld_profile. cbn [length bigsum seq map Rsum fold_right snd]. rewrite cos_0, sin_PI6.
  assert (S3 : 0 < sqrt 3) by (apply sqrt_lt_R0; lra). assert (S4 : 0 < sqrt (4 * PI)) by (apply sqrt_lt_R0; lra). assert (S1 : 0 < sqrt PI) by (apply sqrt_lt_R0; lra).
  assert (K : 0 < 2 / sqrt PI / sqrt (4 * PI)) by (apply Rdiv_lt_0_compat; [apply Rdiv_lt_0_compat|]; lra).
  match goal with |- ?a < ?b => replace a with (2 / sqrt PI / sqrt (4 * PI) * (1 - sqrt 3 / 2)) by (unfold Rdiv; ring); replace b with (2 / sqrt PI / sqrt (4 * PI) * (1 + sqrt 3 / 2)) by (unfold Rdiv; ring) end.
  apply Rmult_lt_compat_l; lra.
Qed.
