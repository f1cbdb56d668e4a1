(** C53, C54: starry/core/rotation.py *)
From Coq Require Import Reals Lra Lia ZArith List Bool.
From Verif Require Import Base.RealAux Model.Poly Model.S2fft Model.Rotation Spec.PolySpec Spec.HarmonicSpec Spec.RotationSpec
  Proof.RotationProof Proof.AxisAngle.
Import ListNotations.
Open Scope R_scope.

(** C53: the new coefficient of (l, m = nu - l) *)
Theorem C53_rz_formula : forall deg t M, length M = ncoef deg -> exists r, dot_rz deg t M = Ok r /\ length r = ncoef deg /\
  forall l nu, (l <= deg)%nat -> (nu <= 2 * l)%nat ->
  nth (l * l + nu) r 0 = nth (l * l + nu) M 0 * cos (IZR (Z.of_nat nu - Z.of_nat l) * t) +
                         nth (l * l + (2 * l - nu)) M 0 * sin (IZR (Z.of_nat nu - Z.of_nat l) * t).
Proof. exact dot_rz_ok. Qed.
Print Assumptions C53_rz_formula.
(** the rotated map takes at p the value the original takes at the rotated point *)
Theorem C53_rz_rotates_the_map : forall deg t M r p, length M = ncoef deg -> dot_rz deg t M = Ok r ->
  map_at deg r p = map_at deg M (rot_z t p).
Proof. exact dot_rz_map. Qed.
Print Assumptions C53_rz_rotates_the_map.
Theorem C53_rz_identity : forall deg M, length M = ncoef deg -> dot_rz deg 0 M = Ok M.
Proof. exact dot_rz_zero. Qed.
Print Assumptions C53_rz_identity.
Theorem C53_rz_additive : forall deg s t M r, length M = ncoef deg -> dot_rz deg s M = Ok r -> dot_rz deg t r = dot_rz deg (s + t) M.
Proof. exact dot_rz_add. Qed.
Print Assumptions C53_rz_additive.
Theorem C53_rz_periodic : forall deg t M, length M = ncoef deg -> dot_rz deg (t + 2 * PI) M = dot_rz deg t M.
Proof. exact dot_rz_period. Qed.
Print Assumptions C53_rz_periodic.
Theorem C53_rz_power : forall deg t M r l m, length M = ncoef deg -> dot_rz deg t M = Ok r -> (l <= deg)%nat -> (m <= l)%nat ->
  pair_power r l m = pair_power M l m.
Proof. exact dot_rz_power. Qed.
Print Assumptions C53_rz_power.
Theorem C53_rz_bad_length : forall deg t M, length M <> ncoef deg -> dot_rz deg t M = Err ValueError.
Proof. exact dot_rz_length_err. Qed.
Print Assumptions C53_rz_bad_length.
(** dispatch of dot_rotation_matrix: no angle, no axis, or only a z component (whose value, even its
    sign, is then ignored) *)
Theorem C53_dispatch : forall as_euler deg x y z t M,
  dot_rotation_matrix as_euler deg x y z None M = Ok M /\
  dot_rotation_matrix as_euler deg None None None (Some t) M = Err ValueError /\
  (forall az, dot_rotation_matrix as_euler deg None None (Some az) (Some t) M = dot_rz deg t M).
Proof. intros. split; [reflexivity|split; reflexivity]. Qed.
Print Assumptions C53_dispatch.
Example C53_sat : length [1; 2; 3; 4] = ncoef 1.
Proof. reflexivity. Qed.

(** C54: both angles given: unit axis, and the axis-angle rotation is Rx(inc) Rz(-obl) *)
Theorem C54_sky_projection : forall inc obl, exists ax ay az angle,
  sky_projection_axis_angle (Some inc) (Some obl) = (Some ax, Some ay, Some az, Some angle) /\ unit3 (ax, ay, az) /\
  forall p, rot_axis (ax, ay, az) angle p = rot_x inc (rot_z (- obl) p).
Proof. exact sky_projection_ok. Qed.
Print Assumptions C54_sky_projection.
(** only the obliquity given: the rotation returned is Rz(+obl), not the Rz(-obl) obtained with inc = 0 *)
Theorem C54_missing_inclination_flips_obliquity_refuted : forall obl, sin obl <> 0 ->
  sky_projection_axis_angle None (Some obl) = (None, None, Some 1, Some obl) /\
  (exists p, rot_axis (0, 0, 1) obl p <> rot_x 0 (rot_z (- obl) p)).
Proof.
  intros obl H. split; [reflexivity|]. exists (1, 0, 0). rewrite rot_axis_z. unfold rot_z, rot_x. rewrite cos_0, sin_0, cos_neg, sin_neg.
  intros E. injection E. intros. apply H. lra.
Qed.
Print Assumptions C54_missing_inclination_flips_obliquity_refuted.
(** the full rotation: unit axis always; the rotation Rz(obl+theta_z) Rx(pi/2-inc) Ry(theta) whenever
    the cosine of its half angle is below 1 - 1e-5 - eps; otherwise no rotation at all *)
Theorem C54_full_rotation : forall eps inc obl theta theta_z, 0 <= eps ->
  let w := cos_half_full (angle0 inc) (angle0 obl) (angle0 theta) (angle0 theta_z) in
  exists ax ay az angle, full_rotation_axis_angle eps inc obl theta theta_z = (ax, ay, az, angle) /\
  unit3 (ax, ay, az) /\
  (w < 1 - / 100000 - eps -> forall p, rot_axis (ax, ay, az) angle p =
     rot_z (angle0 obl + angle0 theta_z) (rot_x (PI / 2 - angle0 inc) (rot_y (angle0 theta) p))) /\
  (1 - / 100000 - eps <= w -> (ax, ay, az, angle) = (1, 0, 0, 0)).
Proof. exact full_rotation_ok. Qed.
Print Assumptions C54_full_rotation.
(** hence rotations by a genuine small angle are dropped *)
Theorem C54_small_angles_refuted : forall eps t, 0 <= eps -> 0 < t <= 1 / 125 ->
  full_rotation_axis_angle eps (Some (PI / 2)) (Some t) None None = (1, 0, 0, 0) /\
  (forall p, rot_z (angle0 (Some t) + angle0 None) (rot_x (PI / 2 - angle0 (Some (PI / 2))) (rot_y (angle0 None) p)) = rot_z t p) /\
  rot_z t (1, 0, 0) <> (1, 0, 0).
Proof. exact small_angle_dropped. Qed.
Print Assumptions C54_small_angles_refuted.
(** the hypotheses are met: at inc = pi/2, obl = pi, the half-angle cosine is 0 *)
Example C54_sat : cos_half_full (PI / 2) PI 0 0 = 0 /\ sin (PI / 2) <> 0.
Proof.
  split; [|rewrite sin_PI2; lra]. unfold cos_half_full. replace ((PI - 0 + 0) / 2) with (PI / 2) by field. replace ((PI + 0 + 0) / 2) with (PI / 2) by field.
  rewrite cos_PI2. unfold Rdiv. ring.
Qed.
