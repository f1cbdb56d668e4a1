(** C86: fast_direct_left_project (starry/core/rotation.py), the one-step version of left_project, and rotate_flms.
    [as_euler] stands for jax's Rotation.from_rotvec(.).as_euler("zyz"); all that is assumed of it is its meaning [zyz_euler]. *)
From Coq Require Import Reals Lra Lia ZArith List Bool.
From Verif Require Import Base.RealAux Model.Poly Model.S2fft Model.Rotation Model.FastProject Spec.PolySpec Spec.HarmonicSpec Spec.RotationSpec
  Proof.Euler Proof.AxisAngle Proof.FastProjectProof Proof.FastProjectFacts.
Import ListNotations.
Open Scope R_scope.

(** whenever the rotation is not a very small one it returns exactly what left_project returns *)
Theorem C86_agrees_with_left_project : forall as_euler, zyz_euler as_euler -> forall eps deg inc obl theta theta_z y,
  0 <= eps -> length y = ncoef deg -> inc <> None \/ obl = None ->
  cos_half_full (angle0 inc) (angle0 obl) (angle0 theta) (angle0 theta_z) < 1 - / 100000 - eps ->
  left_project as_euler deg inc obl theta theta_z y = Ok (fast_direct_left_project as_euler eps deg inc obl theta theta_z y).
Proof. exact fast_agrees. Qed.
Print Assumptions C86_agrees_with_left_project.
(** the map it returns, whether or not an inclination is given: the value at p is that of the input map at
    Ry(-theta) Rx(inc - pi/2) Rz(-obl - theta_z) p *)
Theorem C86_rotates_the_map : forall as_euler, zyz_euler as_euler -> forall eps deg inc obl theta theta_z y,
  0 <= eps -> length y = ncoef deg ->
  cos_half_full (angle0 inc) (angle0 obl) (angle0 theta) (angle0 theta_z) < 1 - / 100000 - eps ->
  forall p, sphere3 p ->
  map_at deg (fast_direct_left_project as_euler eps deg inc obl theta theta_z y) p =
  map_at deg y (rot_y (- angle0 theta) (rot_x (- (PI / 2 - angle0 inc)) (rot_z (- (angle0 obl + angle0 theta_z)) p))).
Proof. exact fast_map. Qed.
Print Assumptions C86_rotates_the_map.
(** a rotation whose half-angle cosine is within 1e-5 + eps of 1 is not applied at all *)
Theorem C86_small_rotation_dropped : forall as_euler, zyz_euler as_euler -> forall eps deg inc obl theta theta_z y,
  0 <= eps -> length y = ncoef deg ->
  1 - / 100000 - eps <= cos_half_full (angle0 inc) (angle0 obl) (angle0 theta) (angle0 theta_z) ->
  fast_direct_left_project as_euler eps deg inc obl theta theta_z y = y.
Proof. exact fast_small. Qed.
Print Assumptions C86_small_rotation_dropped.
(** so it does not agree with left_project for every angle: obliquities up to 1/125 rad of an edge-on map *)
Theorem C86_small_angles_refuted : forall as_euler, zyz_euler as_euler -> forall eps t, 0 <= eps -> 0 < t <= 1 / 125 ->
  let y := [0; 1; 0; 0] in
  fast_direct_left_project as_euler eps 1 (Some (PI / 2)) (Some t) None None y = y /\
  exists r, left_project as_euler 1 (Some (PI / 2)) (Some t) None None y = Ok r /\ r <> y.
Proof. exact fast_small_bad. Qed.
Print Assumptions C86_small_angles_refuted.
(** nor with an obliquity and no inclination (where left_project turns by -obl, C70) *)
Theorem C86_missing_inclination_refuted : forall as_euler, zyz_euler as_euler -> forall eps, 0 <= eps < 0.4 ->
  exists r, left_project as_euler 1 None (Some (PI / 2)) None None [0; 0; 0; 1] = Ok r /\
  r <> fast_direct_left_project as_euler eps 1 None (Some (PI / 2)) None None [0; 0; 0; 1].
Proof. exact fast_missing_bad. Qed.
Print Assumptions C86_missing_inclination_refuted.
(** it never raises, whatever the length of y, and always returns (deg+1)^2 coefficients *)
Theorem C86_length : forall as_euler eps deg inc obl theta theta_z y,
  length (fast_direct_left_project as_euler eps deg inc obl theta theta_z y) = ncoef deg.
Proof. exact fast_length. Qed.
Print Assumptions C86_length.
(** rotate_flms gives the same with precomputed Wigner matrices of the same angle and band limit *)
Theorem C86_precomputed_matrices : forall flm L alpha beta gamma,
  rotate_flms flm L (alpha, beta, gamma) (Some (rotate_dls L beta)) = rotate_flms flm L (alpha, beta, gamma) None.
Proof. exact precomputed. Qed.
Print Assumptions C86_precomputed_matrices.
(** the hypotheses are met: an edge-on map of degree 1 turned by half a turn in the plane of the sky *)
Example C86_sat : zyz_euler rotvec_zyz /\ length [1; 2; 3; 4] = ncoef 1 /\ (Some (PI / 2) <> None \/ Some PI = None) /\
  cos_half_full (angle0 (Some (PI / 2))) (angle0 (Some PI)) (angle0 None) (angle0 None) < 1 - / 100000 - / 100.
Proof.
  split; [exact rotvec_zyz_ok|split; [reflexivity|split; [left; discriminate|]]]. cbn [angle0].
  unfold cos_half_full. replace ((PI - 0 + 0) / 2) with (PI / 2) by field. replace ((PI + 0 + 0) / 2) with (PI / 2) by field.
  rewrite cos_PI2. unfold Rdiv. lra.
Qed.
