(** C87: compute_rotation_matrices, rotar and dlmn (starry/core/rotation.py): the rotation matrices of real spherical
    harmonics by recursion on the degree.  [map_at deg M p] is the value at the point p of the map with coefficients M;
    [apply_matrices] multiplies each block of M by its matrix. *)
From Coq Require Import Reals Lra Lia ZArith List Bool.
From Verif Require Import Base.RealAux Model.Poly Model.S2fft Model.Rotation Model.Dlmn Spec.PolySpec Spec.HarmonicSpec Spec.RotationSpec
  Proof.Euler Proof.DlmnFacts.
Import ListNotations.
Open Scope R_scope.

(** for every degree, axis and angle such that the pole goes exactly to a pole or stays clear of both: there is a matrix
    for each degree, and applying them rotates the map about the given axis *)
Theorem C87_rotates_the_map : forall eps ydeg x y z t, 0 < eps -> 10 * eps <= 1 -> (x, y, z) <> (0, 0, 0) ->
  let u := scal3 (/ norm3 (x, y, z)) (x, y, z) in pole_sent_clear_of_poles (10 * eps) u t ->
  exists Rs, compute_rotation_matrices eps ydeg x y z t = Some Rs /\ length Rs = S ydeg /\
    forall M p, length M = ncoef ydeg -> sphere3 p -> map_at ydeg (apply_matrices ydeg Rs M) p = map_at ydeg M (rot_axis u t p).
Proof. exact matrices_rotate. Qed.
Print Assumptions C87_rotates_the_map.
(** every entry is the one the s2fft implementation (compute_rotation_matrices_s2fft) computes *)
Theorem C87_agrees_with_s2fft : forall eps ydeg x y z t, 0 < eps -> 10 * eps <= 1 -> (x, y, z) <> (0, 0, 0) ->
  pole_sent_clear_of_poles (10 * eps) (scal3 (/ norm3 (x, y, z)) (x, y, z)) t ->
  exists Rs, compute_rotation_matrices eps ydeg x y z t = Some Rs /\
    forall as_euler, zyz_euler as_euler -> forall l r c, (l <= ydeg)%nat -> (r <= 2 * l)%nat -> (c <= 2 * l)%nat ->
      nth l Rs (fun _ _ => 0) (Z.of_nat r) (Z.of_nat c) = rotation_matrix as_euler ydeg x y z t l r c.
Proof. exact matrices_agree. Qed.
Print Assumptions C87_agrees_with_s2fft.
(** the zero axis, which the code means to handle: NaN, for every angle whose cosine is not within 10 eps of 1 or -1 *)
Theorem C87_zero_axis_refuted : forall eps ydeg t, 0 < eps -> (0 < ydeg)%nat -> 10 * eps <= 1 - cos t -> 10 * eps <= 1 + cos t ->
  compute_rotation_matrices eps ydeg 0 0 0 t = None.
Proof. exact zero_axis_nan. Qed.
Print Assumptions C87_zero_axis_refuted.
(** inside the window around the poles the matrices are not those of the rotation: for every eps there is a small
    rotation about the x axis of which they are wrong *)
Theorem C87_near_pole_refuted : forall eps, 0 < eps -> 10 * eps <= 1 -> exists t Rs M p,
  compute_rotation_matrices eps 1 1 0 0 t = Some Rs /\ length M = ncoef 1 /\ sphere3 p /\
  map_at 1 (apply_matrices 1 Rs M) p <> map_at 1 M (rot_axis (1, 0, 0) t p).
Proof. exact near_pole_refuted. Qed.
Print Assumptions C87_near_pole_refuted.
(** the hypotheses are met: a third of a turn about the axis (1,1,1), and any turn about the z axis *)
Example C87_sat : 0 < / 100 /\ 10 * / 100 <= 1 /\ (1, 1, 1) <> (0, 0, 0) /\
  pole_sent_clear_of_poles (10 * / 100) (scal3 (/ norm3 (1, 1, 1)) (1, 1, 1)) (2 * (PI / 3)) /\
  (forall t, pole_sent_clear_of_poles (10 * / 100) (scal3 (/ norm3 (0, 0, 1)) (0, 0, 1)) t) /\ zyz_euler rotvec_zyz.
Proof.
  split; [lra|split; [lra|split; [intros E; injection E; lra|split; [|split; [|exact rotvec_zyz_ok]]]]].
  - unfold pole_sent_clear_of_poles, pole_height, rot_axis, add3, scal3, cross3, dot3, norm3, dot3. cbv zeta.
    rewrite cos_2PI3, sin_2PI3. replace (1 * 1 + 1 * 1 + 1 * 1) with 3 by ring.
    assert (E : / sqrt 3 * 1 * (/ sqrt 3 * 1) = / 3).
    { rewrite !Rmult_1_r. rewrite <- Rinv_mult. f_equal. apply sqrt_sqrt. lra. }
    right; right. set (k := / sqrt 3 * 1) in *. set (s := sqrt 3 / 2) in *.
    replace (-1 / 2 * 1 + (s * (k * 0 - k * 0) + (1 - -1 / 2) * (k * 0 + k * 0 + k * 1) * k)) with (- / 2 + 3 / 2 * (k * k)) by field.
    rewrite E. lra.
  - intros t. left. unfold pole_height, rot_axis, add3, scal3, cross3, dot3, norm3, dot3. replace (0 * 0 + 0 * 0 + 1 * 1) with 1 by ring. rewrite sqrt_1. field.
Qed.
