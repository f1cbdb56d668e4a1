(** C69, C70: starry/core/rotation.py and s2fft_rotation.py, rotations about any axis and the projections.
    [as_euler] stands for jax's Rotation.from_rotvec(.).as_euler("zyz"); all that is assumed of it is its
    meaning [zyz_euler], and only where it says so. *)
From Coq Require Import Reals Lra Lia ZArith List Bool.
From Verif Require Import Base.RealAux Model.Poly Model.S2fft Model.Rotation Spec.PolySpec Spec.HarmonicSpec Spec.RotationSpec
  Proof.RotationProof Proof.AxisAngle Proof.Euler Proof.HarmonicUnique Proof.RotationMap Proof.RotationMore.
Import ListNotations.
Open Scope R_scope.

(** C69: rotating the coefficients about the axis (x, y, z) (any length, missing components are 0) gives
    a map of the same degree that takes at p the value of the original at the point rotated by theta *)
Theorem C69_rotates_the_map : forall as_euler, zyz_euler as_euler -> forall deg x y z t M, x <> None \/ y <> None -> length M = ncoef deg ->
  let a := (angle0 x, angle0 y, angle0 z) in (t <> 0 -> a <> (0, 0, 0)) ->
  exists r, dot_rotation_matrix as_euler deg x y z (Some t) M = Ok r /\ length r = ncoef deg /\
    forall p, sphere3 p -> map_at deg r p = map_at deg M (rot_axis (scal3 (/ norm3 a) a) t p).
Proof. exact dot_rotation_ok. Qed.
Print Assumptions C69_rotates_the_map.
(** the coefficients are determined by the map, so the above fixes the result *)
Theorem C69_coefficients_determined_by_map : forall deg a b, length a = ncoef deg -> length b = ncoef deg ->
  (forall p, sphere3 p -> map_at deg a p = map_at deg b p) -> a = b.
Proof. exact map_unique. Qed.
Print Assumptions C69_coefficients_determined_by_map.
Theorem C69_bad_length : forall as_euler deg x y z t M, x <> None \/ y <> None -> length M <> ncoef deg ->
  dot_rotation_matrix as_euler deg x y z (Some t) M = Err ValueError.
Proof. exact dot_rotation_err. Qed.
Print Assumptions C69_bad_length.
Theorem C69_zero_angle : forall as_euler, zyz_euler as_euler -> forall deg x y z M, x <> None \/ y <> None -> length M = ncoef deg ->
  dot_rotation_matrix as_euler deg x y z (Some 0) M = Ok M.
Proof. exact dot_zero. Qed.
Print Assumptions C69_zero_angle.
(** rotations about one axis compose; in particular the rotation by -theta undoes that by theta *)
Theorem C69_compose : forall as_euler, zyz_euler as_euler -> forall deg x y z s t M r, x <> None \/ y <> None -> length M = ncoef deg ->
  (angle0 x, angle0 y, angle0 z) <> (0, 0, 0) ->
  dot_rotation_matrix as_euler deg x y z (Some s) M = Ok r ->
  dot_rotation_matrix as_euler deg x y z (Some t) r = dot_rotation_matrix as_euler deg x y z (Some (s + t)) M.
Proof. exact dot_compose. Qed.
Print Assumptions C69_compose.
(** the general path about +z gives exactly what the dedicated z path gives *)
Theorem C69_z_axis_paths_agree : forall as_euler, zyz_euler as_euler -> forall deg x y az t M, x <> None \/ y <> None ->
  angle0 x = 0 -> angle0 y = 0 -> 0 < az -> length M = ncoef deg ->
  dot_rotation_matrix as_euler deg x y (Some az) (Some t) M = dot_rotation_matrix as_euler deg None None (Some az) (Some t) M.
Proof. exact dot_z_general. Qed.
Print Assumptions C69_z_axis_paths_agree.
(** whatever the Euler angles, the power of each degree is kept *)
Theorem C69_degree_power : forall as_euler deg x y z t M r l, x <> None \/ y <> None -> length M = ncoef deg ->
  dot_rotation_matrix as_euler deg x y z (Some t) M = Ok r -> (l <= deg)%nat -> degree_power r l = degree_power M l.
Proof. exact dot_rotation_power. Qed.
Print Assumptions C69_degree_power.
(** but the z-only path ignores the sign of the axis *)
Theorem C69_negative_z_axis_refuted : forall as_euler, zyz_euler as_euler -> exists M r r', length M = ncoef 1 /\
  dot_rotation_matrix as_euler 1 None None (Some (-1)) (Some (PI / 2)) M = Ok r /\
  dot_rotation_matrix as_euler 1 (Some 0) None (Some (-1)) (Some (PI / 2)) M = Ok r' /\ r <> r'.
Proof.
  intros as_euler Hz. exists [0; 1; 0; 0]. assert (HM : length [0; 1; 0; 0] = ncoef 1) by reflexivity.
  destruct (dot_rz_ok 1 (PI / 2) _ HM) as (r & Hr & L & V). exists r.
  destruct (dot_rotation_ok as_euler Hz 1 (Some 0) None (Some (-1)) (PI / 2) _ ltac:(left; discriminate) HM) as (r' & Hr' & L' & V').
  { cbn [angle0]. intros _ E. injection E. intros. lra. }
  exists r'. split; [exact HM|split; [exact Hr|split; [exact Hr'|]]]. intros <-.
  (* r is the rotation by +pi/2 and by -pi/2 of the same map *)
  destruct (dot_rz_ok 1 (- (PI / 2)) _ HM) as (r2 & H2 & L2 & V2). assert (E : r = r2).
  { apply (map_unique 1); auto. intros p Hp. rewrite V' by exact Hp. rewrite (dot_rz_map 1 _ _ _ p HM H2). f_equal. cbn [angle0]. rewrite norm3_unit by (unfold unit3, dot3; ring).
    rewrite <- rot_axis_z. destruct p as [[x y] z]. unfold rot_axis, add3, scal3, cross3, dot3. rewrite cos_neg, sin_neg. apply triple_eq; ring. }
  pose proof (V 1%nat 2%nat ltac:(lia) ltac:(lia)) as A. pose proof (V2 1%nat 2%nat ltac:(lia) ltac:(lia)) as B. rewrite E, B in A.
  cbn [nth Nat.mul Nat.add Nat.sub Z.of_nat Pos.of_succ_nat Pos.succ Z.sub Z.opp Z.add Z.pos_sub Pos.pred_double] in A. rewrite !Rmult_1_l, cos_neg, sin_neg, sin_PI2, cos_PI2 in A. lra.
Qed.
Print Assumptions C69_negative_z_axis_refuted.
(** the hypothesis on as_euler is met by an explicit function *)
Example C69_sat : zyz_euler rotvec_zyz /\ length [1; 2; 3; 4] = ncoef 1 /\ (angle0 (Some 3), angle0 None, angle0 (Some (-1))) <> (0, 0, 0).
Proof. split; [exact rotvec_zyz_ok|split; [reflexivity|]]. cbn. intros E. injection E. intros. lra. Qed.

(** C70: left_project; at the point p of the sky frame the result takes the value of the input map at
    Rx(-pi/2) Rz(-theta) Rx(inc) Rz(-obl) Rz(-theta_z) p, an absent angle counting as 0 *)
Theorem C70_left_project : forall as_euler, zyz_euler as_euler -> forall deg inc obl theta theta_z y, inc <> None \/ obl = None -> length y = ncoef deg ->
  exists r, left_project as_euler deg inc obl theta theta_z y = Ok r /\ length r = ncoef deg /\
    forall p, sphere3 p -> map_at deg r p =
      map_at deg y (rot_x (- (PI / 2)) (rot_z (- angle0 theta) (rot_x (angle0 inc) (rot_z (- angle0 obl) (rot_z (- angle0 theta_z) p))))).
Proof.
  intros ae Hz deg inc obl theta theta_z y Hio Hy. destruct (left_project_ok ae Hz deg inc obl theta theta_z y Hy) as (r & H1 & H2 & H3). exists r. split; [exact H1|split; [exact H2|]].
  intros p Hp. rewrite H3 by exact Hp. destruct inc as [i|], obl as [o|]; try reflexivity. destruct Hio as [Hio|Hio]; [congruence|discriminate].
Qed.
Print Assumptions C70_left_project.
(** right_project is the inverse of left_project *)
Theorem C70_right_left : forall as_euler, zyz_euler as_euler -> forall deg inc obl theta theta_z y r, inc <> None \/ obl = None -> length y = ncoef deg ->
  left_project as_euler deg inc obl theta theta_z y = Ok r -> right_project as_euler deg inc obl theta theta_z r = Ok y.
Proof. exact right_left. Qed.
Print Assumptions C70_right_left.
(** with an obliquity but no inclination the obliquity enters left_project with the opposite sign *)
Theorem C70_missing_inclination : forall as_euler, zyz_euler as_euler -> forall deg o theta theta_z y, length y = ncoef deg ->
  exists r, left_project as_euler deg None (Some o) theta theta_z y = Ok r /\ length r = ncoef deg /\
    forall p, sphere3 p -> map_at deg r p = map_at deg y (rot_x (- (PI / 2)) (rot_z (- angle0 theta) (rot_z o (rot_z (- angle0 theta_z) p)))).
Proof. intros ae Hz deg o theta theta_z y Hy. exact (left_project_ok ae Hz deg None (Some o) theta theta_z y Hy). Qed.
Print Assumptions C70_missing_inclination.
(** and right_project does not undo left_project: the round trip is a rotation by twice the obliquity *)
Theorem C70_roundtrip_without_inclination : forall as_euler, zyz_euler as_euler -> forall deg o theta theta_z y r, length y = ncoef deg ->
  left_project as_euler deg None (Some o) theta theta_z y = Ok r ->
  exists r', right_project as_euler deg None (Some o) theta theta_z r = Ok r' /\
    forall p, sphere3 p -> map_at deg r' p = map_at deg y (rot_x (- (PI / 2)) (rot_z (2 * o) (rot_x (PI / 2) p))).
Proof. exact right_left_no_inc. Qed.
Print Assumptions C70_roundtrip_without_inclination.
Theorem C70_roundtrip_without_inclination_refuted : forall as_euler, zyz_euler as_euler -> exists y r r', length y = ncoef 1 /\
  left_project as_euler 1 None (Some (PI / 2)) None None y = Ok r /\ right_project as_euler 1 None (Some (PI / 2)) None None r = Ok r' /\ r' <> y.
Proof. exact right_left_no_inc_bad. Qed.
Print Assumptions C70_roundtrip_without_inclination_refuted.
Theorem C70_bad_length : forall as_euler deg inc obl theta theta_z y, length y <> ncoef deg ->
  left_project as_euler deg inc obl theta theta_z y = Err ValueError.
Proof. exact project_err. Qed.
Print Assumptions C70_bad_length.
Example C70_sat : (Some (PI / 2) <> None \/ Some 1 = None) /\ length [1; 2; 3; 4] = ncoef 1 /\ zyz_euler rotvec_zyz.
Proof. split; [left; discriminate|split; [reflexivity|exact rotvec_zyz_ok]]. Qed.
