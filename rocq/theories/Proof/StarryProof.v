(** Proofs about starry/light_curves.py. *)
From Coq Require Import Reals Lra Lia ZArith List Bool Arith Psatz.
From Coquelicot Require Import Coquelicot.
From Verif Require Import Base.RealAux Base.Dict Model.Poly Model.Basis Model.S2fft Model.Rotation Model.Solution Model.SolutionVector Model.Ylm Model.RvMap Model.Surface Model.StarryLightCurve
  Spec.PolySpec Spec.BasisSpec Spec.HarmonicSpec Spec.RotationSpec Spec.DiskSpec Spec.YlmSpec Spec.SurfaceSpec
  Proof.PolyProof Proof.PolyUnique Proof.BasisProof Proof.HarmonicProof Proof.YlmProof Proof.YlmMore Proof.YlmFacts Proof.RTProof Proof.RotationMap Proof.RotationMore Proof.AxisAngle Proof.SurfaceProof Proof.DiskRot.
Import ListNotations.
Open Scope R_scope.

(** the point of the map seen at the sky point p, with the sign of the obliquity that left_project uses when the
    inclination is None *)
Lemma rot_x_0 p : rot_x 0 p = p.
Proof. destruct p as [[x y] z]. unfold rot_x. rewrite cos_0, sin_0. apply triple_eq; ring. Qed.
Lemma rot_z_0 p : rot_z 0 p = p.
Proof. destruct p as [[x y] z]. unfold rot_z. rewrite cos_0, sin_0. apply triple_eq; ring. Qed.

Section Flux.
Variable as_euler : R * R * R -> R * R * R.
Hypothesis Hz : zyz_euler as_euler.
Variable s : surface.
Hypothesis Hy : wf_ylm (s_y s).

Lemma left_project_seen theta tz : exists ry,
  left_project as_euler (surf_ydeg s) (s_inc s) (s_obl s) theta (Some tz) (ylm_todense (s_y s)) = Ok ry /\ length ry = ncoef (surf_ydeg s) /\
  forall p, sphere3 p -> map_at (surf_ydeg s) ry p = coeffs_value (y_data (s_y s)) (seen_point (s_inc s) (s_obl s) theta (rot_z (- tz) p)).
Proof using Hz Hy.
  destruct (left_project_ok as_euler Hz (surf_ydeg s) (s_inc s) (s_obl s) theta (Some tz) _ (dense_len s Hy)) as (r & E & L & V). exists r. split; [exact E|split; [exact L|]].
  intros p Hp. rewrite V by exact Hp. rewrite (surf_ydeg_nat s), todense_value by exact Hy. unfold seen_point, map_point.
  destruct (s_inc s) as [i|], (s_obl s) as [o|]; unfold sky_rot; cbn [angle0]; rewrite ?Ropp_involutive, ?rot_x_0, ?Ropp_0, ?rot_z_0; reflexivity.
Qed.
(** a constant map needs no rotation *)
Lemma const_value p q : surf_ydeg s = 0%nat -> sphere3 p -> sphere3 q -> coeffs_value (y_data (s_y s)) p = coeffs_value (y_data (s_y s)) q.
Proof using Hy.
  intros H Hp Hq. rewrite <- !(todense_value (s_y s)) by exact Hy. replace (deg_nat (s_y s)) with 0%nat by (rewrite <- (surf_ydeg_nat s); auto).
  destruct p as [[a b] c], q as [[a' b'] c']. unfold map_at, harmonic_eval. cbn [bigsum Nat.mul Nat.add]. change (Z.of_nat 0 - Z.of_nat 0)%Z with 0%Z. rewrite !Y00. reflexivity.
Qed.
Lemma sphere_rot_z t p : sphere3 p -> sphere3 (rot_z t p).
Proof. destruct p as [[x y] z]. unfold sphere3, rot_z, dot3. intros H. pose proof (sin2_cos2 t) as C. unfold Rsqr in C. rewrite <- H. 
  replace ((x * cos t - y * sin t) * (x * cos t - y * sin t) + (x * sin t + y * cos t) * (x * sin t + y * cos t) + z * z) with ((x * x + y * y) * (sin t * sin t + cos t * cos t) + z * z) by ring. rewrite C. ring. Qed.
Lemma sphere_rot_x t p : sphere3 p -> sphere3 (rot_x t p).
Proof. destruct p as [[x y] z]. unfold sphere3, rot_x, dot3. intros H. pose proof (sin2_cos2 t) as C. unfold Rsqr in C. rewrite <- H. 
  replace (x * x + (y * cos t - z * sin t) * (y * cos t - z * sin t) + (y * sin t + z * cos t) * (y * sin t + z * cos t)) with (x * x + (y * y + z * z) * (sin t * sin t + cos t * cos t)) by ring. rewrite C. ring. Qed.
Lemma sphere_map_point inc obl theta p : sphere3 p -> sphere3 (map_point inc obl theta p).
Proof. intros H. unfold map_point. apply sphere_rot_x, sphere_rot_z, sphere_rot_x, sphere_rot_z, H. Qed.
Lemma sphere_seen_point inc obl theta p : sphere3 p -> sphere3 (seen_point inc obl theta p).
Proof. intros H. unfold seen_point. destruct inc, obl; apply sphere_map_point, H. Qed.

Lemma rotated_y_ok theta tz : exists ry, rotated_y as_euler s theta tz = Ok ry /\ length ry = ncoef (surf_ydeg s) /\
  forall p, sphere3 p -> map_at (surf_ydeg s) ry p = coeffs_value (y_data (s_y s)) (seen_point (s_inc s) (s_obl s) theta (rot_z (- tz) p)).
Proof using Hz Hy.
  unfold rotated_y. destruct (surf_ydeg s =? 0)%nat eqn:E0; [|exact (left_project_seen theta tz)]. apply Nat.eqb_eq in E0.
  eexists. split; [reflexivity|]. split; [apply dense_len, Hy|]. intros p Hp. rewrite (surf_ydeg_nat s), todense_value by exact Hy.
  apply const_value; [exact E0|exact Hp|apply sphere_seen_point, sphere_rot_z, Hp].
Qed.
Lemma ld_poly_ok : exists p, ld_poly s = Ok p /\ repr p (surf_udeg s) (fun x y z => ld_profile (s_u s) z).
Proof.
  unfold ld_poly. destruct (surf_udeg s =? 0)%nat eqn:E0; [|exact (ld_row_repr (s_u s) _ (or_intror eq_refl))]. apply Nat.eqb_eq in E0. rewrite E0.
  destruct one_repr as (p & E & Rp). exists p. split; [exact E|]. revert Rp. apply repr_ext. intros x y z _. unfold surf_udeg in E0. unfold ld_profile. rewrite E0. cbn. ring.
Qed.
Lemma repr_dot_rT p D f : repr p D f -> pijk_dot p (rT D) = Ok (disk_integral (fun x y => f x y (zdisk x y))).
Proof.
  intros Rp. destruct (repr_todense _ _ _ Rp) as (v & E & L & V). unfold pijk_dot. rewrite E. cbn [rbind]. rewrite (dot_vec_ok v (rT D) (ncoef D) L (rT_length D)). f_equal.
  unfold ncoef. rewrite (rT_dot D (fun n => nth n v 0)). apply disk_ext_in. intros x y Hd. apply V. apply GreenProof.zdisk_sphere, Hd.
Qed.
Lemma ld_norm_ok p : repr p (surf_udeg s) (fun x y z => ld_profile (s_u s) z) -> ld_norm s p = Ok (PI / ld_flux (s_u s)).
Proof. intros Rp. unfold ld_norm. rewrite (repr_dot_rT _ _ _ Rp). reflexivity. Qed.
Lemma zdisk_sphere3 x y : in_disk x y -> sphere3 (x, y, zdisk x y).
Proof. intros H. apply sphere_iff, GreenProof.zdisk_sphere, H. Qed.

(** the rotated intensity *)
Definition seen (theta : option R) : vec3 -> R := seen_intensity (y_data (s_y s)) (s_u s) (s_inc s) (s_obl s) theta.
Lemma flux_of_rT theta tz ry : length ry = ncoef (surf_ydeg s) ->
  (forall p, sphere3 p -> map_at (surf_ydeg s) ry p = coeffs_value (y_data (s_y s)) (seen_point (s_inc s) (s_obl s) theta (rot_z (- tz) p))) ->
  flux_of s (rT (surf_deg s)) ry = Ok (s_amplitude s * visible_flux (fun p => seen theta (rot_z (- tz) p)) * (PI / ld_flux (s_u s))).
Proof.
  intros L V. unfold flux_of. destruct ld_poly_ok as (p_u & E2 & R2). rewrite E2. cbn [rbind].
  destruct (A1_mul_repr (surf_ydeg s) ry _ L (or_intror eq_refl)) as (p_y & E1 & R1). rewrite E1. cbn [rbind].
  destruct (repr_mul _ _ _ _ _ _ R1 R2) as (p & E3 & R3). rewrite E3. cbn [rbind]. rewrite (ld_norm_ok p_u R2). cbn [rbind].
  unfold surf_deg. rewrite (repr_dot_rT _ _ _ R3). cbn [rbind]. f_equal. f_equal. f_equal. unfold visible_flux. apply disk_ext_in. intros x y Hd.
  rewrite V by (apply zdisk_sphere3, Hd). unfold seen, seen_intensity, rot_z. cbn [snd]. ring.
Qed.
(** the flux does not depend on a rotation about the line of sight *)
Lemma seen_poly theta : exists D d, forall x y z, on_sphere x y z -> seen theta (x, y, z) = dense_eval D d x y z.
Proof using Hz Hy.
  destruct (rotated_y_ok theta 0) as (ry & E & L & V). destruct (A1_mul_repr (surf_ydeg s) ry _ L (or_intror eq_refl)) as (p_y & E1 & R1).
  destruct ld_poly_ok as (p_u & E2 & R2). destruct (repr_mul _ _ _ _ _ _ R1 R2) as (p & E3 & R3). destruct (repr_todense _ _ _ R3) as (v & E4 & L4 & V4).
  eexists _, (fun n => nth n v 0). intros x y z Hs. rewrite V4 by exact Hs. rewrite V by (apply sphere_iff, Hs). rewrite Ropp_0, rot_z_0. reflexivity.
Qed.
Lemma zdisk_rot a x y : zdisk (x * cos a - y * sin a) (x * sin a + y * cos a) = zdisk x y.
Proof. unfold zdisk. f_equal. pose proof (sin2_cos2 a) as C. unfold Rsqr in C. replace (1 - (x * cos a - y * sin a) ^ 2 - (x * sin a + y * cos a) ^ 2) with (1 - (x ^ 2 + y ^ 2) * (sin a * sin a + cos a * cos a)) by ring. rewrite C. ring. Qed.
Lemma in_disk_rot a x y : in_disk x y -> in_disk (x * cos a - y * sin a) (x * sin a + y * cos a).
Proof. unfold in_disk. pose proof (sin2_cos2 a) as C. unfold Rsqr in C. replace ((x * cos a - y * sin a) ^ 2 + (x * sin a + y * cos a) ^ 2) with ((x ^ 2 + y ^ 2) * (sin a * sin a + cos a * cos a)) by ring. rewrite C, Rmult_1_r. auto. Qed.
Lemma visible_flux_rot theta tz : visible_flux (fun p => seen theta (rot_z tz p)) = visible_flux (seen theta).
Proof using Hz Hy.
  destruct (seen_poly theta) as (D & d & H). unfold visible_flux. transitivity (disk_integral (fun x y => dense_eval D d x y (zdisk x y))).
  - rewrite <- (disk_rot _ tz (disk_cont_dense D d)). apply disk_ext_in. intros x y Hd. rewrite <- H by (apply GreenProof.zdisk_sphere, in_disk_rot, Hd).
    unfold rot_z. rewrite zdisk_rot. reflexivity.
  - apply disk_ext_in. intros x y Hd. symmetry. apply H, GreenProof.zdisk_sphere, Hd.
Qed.

Variables (eps : R) (low high : list (R * R)) (A2 : nat -> matrix).
Definition total_flux theta : R := s_amplitude s * visible_flux (seen theta) * (PI / ld_flux (s_u s)).
Lemma light_curve_no_occultor x y z theta : surface_light_curve as_euler eps low high A2 s None x y z theta = Ok (total_flux theta).
Proof using Hz Hy.
  unfold surface_light_curve, design_matrix. cbn [rbind]. destruct (rotated_y_ok theta 0) as (ry & E & L & V). rewrite E. cbn [rbind].
  rewrite (flux_of_rT theta 0 ry L V). unfold total_flux. rewrite visible_flux_rot. reflexivity.
Qed.
Lemma design_not_occ g D : D <> 0%nat -> og_occ g = false -> design_matrix eps low high A2 D (Some g) = Ok (rT D).
Proof. intros H0 H. unfold design_matrix, starry_solution. destruct (D =? 0)%nat eqn:E; [apply Nat.eqb_eq in E; contradiction|]. cbn [rbind]. rewrite H. reflexivity. Qed.
Lemma geometry_occ r x y z : og_occ (geometry r x y z) = true <-> sqrt (none0 x ^ 2 + none0 y ^ 2) < 1 + r /\ 0 < none0 z.
Proof.
  unfold geometry. cbn [og_occ]. replace ((none0 x)² + (none0 y)²) with (none0 x ^ 2 + none0 y ^ 2) by (unfold Rsqr; ring).
  rewrite negb_true_iff, orb_false_iff. unfold Rgeb, Rleb. destruct (Rle_dec _ _), (Rle_dec _ _); split; intros; try (split; [reflexivity|reflexivity]); try lra; try (split; lra); destruct H; discriminate.
Qed.
Lemma light_curve_not_occ r x y z theta : surf_ydeg s <> 0%nat -> 1 + r <= sqrt (none0 x ^ 2 + none0 y ^ 2) \/ none0 z <= 0 ->
  surface_light_curve as_euler eps low high A2 s (Some r) x y z theta = Ok (total_flux theta).
Proof using Hz Hy.
  intros H0 H. unfold surface_light_curve. destruct (surf_ydeg s =? 0)%nat eqn:E; [apply Nat.eqb_eq in E; contradiction|].
  assert (Ho : og_occ (geometry r x y z) = false).
  { destruct (og_occ (geometry r x y z)) eqn:G; [|reflexivity]. apply geometry_occ in G. lra. }
  rewrite design_not_occ by (unfold surf_deg; lia || exact Ho). cbn [rbind]. destruct (rotated_y_ok theta (theta_z_of (Some (geometry r x y z)))) as (ry & E' & L & V). rewrite E'. cbn [rbind].
  rewrite (flux_of_rT theta _ ry L V). unfold total_flux. rewrite visible_flux_rot. reflexivity.
Qed.
(** maps of degree 0 *)
Lemma light_curve_deg0 r x y z theta : surf_ydeg s = 0%nat ->
  surface_light_curve as_euler eps low high A2 s (Some r) x y z theta =
  Ok (1 + if og_occ (geometry r x y z) then LimbDark.light_curve eps high (s_u s) (sqrt (none0 x ^ 2 + none0 y ^ 2)) r else 0).
Proof.
  intros H0. unfold surface_light_curve. rewrite H0. cbn [Nat.eqb]. f_equal. f_equal. destruct (og_occ (geometry r x y z)) eqn:G; [|reflexivity]. cbn [where_].
  unfold geometry in *. cbn [og_occ og_b og_r] in *. apply negb_true_iff in G. rewrite G. cbn [where_]. f_equal. f_equal. unfold Rsqr. ring.
Qed.
End Flux.
