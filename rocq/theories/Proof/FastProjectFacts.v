(** fast_direct_left_project against left_project *)
From Coq Require Import Reals Lra Lia ZArith List Bool Arith.
From Verif Require Import Base.RealAux Model.Poly Model.Basis Model.S2fft Model.Rotation Model.StarryUtils Model.FastProject
  Spec.PolySpec Spec.HarmonicSpec Spec.RotationSpec
  Proof.UtilsProof Proof.RotationProof Proof.AxisAngle Proof.Euler Proof.RotationMap Proof.RotationMore Proof.DopplerProof Proof.FastProjectProof.
Import ListNotations.
Open Scope R_scope.

Definition half_turn (p : vec3) : vec3 := let '(x, y, z) := p in (- x, - y, z).
Lemma half_turn_conj al be ga p : rot_z ga (rot_y (- be) (rot_z al p)) = half_turn (rot_z ga (rot_y be (rot_z al (half_turn p)))).
Proof. destruct p as [[x y] z]. unfold half_turn, rot_z, rot_y. rewrite cos_neg, sin_neg. apply triple_eq; ring. Qed.
Lemma half_turn_axis x y z t p : half_turn (rot_axis (- x, - y, z) t (half_turn p)) = rot_axis (x, y, z) t p.
Proof. destruct p as [[a b] c]. unfold half_turn, rot_axis, add3, scal3, cross3, dot3. apply triple_eq; ring. Qed.
Lemma full_inverse a b c p : rot_y (- c) (rot_x (- b) (rot_z (- a) (rot_z a (rot_x b (rot_y c p))))) = p.
Proof.
  rewrite <- (rot_axis_z (- a)), <- (rot_axis_z a), <- (rot_axis_x (- b)), <- (rot_axis_x b), <- (rot_axis_y (- c)), <- (rot_axis_y c).
  rewrite !rot_axis_add by (unfold unit3, dot3; ring). replace (- a + a) with 0 by ring. rewrite rot_axis_zero.
  rewrite rot_axis_add by (unfold unit3, dot3; ring). replace (- b + b) with 0 by ring. rewrite rot_axis_zero.
  rewrite rot_axis_add by (unfold unit3, dot3; ring). replace (- c + c) with 0 by ring. now rewrite rot_axis_zero.
Qed.
Lemma full_inverse_r a b c p : rot_z a (rot_x b (rot_y c (rot_y (- c) (rot_x (- b) (rot_z (- a) p))))) = p.
Proof.
  rewrite <- (rot_axis_z (- a)), <- (rot_axis_z a), <- (rot_axis_x (- b)), <- (rot_axis_x b), <- (rot_axis_y (- c)), <- (rot_axis_y c).
  rewrite rot_axis_add by (unfold unit3, dot3; ring). replace (c + - c) with 0 by ring. rewrite rot_axis_zero.
  rewrite rot_axis_add by (unfold unit3, dot3; ring). replace (b + - b) with 0 by ring. rewrite rot_axis_zero.
  rewrite rot_axis_add by (unfold unit3, dot3; ring). replace (a + - a) with 0 by ring. now rewrite rot_axis_zero.
Qed.

Section WithEuler.
Variable as_euler : R * R * R -> R * R * R.
Lemma fast_length eps deg inc obl theta theta_z y : length (fast_direct_left_project as_euler eps deg inc obl theta theta_z y) = ncoef deg.
Proof.
  unfold fast_direct_left_project. destruct (full_rotation_axis_angle eps inc obl theta theta_z) as [[[ax ay] az] an].
  cbv zeta. apply (proj1 (y2d_spec deg _)).
Qed.
Hypothesis Hzyz : zyz_euler as_euler.
Lemma fast_axis eps deg inc obl theta theta_z y ax ay az an p : length y = ncoef deg ->
  full_rotation_axis_angle eps inc obl theta theta_z = (ax, ay, az, an) -> unit3 (ax, ay, az) -> sphere3 p ->
  map_at deg (fast_direct_left_project as_euler eps deg inc obl theta theta_z y) p = map_at deg y (rot_axis (ax, ay, az) (- an) p).
Proof.
  intros Hy E Hu Hp. unfold fast_direct_left_project. rewrite E.
  destruct (euler as_euler (- ax) (- ay) az (- an)) as [[al be] ga] eqn:He. cbv zeta.
  assert (Hu' : unit3 (- ax, - ay, az)) by (unfold unit3, dot3 in *; lra).
  etransitivity; [exact (fast_blocks_map deg al be ga y Hy p Hp)|]. f_equal. rewrite half_turn_conj.
  rewrite (euler_rot as_euler Hzyz (- ax) (- ay) az (- an) al be ga _ (fun _ => unit3_nz _ _ _ Hu') He).
  rewrite norm3_unit by exact Hu'. apply half_turn_axis.
Qed.
Lemma fast_map eps deg inc obl theta theta_z y : 0 <= eps -> length y = ncoef deg ->
  cos_half_full (angle0 inc) (angle0 obl) (angle0 theta) (angle0 theta_z) < 1 - / 100000 - eps -> forall p, sphere3 p ->
  map_at deg (fast_direct_left_project as_euler eps deg inc obl theta theta_z y) p =
  map_at deg y (rot_y (- angle0 theta) (rot_x (- (PI / 2 - angle0 inc)) (rot_z (- (angle0 obl + angle0 theta_z)) p))).
Proof.
  intros He Hy Hw p Hp. destruct (full_rotation_ok eps inc obl theta theta_z He) as (ax & ay & az & an & E & Hu & HQ & _).
  rewrite (fast_axis eps deg inc obl theta theta_z y ax ay az an p Hy E Hu Hp). f_equal.
  set (q := rot_y (- angle0 theta) (rot_x (- (PI / 2 - angle0 inc)) (rot_z (- (angle0 obl + angle0 theta_z)) p))).
  transitivity (rot_axis (ax, ay, az) (- an) (rot_axis (ax, ay, az) an q)).
  - rewrite HQ by exact Hw. unfold q. now rewrite full_inverse_r.
  - rewrite rot_axis_add by exact Hu. replace (- an + an) with 0 by ring. apply rot_axis_zero.
Qed.
Lemma project_point a b c p : rot_x (- (PI / 2)) (rot_z (- c) (rot_x b (rot_z a p))) = rot_y (- c) (rot_x (- (PI / 2 - b)) (rot_z a p)).
Proof.
  generalize (rot_z a p). intros [[x y] z]. replace (- (PI / 2 - b)) with (b - PI / 2) by ring.
  unfold rot_x, rot_y, rot_z. rewrite cos_minus, sin_minus, !cos_neg, !sin_neg, cos_PI2, sin_PI2. apply triple_eq; ring.
Qed.
Lemma fast_agrees eps deg inc obl theta theta_z y : 0 <= eps -> length y = ncoef deg -> inc <> None \/ obl = None ->
  cos_half_full (angle0 inc) (angle0 obl) (angle0 theta) (angle0 theta_z) < 1 - / 100000 - eps ->
  left_project as_euler deg inc obl theta theta_z y = Ok (fast_direct_left_project as_euler eps deg inc obl theta theta_z y).
Proof.
  intros He Hy Hi Hw. destruct (left_project_ok as_euler Hzyz deg inc obl theta theta_z y Hy) as (r & E & L & V). rewrite E. f_equal.
  apply (map_unique deg); [exact L|apply fast_length|]. intros p Hp. rewrite V by exact Hp. rewrite (fast_map eps deg inc obl theta theta_z y He Hy Hw p Hp).
  f_equal. assert (Z2 : forall a b q, rot_z a (rot_z b q) = rot_z (a + b) q).
  { intros a b [[x1 y1] z1]. unfold rot_z. rewrite cos_plus, sin_plus. apply triple_eq; ring. }
  assert (Z0 : forall q, rot_z 0 q = q) by (intros [[x1 y1] z1]; unfold rot_z; rewrite cos_0, sin_0; apply triple_eq; ring).
  assert (X0 : forall q, rot_x 0 q = q) by (intros [[x1 y1] z1]; unfold rot_x; rewrite cos_0, sin_0; apply triple_eq; ring).
  rewrite <- project_point. destruct inc as [i|], obl as [o|]; cbn [angle0 sky_rot]; try (destruct Hi; [congruence|discriminate]).
  - rewrite Z2, Ropp_plus_distr. reflexivity.
  - rewrite ?Ropp_0, ?Z0, ?Z2, ?Ropp_plus_distr, ?Ropp_0, ?Rplus_0_l. reflexivity.
  - rewrite ?X0, ?Ropp_0, ?Z0, ?Z2, ?Ropp_plus_distr, ?Ropp_0, ?Rplus_0_l. reflexivity.
Qed.
Lemma fast_small eps deg inc obl theta theta_z y : 0 <= eps -> length y = ncoef deg ->
  1 - / 100000 - eps <= cos_half_full (angle0 inc) (angle0 obl) (angle0 theta) (angle0 theta_z) ->
  fast_direct_left_project as_euler eps deg inc obl theta theta_z y = y.
Proof.
  intros He Hy Hw. destruct (full_rotation_ok eps inc obl theta theta_z He) as (ax & ay & az & an & E & Hu & _ & HI). specialize (HI Hw). injection HI as -> -> -> ->.
  apply (map_unique deg); [apply fast_length|exact Hy|]. intros p Hp. rewrite (fast_axis eps deg inc obl theta theta_z y 1 0 0 0 p Hy E Hu Hp).
  rewrite Ropp_0. now rewrite rot_axis_zero.
Qed.
Lemma fast_small_bad eps t : 0 <= eps -> 0 < t <= 1 / 125 -> let y := [0; 1; 0; 0] in
  fast_direct_left_project as_euler eps 1 (Some (PI / 2)) (Some t) None None y = y /\
  exists r, left_project as_euler 1 (Some (PI / 2)) (Some t) None None y = Ok r /\ r <> y.
Proof.
  intros He Ht y. assert (Hy : length y = ncoef 1) by reflexivity. split.
  - apply fast_small; [exact He|exact Hy|]. cbn [angle0]. unfold cos_half_full. replace ((t - 0 + 0) / 2) with (t / 2) by field. replace ((t + 0 + 0) / 2) with (t / 2) by field.
    replace (PI / 2 / 2) with (PI / 4) by field. rewrite sin_PI4, cos_PI4. pose proof (cos_ge (t / 2)) as Hc. pose proof sqrt2_pos as Hs.
    replace ((1 / sqrt 2 * cos (t / 2) + 1 / sqrt 2 * cos (t / 2)) / sqrt 2) with (2 * cos (t / 2) / (sqrt 2 * sqrt 2)) by (field; lra).
    rewrite sqrt_sqrt by lra. assert ((t / 2) ^ 2 / 2 <= / 100000); [|lra]. assert (t * t <= 1 / 125 * (1 / 125)) by nra. nra.
  - destruct (left_project_ok as_euler Hzyz 1 (Some (PI / 2)) (Some t) None None y Hy) as (r & E & L & V). exists r. split; [exact E|]. intros ->.
    specialize (V (1, 0, 0) ltac:(unfold sphere3, dot3; ring)). cbn [angle0 sky_rot] in V.
    unfold rot_x, rot_z in V. rewrite Ropp_0, cos_0, sin_0, !cos_neg, !sin_neg, cos_PI2, sin_PI2 in V. rewrite !map_at_1 in V. unfold y in V. cbn [nth] in V.
    assert (0 < sin t). { apply sin_gt_0; [lra|]. pose proof PI2_3_2. lra. }
    assert (P := PI_RGT_0). assert (0 < sqrt 3) by (apply sqrt_lt_R0; lra). assert (0 < sqrt (4 * PI)) by (apply sqrt_lt_R0; lra).
    unfold Rdiv in V. apply Rmult_eq_reg_r in V; [|apply Rinv_neq_0_compat; lra].
    assert (sqrt 3 * sin t = 0) by lra. assert (0 < sqrt 3 * sin t) by (apply Rmult_lt_0_compat; lra). lra.
Qed.
Lemma fast_missing_bad eps : 0 <= eps < 0.4 -> exists r, left_project as_euler 1 None (Some (PI / 2)) None None [0; 0; 0; 1] = Ok r /\
  r <> fast_direct_left_project as_euler eps 1 None (Some (PI / 2)) None None [0; 0; 0; 1].
Proof.
  intros He. assert (Hy : length [0; 0; 0; 1] = ncoef 1) by reflexivity.
  destruct (left_project_ok as_euler Hzyz 1 None (Some (PI / 2)) None None _ Hy) as (r & E & L & V). exists r. split; [exact E|]. intros ->.
  assert (Hw : cos_half_full (angle0 None) (angle0 (Some (PI / 2))) (angle0 None) (angle0 None) < 1 - / 100000 - eps).
  { cbn [angle0]. unfold cos_half_full. replace (0 / 2) with 0 by field. replace ((PI / 2 + 0 + 0) / 2) with (PI / 4) by field. rewrite sin_0, cos_0, cos_PI4.
    pose proof sqrt2_pos. replace ((0 * cos ((PI / 2 - 0 + 0) / 2) + 1 * (1 / sqrt 2)) / sqrt 2) with (1 / (sqrt 2 * sqrt 2)) by (field; lra). rewrite sqrt_sqrt by lra. lra. }
  assert (Hp : sphere3 (0, 1, 0)) by (unfold sphere3, dot3; ring).
  specialize (V _ Hp). rewrite (fast_map eps 1 None (Some (PI / 2)) None None _ ltac:(lra) Hy Hw _ Hp) in V. cbn [angle0 sky_rot] in V.
  unfold rot_x, rot_y, rot_z in V. rewrite ?Rplus_0_r, ?Rminus_0_r, ?Ropp_0, ?cos_0, ?sin_0, ?cos_neg, ?sin_neg, ?cos_PI2, ?sin_PI2 in V. rewrite !map_at_1 in V. cbn [nth] in V.
  assert (P := PI_RGT_0). assert (0 < sqrt 3) by (apply sqrt_lt_R0; lra). assert (0 < sqrt (4 * PI)) by (apply sqrt_lt_R0; lra).
  unfold Rdiv in V. apply Rmult_eq_reg_r in V; [|apply Rinv_neq_0_compat; lra]. lra.
Qed.
End WithEuler.
