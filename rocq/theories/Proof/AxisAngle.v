From Coq Require Import Reals Lra Lia ZArith List Bool Arith.
From Verif Require Import Base.RealAux Model.Poly Model.S2fft Model.Rotation Spec.PolySpec Spec.HarmonicSpec Spec.RotationSpec.
Import ListNotations.
Open Scope R_scope.

(** rotation by the unit quaternion (w, v) *)
Definition qrot (w v1 v2 v3 : R) (p : vec3) : vec3 :=
  add3 (scal3 (w ^ 2 - (v1 ^ 2 + v2 ^ 2 + v3 ^ 2)) p)
       (add3 (scal3 (2 * w) (cross3 (v1, v2, v3) p)) (scal3 (2 * dot3 (v1, v2, v3) p) (v1, v2, v3))).
Lemma triple_eq (a b c a' b' c' : R) : a = a' -> b = b' -> c = c' -> (a, b, c) = (a', b', c').
Proof. now intros -> -> ->. Qed.
Lemma acos_trig w : -1 <= w <= 1 -> cos (2 * acos w) = 2 * w ^ 2 - 1 /\ sin (2 * acos w) = 2 * w * sqrt (1 - w ^ 2).
Proof.
  intros H. split.
  - rewrite cos_2a_cos, cos_acos by exact H. ring.
  - rewrite sin_2a, cos_acos by exact H. rewrite sin_acos by exact H. unfold Rsqr. replace (w * w) with (w ^ 2) by ring. ring.
Qed.
(** axis-angle from a quaternion *)
Lemma quat_axis w v1 v2 v3 : w ^ 2 + v1 ^ 2 + v2 ^ 2 + v3 ^ 2 = 1 -> w ^ 2 <> 1 ->
  let n := sqrt (1 - w ^ 2) in
  unit3 (v1 / n, v2 / n, v3 / n) /\ forall p, rot_axis (v1 / n, v2 / n, v3 / n) (2 * acos w) p = qrot w v1 v2 v3 p.
Proof.
  intros H Hw n. assert (Hn2 : n ^ 2 = 1 - w ^ 2). { unfold n. rewrite <- Rsqr_pow2. apply Rsqr_sqrt. nra. }
  assert (Hn : n <> 0). { intros E. rewrite E in Hn2. apply Hw. cbn in Hn2. lra. }
  assert (Hw1 : -1 <= w <= 1) by (assert (0 <= v1 ^ 2 + v2 ^ 2 + v3 ^ 2) by nra; nra).
  destruct (acos_trig w Hw1) as [Ec Es]. split.
  - unfold unit3, dot3. transitivity ((v1 ^ 2 + v2 ^ 2 + v3 ^ 2) / n ^ 2); [field; exact Hn|]. rewrite Hn2. replace (v1 ^ 2 + v2 ^ 2 + v3 ^ 2) with (1 - w ^ 2) by lra. field. lra.
  - intros [[x y] z]. unfold rot_axis. rewrite Ec, Es. fold n. unfold qrot, add3, scal3, cross3, dot3. cbv beta iota zeta.
    replace (v1 ^ 2 + v2 ^ 2 + v3 ^ 2) with (1 - w ^ 2) by lra.
    replace (1 - (2 * w ^ 2 - 1)) with (2 * n ^ 2) by (rewrite Hn2; ring).
    apply triple_eq; field; exact Hn.
Qed.
Lemma quat_one w v1 v2 v3 p : w ^ 2 + v1 ^ 2 + v2 ^ 2 + v3 ^ 2 = 1 -> w ^ 2 = 1 -> qrot w v1 v2 v3 p = p.
Proof.
  intros H Hw. assert (E1 : v1 = 0) by nra. assert (E2 : v2 = 0) by nra. assert (E3 : v3 = 0) by nra. subst. destruct p as [[x y] z].
  unfold qrot, add3, scal3, cross3, dot3. cbv beta iota zeta. rewrite Hw. apply triple_eq; ring.
Qed.
Lemma rot_axis_trivial u w p : w ^ 2 = 1 -> rot_axis u (2 * acos w) p = p.
Proof.
  intros Hw. destruct (acos_trig w ltac:(nra)) as [Ec Es]. unfold rot_axis. rewrite Ec, Es, Hw. replace (1 - 1) with 0 by ring. rewrite sqrt_0.
  destruct u as [[a b] c], p as [[x y] z]. unfold add3, scal3, cross3, dot3. apply triple_eq; ring.
Qed.
Lemma rot_axis_zero u p : rot_axis u 0 p = p.
Proof. unfold rot_axis. rewrite cos_0, sin_0. destruct u as [[a b] c], p as [[x y] z]. unfold add3, scal3, cross3, dot3. apply triple_eq; ring. Qed.
Lemma rot_axis_x t p : rot_axis (1, 0, 0) t p = rot_x t p.
Proof. destruct p as [[x y] z]. unfold rot_axis, rot_x, add3, scal3, cross3, dot3. apply triple_eq; ring. Qed.
Lemma rot_axis_y t p : rot_axis (0, 1, 0) t p = rot_y t p.
Proof. destruct p as [[x y] z]. unfold rot_axis, rot_y, add3, scal3, cross3, dot3. apply triple_eq; ring. Qed.
Lemma rot_axis_z t p : rot_axis (0, 0, 1) t p = rot_z t p.
Proof. destruct p as [[x y] z]. unfold rot_axis, rot_z, add3, scal3, cross3, dot3. apply triple_eq; ring. Qed.

(** half-angle forms *)
Lemma half_cos t : cos t = cos (t / 2) ^ 2 - sin (t / 2) ^ 2.
Proof. replace t with (2 * (t / 2)) at 1 by field. rewrite cos_2a. ring. Qed.
Lemma half_sin t : sin t = 2 * sin (t / 2) * cos (t / 2).
Proof. replace t with (2 * (t / 2)) at 1 by field. rewrite sin_2a. ring. Qed.
Lemma half_one t : cos (t / 2) ^ 2 + sin (t / 2) ^ 2 = 1.
Proof. pose proof (sin2_cos2 (t / 2)) as H. unfold Rsqr in H. lra. Qed.

Lemma sky_quat i o p : let ci := cos (i / 2) in let si := sin (i / 2) in let co := cos (o / 2) in let so := sin (o / 2) in
  qrot (ci * co) (si * co) (si * so) (- so * ci) p = rot_x i (rot_z (- o) p).
Proof.
  cbv zeta. destruct p as [[x y] z]. unfold qrot, rot_x, rot_z, add3, scal3, cross3, dot3. cbv beta iota zeta. rewrite cos_neg, sin_neg.
  rewrite (half_cos i), (half_sin i), (half_cos o), (half_sin o). pose proof (half_one i) as Hi. pose proof (half_one o) as Ho.
  set (ci := cos (i / 2)) in *. set (si := sin (i / 2)) in *. set (co := cos (o / 2)) in *. set (so := sin (o / 2)) in *.
  apply triple_eq.
  - rewrite <- (Rmult_1_r (x * _ - _)), <- Hi. ring.
  - transitivity ((x * - (2 * so * co) + y * (co ^ 2 - so ^ 2)) * (ci ^ 2 - si ^ 2) - z * (co ^ 2 + so ^ 2) * (2 * si * ci)); [ring|rewrite Ho; ring].
  - transitivity ((x * - (2 * so * co) + y * (co ^ 2 - so ^ 2)) * (2 * si * ci) + z * (co ^ 2 + so ^ 2) * (ci ^ 2 - si ^ 2)); [ring|rewrite Ho; ring].
Qed.

Lemma sky_projection_ok inc obl : exists ax ay az angle,
  sky_projection_axis_angle (Some inc) (Some obl) = (Some ax, Some ay, Some az, Some angle) /\ unit3 (ax, ay, az) /\
  forall p, rot_axis (ax, ay, az) angle p = rot_x inc (rot_z (- obl) p).
Proof.
  unfold sky_projection_axis_angle. set (co := cos (obl / 2)). set (so := sin (obl / 2)). set (ci := cos (inc / 2)). set (si := sin (inc / 2)). cbv zeta.
  do 4 eexists. split; [reflexivity|].
  pose proof (half_one inc) as Hi. pose proof (half_one obl) as Ho. fold ci si in Hi. fold co so in Ho.
  assert (H : (ci * co) ^ 2 + (si * co) ^ 2 + (si * so) ^ 2 + (- so * ci) ^ 2 = 1).
  { transitivity ((ci ^ 2 + si ^ 2) * (co ^ 2 + so ^ 2)); [ring|rewrite Hi, Ho; ring]. }
  assert (Ev : (si * co) ^ 2 + (si * so) ^ 2 + (- so * ci) ^ 2 = 1 - (ci * co) ^ 2) by lra. rewrite Ev.
  replace (1 - ci ^ 2 * co ^ 2) with (1 - (ci * co) ^ 2) by ring.
  destruct (Req_dec ((ci * co) ^ 2) 1) as [E|E].
  - rewrite E. replace (1 - 1) with 0 by ring. rewrite sqrt_0. replace (Rltb 0 0) with false by (symmetry; apply Rltb_false; lra). cbn [where_].
    split; [unfold unit3, dot3; ring|]. intros p. rewrite rot_axis_trivial by exact E. rewrite <- sky_quat. symmetry. now apply quat_one.
  - assert (Hp : 0 < 1 - (ci * co) ^ 2) by (assert (0 <= (si * co) ^ 2 + (si * so) ^ 2 + (- so * ci) ^ 2) by nra; lra).
    assert (Hs : 0 < sqrt (1 - (ci * co) ^ 2)) by now apply sqrt_lt_R0.
    replace (Rltb 0 (sqrt (1 - (ci * co) ^ 2))) with true by (symmetry; now apply Rltb_true).
    replace (Reqb (sqrt (1 - (ci * co) ^ 2)) 0) with false by (symmetry; apply Reqb_false; lra). cbn [where_].
    destruct (quat_axis (ci * co) (si * co) (si * so) (- so * ci) H E) as [Hu Hr]. split; [exact Hu|]. intros p. rewrite Hr. apply sky_quat.
Qed.

(** * full_rotation_axis_angle *)
Lemma full_quat f inc obl theta theta_z p : f ^ 2 = / 2 ->
  let ci := cos (inc / 2) in let si := sin (inc / 2) in
  let sp := sin (/ 2 * (obl + theta + theta_z)) in let cp := cos (/ 2 * (obl + theta + theta_z)) in
  let sm := sin (/ 2 * (obl - theta + theta_z)) in let cm := cos (/ 2 * (obl - theta + theta_z)) in
  qrot (f * (si * cm + ci * cp)) (f * (- si * cm + ci * cp)) (f * (- si * sm + sp * ci)) (f * (si * sm + sp * ci)) p =
  rot_z (obl + theta_z) (rot_x (PI / 2 - inc) (rot_y theta p)).
Proof.
  intros Hf. cbv zeta. set (a := (obl + theta_z) / 2). set (t := theta / 2).
  replace (/ 2 * (obl + theta + theta_z)) with (a + t) by (unfold a, t; field).
  replace (/ 2 * (obl - theta + theta_z)) with (a - t) by (unfold a, t; field).
  rewrite sin_plus, cos_plus, sin_minus, cos_minus. destruct p as [[x y] z]. unfold qrot, rot_x, rot_y, rot_z, add3, scal3, cross3, dot3. cbv beta iota zeta.
  rewrite cos_shift, sin_shift. rewrite (half_cos inc), (half_sin inc), (half_cos theta), (half_sin theta), (half_cos (obl + theta_z)), (half_sin (obl + theta_z)). fold a t.
  pose proof (half_one inc) as Hi. pose proof (half_one theta) as Ht. pose proof (half_one (obl + theta_z)) as Ha. fold t in Ht. fold a in Ha.
  set (ci := cos (inc / 2)) in *. set (si := sin (inc / 2)) in *. set (ct := cos t) in *. set (st := sin t) in *. set (ca := cos a) in *. set (sa := sin a) in *.
  apply triple_eq.
  - transitivity (2 * f ^ 2 * ((x * (ct ^ 2 - st ^ 2) + z * (2 * st * ct)) * (ca ^ 2 - sa ^ 2) * (ci ^ 2 + si ^ 2) -
      (y * (ct ^ 2 + st ^ 2) * (2 * si * ci) - (- x * (2 * st * ct) + z * (ct ^ 2 - st ^ 2)) * (ci ^ 2 - si ^ 2)) * (2 * sa * ca))).
    + ring.
    + rewrite Hf, Hi, Ht. field.
  - transitivity (2 * f ^ 2 * ((x * (ct ^ 2 - st ^ 2) + z * (2 * st * ct)) * (2 * sa * ca) * (ci ^ 2 + si ^ 2) +
      (y * (ct ^ 2 + st ^ 2) * (2 * si * ci) - (- x * (2 * st * ct) + z * (ct ^ 2 - st ^ 2)) * (ci ^ 2 - si ^ 2)) * (ca ^ 2 - sa ^ 2))).
    + ring.
    + rewrite Hf, Hi, Ht. field.
  - transitivity (2 * f ^ 2 * (ca ^ 2 + sa ^ 2) * (y * (ct ^ 2 + st ^ 2) * (ci ^ 2 - si ^ 2) + (- x * (2 * st * ct) + z * (ct ^ 2 - st ^ 2)) * (2 * si * ci))).
    + ring.
    + rewrite Hf, Ha, Ht. field.
Qed.
Lemma f_sq : (/ 2 * sqrt 2) ^ 2 = / 2.
Proof. transitivity (/ 4 * (sqrt 2 * sqrt 2)); [field|]. rewrite sqrt_sqrt by lra. field. Qed.
Lemma sqrt2_pos : 0 < sqrt 2.
Proof. apply sqrt_lt_R0. lra. Qed.
Lemma f_inv : / 2 * sqrt 2 = / sqrt 2.
Proof. pose proof sqrt2_pos. assert (N : sqrt 2 <> 0) by (apply Rgt_not_eq; lra). apply Rmult_eq_reg_r with (sqrt 2); [|exact N]. rewrite Rmult_assoc, sqrt_sqrt by lra. rewrite (Rinv_l (sqrt 2)) by exact N. field. Qed.
Lemma full_rotation_ok eps inc obl theta theta_z : 0 <= eps ->
  let w := cos_half_full (angle0 inc) (angle0 obl) (angle0 theta) (angle0 theta_z) in
  exists ax ay az angle, full_rotation_axis_angle eps inc obl theta theta_z = (ax, ay, az, angle) /\
  unit3 (ax, ay, az) /\
  (w < 1 - / 100000 - eps -> forall p, rot_axis (ax, ay, az) angle p =
     rot_z (angle0 obl + angle0 theta_z) (rot_x (PI / 2 - angle0 inc) (rot_y (angle0 theta) p))) /\
  (1 - / 100000 - eps <= w -> (ax, ay, az, angle) = (1, 0, 0, 0)).
Proof.
  intros He. cbv zeta. unfold full_rotation_axis_angle. change (none0) with angle0.
  set (i := angle0 inc). set (o := angle0 obl). set (t := angle0 theta). set (tz := angle0 theta_z). cbv zeta.
  pose proof (full_quat (/ 2 * sqrt 2) i o t tz) as Q. cbv zeta in Q.
  set (f := / 2 * sqrt 2) in *. pose proof f_sq as Hf. fold f in Hf.
  set (ci := cos (i / 2)) in *. set (si := sin (i / 2)) in *.
  assert (Ew : cos_half_full i o t tz = f * (si * cos (/ 2 * (o - t + tz)) + ci * cos (/ 2 * (o + t + tz)))).
  { unfold cos_half_full. fold ci si. unfold f. rewrite f_inv. replace ((o - t + tz) / 2) with (/ 2 * (o - t + tz)) by field. replace ((o + t + tz) / 2) with (/ 2 * (o + t + tz)) by field. unfold Rdiv. ring. }
  rewrite Ew. set (cm := cos (/ 2 * (o - t + tz))) in *. set (sm := sin (/ 2 * (o - t + tz))) in *.
  set (cp := cos (/ 2 * (o + t + tz))) in *. set (sp := sin (/ 2 * (o + t + tz))) in *.
  assert (Hi : ci ^ 2 + si ^ 2 = 1) by apply half_one.
  assert (Hm : cm ^ 2 + sm ^ 2 = 1) by (unfold cm, sm; rewrite <- (sin2_cos2 (/ 2 * (o - t + tz))); unfold Rsqr; ring).
  assert (Hp : cp ^ 2 + sp ^ 2 = 1) by (unfold cp, sp; rewrite <- (sin2_cos2 (/ 2 * (o + t + tz))); unfold Rsqr; ring).
  set (arg := si * cm + ci * cp) in *. set (w := f * arg).
  assert (Hq : w ^ 2 + (f * (- si * cm + ci * cp)) ^ 2 + (f * (- si * sm + sp * ci)) ^ 2 + (f * (si * sm + sp * ci)) ^ 2 = 1).
  { unfold w, arg. transitivity (2 * f ^ 2 * (ci ^ 2 * (cp ^ 2 + sp ^ 2) + si ^ 2 * (cm ^ 2 + sm ^ 2))); [ring|]. rewrite Hf, Hp, Hm. lra. }
  assert (Hw2 : w ^ 2 = / 2 * arg ^ 2) by (unfold w; rewrite Rpow_mult_distr, Hf; reflexivity).
  assert (Hwle : -1 <= w <= 1).
  { pose proof (pow2_ge_0 (f * (- si * cm + ci * cp))) as P1. pose proof (pow2_ge_0 (f * (- si * sm + sp * ci))) as P2. pose proof (pow2_ge_0 (f * (si * sm + sp * ci))) as P3.
    assert (W : w * w <= 1) by (replace (w * w) with (w ^ 2) by ring; lra). clearbody w. clear - W. split; nra. }
  assert (Hclose : allclose w 1 eps = true <-> 1 - / 100000 - eps <= w).
  { unfold allclose. rewrite Rleb_true, Rabs_R1, Rmult_1_r. rewrite (Rabs_left1 (w - 1)) by lra. split; intros; lra. }
  do 4 eexists. split; [reflexivity|].
  destruct (allclose w 1 eps) eqn:EC.
  - assert (H1 : 1 - / 100000 - eps <= w) by now apply Hclose. cbn [negb]; rewrite ?andb_false_r; cbn [where_].
    split; [unfold unit3, dot3; ring|]. split; [intros; lra|reflexivity].
  - assert (H1 : ~ 1 - / 100000 - eps <= w) by (intros X; apply Hclose in X; discriminate). cbn [negb]. rewrite !andb_true_r.
    destruct (Rltb (arg ^ 2) 2) eqn:E2; cbn [where_].
    + apply Rltb_true in E2. assert (Hne : w ^ 2 <> 1) by lra.
      destruct (quat_axis _ _ _ _ Hq Hne) as [Hu Hr]. rewrite <- Hw2. split; [exact Hu|]. split; [|intros; lra].
      intros _ p. etransitivity; [apply Hr|]. apply Q. exact Hf.
    + apply Rltb_false in E2. assert (Hone : w ^ 2 = 1). { assert (w ^ 2 <= 1) by nra. lra. }
      split; [unfold unit3, dot3; ring|]. split; [|intros; lra]. intros _ p. rewrite rot_axis_trivial by exact Hone.
      rewrite <- (Q p Hf). symmetry. apply quat_one; assumption.
Qed.
Lemma cos_ge t : 1 - t ^ 2 / 2 <= cos t.
Proof.
  destruct (Rle_dec (Rabs t) PI) as [H|H].
  - replace t with (2 * (t / 2)) at 2 by field. rewrite cos_2a_sin.
    assert (Hs : sin (t / 2) ^ 2 <= (t / 2) ^ 2).
    { assert (X : Rabs (sin (t / 2)) <= Rabs (t / 2)).
      { destruct (Rlt_dec 0 t) as [P|P]; [|destruct (Rlt_dec t 0) as [P'|P']].
        - assert (t <= PI) by (rewrite Rabs_right in H by lra; lra). assert (0 <= sin (t / 2)) by (apply sin_ge_0; lra). pose proof (sin_lt_x (t / 2) ltac:(lra)). rewrite !Rabs_right by lra. lra.
        - assert (- t <= PI) by (rewrite Rabs_left in H by lra; lra). assert (0 <= sin (- (t / 2))) by (apply sin_ge_0; lra). pose proof (sin_lt_x (- (t / 2)) ltac:(lra)). rewrite sin_neg in *. rewrite !Rabs_left1 by lra. lra.
        - replace t with 0 by lra. replace (0 / 2) with 0 by field. rewrite sin_0, Rabs_R0. lra. }
      rewrite <- (pow2_abs (sin (t / 2))), <- (pow2_abs (t / 2)). apply pow_incr. split; [apply Rabs_pos|exact X]. }
    nra.
  - pose proof (COS_bound t). assert (2 * 2 <= t ^ 2); [|lra]. rewrite <- pow2_abs. pose proof PI2_3_2. assert (2 <= Rabs t) by lra. nra.
Qed.
Lemma small_angle_dropped eps t : 0 <= eps -> 0 < t <= 1 / 125 ->
  full_rotation_axis_angle eps (Some (PI / 2)) (Some t) None None = (1, 0, 0, 0) /\
  (forall p, rot_z (angle0 (Some t) + angle0 None) (rot_x (PI / 2 - angle0 (Some (PI / 2))) (rot_y (angle0 None) p)) = rot_z t p) /\
  rot_z t (1, 0, 0) <> (1, 0, 0).
Proof.
  intros He Ht. destruct (full_rotation_ok eps (Some (PI / 2)) (Some t) None None He) as (ax & ay & az & an & E & _ & _ & H). rewrite E. split; [|split].
  - apply H. cbn [angle0]. unfold cos_half_full. replace ((t - 0 + 0) / 2) with (t / 2) by field. replace ((t + 0 + 0) / 2) with (t / 2) by field.
    replace (PI / 2 / 2) with (PI / 4) by field. rewrite sin_PI4, cos_PI4. pose proof (cos_ge (t / 2)) as Hc. pose proof sqrt2_pos as Hs.
    replace ((1 / sqrt 2 * cos (t / 2) + 1 / sqrt 2 * cos (t / 2)) / sqrt 2) with (2 * cos (t / 2) / (sqrt 2 * sqrt 2)) by (field; lra).
    rewrite sqrt_sqrt by lra. assert ((t / 2) ^ 2 / 2 <= / 100000); [|lra]. assert (t * t <= 1 / 125 * (1 / 125)) by nra. nra.
  - intros [[x y] z]. cbn [angle0]. unfold rot_x, rot_y, rot_z. rewrite Rplus_0_r. replace (PI / 2 - PI / 2) with 0 by ring. rewrite cos_0, sin_0. apply triple_eq; ring.
  - unfold rot_z. intros X. injection X as X1 X2. assert (0 < sin t). { apply sin_gt_0; [lra|]. pose proof PI2_3_2. lra. } lra.
Qed.
Lemma sky_none_inc obl p : sky_projection_axis_angle None (Some obl) = (None, None, Some 1, Some obl) /\
  rot_x 0 (rot_z (- obl) p) = rot_z (- obl) p.
Proof. split; [reflexivity|]. destruct p as [[x y] z]. unfold rot_x, rot_z. rewrite cos_0, sin_0. apply triple_eq; ring. Qed.
