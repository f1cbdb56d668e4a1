(** Euler angles of a rotation vector, by quaternions *)
From Coq Require Import Reals Lra Lia ZArith List Bool Arith.
From Verif Require Import Base.RealAux Spec.PolySpec Spec.HarmonicSpec Spec.RotationSpec Proof.AxisAngle.
Open Scope R_scope.

Lemma qrot_mul a b1 b2 b3 w v1 v2 v3 p :
  qrot a b1 b2 b3 (qrot w v1 v2 v3 p) =
  qrot (a * w - b1 * v1 - b2 * v2 - b3 * v3) (a * v1 + b1 * w + b2 * v3 - b3 * v2)
       (a * v2 - b1 * v3 + b2 * w + b3 * v1) (a * v3 + b1 * v2 - b2 * v1 + b3 * w) p.
Proof. destruct p as [[x y] z]. unfold qrot, add3, scal3, cross3, dot3. cbv beta iota zeta. apply triple_eq; ring. Qed.
Lemma rot_axis_qrot u1 u2 u3 t p : unit3 (u1, u2, u3) ->
  rot_axis (u1, u2, u3) t p = qrot (cos (t / 2)) (sin (t / 2) * u1) (sin (t / 2) * u2) (sin (t / 2) * u3) p.
Proof.
  intros Hu. unfold unit3, dot3 in Hu. destruct p as [[x y] z]. unfold rot_axis, qrot, add3, scal3, cross3, dot3. cbv beta iota zeta.
  pose proof (half_one t) as H1. rewrite (half_sin t), (half_cos t). set (c := cos (t / 2)) in *. set (s := sin (t / 2)) in *.
  assert (E1 : 1 - (c ^ 2 - s ^ 2) = 2 * s ^ 2) by lra. rewrite E1.
  assert (E2 : (s * u1) ^ 2 + (s * u2) ^ 2 + (s * u3) ^ 2 = s ^ 2) by (transitivity (s ^ 2 * (u1 * u1 + u2 * u2 + u3 * u3)); [ring|rewrite Hu; ring]).
  rewrite E2. apply triple_eq; ring.
Qed.
Lemma rot_z_qrot t p : rot_z t p = qrot (cos (t / 2)) 0 0 (sin (t / 2)) p.
Proof. rewrite <- rot_axis_z, rot_axis_qrot by (unfold unit3, dot3; ring). f_equal; ring. Qed.
Lemma rot_y_qrot t p : rot_y t p = qrot (cos (t / 2)) 0 (sin (t / 2)) 0 p.
Proof. rewrite <- rot_axis_y, rot_axis_qrot by (unfold unit3, dot3; ring). f_equal; ring. Qed.

Lemma atan2_polar y x : sqrt (x ^ 2 + y ^ 2) * cos (atan2 y x) = x /\ sqrt (x ^ 2 + y ^ 2) * sin (atan2 y x) = y.
Proof.
  destruct (Req_EM_T x 0) as [Hx|Hx], (Req_EM_T y 0) as [Hy|Hy].
  - subst. replace (0 ^ 2 + 0 ^ 2) with 0 by ring. rewrite sqrt_0. split; ring.
  - rewrite cos_atan2, sin_atan2 by auto. unfold Rsqr. replace (x * x + y * y) with (x ^ 2 + y ^ 2) by ring.
    assert (0 < sqrt (x ^ 2 + y ^ 2)) by (apply sqrt_lt_R0; nra). split; field; lra.
  - rewrite cos_atan2, sin_atan2 by auto. unfold Rsqr. replace (x * x + y * y) with (x ^ 2 + y ^ 2) by ring.
    assert (0 < sqrt (x ^ 2 + y ^ 2)) by (apply sqrt_lt_R0; nra). split; field; lra.
  - rewrite cos_atan2, sin_atan2 by auto. unfold Rsqr. replace (x * x + y * y) with (x ^ 2 + y ^ 2) by ring.
    assert (0 < sqrt (x ^ 2 + y ^ 2)) by (apply sqrt_lt_R0; nra). split; field; lra.
Qed.
(** angles of the quaternion (w, v) *)
Definition quat_zyz (w v1 v2 v3 : R) : R * R * R :=
  let s := atan2 v3 w in
  let d := atan2 (- v1) v2 in
  (s - d, 2 * atan2 (sqrt (v2 ^ 2 + (- v1) ^ 2)) (sqrt (w ^ 2 + v3 ^ 2)), s + d).
Lemma quat_zyz_ok w v1 v2 v3 p : w ^ 2 + v1 ^ 2 + v2 ^ 2 + v3 ^ 2 = 1 -> let '(al, be, ga) := quat_zyz w v1 v2 v3 in
  rot_z ga (rot_y be (rot_z al p)) = qrot w v1 v2 v3 p.
Proof.
  intros H. unfold quat_zyz. set (s := atan2 v3 w). set (d := atan2 (- v1) v2). set (b := atan2 (sqrt (v2 ^ 2 + (- v1) ^ 2)) (sqrt (w ^ 2 + v3 ^ 2))).
  destruct (atan2_polar v3 w) as [S1 S2]. fold s in S1, S2. destruct (atan2_polar (- v1) v2) as [D1 D2]. fold d in D1, D2.
  destruct (atan2_polar (sqrt (v2 ^ 2 + (- v1) ^ 2)) (sqrt (w ^ 2 + v3 ^ 2))) as [B1 B2]. fold b in B1, B2.
  replace (sqrt (w ^ 2 + v3 ^ 2) ^ 2 + sqrt (v2 ^ 2 + (- v1) ^ 2) ^ 2) with 1 in B1, B2.
  2:{ rewrite <- (Rsqr_pow2 (sqrt (w ^ 2 + v3 ^ 2))), <- (Rsqr_pow2 (sqrt (v2 ^ 2 + (- v1) ^ 2))), !Rsqr_sqrt by nra. replace ((- v1) ^ 2) with (v1 ^ 2) by ring. lra. }
  rewrite sqrt_1, Rmult_1_l in B1, B2. rewrite <- B1 in S1, S2. rewrite <- B2 in D1, D2.
  rewrite !rot_z_qrot, rot_y_qrot, !qrot_mul. replace (2 * b / 2) with b by field.
  set (a := (s - d) / 2). set (g := (s + d) / 2). assert (Es : s = g + a) by (unfold a, g; field). assert (Ed : d = g - a) by (unfold a, g; field).
  rewrite Es in S1, S2. rewrite Ed in D1, D2. rewrite cos_plus in S1. rewrite sin_plus in S2. rewrite cos_minus in D1. rewrite sin_minus in D2.
  f_equal; lra.
Qed.
(** one function meeting the promise *)
Definition rotvec_zyz (v : vec3) : vec3 :=
  let n := norm3 v in
  if Reqb n 0 then (0, 0, 0)
  else let '(a, b, c) := v in quat_zyz (cos (n / 2)) (sin (n / 2) * (/ n * a)) (sin (n / 2) * (/ n * b)) (sin (n / 2) * (/ n * c)).
Lemma norm3_sq v : norm3 v * norm3 v = dot3 v v.
Proof. unfold norm3. apply sqrt_sqrt. destruct v as [[a b] c]. unfold dot3. nra. Qed.
Lemma norm3_nonneg v : 0 <= norm3 v.
Proof. apply sqrt_pos. Qed.
Lemma unit3_scal v : norm3 v <> 0 -> unit3 (scal3 (/ norm3 v) v).
Proof.
  intros H. pose proof (norm3_sq v) as E. set (n := norm3 v) in *. destruct v as [[a b] c]. unfold unit3, scal3, dot3 in *.
  transitivity ((a * a + b * b + c * c) / (n * n)); [field; exact H|]. rewrite <- E. field. exact H.
Qed.
Lemma Reqb_spec x y : Bool.reflect (x = y) (Reqb x y).
Proof. unfold Reqb. destruct (Req_EM_T x y); now constructor. Qed.
Lemma rotvec_zyz_ok : zyz_euler rotvec_zyz.
Proof.
  intros v al be ga E p. unfold rotvec_zyz in E. unfold rotvec. destruct (Reqb_spec (norm3 v) 0) as [H|H].
  - injection E as <- <- <-. rewrite <- (rot_axis_z 0), <- (rot_axis_y 0), <- (rot_axis_z 0). now rewrite !rot_axis_zero.
  - pose proof (unit3_scal v H) as Hu. set (n := norm3 v) in *. destruct v as [[a b] c]. unfold scal3 in Hu |- *. rewrite rot_axis_qrot by exact Hu.
    pose proof (quat_zyz_ok (cos (n / 2)) (sin (n / 2) * (/ n * a)) (sin (n / 2) * (/ n * b)) (sin (n / 2) * (/ n * c)) p) as Q. rewrite E in Q. apply Q.
    unfold unit3, dot3 in Hu. pose proof (half_one n) as H1. set (q := sin (n / 2)) in *.
    transitivity (cos (n / 2) ^ 2 + q ^ 2 * (/ n * a * (/ n * a) + / n * b * (/ n * b) + / n * c * (/ n * c))); [ring|]. rewrite Hu. lra.
Qed.
(** a scaled unit axis *)
Lemma rotvec_axis u t p : unit3 u -> rotvec (scal3 t u) p = rot_axis u t p.
Proof.
  intros Hu. assert (En : norm3 (scal3 t u) = Rabs t).
  { unfold norm3. replace (dot3 (scal3 t u) (scal3 t u)) with (t ^ 2); [rewrite <- Rsqr_pow2; apply sqrt_Rsqr_abs|].
    unfold unit3 in Hu. destruct u as [[a b] c]. unfold scal3, dot3 in *. transitivity (t ^ 2 * (a * a + b * b + c * c)); [rewrite Hu; ring|ring]. }
  unfold rotvec. rewrite En. destruct (Reqb_spec (Rabs t) 0) as [H|H].
  - assert (t = 0) as -> by (destruct (Req_dec t 0); [assumption|pose proof (Rabs_pos_lt t); lra]). now rewrite rot_axis_zero.
  - destruct u as [[a b] c], p as [[x y] z]. unfold Rabs in *. destruct (Rcase_abs t).
    + unfold rot_axis, add3, scal3, cross3, dot3. rewrite cos_neg, sin_neg. apply triple_eq; field; lra.
    + unfold rot_axis, add3, scal3, cross3, dot3. apply triple_eq; field; lra.
Qed.
