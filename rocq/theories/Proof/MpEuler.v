(** The Euler angles of multiprecision/rotation.py. *)
From Coq Require Import Reals Lra Lia ZArith List Bool Arith.
From Coquelicot Require Import Coquelicot.
From Verif Require Import Base.RealAux Base.Dict Model.Poly Model.Basis Model.S2fft Model.Rotation Model.MpBasis Model.MpRotation Spec.PolySpec Spec.HarmonicSpec Spec.RotationSpec Spec.MpRotationSpec
  Proof.AxisAngle Proof.Euler.
Import ListNotations.
Open Scope R_scope.

(** a rotation from its third row and column *)
Lemma zyz_matrix q00 q01 q02 q10 q11 q12 q20 q21 q22 al be ga n p :
  n <> 0 -> n * cos al = q02 -> n * sin al = q12 -> cos be = q22 -> sin be = n -> n * cos ga = - q20 -> n * sin ga = q21 ->
  n * n * q00 = - (q02 * q22 * q20) - q12 * q21 -> n * n * q01 = - (q02 * q22 * q21) + q12 * q20 ->
  n * n * q10 = - (q12 * q22 * q20) + q02 * q21 -> n * n * q11 = - (q12 * q22 * q21) - q02 * q20 ->
  rot_z al (rot_y be (rot_z ga p)) = let '(x, y, z) := p in (q00 * x + q01 * y + q02 * z, q10 * x + q11 * y + q12 * z, q20 * x + q21 * y + q22 * z).
Proof.
  intros Hn A1 A2 B1 B2 G1 G2 E00 E01 E10 E11. destruct p as [[x y] z]. unfold rot_z, rot_y. rewrite B1, B2.
  assert (Hca : cos al = q02 / n) by (rewrite <- A1; field; exact Hn). assert (Hsa : sin al = q12 / n) by (rewrite <- A2; field; exact Hn).
  assert (Hcg : cos ga = - q20 / n) by (rewrite <- G1; field; exact Hn). assert (Hsg : sin ga = q21 / n) by (rewrite <- G2; field; exact Hn).
  assert (F00 : q00 = (- (q02 * q22 * q20) - q12 * q21) / (n * n)) by (rewrite <- E00; field; exact Hn).
  assert (F01 : q01 = (- (q02 * q22 * q21) + q12 * q20) / (n * n)) by (rewrite <- E01; field; exact Hn).
  assert (F10 : q10 = (- (q12 * q22 * q20) + q02 * q21) / (n * n)) by (rewrite <- E10; field; exact Hn).
  assert (F11 : q11 = (- (q12 * q22 * q21) - q02 * q20) / (n * n)) by (rewrite <- E11; field; exact Hn).
  rewrite F00, F01, F10, F11, Hca, Hsa, Hcg, Hsg. apply triple_eq; field; exact Hn.
Qed.
Lemma atan2_unit n x y : 0 < n -> x * x + y * y = n * n -> n * cos (atan2 (y / n) (x / n)) = x /\ n * sin (atan2 (y / n) (x / n)) = y.
Proof.
  intros Hn H. destruct (atan2_polar (y / n) (x / n)) as [A B].
  assert (E : sqrt ((x / n) ^ 2 + (y / n) ^ 2) = 1). { replace ((x / n) ^ 2 + (y / n) ^ 2) with 1; [apply sqrt_1|]. transitivity ((x * x + y * y) / (n * n)); [rewrite H; field; lra|field; lra]. }
  rewrite E, Rmult_1_l in A, B. rewrite A, B. split; field; lra.
Qed.
(** the entries of the code's matrix *)
Section Entries.
Variables u1 u2 u3 t : R.
Hypothesis Hu : u1 * u1 + u2 * u2 + u3 * u3 = 1.
Let c := cos t.
Let s := sin t.
Let q00 := c + u1 * u1 * (1 - c).
Let q01 := u1 * u2 * (1 - c) - u3 * s.
Let q02 := u1 * u3 * (1 - c) + u2 * s.
Let q10 := u1 * u2 * (1 - c) + u3 * s.
Let q11 := c + u2 * u2 * (1 - c).
Let q12 := u2 * u3 * (1 - c) - u1 * s.
Let q20 := u3 * u1 * (1 - c) - u2 * s.
Let q21 := u3 * u2 * (1 - c) + u1 * s.
Let q22 := c + u3 * u3 * (1 - c).
Lemma entries_rot p : rot_axis (u1, u2, u3) t p = let '(x, y, z) := p in (q00 * x + q01 * y + q02 * z, q10 * x + q11 * y + q12 * z, q20 * x + q21 * y + q22 * z).
Proof. destruct p as [[x y] z]. unfold rot_axis, add3, scal3, cross3, dot3, q00, q01, q02, q10, q11, q12, q20, q21, q22, c, s. apply triple_eq; ring. Qed.
(** through the half angle and a quaternion of norm 1 *)
Let w := cos (t / 2).
Let v1 := sin (t / 2) * u1.
Let v2 := sin (t / 2) * u2.
Let v3 := sin (t / 2) * u3.
Let N := w * w + v1 * v1 + v2 * v2 + v3 * v3.
Lemma N_one : N = 1.
Proof. unfold N, w, v1, v2, v3. pose proof (half_one t) as H. transitivity (cos (t / 2) ^ 2 + sin (t / 2) ^ 2 * (u1 * u1 + u2 * u2 + u3 * u3)); [ring|rewrite Hu; lra]. Qed.
Lemma entries_quat : q00 = w * w + v1 * v1 - v2 * v2 - v3 * v3 /\ q01 = 2 * (v1 * v2 - w * v3) /\ q02 = 2 * (v1 * v3 + w * v2) /\
  q10 = 2 * (v1 * v2 + w * v3) /\ q11 = w * w - v1 * v1 + v2 * v2 - v3 * v3 /\ q12 = 2 * (v2 * v3 - w * v1) /\
  q20 = 2 * (v1 * v3 - w * v2) /\ q21 = 2 * (v2 * v3 + w * v1) /\ q22 = w * w - v1 * v1 - v2 * v2 + v3 * v3.
Proof.
  unfold q00, q01, q02, q10, q11, q12, q20, q21, q22, c, s, w, v1, v2, v3. pose proof (half_one t) as H. rewrite (half_cos t), (half_sin t).
  set (a := cos (t / 2)) in *. set (b := sin (t / 2)) in *. assert (E : 1 - (a ^ 2 - b ^ 2) = 2 * b ^ 2) by lra. rewrite !E.
  assert (E1 : u1 * u1 = 1 - u2 * u2 - u3 * u3) by lra. assert (E2 : u2 * u2 = 1 - u1 * u1 - u3 * u3) by lra. assert (E3 : u3 * u3 = 1 - u1 * u1 - u2 * u2) by lra.
  assert (K1 : b ^ 2 * (u1 * u1) = b ^ 2 - b ^ 2 * (u2 * u2) - b ^ 2 * (u3 * u3)) by (rewrite E1; ring).
  repeat match goal with |- _ /\ _ => split end; try ring; lra.
Qed.
Lemma entries_ortho : q20 * q20 + q21 * q21 = 1 - q22 * q22 /\ q02 * q02 + q12 * q12 = 1 - q22 * q22 /\
  (1 - q22 * q22) * q00 = - (q02 * q22 * q20) - q12 * q21 /\ (1 - q22 * q22) * q01 = - (q02 * q22 * q21) + q12 * q20 /\
  (1 - q22 * q22) * q10 = - (q12 * q22 * q20) + q02 * q21 /\ (1 - q22 * q22) * q11 = - (q12 * q22 * q21) - q02 * q20.
Proof.
  destruct entries_quat as (E00 & E01 & E02 & E10 & E11 & E12 & E20 & E21 & E22).
  replace (1 - q22 * q22) with (N * N - q22 * q22) by (rewrite N_one; ring).
  assert (HN : forall x, x = N * x) by (intros; rewrite N_one; ring).
  rewrite E00, E01, E02, E10, E11, E12, E20, E21, E22.
  repeat match goal with |- _ /\ _ => split end.
  - unfold N; ring.
  - unfold N; ring.
  - rewrite (HN (2 * (v2 * v3 - w * v1) * (2 * (v2 * v3 + w * v1)))). unfold N. ring.
  - rewrite (HN (2 * (v2 * v3 - w * v1) * (2 * (v1 * v3 - w * v2)))). unfold N. ring.
  - rewrite (HN (2 * (v1 * v3 + w * v2) * (2 * (v2 * v3 + w * v1)))). unfold N. ring.
  - rewrite (HN (2 * (v1 * v3 + w * v2) * (2 * (v1 * v3 - w * v2)))). unfold N. ring.
Qed.
Lemma entries_bound : q22 * q22 <= 1.
Proof. destruct entries_ortho as (H & _). nra. Qed.
Lemma pole_moved : (rot_axis (u1, u2, u3) t (0, 0, 1) <> (0, 0, 1) /\ rot_axis (u1, u2, u3) t (0, 0, 1) <> (0, 0, -1)) <-> 1 - q22 * q22 <> 0.
Proof.
  rewrite entries_rot. rewrite !Rmult_0_r, !Rmult_1_r, !Rplus_0_l. destruct entries_ortho as (_ & H & _). split.
  - intros [A B] E. rewrite E in H. assert (q02 = 0) by nra. assert (q12 = 0) by nra. assert (Z2 : (q22 - 1) * (q22 + 1) = 0) by lra.
    apply Rmult_integral in Z2. destruct Z2 as [Z2|Z2]; [apply A|apply B]; apply triple_eq; lra.
  - intros E. split; intros F; injection F as F1 F2 F3; apply E; rewrite F3; ring.
Qed.
End Entries.

Lemma mp_euler_general tol u1 u2 u3 t : unit3 (u1, u2, u3) -> ~ (u1 = 0 /\ u2 = 0) -> t <> 0 ->
  rot_axis (u1, u2, u3) t (0, 0, 1) <> (0, 0, 1) -> rot_axis (u1, u2, u3) t (0, 0, 1) <> (0, 0, -1) ->
  exists al be ga, mp_axis_angle_to_euler tol u1 u2 u3 t = Ok (al, be, ga) /\ 0 < be < PI /\ forall p, rot_z al (rot_y be (rot_z ga p)) = rot_axis (u1, u2, u3) t p.
Proof.
  intros Hu Hh Ht Hp Hm. unfold unit3, dot3 in Hu. pose proof (proj1 (pole_moved u1 u2 u3 t Hu) (conj Hp Hm)) as Hn.
  pose proof (entries_ortho u1 u2 u3 t Hu) as Ho. pose proof (entries_bound u1 u2 u3 t Hu) as Hb.
  unfold mp_axis_angle_to_euler. cbv zeta.
  destruct (Reqb t 0) eqn:Et; [apply Reqb_true in Et; contradiction|].
  destruct (Reqb u1 0 && Reqb u2 0)%bool eqn:Ez.
  { apply andb_true_iff in Ez. destruct Ez as [E1 E2]. apply Reqb_true in E1, E2. exfalso. now apply Hh. }
  pose proof (entries_rot u1 u2 u3 t) as Hr. cbv zeta in Ho, Hb, Hr, Hn.
  set (q22 := cos t + u3 * u3 * (1 - cos t)) in *. set (q20 := u3 * u1 * (1 - cos t) - u2 * sin t) in *. set (q21 := u3 * u2 * (1 - cos t) + u1 * sin t) in *.
  set (q02 := u1 * u3 * (1 - cos t) + u2 * sin t) in *. set (q12 := u2 * u3 * (1 - cos t) - u1 * sin t) in *.
  destruct Ho as (H1 & H2 & E00 & E01 & E10 & E11).
  assert (B1 : (Rltb q22 (-1) && Rltb (-1) q22)%bool = false). { apply andb_false_iff. destruct (Rlt_dec q22 (-1)); [right|left]; apply Rltb_false; lra. }
  assert (B2 : (Rltb q22 1 && Rltb 1 q22)%bool = false). { apply andb_false_iff. destruct (Rlt_dec q22 1); [right|left]; apply Rltb_false; lra. }
  rewrite B1, B2, H1, H2. replace (q22 ^ 2) with (q22 * q22) by ring. set (n := sqrt (1 - q22 * q22)).
  assert (Hn0 : 0 < n) by (apply sqrt_lt_R0; lra). assert (Hnn : n * n = 1 - q22 * q22) by (apply sqrt_sqrt; lra).
  destruct (Reqb n 0) eqn:En; [apply Reqb_true in En; lra|]. cbn [orb].
  exists (atan2 (q12 / n) (q02 / n)), (atan2 n q22), (atan2 (q21 / n) (- q20 / n)). split; [reflexivity|split; [now apply atan2_pos_y|]]. intros p. rewrite Hr.
  destruct (atan2_unit n q02 q12 Hn0 ltac:(lra)) as [A1 A2]. destruct (atan2_unit n (- q20) q21 Hn0 ltac:(nra)) as [G1 G2].
  destruct (atan2_polar n q22) as [C1 C2]. assert (E1 : sqrt (q22 ^ 2 + n ^ 2) = 1). { replace (q22 ^ 2 + n ^ 2) with 1 by nra. apply sqrt_1. }
  rewrite E1, Rmult_1_l in C1, C2. rewrite <- Hnn in E00, E01, E10, E11.
  apply (zyz_matrix _ _ q02 _ _ q12 q20 q21 q22 _ _ _ n); try assumption; lra.
Qed.

(** the z axis *)
Lemma mp_euler_z tol u3 t : u3 * u3 = 1 -> 0 < tol -> cos (if Reqb t 0 then tol else t) <> 1 ->
  exists al ga, mp_axis_angle_to_euler tol 0 0 u3 t = Ok (al, 0, ga) /\ cos (al + ga) = cos (if Reqb t 0 then tol else t) /\ sin (al + ga) = u3 * sin (if Reqb t 0 then tol else t).
Proof.
  intros Hu Htol Hc. unfold mp_axis_angle_to_euler. cbv zeta. rewrite (proj2 (Reqb_true 0 0) eq_refl). cbn [andb].
  set (th := if Reqb t 0 then tol else t) in *. set (c := cos th) in *. set (s := sin th) in *.
  assert (Hcs : s * s + c * c = 1) by (pose proof (sin2_cos2 th) as H; unfold Rsqr in H; exact H).
  set (a := 1 - c). assert (Ha : 0 < a) by (pose proof (COS_bound th) as [_ Hb]; unfold a; fold c in Hb; lra).
  rewrite Hu. replace (c + 1 * a) with 1 by (unfold a; ring).
  assert (B1 : (Rltb 1 (-1) && Rltb (-1) 1)%bool = false) by (apply andb_false_iff; left; apply Rltb_false; lra).
  assert (B2 : (Rltb 1 1 && Rltb 1 1)%bool = false) by (apply andb_false_iff; left; apply Rltb_false; lra). rewrite B1, B2.
  replace (1 - 1 ^ 2) with 0 by ring. rewrite sqrt_0, (atan2_0_pos 1) by lra.
  set (q20 := u3 * tol * a - tol * s). set (q21 := u3 * tol * a + tol * s). set (q02 := tol * u3 * a + tol * s). set (q12 := tol * u3 * a - tol * s).
  assert (K1 : q20 * q20 + q21 * q21 = 4 * (tol * tol) * a). { unfold q20, q21. transitivity (2 * (tol * tol) * ((u3 * u3) * (a * a) + s * s)); [ring|]. rewrite Hu. unfold a. replace (s * s) with (1 - c * c) by lra. ring. }
  assert (K2 : q02 * q02 + q12 * q12 = 4 * (tol * tol) * a) by (rewrite <- K1; unfold q20, q21, q02, q12; ring).
  rewrite K1, K2. set (n := sqrt (4 * (tol * tol) * a)).
  assert (P : 0 < 4 * (tol * tol) * a) by (apply Rmult_lt_0_compat; [nra|exact Ha]).
  assert (Hn : 0 < n) by (apply sqrt_lt_R0; exact P). assert (Hnn : n * n = 4 * (tol * tol) * a) by (apply sqrt_sqrt; lra).
  destruct (Reqb n 0) eqn:En; [apply Reqb_true in En; lra|]. cbn [orb].
  exists (atan2 (q12 / n) (q02 / n)), (atan2 (q21 / n) (- q20 / n)). split; [reflexivity|].
  destruct (atan2_unit n q02 q12 Hn ltac:(lra)) as [A1 A2]. destruct (atan2_unit n (- q20) q21 Hn ltac:(nra)) as [G1 G2].
  set (al := atan2 (q12 / n) (q02 / n)) in *. set (ga := atan2 (q21 / n) (- q20 / n)) in *. rewrite cos_plus, sin_plus.
  split; apply (Rmult_eq_reg_l (n * n)); try nra.
  - transitivity ((n * cos al) * (n * cos ga) - (n * sin al) * (n * sin ga)); [ring|]. rewrite A1, A2, G1, G2, Hnn. unfold q02, q12, q20, q21.
    transitivity (2 * (tol * tol) * (s * s - (u3 * u3) * (a * a))); [ring|]. rewrite Hu. unfold a. replace (s * s) with (1 - c * c) by lra. ring.
  - transitivity ((n * sin al) * (n * cos ga) + (n * cos al) * (n * sin ga)); [ring|]. rewrite A1, A2, G1, G2, Hnn. unfold q02, q12, q20, q21. ring.
Qed.
