(** compute_rotation_matrices gives the matrices of the rotation about its axis. *)
From Coq Require Import Reals Lra Lia ZArith List Bool Arith.
From Coquelicot Require Import Coquelicot.
From Verif Require Import Base.RealAux Model.Poly Model.S2fft Model.Rotation Model.Dlmn Spec.PolySpec Spec.HarmonicSpec Spec.RotationSpec
  Proof.AxisAngle Proof.Euler Proof.WignerGen Proof.WignerStep Proof.WignerRot Proof.WignerMap Proof.RotationProof Proof.RotationMap Proof.RotationMore Proof.DlmnRec Proof.DlmnProof Proof.DlmnReal Proof.DlmnTop Proof.YlmFacts Proof.DopplerProof.
Import ListNotations.
Open Scope R_scope.

(** every rotation has zyz angles *)
Lemma zyz_exist u t : unit3 u -> exists a b g, forall p, rot_z a (rot_y b (rot_z g p)) = rot_axis u t p.
Proof.
  intros Hu. destruct (rotvec_zyz (scal3 t u)) as [[g b] a] eqn:E. exists a, b, g. intros p.
  rewrite (rotvec_zyz_ok _ _ _ _ E p). now apply rotvec_axis.
Qed.
Lemma cos_sign_flip a : cos (a + PI) = - cos a /\ sin (a + PI) = - sin a.
Proof. split; [apply neg_cos|apply neg_sin]. Qed.
Section Angles.
Variables x y z t : R.
Hypothesis Hu : unit3 (x, y, z).
Let s := sin t.
Let c := cos t.
Let ra01 := x * y * (1 - c) - z * s.
Let ra02 := x * z * (1 - c) + y * s.
Let ra11 := c + y * y * (1 - c).
Let ra12 := y * z * (1 - c) - x * s.
Let ra20 := z * x * (1 - c) - y * s.
Let ra21 := z * y * (1 - c) + x * s.
Let ra22 := c + z * z * (1 - c).
Lemma ra_angles a b g : (forall p, rot_z a (rot_y b (rot_z g p)) = rot_axis (x, y, z) t p) ->
  ra01 = - (cos a * cos b * sin g) - sin a * cos g /\ ra02 = cos a * sin b /\ ra11 = - (sin a * cos b * sin g) + cos a * cos g /\
  ra12 = sin a * sin b /\ ra20 = - (sin b * cos g) /\ ra21 = sin b * sin g /\ ra22 = cos b.
Proof.
  intros H. pose proof (H (1, 0, 0)) as H1. pose proof (H (0, 1, 0)) as H2. pose proof (H (0, 0, 1)) as H3.
  unfold rot_z, rot_y, rot_axis, add3, scal3, cross3, dot3 in H1, H2, H3. injection H1 as X1 X2 X3. injection H2 as Y1 Y2 Y3. injection H3 as Z1 Z2 Z3.
  unfold ra01, ra02, ra11, ra12, ra20, ra21, ra22, s, c. repeat split; lra.
Qed.
Lemma pole_height_ra : pole_height (x, y, z) t = ra22.
Proof. unfold pole_height, rot_axis, add3, scal3, cross3, dot3, ra22, c. ring. Qed.
Lemma generic_angles : -1 < ra22 < 1 -> let n1 := sqrt (ra20 * ra20 + ra21 * ra21) in let n2 := sqrt (ra02 * ra02 + ra12 * ra12) in
  0 < n1 /\ 0 < n2 /\ exists al be ga, cos al = ra02 / n2 /\ sin al = ra12 / n2 /\ cos be = ra22 /\ sin be = sqrt (1 - ra22 * ra22) /\ cos ga = - ra20 / n1 /\ sin ga = ra21 / n1 /\
    forall p, rot_z al (rot_y be (rot_z ga p)) = rot_axis (x, y, z) t p.
Proof.
  intros Hr n1 n2. destruct (zyz_exist (x, y, z) t Hu) as (a & b & g & H). destruct (ra_angles a b g H) as (E01 & E02 & E11 & E12 & E20 & E21 & E22).
  assert (Q : forall w v k, k * (sin v * sin v + cos v * cos v) = w -> k = w) by (intros w v k <-; pose proof (sin2_cos2 v) as P; unfold Rsqr in P; rewrite P; ring).
  assert (N1 : ra20 * ra20 + ra21 * ra21 = Rsqr (sin b)).
  { rewrite E20, E21. unfold Rsqr. symmetry. apply (Q _ g). ring. }
  assert (N2 : ra02 * ra02 + ra12 * ra12 = Rsqr (sin b)).
  { rewrite E02, E12. unfold Rsqr. symmetry. apply (Q _ a). ring. }
  assert (N3 : 1 - ra22 * ra22 = Rsqr (sin b)) by (rewrite E22; pose proof (sin2_cos2 b) as P; unfold Rsqr in *; lra).
  assert (Hs : sin b <> 0) by (intros E; rewrite E in N3; unfold Rsqr in N3; nra).
  unfold n1, n2. rewrite N1, N2, N3, !sqrt_Rsqr_abs. assert (Ha : 0 < Rabs (sin b)) by now apply Rabs_pos_lt.
  split; [exact Ha|split; [exact Ha|]]. unfold Rabs in *. destruct (Rcase_abs (sin b)) as [Hn|Hp].
  - exists (a + PI), (- b), (g + PI). destruct (cos_sign_flip a) as [Ca Sa]. destruct (cos_sign_flip g) as [Cg Sg].
    rewrite Ca, Sa, Cg, Sg, cos_neg, sin_neg, E02, E12, E20, E21, E22. split; [field; lra|split; [field; lra|]]. split; [reflexivity|split; [reflexivity|]].
    split; [field; lra|split; [field; lra|]].
    intros p. rewrite <- H. destruct p as [[p1 p2] p3]. unfold rot_z, rot_y. rewrite Ca, Sa, Cg, Sg, cos_neg, sin_neg. apply triple_eq; ring.
  - exists a, b, g. rewrite E02, E12, E20, E21, E22. split; [field; lra|split; [field; lra|]]. split; [reflexivity|split; [reflexivity|]]. split; [field; lra|split; [field; lra|exact H]].
Qed.
Lemma pole_angles_pos : ra22 = 1 -> exists al be ga, cos al = 1 /\ sin al = 0 /\ cos be = 1 /\ sin be = 0 /\ cos ga = ra11 /\ sin ga = - ra01 /\
    forall p, rot_z al (rot_y be (rot_z ga p)) = rot_axis (x, y, z) t p.
Proof.
  intros Hr. destruct (zyz_exist (x, y, z) t Hu) as (a & b & g & H). destruct (ra_angles a b g H) as (E01 & E02 & E11 & E12 & E20 & E21 & E22).
  assert (Hc : cos b = 1) by lra. assert (Hs : sin b = 0) by (pose proof (sin2_cos2 b) as P; unfold Rsqr in P; rewrite Hc in P; nra).
  exists 0, 0, (a + g). rewrite cos_0, sin_0, E11, E01, Hc. split; [reflexivity|split; [reflexivity|split; [reflexivity|split; [reflexivity|]]]].
  split; [rewrite cos_plus; ring|split; [rewrite sin_plus; ring|]].
  intros p. rewrite <- H. destruct p as [[p1 p2] p3]. unfold rot_z, rot_y. rewrite cos_0, sin_0, cos_plus, sin_plus, Hc, Hs. apply triple_eq; ring.
Qed.
Lemma pole_angles_neg : ra22 = -1 -> exists al be ga, cos al = 1 /\ sin al = 0 /\ cos be = -1 /\ sin be = 0 /\ cos ga = ra11 /\ sin ga = ra01 /\
    forall p, rot_z al (rot_y be (rot_z ga p)) = rot_axis (x, y, z) t p.
Proof.
  intros Hr. destruct (zyz_exist (x, y, z) t Hu) as (a & b & g & H). destruct (ra_angles a b g H) as (E01 & E02 & E11 & E12 & E20 & E21 & E22).
  assert (Hc : cos b = -1) by lra. assert (Hs : sin b = 0) by (pose proof (sin2_cos2 b) as P; unfold Rsqr in P; rewrite Hc in P; nra).
  exists 0, PI, (g - a). rewrite cos_0, sin_0, cos_PI, sin_PI, E11, E01, Hc. split; [reflexivity|split; [reflexivity|split; [reflexivity|split; [reflexivity|]]]].
  split; [rewrite cos_minus; ring|split; [rewrite sin_minus; ring|]].
  intros p. rewrite <- H. destruct p as [[p1 p2] p3]. unfold rot_z, rot_y. rewrite cos_0, sin_0, cos_PI, sin_PI, cos_minus, sin_minus, Hc, Hs. apply triple_eq; ring.
Qed.
End Angles.

(** the code's branch *)
Lemma compute_ok eps ydeg x y z t : 0 < eps -> 10 * eps <= 1 -> (x, y, z) <> (0, 0, 0) ->
  let u := scal3 (/ norm3 (x, y, z)) (x, y, z) in pole_sent_clear_of_poles (10 * eps) u t ->
  exists Rs al be ga, compute_rotation_matrices eps ydeg x y z t = Some Rs /\
    (forall p, rot_z al (rot_y be (rot_z ga p)) = rot_axis u t p) /\ Rok al be ga (S ydeg) Rs.
Proof.
  intros He He1 Hn u. assert (En : norm3 (x, y, z) = sqrt (x * x + y * y + z * z)) by reflexivity.
  assert (Hn0 : norm3 (x, y, z) <> 0).
  { intros E. pose proof (norm3_sq (x, y, z)) as Q. rewrite E in Q. unfold dot3 in Q. apply Hn. assert (x = 0) by nra. assert (y = 0) by nra. assert (z = 0) by nra. subst. reflexivity. }
  pose proof (unit3_scal (x, y, z) Hn0) as Hu. fold u in Hu.
  set (X := x / norm3 (x, y, z)). set (Y := y / norm3 (x, y, z)). set (Z := z / norm3 (x, y, z)).
  assert (Eu : u = (X, Y, Z)) by (unfold u, scal3, X, Y, Z, Rdiv; apply triple_eq; ring).
  rewrite Eu in *. clearbody u. clear Eu u. unfold pole_sent_clear_of_poles. rewrite pole_height_ra. intros HP.
  unfold compute_rotation_matrices. rewrite <- En. destruct (Reqb_spec (norm3 (x, y, z)) 0) as [E|_]; [contradiction|]. cbn [where_]. cbv zeta. fold X Y Z.
  set (h := cos t + Z * Z * (1 - cos t)) in *.
  unfold Rltb. destruct HP as [HP|[HP|HP]].
  - rewrite HP. replace (1 - 1) with 0 by ring. rewrite Rabs_R0. destruct (Rlt_dec 0 (10 * eps)) as [_|Hx]; [|lra].
    destruct (Rlt_dec (Rabs (1 + 1)) (10 * eps)) as [Hx|_]; [rewrite Rabs_right in Hx by lra; lra|]. cbn [orb where_ negb andb].
    destruct (pole_angles_pos X Y Z t Hu HP) as (al & be & ga & E1 & E2 & E3 & E4 & E5 & E6 & HR).
    eexists _, al, be, ga. split; [reflexivity|split; [exact HR|]].
    replace (- (0 - 1) * 1) with (cos al) by lra. replace (1 + (0 - 1) * 1) with (sin al) by lra. rewrite <- E3 at 1. replace (sin al) with (sin be) at 2 by lra.
    rewrite <- E5. replace ((0 - 1) * (X * Y * (1 - cos t) - Z * sin t)) with (sin ga) by lra. apply rotar_ok; [exact He|intros _; exact E4].
  - rewrite HP. replace (-1 + 1) with 0 by ring. rewrite Rabs_R0. destruct (Rlt_dec 0 (10 * eps)) as [_|Hx]; [|lra].
    destruct (Rlt_dec (Rabs (-1 - 1)) (10 * eps)) as [Hx|_]; [rewrite Rabs_left in Hx by lra; lra|]. cbn [orb where_ negb andb].
    destruct (pole_angles_neg X Y Z t Hu HP) as (al & be & ga & E1 & E2 & E3 & E4 & E5 & E6 & HR).
    eexists _, al, be, ga. split; [reflexivity|split; [exact HR|]].
    replace (- (1 - 0) * -1) with (cos al) by lra. replace (1 + (1 - 0) * -1) with (sin al) by lra. rewrite <- E3 at 1. replace (sin al) with (sin be) at 2 by lra.
    rewrite <- E5. replace ((1 - 0) * (X * Y * (1 - cos t) - Z * sin t)) with (sin ga) by lra. apply rotar_ok; [exact He|intros _; exact E4].
  - destruct (Rlt_dec (Rabs (h + 1)) (10 * eps)) as [Hx|_]; [rewrite Rabs_right in Hx by lra; lra|].
    destruct (Rlt_dec (Rabs (h - 1)) (10 * eps)) as [Hx|_]; [rewrite Rabs_left in Hx by lra; lra|]. cbn [orb where_ negb andb].
    destruct (generic_angles X Y Z t Hu ltac:(fold h; lra)) as (P1 & P2 & al & be & ga & E1 & E2 & E3 & E4 & E5 & E6 & HR). fold h in E3, E4.
    match type of P1 with 0 < ?n => set (n1 := n) in *; destruct (Reqb_spec n1 0) as [Hx|_]; [lra|] end.
    match type of P2 with 0 < ?n => set (n2 := n) in *; destruct (Reqb_spec n2 0) as [Hx|_]; [lra|] end. cbn [orb andb].
    eexists _, al, be, ga. split; [reflexivity|split; [exact HR|]].
    rewrite <- E1, <- E2, <- E4, <- E5, <- E6, <- E3. apply rotar_ok; [exact He|].
    intros Hb. exfalso. rewrite E4, Rabs_right in Hb by apply Rle_ge, sqrt_pos.
    assert (Q : (10 * eps) * (10 * eps) <= 1 - h * h). { set (w := 10 * eps) in *. assert (0 < w) by (unfold w; lra). nra. }
    apply Rlt_not_le in Hb. apply Hb. rewrite <- (sqrt_square (10 * eps)) by lra. apply sqrt_le_1; nra.
Qed.
