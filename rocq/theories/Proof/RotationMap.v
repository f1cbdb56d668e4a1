(** dot_rotation_matrix, left_project and right_project as rotations of the map *)
From Coq Require Import Reals Lra Lia ZArith List Bool Arith.
From Coquelicot Require Import Coquelicot.
From Verif Require Import Base.RealAux Model.Poly Model.S2fft Model.Rotation Spec.PolySpec Spec.HarmonicSpec Spec.RotationSpec
  Proof.RotationProof Proof.AxisAngle Proof.Euler Proof.WignerGen Proof.WignerStep Proof.WignerRot Proof.WignerMap Proof.HarmonicUnique.
Import ListNotations.
Open Scope R_scope.

Lemma sphere3_sphere p : sphere3 p <-> sphere p.
Proof. destruct p as [[x y] z]. unfold sphere3, sphere, on_sphere, dot3. split; intros H; nra. Qed.
Lemma rot_axis_sphere u t p : unit3 u -> sphere3 p -> sphere3 (rot_axis u t p).
Proof.
  destruct u as [[a b] c], p as [[x y] z]. unfold unit3, sphere3, rot_axis, dot3, add3, scal3, cross3. intros Hu Hp.
  pose proof (sin2_cos2 t) as H. unfold Rsqr in H. set (s := sin t) in *. set (k := cos t) in *. set (d := a * x + b * y + c * z).
  (* |k p + s (u x p) + (1-k) d u|^2 *)
  transitivity (k * k * (x * x + y * y + z * z) + s * s * ((a * a + b * b + c * c) * (x * x + y * y + z * z) - d * d)
     + (1 - k) * (1 - k) * (d * d) * (a * a + b * b + c * c) + 2 * k * (1 - k) * (d * d)).
  - unfold d. ring.
  - rewrite Hu, Hp. assert (E : s * s = 1 - k * k) by lra. rewrite E. ring.
Qed.
Lemma map_unique deg a b : length a = ncoef deg -> length b = ncoef deg -> (forall p, sphere3 p -> map_at deg a p = map_at deg b p) -> a = b.
Proof.
  intros Ha Hb H. apply (list_slots_ext deg); auto. intros l nu Hl Hnu.
  assert (E : nth (l * l + nu) a 0 - nth (l * l + nu) b 0 = 0); [|lra].
  apply (harmonic_unique deg (fun n => nth n a 0 - nth n b 0)); [|lia|lia].
  intros x y z Hs. specialize (H (x, y, z) ltac:(apply sphere3_sphere; exact Hs)). unfold map_at in H.
  transitivity (harmonic_eval deg (fun n => nth n a 0) x y z - harmonic_eval deg (fun n => nth n b 0) x y z); [|rewrite H; ring].
  unfold harmonic_eval. unfold Rminus at 2.
  replace (- bigsum (S deg) (fun l => bigsum (2 * l + 1) (fun nu => nth (l * l + nu) b 0 * real_Y l (Z.of_nat nu - Z.of_nat l) x y z)))
    with (-1 * bigsum (S deg) (fun l => bigsum (2 * l + 1) (fun nu => nth (l * l + nu) b 0 * real_Y l (Z.of_nat nu - Z.of_nat l) x y z))) by ring.
  rewrite <- bigsum_scal, <- bigsum_plus. apply bigsum_ext. intros l0 _. rewrite <- bigsum_scal, <- bigsum_plus. apply bigsum_ext. intros; ring.
Qed.

Section WithEuler.
Variable as_euler : R * R * R -> R * R * R.
Hypothesis Hzyz : zyz_euler as_euler.
Notation axis x y z := (scal3 (/ norm3 (x, y, z)) (x, y, z)).
Lemma euler_rot x y z t al be ga p : (t <> 0 -> (x, y, z) <> (0, 0, 0)) -> euler as_euler x y z t = (al, be, ga) ->
  rot_z ga (rot_y be (rot_z al p)) = rot_axis (axis x y z) t p.
Proof.
  unfold euler. intros Hn He. destruct (Reqb_spec t 0) as [-> | Ht].
  - injection He as <- <- <-. rewrite <- (rot_axis_z 0), <- (rot_axis_y 0), <- (rot_axis_z 0). now rewrite !rot_axis_zero.
  - specialize (Hn Ht). rewrite (Hzyz _ _ _ _ He p).
    assert (En : norm3 (x, y, z) = sqrt (x ^ 2 + y ^ 2 + z ^ 2)) by (unfold norm3, dot3; f_equal; ring). rewrite <- En.
    assert (H0 : norm3 (x, y, z) <> 0).
    { intros E. apply Hn. pose proof (norm3_sq (x, y, z)) as S. rewrite E in S. unfold dot3 in S. assert (x = 0) by nra. assert (y = 0) by nra. assert (z = 0) by nra. congruence. }
    replace (x / norm3 (x, y, z) * t, y / norm3 (x, y, z) * t, z / norm3 (x, y, z) * t) with (scal3 t (axis x y z)).
    + apply rotvec_axis. now apply unit3_scal.
    + unfold scal3. apply triple_eq; field; exact H0.
Qed.
Lemma dot_blocks_length deg Rm M : length (dot_blocks deg Rm M) = ncoef deg.
Proof. unfold dot_blocks. rewrite (blocks_length _ (deg + 1)); [reflexivity|]. intros l. rewrite map_length, seq_length. reflexivity. Qed.
Lemma dot_blocks_nth deg Rm M l c : (l <= deg)%nat -> (c <= 2 * l)%nat -> nth (l * l + c) (dot_blocks deg Rm M) 0 = bigsum (2 * l + 1) (fun r => nth (l * l + r) M 0 * Rm l r c).
Proof.
  intros Hl Hc. unfold dot_blocks. rewrite (nth_blocks _ (deg + 1) l c); [| |lia|lia].
  - pose (F := fun c => bigsum (2 * l + 1) (fun r => nth (l * l + r) M 0 * Rm l r c)). change (nth c (map F (seq 0 (2 * l + 1))) 0 = F c).
    rewrite (nth_indep _ 0 (F 0%nat)) by (rewrite map_length, seq_length; lia). rewrite map_nth, seq_nth by lia. reflexivity.
  - intros. rewrite map_length, seq_length. reflexivity.
Qed.
Lemma map_at_Yat deg y p : map_at deg y p = bigsum (S deg) (fun l => bigsum (2 * l + 1) (fun nu => nth (l * l + nu) y 0 * Yat l p (Z.of_nat nu - Z.of_nat l))).
Proof. destruct p as [[a b] c]. reflexivity. Qed.
(** the general branch *)
Lemma dot_general_map deg x y z t M p : (t <> 0 -> (x, y, z) <> (0, 0, 0)) -> sphere3 p ->
  map_at deg (dot_blocks deg (rotation_matrix as_euler deg x y z t) M) p = map_at deg M (rot_axis (axis x y z) t p).
Proof.
  intros Hn Hs. apply sphere3_sphere in Hs. destruct (euler as_euler x y z t) as [[al be] ga] eqn:He. rewrite <- (euler_rot x y z t al be ga p Hn He).
  rewrite !map_at_Yat. apply bigsum_ext. intros l Hl.
  rewrite (bigsum_ext _ (fun nu => nth (l * l + nu) (dot_blocks _ _ _) 0 * _)
     (fun c => bigsum (2 * l + 1) (fun r => nth (l * l + r) M 0 * (rotation_matrix as_euler deg x y z t l r c * Yat l p (Z.of_nat c - Z.of_nat l))))).
  2:{ intros c Hc. rewrite dot_blocks_nth by lia. rewrite Rmult_comm, <- bigsum_scal. apply bigsum_ext. intros; ring. }
  rewrite bigsum_swap. apply bigsum_ext. intros r Hr. rewrite bigsum_scal. f_equal. apply (block_rotates as_euler deg x y z t al be ga); (assumption || lia).
Qed.

Lemma dot_rotation_ok deg x y z t M : x <> None \/ y <> None -> length M = ncoef deg ->
  let a := (angle0 x, angle0 y, angle0 z) in (t <> 0 -> a <> (0, 0, 0)) ->
  exists r, dot_rotation_matrix as_euler deg x y z (Some t) M = Ok r /\ length r = ncoef deg /\
    forall p, sphere3 p -> map_at deg r p = map_at deg M (rot_axis (scal3 (/ norm3 a) a) t p).
Proof.
  intros Hxy HM a Hn. exists (dot_blocks deg (rotation_matrix as_euler deg (angle0 x) (angle0 y) (angle0 z) t) M). split; [|split].
  - unfold dot_rotation_matrix. rewrite nmax_ncoef. rewrite (proj2 (Nat.eqb_eq _ _) HM). destruct x, y; try reflexivity. destruct Hxy; contradiction.
  - apply dot_blocks_length.
  - intros p Hp. now apply dot_general_map.
Qed.
Lemma dot_rotation_err deg x y z t M : x <> None \/ y <> None -> length M <> ncoef deg -> dot_rotation_matrix as_euler deg x y z (Some t) M = Err ValueError.
Proof.
  intros Hxy HM. unfold dot_rotation_matrix. rewrite nmax_ncoef, (proj2 (Nat.eqb_neq _ _) HM). destruct x, y; try reflexivity. destruct Hxy; contradiction.
Qed.
(** unit axis *)
Lemma norm3_unit u : unit3 u -> scal3 (/ norm3 u) u = u.
Proof. intros H. unfold norm3. rewrite H, sqrt_1. destruct u as [[a b] c]. unfold scal3. apply triple_eq; field. Qed.
Lemma unit3_nz a b c : unit3 (a, b, c) -> (a, b, c) <> (0, 0, 0).
Proof. unfold unit3, dot3. intros H E. injection E as -> -> ->. lra. Qed.

(** rotating twice *)
Lemma rot_axis_add u s t p : unit3 u -> rot_axis u s (rot_axis u t p) = rot_axis u (s + t) p.
Proof.
  intros Hu. destruct u as [[a b] c]. rewrite !rot_axis_qrot by exact Hu. rewrite qrot_mul. unfold unit3, dot3 in Hu.
  replace ((s + t) / 2) with (s / 2 + t / 2) by field. rewrite cos_plus, sin_plus.
  f_equal; [|ring|ring|ring]. set (S := sin (s / 2)). set (T := sin (t / 2)). transitivity (cos (s / 2) * cos (t / 2) - S * T * (a * a + b * b + c * c)); [ring|rewrite Hu; ring].
Qed.
Lemma dot_zero deg x y z M : x <> None \/ y <> None -> length M = ncoef deg -> dot_rotation_matrix as_euler deg x y z (Some 0) M = Ok M.
Proof.
  intros Hxy HM. destruct (dot_rotation_ok deg x y z 0 M Hxy HM ltac:(intros; lra)) as (r & Hr & HL & Hp). rewrite Hr. f_equal.
  apply (map_unique deg); auto. intros p Hs. rewrite Hp by exact Hs. now rewrite rot_axis_zero.
Qed.
Lemma dot_compose deg x y z s t M r : x <> None \/ y <> None -> length M = ncoef deg ->
  (angle0 x, angle0 y, angle0 z) <> (0, 0, 0) ->
  dot_rotation_matrix as_euler deg x y z (Some s) M = Ok r -> dot_rotation_matrix as_euler deg x y z (Some t) r = dot_rotation_matrix as_euler deg x y z (Some (s + t)) M.
Proof.
  intros Hxy HM Hn Hr. destruct (dot_rotation_ok deg x y z s M Hxy HM ltac:(auto)) as (r1 & H1 & L1 & V1). rewrite Hr in H1. injection H1 as <-.
  destruct (dot_rotation_ok deg x y z t r Hxy L1 ltac:(auto)) as (r2 & H2 & L2 & V2). destruct (dot_rotation_ok deg x y z (s + t) M Hxy HM ltac:(auto)) as (r3 & H3 & L3 & V3).
  rewrite H2, H3. f_equal. apply (map_unique deg); auto. intros p Hs.
  assert (Hu : unit3 (scal3 (/ norm3 (angle0 x, angle0 y, angle0 z)) (angle0 x, angle0 y, angle0 z))).
  { apply unit3_scal. intros E. apply Hn. pose proof (norm3_sq (angle0 x, angle0 y, angle0 z)) as S. rewrite E in S. unfold dot3 in S. apply triple_eq; nra. }
  rewrite V2, V3, V1 by (try apply rot_axis_sphere; assumption). f_equal. now apply rot_axis_add.
Qed.
(** the general branch about (0,0,az), az > 0, agrees with the z-only branch *)
Lemma dot_z_general deg (x y : option R) az t M : x <> None \/ y <> None -> angle0 x = 0 -> angle0 y = 0 -> 0 < az -> length M = ncoef deg ->
  dot_rotation_matrix as_euler deg x y (Some az) (Some t) M = dot_rotation_matrix as_euler deg None None (Some az) (Some t) M.
Proof.
  intros Hxy Hx Hy Hz HM. destruct (dot_rotation_ok deg x y (Some az) t M Hxy HM) as (r & Hr & HL & Hp).
  { cbn [angle0]. intros _ E. injection E. intros. lra. }
  destruct (dot_rz_ok deg t M HM) as (r2 & H2 & L2 & _). rewrite Hr. cbn [dot_rotation_matrix]. rewrite H2. f_equal. apply (map_unique deg); auto. intros p Hs.
  rewrite (dot_rz_map deg t M r2 p HM H2), Hp by exact Hs. f_equal. rewrite Hx, Hy. cbn [angle0]. rewrite <- rot_axis_z. f_equal.
  unfold norm3, dot3. replace (0 * 0 + 0 * 0 + az * az) with (Rsqr az) by (unfold Rsqr; ring). rewrite sqrt_Rsqr by lra. unfold scal3. apply triple_eq; field; lra.
Qed.
End WithEuler.
