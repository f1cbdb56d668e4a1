(** What compute_rotation_matrices does to a map; its agreement with s2fft_rotation.py; its failures. *)
From Coq Require Import Reals Lra Lia ZArith List Bool Arith.
From Coquelicot Require Import Coquelicot.
From Verif Require Import Base.RealAux Model.Poly Model.S2fft Model.Rotation Model.Dlmn Spec.PolySpec Spec.HarmonicSpec Spec.RotationSpec
  Proof.AxisAngle Proof.Euler Proof.WignerGen Proof.WignerStep Proof.WignerRot Proof.WignerMap Proof.RotationProof Proof.RotationMap Proof.RotationMore Proof.DlmnRec Proof.DlmnProof Proof.DlmnReal Proof.DlmnTop Proof.DlmnMain Proof.YlmFacts Proof.DopplerProof.
Import ListNotations.
Open Scope R_scope.

Lemma expR_ext al ga f g x y : (forall x y, f x y = g x y) -> expR al ga f x y = expR al ga g x y.
Proof. intros H. unfold expR. cbv zeta. now rewrite !H. Qed.
Lemma dot_blocks_ext deg Rm Rm' M : (forall l r c, (l <= deg)%nat -> (r <= 2 * l)%nat -> (c <= 2 * l)%nat -> Rm l r c = Rm' l r c) -> dot_blocks deg Rm M = dot_blocks deg Rm' M.
Proof.
  intros H. apply (list_slots_ext deg); try apply dot_blocks_length. intros l c Hl Hc. rewrite !dot_blocks_nth by lia. apply bigsum_ext. intros r Hr. rewrite H by lia. reflexivity.
Qed.
(** a rotation by explicit Euler angles *)
Lemma explicit_euler v : euler (fun _ => v) 1 0 0 1 = v.
Proof. unfold euler. destruct (Reqb_spec 1 0) as [H|H]; [lra|]. reflexivity. Qed.
Lemma Rok_entries al be ga ydeg Rs l r c : Rok al be ga (S ydeg) Rs -> (l <= ydeg)%nat -> (r <= 2 * l)%nat -> (c <= 2 * l)%nat ->
  nth l Rs (fun _ _ => 0) (Z.of_nat r) (Z.of_nat c) = rotation_matrix (fun _ => (ga, be, al)) ydeg 1 0 0 1 l r c.
Proof.
  intros [_ H] Hl Hr Hc. rewrite (rotation_matrix_expR _ _ _ _ _ al be ga) by (try apply explicit_euler; assumption).
  specialize (H l ltac:(lia) (Z.of_nat r - Z.of_nat l)%Z (Z.of_nat c - Z.of_nat l)%Z ltac:(lia) ltac:(lia)).
  replace (Z.of_nat r - Z.of_nat l + Z.of_nat l)%Z with (Z.of_nat r) in H by ring. replace (Z.of_nat c - Z.of_nat l + Z.of_nat l)%Z with (Z.of_nat c) in H by ring.
  rewrite H. apply expR_ext. intros u v. symmetry. apply (sym_power_unique _ _ _ _ _ (wigner_d_sym (S ydeg) be l) (spow_sym _ _ _)).
Qed.
Lemma Rok_map al be ga ydeg Rs M p : Rok al be ga (S ydeg) Rs -> sphere3 p ->
  map_at ydeg (apply_matrices ydeg Rs M) p = map_at ydeg M (rot_z al (rot_y be (rot_z ga p))).
Proof.
  intros H Hs. unfold apply_matrices. rewrite (dot_blocks_ext ydeg _ (rotation_matrix (fun _ => (ga, be, al)) ydeg 1 0 0 1)).
  2:{ intros l r c Hl Hr Hc. now apply (Rok_entries al be ga ydeg). }
  apply sphere3_sphere in Hs. rewrite !map_at_Yat. apply bigsum_ext. intros l Hl.
  rewrite (bigsum_ext _ (fun nu => nth (l * l + nu) (dot_blocks _ _ _) 0 * _)
     (fun c => bigsum (2 * l + 1) (fun r => nth (l * l + r) M 0 * (rotation_matrix (fun _ => (ga, be, al)) ydeg 1 0 0 1 l r c * Yat l p (Z.of_nat c - Z.of_nat l))))).
  2:{ intros c Hc. rewrite dot_blocks_nth by lia. rewrite Rmult_comm, <- bigsum_scal. apply bigsum_ext. intros; ring. }
  rewrite bigsum_swap. apply bigsum_ext. intros r Hr. rewrite bigsum_scal. f_equal. apply (block_rotates _ ydeg 1 0 0 1 ga be al); (assumption || lia || apply explicit_euler).
Qed.
Theorem matrices_rotate eps ydeg x y z t : 0 < eps -> 10 * eps <= 1 -> (x, y, z) <> (0, 0, 0) ->
  let u := scal3 (/ norm3 (x, y, z)) (x, y, z) in pole_sent_clear_of_poles (10 * eps) u t ->
  exists Rs, compute_rotation_matrices eps ydeg x y z t = Some Rs /\ length Rs = S ydeg /\
    forall M p, length M = ncoef ydeg -> sphere3 p -> map_at ydeg (apply_matrices ydeg Rs M) p = map_at ydeg M (rot_axis u t p).
Proof.
  intros He He1 Hn u HP. destruct (compute_ok eps ydeg x y z t He He1 Hn HP) as (Rs & al & be & ga & HR & HA & HO). exists Rs. split; [exact HR|split; [apply HO|]].
  intros M p _ Hp. rewrite (Rok_map al be ga ydeg Rs M p HO Hp). now rewrite HA.
Qed.
Definition unit_vec (n k : nat) : list R := map (fun i => if Nat.eqb i k then 1 else 0) (seq 0 n).
Lemma unit_vec_nth n k i : (i < n)%nat -> nth i (unit_vec n k) 0 = if Nat.eqb i k then 1 else 0.
Proof. intros H. unfold unit_vec. set (f := fun i => if Nat.eqb i k then 1 else 0). rewrite (nth_indep _ 0 (f 0%nat)) by (rewrite map_length, seq_length; exact H). rewrite map_nth, seq_nth by exact H. reflexivity. Qed.
Lemma unit_row deg Rm l r c : (l <= deg)%nat -> (r <= 2 * l)%nat -> (c <= 2 * l)%nat -> nth (l * l + c) (dot_blocks deg Rm (unit_vec (ncoef deg) (l * l + r))) 0 = Rm l r c.
Proof.
  intros Hl Hr Hc. assert (B : (l * l + 2 * l + 1 <= ncoef deg)%nat) by (unfold ncoef; nia).
  rewrite dot_blocks_nth by lia. rewrite (bigsum_single _ r); [|lia|].
  - rewrite unit_vec_nth by lia. rewrite Nat.eqb_refl. ring.
  - intros i Hi Hne. rewrite unit_vec_nth by lia. destruct (Nat.eqb_spec (l * l + i) (l * l + r)); [lia|ring].
Qed.
Theorem matrices_agree eps ydeg x y z t : 0 < eps -> 10 * eps <= 1 -> (x, y, z) <> (0, 0, 0) ->
  pole_sent_clear_of_poles (10 * eps) (scal3 (/ norm3 (x, y, z)) (x, y, z)) t ->
  exists Rs, compute_rotation_matrices eps ydeg x y z t = Some Rs /\
    forall as_euler, zyz_euler as_euler -> forall l r c, (l <= ydeg)%nat -> (r <= 2 * l)%nat -> (c <= 2 * l)%nat ->
      nth l Rs (fun _ _ => 0) (Z.of_nat r) (Z.of_nat c) = rotation_matrix as_euler ydeg x y z t l r c.
Proof.
  intros He He1 Hn HP. destruct (matrices_rotate eps ydeg x y z t He He1 Hn HP) as (Rs & HR & _ & HM). exists Rs. split; [exact HR|].
  intros ae Hz l r c Hl Hr Hc. set (M := unit_vec (ncoef ydeg) (l * l + r)). assert (LM : length M = ncoef ydeg) by (unfold M, unit_vec; now rewrite map_length, seq_length).
  assert (E : apply_matrices ydeg Rs M = dot_blocks ydeg (rotation_matrix ae ydeg x y z t) M).
  { apply (map_unique ydeg); try apply dot_blocks_length. intros p Hp. rewrite HM by assumption. symmetry. apply (dot_general_map ae Hz); [intros _; exact Hn|exact Hp]. }
  pose proof (f_equal (fun v => nth (l * l + c) v 0) E) as F. cbv beta in F. unfold apply_matrices, M in F. rewrite !unit_row in F by assumption. exact F.
Qed.
(** * no axis *)
Theorem zero_axis_nan eps ydeg t : 0 < eps -> (0 < ydeg)%nat -> 10 * eps <= 1 - cos t -> 10 * eps <= 1 + cos t -> compute_rotation_matrices eps ydeg 0 0 0 t = None.
Proof.
  intros He Hy H1 H2. unfold compute_rotation_matrices. replace (0 * 0 + 0 * 0 + 0 * 0) with 0 by ring. rewrite sqrt_0.
  destruct (Reqb_spec 0 0) as [_|Hx]; [|lra]. cbn [where_]. cbv zeta. replace (cos t + 0 * 0 * (1 - cos t)) with (cos t) by ring. unfold Rltb.
  destruct (Rlt_dec (Rabs (cos t + 1)) (10 * eps)) as [Hx|_]; [rewrite Rabs_right in Hx by lra; lra|].
  destruct (Rlt_dec (Rabs (cos t - 1)) (10 * eps)) as [Hx|_]; [rewrite Rabs_left in Hx by lra; lra|]. cbn [orb negb andb where_].
  replace ((0 * 0 * (1 - cos t) - 0 * sin t) * (0 * 0 * (1 - cos t) - 0 * sin t) + (0 * 0 * (1 - cos t) + 0 * sin t) * (0 * 0 * (1 - cos t) + 0 * sin t)) with 0 by ring. rewrite sqrt_0.
  destruct (Reqb_spec 0 0) as [_|Hx]; [|lra]. cbn [orb]. destruct (Nat.eqb_spec ydeg 0); [lia|]. reflexivity.
Qed.
(** * close to a pole *)
Lemma near_pole eps t : 0 < eps -> 0 < 1 - cos t < 10 * eps -> 10 * eps <= 1 -> exists Rs, compute_rotation_matrices eps 1 1 0 0 t = Some Rs /\
  map_at 1 (apply_matrices 1 Rs [0; 0; 0; 1]) (0, 0, 1) <> map_at 1 [0; 0; 0; 1] (rot_axis (1, 0, 0) t (0, 0, 1)).
Proof.
  intros He Ht He1. unfold compute_rotation_matrices. replace (1 * 1 + 0 * 0 + 0 * 0) with 1 by ring. rewrite sqrt_1.
  destruct (Reqb_spec 1 0) as [Hx|_]; [lra|]. cbn [where_]. cbv zeta. replace (cos t + 0 / 1 * (0 / 1) * (1 - cos t)) with (cos t) by field. unfold Rltb.
  destruct (Rlt_dec (Rabs (cos t + 1)) (10 * eps)) as [Hx|_]; [rewrite Rabs_right in Hx by lra; lra|].
  destruct (Rlt_dec (Rabs (cos t - 1)) (10 * eps)) as [_|Hx]; [|rewrite Rabs_left in Hx by lra; lra]. cbn [orb negb andb where_].
  eexists. split; [reflexivity|].
  unfold rot_axis, add3, scal3, cross3, dot3. rewrite !map_at_1.
  unfold rotar. cbn [Nat.eqb]. cbv zeta. change (zrange 2 (Z.of_nat 1 + 1)) with (@nil Z). cbn [fold_left snd].
  unfold apply_matrices, dot_blocks. cbn [seq flat_map map app Nat.add Nat.mul nth bigsum Z.of_nat Pos.of_succ_nat Pos.succ array3].
  pose proof (sqrt_lt_R0 2 ltac:(lra)) as H2. pose proof (sqrt_lt_R0 3 ltac:(lra)) as H3. pose proof (sqrt_lt_R0 (4 * PI) ltac:(pose proof PI_RGT_0; lra)) as H4.
  intros E. unfold Rdiv in E. apply Rmult_eq_reg_r in E; [|apply Rinv_neq_0_compat; lra].
  assert (F : sqrt 2 * - (- (1 + (0 - 1) * cos t) * / sqrt 2) * (- (0 - 1) * cos t) = (1 - cos t) * cos t) by (field; lra). 
  assert (G : sqrt 3 * ((1 - cos t) * cos t) = 0) by (rewrite <- F; lra).
  assert (0 < (1 - cos t) * cos t) by (apply Rmult_lt_0_compat; lra). nra.
Qed.
Theorem near_pole_refuted eps : 0 < eps -> 10 * eps <= 1 -> exists t Rs M p, compute_rotation_matrices eps 1 1 0 0 t = Some Rs /\ length M = ncoef 1 /\ sphere3 p /\
  map_at 1 (apply_matrices 1 Rs M) p <> map_at 1 M (rot_axis (1, 0, 0) t p).
Proof.
  intros He He1. set (k := 1 - 5 * eps). assert (Hk : -1 < k < 1) by (unfold k; lra). exists (acos k).
  destruct (near_pole eps (acos k) He) as (Rs & HR & HN); [rewrite cos_acos by lra; unfold k; lra|exact He1|].
  exists Rs, [0; 0; 0; 1], (0, 0, 1). split; [exact HR|split; [reflexivity|split; [unfold sphere3, dot3; ring|exact HN]]].
Qed.
