(** Orthogonality of the rotation blocks; left_project and right_project *)
From Coq Require Import Reals Lra Lia ZArith List Bool Arith.
From Coquelicot Require Import Coquelicot.
From Verif Require Import Base.RealAux Model.Poly Model.S2fft Model.Rotation Spec.PolySpec Spec.HarmonicSpec Spec.RotationSpec
  Proof.RotationProof Proof.AxisAngle Proof.Euler Proof.WignerGen Proof.WignerStep Proof.WignerRot Proof.WignerMap Proof.HarmonicUnique Proof.RotationMap.
Import ListNotations.
Open Scope R_scope.

(** * transposes of symmetric powers *)
Fixpoint spow (J : nat) (c d : R) : Z -> Z -> R :=
  match J with
  | O => fun k i => if ((k =? 0) && (i =? 0))%Z%bool then 1 else 0
  | S J => fun k i => risbo_sum (Z.of_nat (S J)) c d (spow J c d) k i / INR (S J)
  end.
Lemma spow_sym J c d : sym_power J c d (spow J c d).
Proof.
  induction J as [|J IH].
  - split.
    + intros k i H. cbn [spow]. destruct (Z.eqb_spec k 0), (Z.eqb_spec i 0); cbn [andb]; lia || reflexivity.
    + intros i Hi s t. assert (i = 0%Z) as -> by lia. unfold hsum. cbn [bigsum spow Z.of_nat Z.eqb andb]. change (Z.to_nat 0) with 0%nat. cbn [Nat.sub pow]. ring.
  - cbn [spow]. now apply sym_power_step.
Qed.
Lemma spow_transpose J c d k i : spow J c d k i = spow J c (- d) i k.
Proof.
  revert k i. induction J as [|J IH]; intros k i.
  - cbn [spow]. now rewrite andb_comm.
  - cbn [spow]. f_equal. unfold risbo_sum. rewrite (IH k i), (IH k (i - 1)%Z), (IH (k - 1)%Z i), (IH (k - 1)%Z (i - 1)%Z). ring.
Qed.
Lemma sym_power_unique J c d D D' : sym_power J c d D -> sym_power J c d D' -> forall k i, D k i = D' k i.
Proof.
  intros [Ho H] [Ho' H'] k i. destruct (Z_le_dec 0 k), (Z_le_dec k (Z.of_nat J)), (Z_le_dec 0 i), (Z_le_dec i (Z.of_nat J));
    try (rewrite Ho, Ho' by lia; reflexivity).
  assert (E : D k i * bz J k = D' k i * bz J k).
  { apply (hsum_inj J (fun k => D k i * bz J k) (fun k => D' k i * bz J k)); [|lia]. intros s t. rewrite H, H' by lia. reflexivity. }
  apply Rmult_eq_reg_r in E; [exact E|]. apply bz_nz. lia.
Qed.
Lemma wigner_transpose L b l k i : wigner_d L b l k i = wigner_d L (- b) l i k.
Proof.
  rewrite (sym_power_unique _ _ _ _ _ (wigner_d_sym L b l) (spow_sym _ _ _)).
  rewrite (sym_power_unique _ _ _ _ _ (wigner_d_sym L (- b) l) (spow_sym _ _ _)).
  rewrite spow_transpose. replace (- b / 2) with (- (b / 2)) by field. now rewrite cos_neg, sin_neg.
Qed.

(** * orthogonality of a block *)
Section Orth.
Variable as_euler : R * R * R -> R * R * R.
Lemma cexpm_opp t : cexpm (- t) = Cconj (cexpm t).
Proof. unfold cexpm, Cconj. cbn [fst snd]. rewrite cos_neg, sin_neg. reflexivity. Qed.
Lemma Re_csum n f : Re (csum n f) = bigsum n (fun i => Re (f i)).
Proof. rewrite csum_pair. reflexivity. Qed.
Lemma Re_conj (z : C) : Re (Cconj z) = Re z.
Proof. reflexivity. Qed.
Lemma Cconj_mult (a b : C) : Cconj (a * b)%C = (Cconj a * Cconj b)%C.
Proof. unfold Cconj, Cmult. cbn [fst snd]. f_equal; ring. Qed.
Lemma Cconj_RtoC (a : R) : Cconj (RtoC a) = RtoC a.
Proof. unfold Cconj, RtoC. cbn [fst snd]. f_equal. ring. Qed.
Lemma Cconj_conj (a : C) : Cconj (Cconj a) = a.
Proof. unfold Cconj. destruct a. cbn [fst snd]. f_equal. ring. Qed.
(** the block of the reversed angles is the transpose *)
Lemma block_transpose deg x y z t al be ga l r c : euler as_euler x y z t = (al, be, ga) ->
  rotation_matrix as_euler deg x y z t l r c = rotation_matrix (fun _ => (- ga, - be, - al)) deg 1 0 0 1 l c r.
Proof.
  intros He. unfold rotation_matrix. rewrite He. unfold euler. destruct (Reqb_spec 1 0) as [H|_]; [lra|]. cbv zeta.
  set (N := fun i : nat => (Z.of_nat i - Z.of_nat deg)%Z). rewrite csum_swap, !Re_csum. apply bigsum_ext. intros a _. rewrite !Re_csum. apply bigsum_ext. intros b _.
  rewrite !dls_wigner, wigner_transpose. rewrite <- Re_conj. f_equal. rewrite !Cconj_mult, Cconj_conj, Cconj_RtoC.
  set (ia := IZR (Z.of_nat a - Z.of_nat deg)). set (ib := IZR (Z.of_nat b - Z.of_nat deg)).
  replace (ib * - ga + ia * - al) with (- (ia * al + ib * ga)) by ring. rewrite cexpm_opp. ring.
Qed.
Lemma rot_z_inv t p : rot_z (- t) (rot_z t p) = p.
Proof. rewrite <- !rot_axis_z, rot_axis_add by (unfold unit3, dot3; ring). replace (- t + t) with 0 by ring. apply rot_axis_zero. Qed.
Lemma rot_y_inv t p : rot_y (- t) (rot_y t p) = p.
Proof. rewrite <- !rot_axis_y, rot_axis_add by (unfold unit3, dot3; ring). replace (- t + t) with 0 by ring. apply rot_axis_zero. Qed.
(** single-slot coefficient vectors evaluate to one harmonic *)
Lemma harmonic_combination deg l (v : nat -> R) p : (l <= deg)%nat ->
  (let '(x, y, z) := p in harmonic_eval deg (fun n => if (Nat.leb (l * l) n && Nat.ltb n (l * l + (2 * l + 1)))%bool then v (n - l * l)%nat else 0) x y z) =
  bigsum (2 * l + 1) (fun nu => v nu * Yat l p (Z.of_nat nu - Z.of_nat l)).
Proof.
  destruct p as [[x y] z]. intros Hl. unfold harmonic_eval. rewrite (bigsum_single (S deg) l); [|lia|].
  - apply bigsum_ext. intros nu Hnu. destruct (Nat.leb_spec (l * l) (l * l + nu)), (Nat.ltb_spec (l * l + nu) (l * l + (2 * l + 1))); try lia. cbn [andb].
    replace (l * l + nu - l * l)%nat with nu by lia. reflexivity.
  - intros k Hk Hne. apply bigsum_zero_ext. intros nu Hnu.
    destruct (Nat.leb_spec (l * l) (k * k + nu)), (Nat.ltb_spec (k * k + nu) (l * l + (2 * l + 1))); cbn [andb]; try ring. exfalso. nia.
Qed.
Lemma Yat_independent l (v : nat -> R) : (forall p, sphere p -> bigsum (2 * l + 1) (fun nu => v nu * Yat l p (Z.of_nat nu - Z.of_nat l)) = 0) -> forall nu, (nu <= 2 * l)%nat -> v nu = 0.
Proof.
  intros H nu Hnu.
  pose proof (harmonic_unique l (fun n => if (Nat.leb (l * l) n && Nat.ltb n (l * l + (2 * l + 1)))%bool then v (n - l * l)%nat else 0)) as U.
  specialize (U ltac:(intros x y z Hs; pose proof (harmonic_combination l l v (x, y, z) ltac:(lia)) as E; cbv beta iota in E; rewrite E; apply H; exact Hs) l nu ltac:(lia) Hnu).
  cbv beta in U. destruct (Nat.leb_spec (l * l) (l * l + nu)), (Nat.ltb_spec (l * l + nu) (l * l + (2 * l + 1))); try lia. cbn [andb] in U.
  replace (l * l + nu - l * l)%nat with nu in U by lia. exact U.
Qed.
Lemma block_orthogonal deg x y z t l r r' : (l <= deg)%nat -> (r <= 2 * l)%nat -> (r' <= 2 * l)%nat ->
  bigsum (2 * l + 1) (fun c => rotation_matrix as_euler deg x y z t l r c * rotation_matrix as_euler deg x y z t l r' c) = if Nat.eqb r r' then 1 else 0.
Proof.
  intros Hl Hr Hr'. destruct (euler as_euler x y z t) as [[al be] ga] eqn:He.
  set (Rm := rotation_matrix as_euler deg x y z t l). set (Tm := rotation_matrix (fun _ => (- ga, - be, - al)) deg 1 0 0 1 l).
  assert (HT : forall a b, Rm a b = Tm b a) by (intros; apply block_transpose; exact He).
  assert (Z : bigsum (2 * l + 1) (fun c => Rm r c * Rm r' c) - (if Nat.eqb r r' then 1 else 0) = 0); [|lra].
  apply (Yat_independent l (fun r' => bigsum (2 * l + 1) (fun c => Rm r c * Rm r' c) - (if Nat.eqb r r' then 1 else 0))); [|exact Hr'].
  intros p Hp.
  (* sum_r' sum_c R r c * T c r' * Y_r'(p) = Y_r(p) *)
  set (q := rot_z (- al) (rot_y (- be) (rot_z (- ga) p))).
  assert (Hq : sphere q) by (unfold q; apply sphere_rot_z, sphere_rot_y, sphere_rot_z; exact Hp).
  assert (ET : forall c, (c <= 2 * l)%nat -> bigsum (2 * l + 1) (fun s => Tm c s * Yat l p (Z.of_nat s - Z.of_nat l)) = Yat l q (Z.of_nat c - Z.of_nat l)).
  { intros c Hc. apply (block_rotates (fun _ => (- ga, - be, - al)) deg 1 0 0 1 (- ga) (- be) (- al) l c p); try (assumption || lia).
    unfold euler. destruct (Reqb_spec 1 0); [lra|reflexivity]. }
  pose proof (block_rotates as_euler deg x y z t al be ga l r q He Hl Hr Hq) as ER. fold Rm in ER.
  assert (Eq : rot_z ga (rot_y be (rot_z al q)) = p).
  { unfold q. set (w := rot_y (- be) (rot_z (- ga) p)). replace (rot_z al (rot_z (- al) w)) with w by (symmetry; replace al with (- - al) at 1 by ring; apply rot_z_inv).
    unfold w. set (w2 := rot_z (- ga) p). replace (rot_y be (rot_y (- be) w2)) with w2 by (symmetry; replace be with (- - be) at 1 by ring; apply rot_y_inv).
    unfold w2. replace ga with (- - ga) at 1 by ring. apply rot_z_inv. }
  rewrite Eq in ER.
  rewrite (bigsum_ext _ _ (fun s => bigsum (2 * l + 1) (fun c => Rm r c * (Tm c s * Yat l p (Z.of_nat s - Z.of_nat l))) + - ((if Nat.eqb r s then 1 else 0) * Yat l p (Z.of_nat s - Z.of_nat l)))).
  2:{ intros s _. rewrite Rmult_minus_distr_r. unfold Rminus. f_equal. rewrite Rmult_comm, <- bigsum_scal. apply bigsum_ext. intros c _. rewrite (HT s c). ring. }
  rewrite bigsum_plus, bigsum_swap. rewrite (bigsum_ext _ _ (fun c => Rm r c * Yat l q (Z.of_nat c - Z.of_nat l))).
  2:{ intros c Hc. rewrite bigsum_scal. f_equal. apply ET. lia. }
  rewrite ER. rewrite (bigsum_single (2 * l + 1) r); [|lia|intros i Hi Hne; destruct (Nat.eqb_spec r i); [congruence|ring]].
  rewrite Nat.eqb_refl. ring.
Qed.
Lemma dot_rotation_power deg x y z t M r l : x <> None \/ y <> None -> length M = ncoef deg -> dot_rotation_matrix as_euler deg x y z (Some t) M = Ok r ->
  (l <= deg)%nat -> degree_power r l = degree_power M l.
Proof.
  intros Hxy HM Hr Hl.
  assert (Er : r = dot_blocks deg (rotation_matrix as_euler deg (angle0 x) (angle0 y) (angle0 z) t) M).
  { unfold dot_rotation_matrix in Hr. rewrite nmax_ncoef, (proj2 (Nat.eqb_eq _ _) HM) in Hr. destruct x, y; try (injection Hr as <-; reflexivity). destruct Hxy; contradiction. }
  subst r. unfold degree_power. set (Rm := rotation_matrix as_euler deg (angle0 x) (angle0 y) (angle0 z) t l). set (m := fun r => nth (l * l + r) M 0).
  rewrite (bigsum_ext _ _ (fun c => bigsum (2 * l + 1) (fun a => bigsum (2 * l + 1) (fun b => m a * m b * (Rm a c * Rm b c))))).
  2:{ intros c Hc. rewrite dot_blocks_nth by lia. fold Rm. change (bigsum (2 * l + 1) (fun r => m r * Rm r c) ^ 2 = bigsum (2 * l + 1) (fun a => bigsum (2 * l + 1) (fun b => m a * m b * (Rm a c * Rm b c)))).
      set (S := bigsum (2 * l + 1) (fun r => m r * Rm r c)). replace (S ^ 2) with (S * S) by ring. unfold S at 1. rewrite Rmult_comm, <- bigsum_scal. apply bigsum_ext. intros a _.
      unfold S. rewrite Rmult_comm, <- bigsum_scal. apply bigsum_ext. intros. ring. }
  rewrite bigsum_swap. apply bigsum_ext. intros a Ha. rewrite bigsum_swap.
  rewrite (bigsum_ext _ _ (fun b => m a * m b * (if Nat.eqb a b then 1 else 0))).
  - rewrite (bigsum_single (2 * l + 1) a); [|lia|intros i Hi Hne; destruct (Nat.eqb_spec a i); [congruence|ring]]. rewrite Nat.eqb_refl. unfold m. ring.
  - intros b Hb. rewrite bigsum_scal. f_equal. apply block_orthogonal; lia.
Qed.
End Orth.

(** * projections *)
Section Project.
Variable as_euler : R * R * R -> R * R * R.
Hypothesis Hzyz : zyz_euler as_euler.
Lemma rot_x_sphere t p : sphere3 p -> sphere3 (rot_x t p).
Proof. rewrite <- rot_axis_x. apply rot_axis_sphere. unfold unit3, dot3. ring. Qed.
Lemma rot_z_sphere t p : sphere3 p -> sphere3 (rot_z t p).
Proof. rewrite <- rot_axis_z. apply rot_axis_sphere. unfold unit3, dot3. ring. Qed.
(** the rotation by the axis and angle of sky_projection_axis_angle *)
Lemma dot_unit deg a b c t M : unit3 (a, b, c) -> length M = ncoef deg ->
  exists r, dot_rotation_matrix as_euler deg (Some a) (Some b) (Some c) (Some t) M = Ok r /\ length r = ncoef deg /\
    forall p, sphere3 p -> map_at deg r p = map_at deg M (rot_axis (a, b, c) t p).
Proof.
  intros Hu HM. destruct (dot_rotation_ok as_euler Hzyz deg (Some a) (Some b) (Some c) t M ltac:(left; discriminate) HM) as (r & H1 & H2 & H3).
  - intros _. cbn [angle0]. now apply unit3_nz.
  - exists r. split; [exact H1|split; [exact H2|]]. intros p Hp. rewrite H3 by exact Hp. cbn [angle0]. now rewrite norm3_unit.
Qed.
Lemma dot_x deg s t M : s = 1 \/ s = -1 -> length M = ncoef deg ->
  exists r, dot_rotation_matrix as_euler deg (Some s) None None (Some t) M = Ok r /\ length r = ncoef deg /\
    forall p, sphere3 p -> map_at deg r p = map_at deg M (rot_x (s * t) p).
Proof.
  intros Hs HM. assert (Hu : unit3 (s, 0, 0)) by (unfold unit3, dot3; destruct Hs as [-> | ->]; ring).
  destruct (dot_rotation_ok as_euler Hzyz deg (Some s) None None t M ltac:(left; discriminate) HM) as (r & H1 & H2 & H3).
  - intros _. cbn [angle0]. now apply unit3_nz.
  - exists r. split; [exact H1|split; [exact H2|]]. intros p Hp. rewrite H3 by exact Hp. cbn [angle0]. rewrite norm3_unit by exact Hu. f_equal.
    rewrite <- rot_axis_x. destruct p as [[x y] z]. unfold rot_axis, add3, scal3, cross3, dot3. destruct Hs as [-> | ->].
    + replace (1 * t) with t by ring. reflexivity.
    + replace (-1 * t) with (- t) by ring. rewrite cos_neg, sin_neg. apply triple_eq; ring.
Qed.
Lemma dot_z deg s (t : option R) M : length M = ncoef deg ->
  exists r, dot_rotation_matrix as_euler deg None None (Some s) t M = Ok r /\ length r = ncoef deg /\
    forall p, map_at deg r p = map_at deg M (rot_z (angle0 t) p).
Proof.
  intros HM. destruct t as [t|]; cbn [dot_rotation_matrix angle0].
  - destruct (dot_rz_ok deg t M HM) as (r & H1 & H2 & _). exists r. split; [exact H1|split; [exact H2|]]. intros p. now apply dot_rz_map.
  - exists M. split; [reflexivity|split; [exact HM|]]. intros p. now rewrite <- rot_axis_z, rot_axis_zero.
Qed.
(** the middle rotation of left_project *)
Definition sky_rot (inc obl : option R) (p : vec3) : vec3 :=
  match inc, obl with
  | None, Some o => rot_z o p
  | _, _ => rot_x (angle0 inc) (rot_z (- angle0 obl) p)
  end.
Lemma sky_rot_sphere inc obl p : sphere3 p -> sphere3 (sky_rot inc obl p).
Proof. intros H. unfold sky_rot. destruct inc, obl; repeat (apply rot_x_sphere || apply rot_z_sphere); exact H. Qed.
Lemma rot_x_0 p : rot_x 0 p = p.
Proof. now rewrite <- rot_axis_x, rot_axis_zero. Qed.
Lemma rot_z_0 p : rot_z 0 p = p.
Proof. now rewrite <- rot_axis_z, rot_axis_zero. Qed.
Lemma dot_sky deg inc obl M : length M = ncoef deg ->
  let '(ax, ay, az, angle) := sky_projection_axis_angle inc obl in
  exists r, dot_rotation_matrix as_euler deg ax ay az angle M = Ok r /\ length r = ncoef deg /\
    forall p, sphere3 p -> map_at deg r p = map_at deg M (sky_rot inc obl p).
Proof.
  intros HM. destruct inc as [i|], obl as [o|].
  - destruct (sky_projection_ok i o) as (ax & ay & az & an & -> & Hu & HR). destruct (dot_unit deg ax ay az an M Hu HM) as (r & H1 & H2 & H3).
    exists r. split; [exact H1|split; [exact H2|]]. intros p Hp. rewrite H3 by exact Hp. f_equal. apply HR.
  - cbn [sky_projection_axis_angle]. destruct (dot_x deg 1 i M ltac:(auto) HM) as (r & H1 & H2 & H3). exists r. split; [exact H1|split; [exact H2|]].
    intros p Hp. rewrite H3 by exact Hp. f_equal. cbn [sky_rot angle0]. rewrite Ropp_0, rot_z_0, Rmult_1_l. reflexivity.
  - cbn [sky_projection_axis_angle]. destruct (dot_z deg 1 (Some o) M HM) as (r & H1 & H2 & H3). exists r. split; [exact H1|split; [exact H2|]]. intros p _. apply H3.
  - cbn [sky_projection_axis_angle]. exists M. split; [reflexivity|split; [exact HM|]]. intros p _. cbn [sky_rot angle0]. now rewrite Ropp_0, rot_z_0, rot_x_0.
Qed.
Lemma left_project_ok deg inc obl theta theta_z y : length y = ncoef deg ->
  exists r, left_project as_euler deg inc obl theta theta_z y = Ok r /\ length r = ncoef deg /\
    forall p, sphere3 p -> map_at deg r p =
      map_at deg y (rot_x (- (PI / 2)) (rot_z (- angle0 theta) (sky_rot inc obl (rot_z (- angle0 theta_z) p)))).
Proof.
  intros Hy. unfold left_project. pose proof (fun M => dot_sky deg inc obl M) as HS.
  destruct (sky_projection_axis_angle inc obl) as [[[ax ay] az] an].
  destruct (dot_x deg 1 (- (1 / 2) * PI) y ltac:(auto) Hy) as (r1 & E1 & L1 & V1). rewrite E1. cbn [rbind].
  destruct (dot_z deg 1 (omap Ropp theta) r1 L1) as (r2 & E2 & L2 & V2). rewrite E2. cbn [rbind].
  destruct (HS r2 L2) as (r3 & E3 & L3 & V3). rewrite E3. cbn [rbind].
  destruct (dot_z deg 1 (omap Ropp theta_z) r3 L3) as (r4 & E4 & L4 & V4). rewrite E4.
  assert (Ho : forall a, angle0 (omap Ropp a) = - angle0 a) by (intros [a|]; cbn; ring).
  exists r4. split; [reflexivity|split; [exact L4|]]. intros p Hp. rewrite V4, V3, V2, V1, !Ho by (repeat (apply rot_z_sphere || apply sky_rot_sphere); exact Hp).
  f_equal. f_equal. field.
Qed.
(** the middle rotation of right_project *)
Definition sky_back (inc obl : option R) (p : vec3) : vec3 :=
  match inc, obl with
  | None, Some o => rot_z o p
  | _, _ => rot_z (angle0 obl) (rot_x (- angle0 inc) p)
  end.
Lemma sky_back_sphere inc obl p : sphere3 p -> sphere3 (sky_back inc obl p).
Proof. intros H. unfold sky_back. destruct inc, obl; repeat (apply rot_x_sphere || apply rot_z_sphere); exact H. Qed.
Lemma rot_axis_opp a b c t p : rot_axis (- a, - b, - c) t p = rot_axis (a, b, c) (- t) p.
Proof. destruct p as [[x y] z]. unfold rot_axis, add3, scal3, cross3, dot3. rewrite cos_neg, sin_neg. apply triple_eq; ring. Qed.
Lemma rot_x_add s t p : rot_x s (rot_x t p) = rot_x (s + t) p.
Proof. rewrite <- !rot_axis_x. apply rot_axis_add. unfold unit3, dot3. ring. Qed.
Lemma rot_z_add s t p : rot_z s (rot_z t p) = rot_z (s + t) p.
Proof. rewrite <- !rot_axis_z. apply rot_axis_add. unfold unit3, dot3. ring. Qed.
Lemma dot_sky_back deg inc obl M : length M = ncoef deg ->
  let '(ax, ay, az, angle) := sky_projection_axis_angle inc obl in
  exists r, dot_rotation_matrix as_euler deg (omap Ropp ax) (omap Ropp ay) (omap Ropp az) angle M = Ok r /\ length r = ncoef deg /\
    forall p, sphere3 p -> map_at deg r p = map_at deg M (sky_back inc obl p).
Proof.
  intros HM. destruct inc as [i|], obl as [o|].
  - destruct (sky_projection_ok i o) as (ax & ay & az & an & -> & Hu & HR). cbn [omap].
    assert (Hu' : unit3 (- ax, - ay, - az)) by (unfold unit3, dot3 in *; lra).
    destruct (dot_unit deg (- ax) (- ay) (- az) an M Hu' HM) as (r & H1 & H2 & H3).
    exists r. split; [exact H1|split; [exact H2|]]. intros p Hp. rewrite H3 by exact Hp. f_equal. rewrite rot_axis_opp. cbn [sky_back angle0].
    set (q := rot_z o (rot_x (- i) p)). assert (E : rot_axis (ax, ay, az) an q = p).
    { rewrite HR. unfold q. rewrite rot_z_add. replace (- o + o) with 0 by ring. rewrite rot_z_0, rot_x_add. replace (i + - i) with 0 by ring. apply rot_x_0. }
    rewrite <- E at 1. rewrite rot_axis_add by exact Hu. replace (- an + an) with 0 by ring. apply rot_axis_zero.
  - cbn [sky_projection_axis_angle omap]. destruct (dot_x deg (-1) i M ltac:(auto) HM) as (r & H1 & H2 & H3). exists r. split; [exact H1|split; [exact H2|]].
    intros p Hp. rewrite H3 by exact Hp. f_equal. cbn [sky_back angle0]. rewrite rot_z_0. f_equal. ring.
  - cbn [sky_projection_axis_angle omap]. destruct (dot_z deg (Ropp 1) (Some o) M HM) as (r & H1 & H2 & H3). exists r. split; [exact H1|split; [exact H2|]]. intros p _. apply H3.
  - cbn [sky_projection_axis_angle omap]. exists M. split; [reflexivity|split; [exact HM|]]. intros p _. cbn [sky_back angle0]. now rewrite Ropp_0, rot_z_0, rot_x_0.
Qed.
Lemma right_project_ok deg inc obl theta theta_z y : length y = ncoef deg ->
  exists r, right_project as_euler deg inc obl theta theta_z y = Ok r /\ length r = ncoef deg /\
    forall p, sphere3 p -> map_at deg r p =
      map_at deg y (rot_z (angle0 theta_z) (sky_back inc obl (rot_z (angle0 theta) (rot_x (PI / 2) p)))).
Proof.
  intros Hy. unfold right_project. pose proof (fun M => dot_sky_back deg inc obl M) as HS.
  destruct (sky_projection_axis_angle inc obl) as [[[ax ay] az] an].
  destruct (dot_z deg 1 theta_z y Hy) as (r1 & E1 & L1 & V1). rewrite E1. cbn [rbind].
  destruct (HS r1 L1) as (r2 & E2 & L2 & V2). rewrite E2. cbn [rbind].
  destruct (dot_z deg 1 theta r2 L2) as (r3 & E3 & L3 & V3). rewrite E3. cbn [rbind].
  destruct (dot_x deg 1 (1 / 2 * PI) r3 ltac:(auto) L3) as (r4 & E4 & L4 & V4). rewrite E4.
  exists r4. split; [reflexivity|split; [exact L4|]]. intros p Hp.
  rewrite V4, V3, V2, V1 by (repeat (apply rot_z_sphere || apply rot_x_sphere); exact Hp). replace (1 * (1 / 2 * PI)) with (PI / 2) by field. reflexivity.
Qed.
Lemma right_left deg inc obl theta theta_z y r : inc <> None \/ obl = None -> length y = ncoef deg ->
  left_project as_euler deg inc obl theta theta_z y = Ok r -> right_project as_euler deg inc obl theta theta_z r = Ok y.
Proof.
  intros Hio Hy Hr. destruct (left_project_ok deg inc obl theta theta_z y Hy) as (r1 & E1 & L1 & V1). rewrite Hr in E1. injection E1 as <-.
  destruct (right_project_ok deg inc obl theta theta_z r L1) as (r2 & E2 & L2 & V2). rewrite E2. f_equal. apply (map_unique deg); auto. intros p Hp.
  rewrite V2 by exact Hp. rewrite V1 by (repeat (apply rot_z_sphere || apply rot_x_sphere || apply sky_back_sphere); exact Hp). f_equal.
  rewrite rot_z_add. replace (- angle0 theta_z + angle0 theta_z) with 0 by ring. rewrite rot_z_0.
  assert (ES : forall q, sky_rot inc obl (sky_back inc obl q) = q).
  { intros q. unfold sky_rot, sky_back. destruct inc as [i|], obl as [o|]; try (destruct Hio as [Hio|Hio]; [congruence|discriminate]);
      rewrite rot_z_add, rot_x_add || (rewrite rot_z_add; cbn [angle0]);
      repeat match goal with |- context [- ?a + ?a] => replace (- a + a) with 0 by ring | |- context [?a + - ?a] => replace (a + - a) with 0 by ring end; rewrite ?rot_z_0, ?rot_x_add; 
      repeat match goal with |- context [- ?a + ?a] => replace (- a + a) with 0 by ring | |- context [?a + - ?a] => replace (a + - a) with 0 by ring end; now rewrite ?rot_x_0. }
  rewrite ES, rot_z_add. replace (- angle0 theta + angle0 theta) with 0 by ring. rewrite rot_z_0, rot_x_add. replace (- (PI / 2) + PI / 2) with 0 by ring. apply rot_x_0.
Qed.
Lemma project_err deg inc obl theta theta_z y : length y <> ncoef deg ->
  left_project as_euler deg inc obl theta theta_z y = Err ValueError.
Proof.
  intros Hy. unfold left_project. destruct (sky_projection_axis_angle inc obl) as [[[ax ay] az] an].
  rewrite (dot_rotation_err as_euler deg (Some 1) None None) by (assumption || (left; discriminate)). reflexivity.
Qed.
End Project.

(** * left then right with only the obliquity given *)
Lemma legendre_1_0 t : legendre_deriv 1 0 t = t.
Proof.
  unfold legendre_deriv. cbn [Nat.add Derive_n]. rewrite (is_derive_unique _ t (2 * t)).
  - cbn [pow fact INR]. simpl INR. field.
  - auto_derive; [exact I|]. ring.
Qed.
Section Bad.
Variable as_euler : R * R * R -> R * R * R.
Hypothesis Hzyz : zyz_euler as_euler.
Lemma right_left_no_inc deg o theta theta_z y r : length y = ncoef deg ->
  left_project as_euler deg None (Some o) theta theta_z y = Ok r ->
  exists r', right_project as_euler deg None (Some o) theta theta_z r = Ok r' /\
    forall p, sphere3 p -> map_at deg r' p = map_at deg y (rot_x (- (PI / 2)) (rot_z (2 * o) (rot_x (PI / 2) p))).
Proof.
  intros Hy Hr. destruct (left_project_ok as_euler Hzyz deg None (Some o) theta theta_z y Hy) as (r1 & E1 & L1 & V1). rewrite Hr in E1. injection E1 as <-.
  destruct (right_project_ok as_euler Hzyz deg None (Some o) theta theta_z r L1) as (r2 & E2 & L2 & V2). exists r2. split; [exact E2|]. intros p Hp.
  rewrite V2 by exact Hp. rewrite V1 by (repeat (apply rot_z_sphere || apply rot_x_sphere || apply sky_back_sphere); exact Hp). f_equal. f_equal.
  unfold sky_rot, sky_back. rewrite !rot_z_add. f_equal. ring.
Qed.
Lemma right_left_no_inc_bad : exists y r r', length y = ncoef 1 /\
  left_project as_euler 1 None (Some (PI / 2)) None None y = Ok r /\ right_project as_euler 1 None (Some (PI / 2)) None None r = Ok r' /\ r' <> y.
Proof.
  assert (Hy : length [0; 0; 1; 0] = ncoef 1) by reflexivity. exists [0; 0; 1; 0].
  destruct (left_project_ok as_euler Hzyz 1 None (Some (PI / 2)) None None _ Hy) as (r & E1 & L1 & _). exists r.
  destruct (right_left_no_inc 1 (PI / 2) None None _ r Hy E1) as (r' & E2 & V). exists r'. split; [exact Hy|split; [exact E1|split; [exact E2|]]].
  intros ->. specialize (V (0, 0, 1) ltac:(unfold sphere3, dot3; ring)).
  replace (rot_x (- (PI / 2)) (rot_z (2 * (PI / 2)) (rot_x (PI / 2) (0, 0, 1)))) with ((0, 0, -1) : vec3) in V.
  2:{ replace (2 * (PI / 2)) with PI by field. unfold rot_x, rot_z. rewrite cos_neg, sin_neg, cos_PI2, sin_PI2, cos_PI, sin_PI. apply triple_eq; ring. }
  rewrite !map_at_Yat in V. cbn [bigsum Nat.mul Nat.add nth] in V.
  rewrite !Rmult_0_l, !Rplus_0_l, !Rmult_1_l, !Rplus_0_r in V. change (Z.of_nat 1 - Z.of_nat 1)%Z with 0%Z in V.
  unfold Yat, real_Y in V. cbn [Z.abs_nat cpow Z.ltb Z.compare fst] in V. rewrite !legendre_1_0 in V. pose proof (harmonic_norm_pos 1 0). lra.
Qed.
End Bad.
