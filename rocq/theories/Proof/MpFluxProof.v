(** multiprecision/flux.py. *)
From Coq Require Import Reals Lra Lia ZArith List Bool Arith.
From Coquelicot Require Import Coquelicot.
From Verif Require Import Base.RealAux Base.Dict Model.Poly Model.Basis Model.Rotation Model.Solution Model.SolutionVector Model.Surface Model.StarryLightCurve
  Model.MpBasis Model.MpLightCurve Model.MpSolution Model.MpRotation Model.MpFlux
  Spec.PolySpec Spec.HarmonicSpec Spec.RotationSpec Spec.BasisSpec Spec.DiskSpec Spec.OccultSpec Spec.YlmSpec Spec.SurfaceSpec Spec.SkySpec Spec.QuadSpec Spec.MpRotationSpec Spec.MpFluxSpec
  Proof.PolyProof Proof.BasisProof Proof.RotationProof Proof.AxisAngle Proof.Euler Proof.RotationMap Proof.SurfaceProof Proof.StarryProof Proof.Monomial Proof.OccultedSky Proof.OccultedFlux
  Proof.WignerRot Proof.Edge Proof.GreenLine Proof.GreenFamilies Proof.SolutionGreen Proof.YlmMore Proof.MpA1 Proof.MpA2 Proof.MpGreen Proof.MpLight Proof.MpSolutionProof Proof.MpWigner Proof.MpRotationProof Proof.MpRotationDot.
From Verif Require Proof.HarmonicProof Proof.GreenProof Proof.YlmFacts Proof.RTProof Proof.SystemExamples.
Import ListNotations.
Open Scope R_scope.

(** * the rotated map *)
Lemma mp_R_nudged Uinv tol prec u t : tol <> 0 -> mp_R Uinv tol prec u t = mp_R Uinv tol prec u (nudged tol t).
Proof.
  intros Ht. unfold nudged. destruct (Req_EM_T t 0) as [->|]; [|reflexivity]. unfold mp_R. destruct u as [[u1 u2] u3]. destruct (Reqb _ 0); [reflexivity|].
  assert (E : forall a b c, mp_axis_angle_to_euler tol a b c 0 = mp_axis_angle_to_euler tol a b c tol); [|now rewrite E].
  intros. unfold mp_axis_angle_to_euler. rewrite (proj2 (Reqb_true 0 0) eq_refl). destruct (Reqb tol 0) eqn:E; [apply Reqb_true in E; contradiction|reflexivity].
Qed.
Lemma conv_len f r prec v : conv f r -> f prec = Ok v -> length v = length r.
Proof. intros (F & HF & _) E. destruct (HF prec) as [H1 H2]. rewrite E in H1. injection H1 as ->. exact H2. Qed.
Lemma conv_mats Uinv tol deg u t f M : inverse_of_U Uinv -> 0 < tol -> expressible u t -> length M = ncoef deg -> nth 0 M 0 = 1 -> conv f M ->
  exists m M', (forall prec, mp_R Uinv tol prec u t = Ok (m prec)) /\ length M' = ncoef deg /\ nth 0 M' 0 = 1 /\ (forall p, sphere3 p -> map_at deg M' p = map_at deg M (rot_axis (direction u) t p)) /\
    conv (fun prec => rbind (f prec) (mp_dot_matrices deg (m prec))) M'.
Proof.
  intros HU Htol He HM H1 Cf. destruct (mp_R_angles Uinv tol u t Htol He) as (a & b & g & HR & _). destruct (conv_dot Uinv tol deg u t f M HU Htol He HM H1 Cf) as (M' & L' & N' & V' & C').
  exists (fun prec l => mp_rot_matrix Uinv prec l a b g), M'. split; [exact HR|split; [exact L'|split; [exact N'|split; [exact V'|]]]].
  refine (conv_ext _ _ _ _ C'). intros prec. destruct (f prec) as [v|e] eqn:E; [|reflexivity]. cbn [rbind]. pose proof (conv_len _ _ _ _ Cf E) as L.
  unfold mp_dot_rotation. rewrite HR. cbn [rbind]. rewrite do_dot_matrices by congruence. apply do_dot_ok; [congruence|exact (expressible_t _ _ He)].
Qed.
Lemma mp_rz_ok deg t M : length M = ncoef deg -> exists r, mp_dot_rz deg t M = Ok r /\ length r = ncoef deg /\
  (forall l nu, (l <= deg)%nat -> (nu <= 2 * l)%nat -> let m := (Z.of_nat nu - Z.of_nat l)%Z in
    nth (l * l + nu) r 0 = nth (l * l + nu) M 0 * cos (IZR m * - t) + nth (l * l + (2 * l - nu)) M 0 * sin (IZR m * - t)) /\
  forall p, map_at deg r p = map_at deg M (rot_z (- t) p).
Proof.
  intros HM. destruct (dot_rz_ok deg (- t) M HM) as (r & E & L & V). exists r. split; [|split; [exact L|split; [exact V|intros p; now apply (dot_rz_map deg (- t) M)]]].
  unfold mp_dot_rz. unfold dot_rz in E. cbv zeta in *. rewrite nmax_ncoef, HM, Nat.eqb_refl in E. rewrite nmax_ncoef, HM. now rewrite Nat.ltb_irrefl.
Qed.
Lemma conv_rz deg t f M : length M = ncoef deg -> nth 0 M 0 = 1 -> conv f M ->
  exists M', length M' = ncoef deg /\ nth 0 M' 0 = 1 /\ (forall p, map_at deg M' p = map_at deg M (rot_z (- t) p)) /\ conv (fun prec => rbind (f prec) (mp_dot_rz deg t)) M'.
Proof.
  intros HM H1 (F & HF & Hn). destruct (mp_rz_ok deg t M HM) as (M' & E & L & V & W). exists M'. split; [exact L|split; [|split; [exact W|]]].
  - pose proof (V 0%nat 0%nat ltac:(lia) ltac:(lia)) as E0. cbv zeta in E0. cbn [Nat.mul Nat.add Nat.sub Z.of_nat Z.sub Z.opp Z.add] in E0. rewrite E0, H1, Rmult_0_l, cos_0, sin_0. ring.
  - exists (fun prec => match mp_dot_rz deg t (F prec) with Ok v => v | Err _ => [] end). split.
    + intros prec. destruct (HF prec) as [E1 E2]. destruct (mp_rz_ok deg t (F prec) ltac:(congruence)) as (v & Ev & Lv & _). rewrite E1. cbn [rbind]. rewrite Ev. split; [reflexivity|congruence].
    + intros n. destruct (Nat.lt_ge_cases n (ncoef deg)) as [Hlt|Hge].
      * destruct (slot_lm n deg Hlt) as (l & c & Hl & Hc & ->). rewrite (V l c Hl Hc).
        apply (filterlim_ext (fun prec => nth (l * l + c) (F prec) 0 * cos (IZR (Z.of_nat c - Z.of_nat l) * - t) + nth (l * l + (2 * l - c)) (F prec) 0 * sin (IZR (Z.of_nat c - Z.of_nat l) * - t))).
        -- intros prec. destruct (HF prec) as [E1 E2]. destruct (mp_rz_ok deg t (F prec) ltac:(congruence)) as (v & Ev & Lv & Vv & _). rewrite Ev. now rewrite (Vv l c Hl Hc).
        -- cbv zeta. apply tends_plus; apply tends_mult; try apply tends_const; apply Hn.
      * rewrite (nth_overflow M') by lia. apply (filterlim_ext (fun _ => 0)); [|apply tends_const]. intros prec. destruct (HF prec) as [E1 E2]. destruct (mp_rz_ok deg t (F prec) ltac:(congruence)) as (v & Ev & Lv & _). rewrite Ev. now rewrite nth_overflow by lia.
Qed.
Lemma rot_z_sphere a p : sphere3 p -> sphere3 (rot_z a p).
Proof. intros H. rewrite <- rot_axis_z. apply rot_axis_sphere; [unfold unit3, dot3; ring|exact H]. Qed.
Lemma rot_x_sphere a p : sphere3 p -> sphere3 (rot_x a p).
Proof. intros H. rewrite <- rot_axis_x. apply rot_axis_sphere; [unfold unit3, dot3; ring|exact H]. Qed.
Lemma nudged_cos tol t : 0 < tol < 1 -> t = 0 \/ cos t <> 1 -> cos (nudged tol t) <> 1.
Proof.
  intros Ht H. unfold nudged. destruct (Req_EM_T t 0) as [|N]; [|tauto]. pose proof PI2_1 as P. apply Rlt_not_eq. rewrite <- cos_0. apply cos_decreasing_1; pose proof PI_RGT_0; lra.
Qed.
Lemma nudged_sin tol t : 0 < tol < 1 -> t = 0 \/ sin t <> 0 -> sin (nudged tol t) <> 0.
Proof.
  intros Ht H. unfold nudged. destruct (Req_EM_T t 0) as [|N]; [|tauto]. apply Rgt_not_eq. pose proof PI2_1 as P. apply sin_gt_0; lra.
Qed.
Lemma flux_matrices Uinv tol deg inc obl : inverse_of_U Uinv -> 0 < tol < 1 -> (1 <= deg)%nat -> obl = 0 \/ cos obl <> 1 -> inc = PI / 2 \/ cos inc <> 0 ->
  exists m, (forall prec, mp_matrices Uinv tol prec deg inc obl = Ok (Some (m prec))) /\
  forall phi tz y, length y = ncoef deg -> nth 0 y 0 = 1 ->
  exists r r', length r = ncoef deg /\ length r' = ncoef deg /\
    (forall p, sphere3 p -> map_at deg r p = map_at deg y (nudged_point tol inc obl phi p)) /\
    (forall p, sphere3 p -> map_at deg r' p = map_at deg y (nudged_point tol inc obl phi (rot_z (- tz) p))) /\
    conv (fun prec => mp_rotate_y deg (Some (m prec)) phi y) r /\
    conv (fun prec => rbind (mp_rotate_y deg (Some (m prec)) phi y) (fun y => mp_dot_rz deg tz y)) r'.
Proof.
  intros HU Htol Hdeg Hob Hin. assert (T0 : 0 < tol) by lra. assert (Tn : tol <> 0) by lra.
  assert (Ec : cos (1 / 2 * PI) = 0) by (replace (1 / 2 * PI) with (PI / 2) by field; apply cos_PI2).
  assert (Ecn : cos (- (1 / 2) * PI) = 0) by (replace (- (1 / 2) * PI) with (- (PI / 2)) by field; rewrite cos_neg; apply cos_PI2).
  pose proof (expressible_x _ Ec) as X1. pose proof (expressible_x _ Ecn) as X2.
  assert (X3 : expressible (0, 0, 1) (nudged tol (- obl))). { apply expressible_z. apply nudged_cos; [lra|]. rewrite cos_neg. destruct Hob; [left; lra|now right]. }
  assert (X4 : expressible (- cos obl, - sin obl, 0) (nudged tol (1 / 2 * PI - inc))).
  { apply expressible_horizontal. apply nudged_sin; [lra|]. destruct Hin as [->|Hin]; [left; field|right]. replace (1 / 2 * PI - inc) with (PI / 2 - inc) by field. now rewrite sin_shift. }
  (* the matrices do not depend on the map *)
  destruct (mp_R_angles Uinv tol _ _ T0 X2) as (a1 & b1 & g1 & M1 & _). destruct (mp_R_angles Uinv tol _ _ T0 X1) as (a2 & b2 & g2 & M2 & _).
  destruct (mp_R_angles Uinv tol _ _ T0 X3) as (a3 & b3 & g3 & M3 & _). destruct (mp_R_angles Uinv tol _ _ T0 X4) as (a4 & b4 & g4 & M4 & _).
  exists (fun prec => ((fun l => mp_rot_matrix Uinv prec l a1 b1 g1), (fun l => mp_rot_matrix Uinv prec l a2 b2 g2), (fun l => mp_rot_matrix Uinv prec l a3 b3 g3), (fun l => mp_rot_matrix Uinv prec l a4 b4 g4))). split.
  { intros prec. unfold mp_matrices. destruct (Nat.ltb_spec 0 deg); [|lia]. cbn [R_build]. rewrite M1. cbn [rbind]. rewrite M2. cbn [rbind].
    rewrite (mp_R_nudged Uinv tol prec (0, 0, 1) (- obl) Tn), M3. cbn [rbind]. rewrite (mp_R_nudged Uinv tol prec _ (1 / 2 * PI - inc) Tn), M4. reflexivity. }
  intros phi tz y Ly Ny.
  assert (step : forall u t f M m, expressible u t -> (forall prec, mp_R Uinv tol prec u t = Ok (m prec)) -> length M = ncoef deg -> nth 0 M 0 = 1 -> conv f M ->
    exists M', length M' = ncoef deg /\ nth 0 M' 0 = 1 /\ (forall p, sphere3 p -> map_at deg M' p = map_at deg M (rot_axis (direction u) t p)) /\ conv (fun prec => rbind (f prec) (mp_dot_matrices deg (m prec))) M').
  { intros u t f M m He Hm LM NM Cf. destruct (conv_mats Uinv tol deg u t f M HU T0 He LM NM Cf) as (m' & M' & Hm' & L' & N' & V' & C'). exists M'. split; [exact L'|split; [exact N'|split; [exact V'|]]].
    refine (conv_ext _ _ _ _ C'). intros prec. pose proof (Hm' prec) as E. rewrite Hm in E. injection E as ->. reflexivity. }
  destruct (step _ _ _ _ _ X2 M1 Ly Ny (conv_const y)) as (c1 & L1 & N1 & V1 & C1).
  destruct (conv_rz deg phi _ _ L1 N1 C1) as (c2 & L2 & N2 & V2 & C2).
  destruct (step _ _ _ _ _ X1 M2 L2 N2 C2) as (c3 & L3 & N3 & V3 & C3).
  destruct (step _ _ _ _ _ X3 M3 L3 N3 C3) as (c4 & L4 & N4 & V4 & C4).
  destruct (step _ _ _ _ _ X4 M4 L4 N4 C4) as (c5 & L5 & N5 & V5 & C5).
  destruct (conv_rz deg tz _ _ L5 N5 C5) as (c6 & L6 & N6 & V6 & C6).
  assert (Ux : unit3 (1, 0, 0)) by (unfold unit3, dot3; ring). assert (Uz : unit3 (0, 0, 1)) by (unfold unit3, dot3; ring). assert (Uh := horizontal_unit obl).
  rewrite (proj2 (direction_of_unit _ Ux)) in *. rewrite (proj2 (direction_of_unit _ Uz)) in *. rewrite (proj2 (direction_of_unit _ Uh)) in *.
  assert (V : forall p, sphere3 p -> map_at deg c5 p = map_at deg y (nudged_point tol inc obl phi p)).
  { intros p Hp. rewrite V5 by exact Hp. set (q := rot_axis (- cos obl, - sin obl, 0) (nudged tol (1 / 2 * PI - inc)) p). assert (Hq : sphere3 q) by (now apply rot_axis_sphere).
    rewrite V4 by exact Hq. rewrite rot_axis_z. set (q2 := rot_z (nudged tol (- obl)) q). assert (Hq2 : sphere3 q2) by now apply rot_z_sphere.
    rewrite V3 by exact Hq2. rewrite rot_axis_x, V2. rewrite V1 by (apply rot_z_sphere, rot_x_sphere, Hq2). rewrite rot_axis_x.
    unfold q2, q, nudged_point. replace (1 / 2 * PI) with (PI / 2) by field. replace (- (1 / 2) * PI) with (- (PI / 2)) by field. reflexivity. }
  exists c5, c6. split; [exact L5|split; [exact L6|split; [exact V|split; [|split]]]].
  - intros p Hp. rewrite V6. apply V. now apply rot_z_sphere.
  - refine (conv_ext _ _ _ _ C5). intros prec. cbn [rbind mp_rotate_y]. destruct (mp_dot_matrices deg _ y) as [v|e]; [|reflexivity]. cbn [rbind]. destruct (mp_dot_rz deg phi v) as [v'|e]; [|reflexivity]. cbn [rbind]. destruct (mp_dot_matrices deg _ v') as [v''|e]; [|reflexivity]. reflexivity.
  - refine (conv_ext _ _ _ _ C6). intros prec. cbn [rbind mp_rotate_y]. destruct (mp_dot_matrices deg _ y) as [v|e]; [|reflexivity]. cbn [rbind]. destruct (mp_dot_rz deg phi v) as [v'|e]; [|reflexivity]. cbn [rbind]. destruct (mp_dot_matrices deg _ v') as [v''|e]; [|reflexivity]. cbn [rbind].
    destruct (mp_dot_matrices deg _ v'') as [v3|e]; reflexivity.
Qed.

(** * the dense product *)
Lemma coef_get0 d n : valid_dict d -> coef d n = get0 (n2ijk (Z.of_nat n)) d.
Proof.
  intros [Nd V]. destruct (in_dec (fun a b : ijk => match Bool.bool_dec (ijk_eqb a b) true with left e => left (proj1 (ijk_eqb_eq a b) e) | right e => right (fun q => e (proj2 (ijk_eqb_eq a b) q)) end) (n2ijk (Z.of_nat n)) (keys d)) as [I|I].
  - unfold keys in I. apply in_map_iff in I. destruct I as ([k v] & E & I). cbn [fst] in E. rewrite (get0_In _ v) by (exact Nd || (rewrite <- E; exact I)).
    unfold coef. clear -Nd V I E. revert Nd V I. induction d as [|[k' v'] d IH]; [intros _ _ []|]. cbn [map fst snd]. intros Nd V [H|H]; cbn [Rsum fold_right].
    + injection H as -> ->. replace (idx k) with (Z.of_nat n) by (rewrite E; symmetry; apply idx_n2ijk; lia). rewrite Z.eqb_refl. inversion Nd as [|a b Ni Nd']; subst. change (fold_right Rplus 0) with Rsum.
      assert (Z0 : Rsum (map (fun kv => if (idx (fst kv) =? Z.of_nat n)%Z then snd kv else 0) d) = 0); [|rewrite Z0; ring].
      clear IH. assert (V' : forall k, In k (map fst d) -> valid_ijk k) by (intros; apply V; now right). clear V Nd. induction d as [|[k2 v2] d IH]; [reflexivity|]. cbn [map Rsum fold_right fst snd]. change (fold_right Rplus 0) with Rsum.
      rewrite IH; [|cbn [map] in Ni; intros H; apply Ni; now right|inversion Nd'; assumption|intros; apply V'; now right].
      destruct (Z.eqb_spec (idx k2) (Z.of_nat n)) as [e|e]; [|ring]. exfalso. apply Ni. left. cbn [fst]. rewrite <- (n2ijk_idx k2) by (apply V'; now left). now rewrite e.
    + change (fold_right Rplus 0) with Rsum. inversion Nd as [|a b Ni Nd']; subst. rewrite IH; [|exact Nd'|intros; apply V; now right|exact H].
      destruct (Z.eqb_spec (idx k') (Z.of_nat n)) as [e|e]; [|ring]. exfalso. apply Ni. rewrite <- (n2ijk_idx k') by (apply V; now left). rewrite e. apply (in_map fst) in H. exact H.
  - rewrite get0_notin by exact I. unfold coef. clear Nd. revert V I. induction d as [|[k v] d IH]; intros V I; [reflexivity|]. cbn [map Rsum fold_right fst snd]. change (fold_right Rplus 0) with Rsum.
    rewrite IH; [|intros; apply V; now right|intros H; apply I; now right]. destruct (Z.eqb_spec (idx k) (Z.of_nat n)) as [e|e]; [|ring]. exfalso. apply I. left. cbn [fst]. rewrite <- (n2ijk_idx k) by (apply V; now left). now rewrite e.
Qed.
Lemma repr_dense p D f : repr p D f -> exists v, map (fun i => get0 (n2ijk (Z.of_nat i)) (p_data p)) (seq 0 (Z.to_nat (p_degree p + 1) * Z.to_nat (p_degree p + 1))) = v /\ length v = ncoef D /\
  forall x y z, on_sphere x y z -> dense_eval D (fun n => nth n v 0) x y z = f x y z.
Proof.
  intros Rp. destruct (repr_todense _ _ _ Rp) as (v & E & L & V). exists v. split; [|split; assumption]. destruct Rp as (Vd & Ne & Dg & _). rewrite todense_form in E by (exact Ne || apply Vd). injection E as <-.
  rewrite Dg. unfold shape. rewrite Dg. replace (Z.to_nat ((Z.of_nat D + 1) ^ 2)) with (Z.to_nat (Z.of_nat D + 1) * Z.to_nat (Z.of_nat D + 1))%nat by nia. apply map_ext. intros n. symmetry. now apply coef_get0.
Qed.
Lemma mp_A1_mul_eq d y : mp_A1_mul d y = A1_mul d y.
Proof. unfold mp_A1_mul. apply A1m_mul_eq. intros r c _ Hc. now apply mp_A1_entry. Qed.
Lemma row_col_ok a b N : length a = N -> length b = N -> mp_row_col a b = Ok (bigsum N (fun n => nth n a 0 * nth n b 0)).
Proof. intros A B. unfold mp_row_col. rewrite A, B, Nat.eqb_refl. rewrite dotp_bigsum by congruence. now rewrite A. Qed.
Lemma ld_flux_0 : ld_flux [] = PI.
Proof. exact SystemExamples.ld_flux_nil. Qed.
Lemma darken_ok u d y : length y = ncoef d -> ld_flux u <> 0 -> exists q, mp_darken u (mp_A1_mul d y) = Ok (PI / ld_flux u, q) /\ length q = ncoef (d + length u) /\
  forall x y' z, on_sphere x y' z -> dense_eval (d + length u) (fun n => nth n q 0) x y' z = 2 / sqrt PI * map_at d y (x, y', z) * ld_profile u z.
Proof.
  intros Ly Hf. rewrite mp_A1_mul_eq. unfold mp_darken. destruct (Nat.ltb_spec 0 (length u)) as [Hu|Hu].
  - cbv zeta. destruct (ld_row_repr u None (or_introl eq_refl)) as (p1 & E1 & R1). destruct (A1_mul_repr d y None Ly (or_introl eq_refl)) as (p2 & E2 & R2).
    pose proof (repr_dot_rT _ _ _ R1) as DT. fold (ld_flux u) in DT. assert (Lr : length (ld_row u) = ncoef (length u)) by (unfold ld_row; rewrite map_length, seq_length; reflexivity).
    assert (ER : mp_row_col (ld_row u) (rT (length u)) = Ok (ld_flux u)).
    { rewrite (row_col_ok _ _ (ncoef (length u)) Lr (RTProof.rT_length (length u))). apply (f_equal (@Ok R)). unfold ncoef. rewrite (RTProof.rT_dot (length u) (fun n => nth n (ld_row u) 0)). unfold ld_flux. apply disk_ext_in. intros x y' Hd.
      destruct (from_dense_repr (ld_row u) (length u) None Lr (or_introl eq_refl)) as (p' & E' & R'). rewrite E' in E1. injection E1 as ->.
      destruct R1 as (_ & _ & _ & _ & F1). destruct R' as (_ & _ & _ & _ & F'). rewrite <- F' by (apply GreenProof.zdisk_sphere, Hd). rewrite F1 by (apply GreenProof.zdisk_sphere, Hd). reflexivity. }
    rewrite ER. cbn [rbind]. destruct (Reqb (ld_flux u) 0) eqn:E0; [apply Reqb_true in E0; contradiction|]. rewrite E1, E2. cbn [rbind].
    destruct (repr_mul _ _ _ _ _ _ R1 R2) as (p & E & Rp). rewrite E. cbn [rbind]. destruct (repr_dense _ _ _ Rp) as (v & Ev & Lv & Vv). rewrite Ev. exists v. split; [reflexivity|].
    rewrite (Nat.add_comm d). split; [exact Lv|]. intros x y' z Hs. rewrite Vv by exact Hs. ring.
  - destruct u as [|a u]; [|cbn in Hu; lia]. exists (A1_mul d y). rewrite ld_flux_0. replace (PI / PI) with 1 by (field; pose proof PI_RGT_0; lra). split; [reflexivity|]. cbn [length]. rewrite Nat.add_0_r. split; [apply A1_mul_length|].
    intros x y' z Hs. destruct (A1_mul_repr d y None Ly (or_introl eq_refl)) as (p2 & E2 & R2). destruct (from_dense_repr (A1_mul d y) d None (A1_mul_length d y) (or_introl eq_refl)) as (p' & E' & R'). rewrite E' in E2. injection E2 as ->.
    destruct R2 as (_ & _ & _ & _ & F2). destruct R' as (_ & _ & _ & _ & F'). rewrite <- F', F2 by exact Hs. unfold ld_profile. cbn [length bigsum]. ring.
Qed.

(** * the occulted flux of a rotated map *)
Lemma map_scal_nth c l n : nth n (map (fun x => c * x) l) 0 = c * nth n l 0.
Proof. revert n. induction l as [|a l IH]; intros [|n]; cbn [map nth]; try ring. apply IH. Qed.
Lemma mp_vis quad D M b r : exact_quad quad -> right_inverse ((D + 1) * (D + 1)) (A2_inv (Z.of_nat D)) M -> b <> 0 -> 0 < r -> Rabs b < 1 + r -> r < 1 + Rabs b ->
  exists sT, mp_sT quad D b r = Ok sT /\ forall v, vis (Rabs b) r (fun x y => dense_eval D v x y (zdisk x y)) (bigsum ((D + 1) * (D + 1)) (fun n => v n * nth n (vec_mat ((D + 1) * (D + 1)) sT M) 0)).
Proof.
  intros HQ HM Hb Hr H1 H2. assert (Er : Rabs r = r) by (apply Rabs_right; lra). destruct (mp_entries quad D b r HQ Hb ltac:(lra)) as (s & Es & Ls & Vs); [rewrite Er; exact H1|rewrite Er; exact H2|]. rewrite Er in Vs.
  exists s. split; [exact Es|]. intros v. rewrite design_dot by exact Ls. apply vis_dense; [exact HM|]. intros l nu Hl Hnu. rewrite (Vs l nu (gfun l nu) Hl Hnu (gfun_green l nu Hnu)).
  assert (B0 : 0 <= Rabs b) by apply Rabs_pos. destruct (mp_angles (Rabs b) r) as (k1 & CT & _); try lra. assert (V := green_vis l nu (Rabs b) r _ k1 Hnu B0 (Rlt_le _ _ Hr) CT). rewrite (proj2 (vis_disk _ _ _ _ V)). exact V.
Qed.
Lemma occ_of_map quad M b r u d : exact_quad quad -> right_inverse ((d + length u + 1) * (d + length u + 1)) (A2_inv (Z.of_nat (d + length u))) M ->
  b <> 0 -> 0 < r -> Rabs b < 1 + r -> r < 1 + Rabs b -> ld_flux u <> 0 ->
  exists sT, mp_sT quad (d + length u) b r = Ok sT /\ forall y, length y = ncoef d -> exists w,
    rbind (mp_darken u (mp_A1_mul d y)) (fun np => mp_row_col (map (fun c => fst np * c) (snd np)) (vec_mat ((d + length u + 1) * (d + length u + 1)) sT M)) = Ok (PI / ld_flux u * w) /\
    vis (Rabs b) r (fun x y' => 2 / sqrt PI * map_at d y (x, y', zdisk x y') * ld_profile u (zdisk x y')) w.
Proof.
  intros HQ HM Hb Hr H1 H2 Hf. destruct (mp_vis quad _ M b r HQ HM Hb Hr H1 H2) as (sT & Es & Vs). exists sT. split; [exact Es|]. intros y Ly.
  destruct (darken_ok u d y Ly Hf) as (q & Eq & Lq & Vq). rewrite Eq. cbn [rbind fst snd]. eexists. split.
  - rewrite (row_col_ok _ _ (ncoef (d + length u))); [|rewrite map_length; exact Lq|apply vec_mat_length]. rewrite (bigsum_ext _ _ (fun n => PI / ld_flux u * (nth n q 0 * nth n (vec_mat ((d + length u + 1) * (d + length u + 1)) sT M) 0))).
    + rewrite bigsum_scal. reflexivity.
    + intros n _. rewrite map_scal_nth. ring.
  - refine (vis_ext_in _ _ _ _ _ _ (Vs (fun n => nth n q 0))). intros x y' Hd _. apply Vq. apply GreenProof.zdisk_sphere, Hd.
Qed.
Lemma atan2_axis b : Rabs b * sin (atan2 0 b) = 0 /\ Rabs b * cos (atan2 0 b) = b.
Proof. pose proof (polar_atan2 0 b) as H. replace (0 ^ 2 + b ^ 2) with (Rsqr b) in H by (unfold Rsqr; ring). rewrite sqrt_Rsqr_abs in H. exact H. Qed.
(** the visible flux of a map, and its dependence on the coefficients *)
Lemma map_linear d y p : length y = ncoef d -> map_at d y p = bigsum (ncoef d) (fun n => nth n y 0 * map_at d (map (fun i => if Nat.eqb i n then 1 else 0) (seq 0 (ncoef d))) p).
Proof.
  intros Ly. rewrite map_at_Yat.
  rewrite (bigsum_ext (ncoef d) _ (fun n => bigsum (S d) (fun l => bigsum (2 * l + 1) (fun nu => if Nat.eqb (l * l + nu) n then nth n y 0 * Yat l p (Z.of_nat nu - Z.of_nat l) else 0)))).
  - rewrite (bigsum_swap (ncoef d) (S d)). apply bigsum_ext. intros l Hl. rewrite (bigsum_swap (ncoef d) (2 * l + 1)). apply bigsum_ext. intros nu Hnu. symmetry.
    rewrite (bigsum_single _ (l * l + nu)); [now rewrite Nat.eqb_refl|unfold ncoef; nia|]. intros i _ Hi. destruct (Nat.eqb_spec (l * l + nu) i); [congruence|reflexivity].
  - intros n Hn. rewrite map_at_Yat. rewrite <- bigsum_scal. apply bigsum_ext. intros l Hl. rewrite <- bigsum_scal. apply bigsum_ext. intros nu Hnu.
    rewrite nth_map_seq by (unfold ncoef; nia). destruct (Nat.eqb (l * l + nu) n); ring.
Qed.
Definition unit_list (N n : nat) : list R := map (fun i => if Nat.eqb i n then 1 else 0) (seq 0 N).
Definition seen_flux (d : nat) (u : list R) (b r : R) (y : list R) : R := flux_around 0 b r (fun x y' => 2 / sqrt PI * map_at d y (x, y', zdisk x y') * ld_profile u (zdisk x y')).
Lemma seen_linear d u b r y (V : nat -> R) : length y = ncoef d ->
  (forall n, (n < ncoef d)%nat -> vis b r (fun x y' => 2 / sqrt PI * map_at d (unit_list (ncoef d) n) (x, y', zdisk x y') * ld_profile u (zdisk x y')) (V n)) ->
  vis b r (fun x y' => 2 / sqrt PI * map_at d y (x, y', zdisk x y') * ld_profile u (zdisk x y')) (bigsum (ncoef d) (fun n => nth n y 0 * V n)).
Proof.
  intros Ly H. refine (vis_ext _ _ _ _ _ _ (vis_bigsum b r (ncoef d) (fun n x y' => nth n y 0 * (2 / sqrt PI * map_at d (unit_list (ncoef d) n) (x, y', zdisk x y') * ld_profile u (zdisk x y'))) (fun n => nth n y 0 * V n) _)).
  - intros x y'. rewrite (map_linear d y _ Ly). rewrite <- bigsum_scal, Rmult_comm, <- bigsum_scal. apply bigsum_ext. intros n _. unfold unit_list. ring.
  - intros n Hn. apply vis_scal. now apply H.
Qed.
Lemma unit_list_length N n : length (unit_list N n) = N.
Proof. unfold unit_list. now rewrite map_length, seq_length. Qed.
Lemma tends_value (f : R -> result R) F v : (forall prec, f prec = Ok (F prec)) -> tends F v -> approaches_value f v.
Proof. intros H T eps He. destruct (proj1 (tends_spec _ _) T eps He) as (d & Hd & K). exists d. split; [exact Hd|]. intros prec Hp. exists (F prec). split; [apply H|now apply K]. Qed.
Lemma occ_branch b r : Rabs b < 1 + r -> r < 1 + Rabs b -> Rgeb (Rabs b) (r + 1) = false /\ (Rgtb r 1 && Rleb (Rabs b) (r - 1))%bool = false.
Proof. intros H1 H2. unfold Rgeb, Rgtb, Rleb, Rltb. destruct (Rle_dec (r + 1) (Rabs b)); [lra|]. split; [reflexivity|]. destruct (Rle_dec (Rabs b) (r - 1)); [lra|]. apply andb_false_r. Qed.

Theorem mp_flux_map quad Uinv tol A2m d u inc obl b r y phi : exact_quad quad -> inverse_of_U Uinv -> mp_A2_returns (d + length u) (A2m (d + length u)%nat) -> 0 < tol < 1 -> (1 <= d)%nat -> length y = ncoef d -> nth 0 y 0 = 1 ->
  obl = 0 \/ cos obl <> 1 -> inc = PI / 2 \/ cos inc <> 0 -> b <> 0 -> 0 < r -> Rabs b < 1 + r -> r < 1 + Rabs b -> ld_flux u <> 0 ->
  approaches_value (fun prec => mp_flux quad Uinv tol prec A2m d (length u) inc obl b r (Array y) phi u true)
    (PI / ld_flux u * unhidden_flux 0 b r (fun p => 2 / sqrt PI * map_at d y (nudged_point tol inc obl phi p) * ld_profile u (snd p))).
Proof.
  intros HQ HU HA Htol Hd Ly Ny Hob Hin Hb Hr H1 H2 Hf. apply mp_A2_iff in HA. destruct (flux_matrices Uinv tol d inc obl HU Htol Hd Hob Hin) as (m & Em & K).
  destruct (K phi (atan2 0 b) y Ly Ny) as (c & c' & _ & Lc & _ & Vc & _ & (F & HF & TF)). clear K.
  destruct (occ_of_map quad _ b r u d HQ HA Hb Hr H1 H2 Hf) as (sT & Es & W).
  set (V := fun n => seen_flux d u (Rabs b) r (unit_list (ncoef d) n)).
  assert (HV : forall n, (n < ncoef d)%nat -> vis (Rabs b) r (fun x y' => 2 / sqrt PI * map_at d (unit_list (ncoef d) n) (x, y', zdisk x y') * ld_profile u (zdisk x y')) (V n)).
  { intros n _. destruct (W (unit_list (ncoef d) n) (unit_list_length _ _)) as (w & _ & Vw). unfold V, seen_flux. rewrite (proj2 (vis_disk _ _ _ _ Vw)). exact Vw. }
  assert (E0 : unhidden_flux 0 b r (fun p => 2 / sqrt PI * map_at d y (nudged_point tol inc obl phi p) * ld_profile u (snd p)) = bigsum (ncoef d) (fun n => nth n c' 0 * V n)).
  { destruct (atan2_axis b) as [A1 A2]. unfold unhidden_flux.
    transitivity (flux_around (Rabs b * sin (atan2 0 b)) (Rabs b * cos (atan2 0 b)) r (fun x y' => (fun p : vec3 => 2 / sqrt PI * map_at d y (nudged_point tol inc obl phi p) * ld_profile u (snd p)) (x, y', zdisk x y'))); [now rewrite A1, A2|].
    apply (around_rot (fun p : vec3 => 2 / sqrt PI * map_at d y (nudged_point tol inc obl phi p) * ld_profile u (snd p))). refine (vis_ext_in _ _ _ _ _ _ (seen_linear d u (Rabs b) r c' V Lc HV)). intros x y' Hdisk _. rewrite Vc by (apply zdisk_sphere3, Hdisk). reflexivity. }
  rewrite E0. apply (tends_value _ (fun prec => PI / ld_flux u * bigsum (ncoef d) (fun n => nth n (F prec) 0 * V n))).
  - intros prec. unfold mp_flux. rewrite Em. cbn [rbind]. rewrite Nat.eqb_refl. cbn [negb y_list]. rewrite Ly. change ((d + 1) * (d + 1))%nat with (ncoef d). rewrite Nat.eqb_refl. cbn [negb]. rewrite andb_false_r.
    destruct (occ_branch b r H1 H2) as [B1 B2]; rewrite B1, B2. unfold mp_occ_flux. cbv zeta. rewrite Es. cbn [rbind]. unfold mp_occ_map. destruct (Nat.ltb_spec 0 d); [|lia]. cbn [y_tolist rbind]. rewrite (proj1 (HF prec)). cbn [rbind].
    assert (LF : length (F prec) = ncoef d) by (rewrite (proj2 (HF prec)); exact Lc). destruct (W (F prec) LF) as (w & Ew & Vw). rewrite Ew. apply (f_equal (@Ok R)). f_equal.
    pose proof (proj2 (vis_disk _ _ _ _ Vw)) as Q. rewrite <- Q. exact (proj2 (vis_disk _ _ _ _ (seen_linear d u (Rabs b) r (F prec) V LF HV))).
  - apply tends_mult; [apply tends_const|]. apply tends_bigsum. intros n _. apply tends_mult; [apply TF|apply tends_const].
Qed.
Theorem mp_flux_ld quad Uinv tol prec A2m u inc obl b r y phi rotate : exact_quad quad -> mp_A2_returns (length u) (A2m (length u)) -> b <> 0 -> 0 < r -> Rabs b < 1 + r -> r < 1 + Rabs b -> ld_flux u <> 0 ->
  mp_flux quad Uinv tol prec A2m 0 (length u) inc obl b r y phi u rotate = Ok (unhidden_flux 0 b r (fun p => ld_profile u (snd p)) / ld_flux u).
Proof.
  intros HQ HA Hb Hr H1 H2 Hf. apply mp_A2_iff in HA. destruct (occ_of_map quad (A2m (length u)) b r u 0 HQ HA Hb Hr H1 H2 Hf) as (sT & Es & W). cbn [Nat.add] in Es, W.
  unfold mp_flux, mp_matrices. cbn [Nat.ltb Nat.leb rbind]. rewrite Nat.eqb_refl. cbn [negb andb]. destruct (occ_branch b r H1 H2) as [B1 B2]; rewrite B1, B2. unfold mp_occ_flux. cbv zeta. cbn [Nat.add]. rewrite Es. cbn [rbind]. unfold mp_occ_map. cbn [Nat.ltb Nat.leb rbind].
  destruct (W [1] eq_refl) as (w & Ew & Vw). rewrite Ew. apply (f_equal (@Ok R)). pose proof PI_RGT_0 as P. assert (S : 0 < sqrt PI) by (apply sqrt_lt_R0; lra). assert (S2 : sqrt PI * sqrt PI = PI) by (apply sqrt_sqrt; lra).
  apply (vis_scal _ _ _ _ PI) in Vw. apply (vis_ext _ _ _ (fun x y' => (fun p : vec3 => ld_profile u (snd p)) (rot_z (- atan2 0 b) (x, y', zdisk x y')))) in Vw.
  - apply (around_rot (fun p : vec3 => ld_profile u (snd p))) in Vw. destruct (atan2_axis b) as [A1 A2]. rewrite A1, A2 in Vw. unfold unhidden_flux. rewrite Vw. unfold Rdiv. ring.
  - intros x y'. unfold rot_z. cbn [snd]. unfold map_at, harmonic_eval. cbn [bigsum Nat.mul Nat.add]. change (Z.of_nat 0 - Z.of_nat 0)%Z with 0%Z. rewrite YlmFacts.Y00. cbn [nth].
    replace (sqrt (4 * PI)) with (2 * sqrt PI) by (rewrite sqrt_mult by lra; replace 4 with (2 * 2) by ring; rewrite sqrt_square by lra; ring).
    replace (2 / sqrt PI * (0 + (0 + 1 * (1 / (2 * sqrt PI))))) with (/ PI) by (rewrite <- S2 at 1; field; lra). field. lra.
Qed.
(** nothing hidden *)
Theorem mp_flux_clear quad Uinv tol A2m d inc obl b r y phi rotate : inverse_of_U Uinv -> 0 < tol < 1 -> (1 <= d)%nat -> length y = ncoef d -> nth 0 y 0 = 1 ->
  obl = 0 \/ cos obl <> 1 -> inc = PI / 2 \/ cos inc <> 0 -> 1 + r <= Rabs b ->
  approaches_value (fun prec => mp_flux quad Uinv tol prec A2m d 0 inc obl b r (Array y) phi [] rotate) (visible_flux (fun p => 2 / sqrt PI * map_at d y (nudged_point tol inc obl phi p))).
Proof.
  intros HU Htol Hd Ly Ny Hob Hin Hb. destruct (flux_matrices Uinv tol d inc obl HU Htol Hd Hob Hin) as (m & Em & K). destruct (K phi 0 y Ly Ny) as (c & _ & Lc & _ & Vc & _ & (F & HF & TF) & _). clear K.
  set (N := ((d + 1) * (d + 1))%nat). set (W := fun z : list R => bigsum N (fun r => bigsum N (fun n => A1 (Z.of_nat d) (Z.of_nat r) (Z.of_nat n) * nth n z 0) * nth r (rT d) 0)).
  assert (E0 : visible_flux (fun p => 2 / sqrt PI * map_at d y (nudged_point tol inc obl phi p)) = W c).
  { unfold W, N. rewrite (RTProof.rT_dot d (fun r => bigsum ((d + 1) * (d + 1)) (fun n => A1 (Z.of_nat d) (Z.of_nat r) (Z.of_nat n) * nth n c 0))). unfold visible_flux. apply disk_ext_in. intros x y' Hdisk.
    rewrite (HarmonicProof.A1_eval d (fun n => nth n c 0)) by (apply GreenProof.zdisk_sphere, Hdisk). rewrite <- Vc by (apply zdisk_sphere3, Hdisk). reflexivity. }
  rewrite E0. apply (tends_value _ (fun prec => W (F prec))).
  - intros prec. unfold mp_flux. rewrite Em. cbn [rbind length Nat.eqb negb y_list]. rewrite Ly. change ((d + 1) * (d + 1))%nat with (ncoef d). rewrite Nat.eqb_refl. cbn [negb]. rewrite andb_false_r.
    unfold Rgeb, Rleb. destruct (Rle_dec (r + 1) (Rabs b)); [|lra]. unfold mp_rot_flux. cbn [y_tolist rbind]. rewrite (proj1 (HF prec)). cbn [rbind]. rewrite Nat.add_0_r, mp_A1_mul_eq.
    rewrite (row_col_ok _ _ N (A1_mul_length _ _) (RTProof.rT_length d)). apply (f_equal (@Ok R)). unfold W. apply bigsum_ext. intros n Hn. f_equal. unfold A1_mul. apply (nth_map_seq (fun r => bigsum ((d + 1) * (d + 1)) (fun n => A1 (Z.of_nat d) (Z.of_nat r) (Z.of_nat n) * nth n (F prec) 0))). exact Hn.
  - unfold W. apply tends_bigsum. intros n _. apply tends_mult; [|apply tends_const]. apply tends_bigsum. intros k _. apply tends_mult; [apply tends_const|apply TF].
Qed.
(** * the other calls *)
Section Others.
Variables (quad : (R -> R) -> R -> R -> R) (Uinv : nat -> nat -> nat -> C) (tol prec : R) (A2m : nat -> matrix).
Hypothesis HU : inverse_of_U Uinv.
Hypothesis Htol : 0 < tol < 1.
Variables (inc obl : R).
Hypothesis Hob : obl = 0 \/ cos obl <> 1.
Hypothesis Hin : inc = PI / 2 \/ cos inc <> 0.
Lemma matrices_ok d : exists m, mp_matrices Uinv tol prec d inc obl = Ok m /\ (d <> 0%nat -> m <> None).
Proof using HU Htol Hob Hin.
  destruct (Nat.eq_dec d 0) as [->|H]; [exists None; split; [reflexivity|congruence]|]. destruct (flux_matrices Uinv tol d inc obl HU Htol ltac:(lia) Hob Hin) as (m & Em & _). exists (Some (m prec)). split; [apply Em|discriminate].
Qed.
Lemma flux_assert d udeg b r y phi u rotate : length u <> udeg \/ (d <> 0%nat /\ length (y_list y) <> ncoef d) -> mp_flux quad Uinv tol prec A2m d udeg inc obl b r y phi u rotate = Err AssertionError.
Proof using HU Htol Hob Hin.
  intros H. destruct (matrices_ok d) as (m & Em & _). unfold mp_flux. rewrite Em. cbn [rbind]. destruct (Nat.eqb_spec (length u) udeg) as [E|E]; [|reflexivity]. cbn [negb]. destruct H as [H|[H1 H2]]; [contradiction|].
  destruct (Nat.ltb_spec 0 d); [|lia]. destruct (Nat.eqb_spec (length (y_list y)) ((d + 1) * (d + 1))); [unfold ncoef in H2; contradiction|reflexivity].
Qed.
Lemma flux_total d u b r y phi rotate : d = 0%nat \/ length (y_list y) = ncoef d -> 1 < r -> Rabs b <= r - 1 -> mp_flux quad Uinv tol prec A2m d (length u) inc obl b r y phi u rotate = Ok 0.
Proof using HU Htol Hob Hin.
  intros H H1 H2. destruct (matrices_ok d) as (m & Em & _). unfold mp_flux. rewrite Em. cbn [rbind]. rewrite Nat.eqb_refl. cbn [negb].
  replace ((0 <? d) && negb (length (y_list y) =? (d + 1) * (d + 1)))%nat%bool with false.
  2:{ destruct H as [H|H]; rewrite H; [reflexivity|]. unfold ncoef. rewrite Nat.eqb_refl. symmetry. apply andb_false_r. }
  unfold Rgeb, Rgtb, Rltb, Rleb. destruct (Rle_dec (r + 1) (Rabs b)); [lra|]. destruct (Rlt_dec 1 r); [|lra]. destruct (Rle_dec (Rabs b) (r - 1)); [reflexivity|lra].
Qed.
Lemma flux_centred d u r y phi rotate : d = 0%nat \/ length (y_list y) = ncoef d -> -1 < r <= 1 -> mp_flux quad Uinv tol prec A2m d (length u) inc obl 0 r y phi u rotate = Err ZeroDivisionError.
Proof using HU Htol Hob Hin.
  intros H H1. destruct (matrices_ok d) as (m & Em & _). unfold mp_flux. rewrite Em. cbn [rbind]. rewrite Nat.eqb_refl. cbn [negb].
  replace ((0 <? d) && negb (length (y_list y) =? (d + 1) * (d + 1)))%nat%bool with false.
  2:{ destruct H as [H|H]; rewrite H; [reflexivity|]. unfold ncoef. rewrite Nat.eqb_refl. symmetry. apply andb_false_r. }
  rewrite Rabs_R0. unfold Rgeb, Rgtb, Rltb, Rleb. destruct (Rle_dec (r + 1) 0); [lra|]. destruct (Rlt_dec 1 r); [lra|]. cbn [andb]. unfold mp_occ_flux. cbv zeta. rewrite mp_zero by now left. reflexivity.
Qed.
Lemma flux_clear_dark d u b r y phi rotate : d <> 0%nat -> length y = ncoef d -> u <> [] -> 1 + r <= Rabs b -> mp_flux quad Uinv tol prec A2m d (length u) inc obl b r (Array y) phi u rotate = Err ValueError.
Proof using HU Htol Hob Hin.
  intros Hd Ly Hu Hb. destruct (flux_matrices Uinv tol d inc obl HU Htol ltac:(lia) Hob Hin) as (m & Em & _). unfold mp_flux. rewrite Em. cbn [rbind]. rewrite Nat.eqb_refl. cbn [negb y_list]. rewrite Ly. change ((d + 1) * (d + 1))%nat with (ncoef d). rewrite Nat.eqb_refl. cbn [negb]. rewrite andb_false_r.
  unfold Rgeb, Rleb. destruct (Rle_dec (r + 1) (Rabs b)); [|lra]. unfold mp_rot_flux. cbn [y_tolist rbind].
  assert (K : exists z, mp_rotate_y d (Some (m prec)) phi y = Ok z).
  { destruct (m prec) as [[[px mx] ob] ic]. cbn [mp_rotate_y]. rewrite do_dot_matrices by exact Ly. cbn [rbind]. destruct (mp_rz_ok d phi (dot_one d px y) (dot_one_length _ _ _)) as (v & Ev & Lv & _). rewrite Ev. cbn [rbind]. rewrite do_dot_matrices by exact Lv. cbn [rbind].
    rewrite do_dot_matrices by apply dot_one_length. cbn [rbind]. rewrite do_dot_matrices by apply dot_one_length. eexists. reflexivity. }
  destruct K as (z & ->). cbn [rbind]. unfold mp_row_col. rewrite mp_A1_mul_eq, A1_mul_length, RTProof.rT_length. unfold ncoef. destruct (Nat.eqb_spec ((d + 1) * (d + 1)) ((d + length u + 1) * (d + length u + 1))) as [E|E]; [|reflexivity].
  exfalso. destruct u; [congruence|]. cbn [length] in E. nia.
Qed.
Lemma flux_clear_uniform u b r y phi rotate : 1 + r <= Rabs b -> mp_flux quad Uinv tol prec A2m 0 (length u) inc obl b r y phi u rotate = Err (match y with Sequence _ => AttributeError | Array _ => NameError end).
Proof.
  intros Hb. unfold mp_flux, mp_matrices. cbn [Nat.ltb Nat.leb rbind]. rewrite Nat.eqb_refl. cbn [negb andb]. unfold Rgeb, Rleb. destruct (Rle_dec (r + 1) (Rabs b)); [|lra]. destruct y; reflexivity.
Qed.
Lemma flux_no_rotate d u b r y phi : exact_quad quad -> d <> 0%nat -> length y = ncoef d -> b <> 0 -> 0 < r -> Rabs b < 1 + r -> r < 1 + Rabs b ->
  mp_flux quad Uinv tol prec A2m d (length u) inc obl b r (Array y) phi u false = Err NameError.
Proof using HU Htol Hob Hin.
  intros HQ Hd Ly Hb Hr H1 H2. destruct (matrices_ok d) as (m & Em & _). unfold mp_flux. rewrite Em. cbn [rbind]. rewrite Nat.eqb_refl. cbn [negb y_list]. rewrite Ly. change ((d + 1) * (d + 1))%nat with (ncoef d). rewrite Nat.eqb_refl. cbn [negb]. rewrite andb_false_r.
  destruct (occ_branch b r H1 H2) as [B1 B2]; rewrite B1, B2. unfold mp_occ_flux. cbv zeta. assert (Er : Rabs r = r) by (apply Rabs_right; lra).
  destruct (mp_entries quad (d + length u) b r HQ Hb ltac:(lra)) as (s & Es & _); [rewrite Er; exact H1|rewrite Er; exact H2|]. rewrite Es. cbn [rbind]. unfold mp_occ_map. destruct (Nat.ltb_spec 0 d); [reflexivity|lia].
Qed.
End Others.
Lemma nudged_is_map tol inc obl phi p : obl <> 0 -> inc <> PI / 2 -> nudged_point tol inc obl phi p = map_point (Some inc) (Some obl) (Some phi) p.
Proof.
  intros Ho Hi. unfold nudged_point, map_point, nudged. cbn [angle0]. destruct (Req_EM_T (- obl) 0); [lra|]. destruct (Req_EM_T (PI / 2 - inc) 0); [lra|]. rewrite horizontal_conj, rot_z_add. replace (- obl + obl) with 0 by ring. rewrite rot_z_0, rot_x_add. replace (PI / 2 + - (PI / 2 - inc)) with inc by ring. reflexivity.
Qed.
(** how far the nudged point is from the intended one *)
Definition diff3 (p q : vec3) : vec3 := add3 p (scal3 (-1) q).
Lemma tri3 a b al be : 0 <= al -> 0 <= be -> dot3 a a <= al ^ 2 -> dot3 b b <= be ^ 2 -> dot3 (add3 a b) (add3 a b) <= (al + be) ^ 2.
Proof.
  intros Ha Hb H1 H2. assert (C : dot3 a b * dot3 a b <= (al * be) * (al * be)).
  { apply Rle_trans with (dot3 a a * dot3 b b).
    - destruct a as [[a1 a2] a3], b as [[b1 b2] b3]. unfold dot3. pose proof (Rle_0_sqr (a1 * b2 - a2 * b1)) as S1. pose proof (Rle_0_sqr (a1 * b3 - a3 * b1)) as S2. pose proof (Rle_0_sqr (a2 * b3 - a3 * b2)) as S3. unfold Rsqr in *.
      apply Rminus_le. match goal with |- ?x <= 0 => replace x with (- ((a1 * b2 - a2 * b1) * (a1 * b2 - a2 * b1) + (a1 * b3 - a3 * b1) * (a1 * b3 - a3 * b1) + (a2 * b3 - a3 * b2) * (a2 * b3 - a3 * b2))) by ring end. lra.
    - replace (al * be * (al * be)) with (al ^ 2 * be ^ 2) by ring. assert (P : forall v, 0 <= dot3 v v). { intros [[v1 v2] v3]. unfold dot3. pose proof (Rle_0_sqr v1). pose proof (Rle_0_sqr v2). pose proof (Rle_0_sqr v3). unfold Rsqr in *. lra. }
      apply Rmult_le_compat; auto. }
  assert (Q : 0 <= al * be) by now apply Rmult_le_pos. assert (D : dot3 a b <= al * be) by (apply Rsqr_incr_0_var; [exact C|exact Q]).
  replace (dot3 (add3 a b) (add3 a b)) with (dot3 a a + 2 * dot3 a b + dot3 b b) by (destruct a as [[a1 a2] a3], b as [[b1 b2] b3]; unfold dot3, add3; ring).
  replace ((al + be) ^ 2) with (al ^ 2 + 2 * (al * be) + be ^ 2) by ring. lra.
Qed.
Lemma chord_z t p : dot3 p p = 1 -> dot3 (diff3 (rot_z t p) p) (diff3 (rot_z t p) p) <= t ^ 2.
Proof.
  destruct p as [[x y] z]. unfold dot3, diff3, add3, scal3, rot_z. intros H. set (c := cos t). set (s := sin t). assert (E : s * s + c * c = 1) by (pose proof (sin2_cos2 t) as E; unfold Rsqr in E; exact E).
  match goal with |- ?l <= _ => replace l with (2 * (1 - c) * (x * x + y * y)) end.
  2:{ transitivity ((x * x + y * y) * (s * s + c * c - 2 * c + 1)); [rewrite E|]; ring. }
  assert (B : 2 * (1 - c) <= t ^ 2).
  { replace t with (2 * (t / 2)) at 1 by field. unfold c. replace t with (2 * (t / 2)) at 1 by field. rewrite cos_2a_sin. assert (K : Rabs (sin (t / 2)) <= Rabs (t / 2)).
    { destruct (Rle_dec 0 (t / 2)) as [P|P].
      - rewrite (Rabs_right (t / 2)) by lra. apply Rabs_le. split; [|destruct (Req_dec (t / 2) 0) as [->|]; [rewrite sin_0; lra|apply Rlt_le, sin_lt_x; lra]].
        destruct (Rle_dec (t / 2) PI). { apply Rle_trans with 0; [lra|apply sin_ge_0; lra]. } pose proof (SIN_bound (t / 2)). pose proof PI2_1. lra.
      - rewrite (Rabs_left (t / 2)) by lra. rewrite <- Rabs_Ropp, <- sin_neg. set (a := - (t / 2)). assert (0 < a) by (unfold a; lra). apply Rabs_le. split; [|apply Rlt_le, sin_lt_x; lra].
        destruct (Rle_dec a PI). { apply Rle_trans with 0; [lra|apply sin_ge_0; lra]. } pose proof (SIN_bound a). pose proof PI2_1. lra. }
    apply Rsqr_le_abs_1 in K. unfold Rsqr in K. replace (2 * (1 - (1 - 2 * sin (t / 2) * sin (t / 2)))) with (4 * (sin (t / 2) * sin (t / 2))) by ring. replace ((2 * (t / 2)) ^ 2) with (4 * (t / 2 * (t / 2))) by ring. lra. }
  assert (X : x * x + y * y <= 1) by (pose proof (Rle_0_sqr z) as Z; unfold Rsqr in Z; lra). assert (X0 : 0 <= x * x + y * y) by (pose proof (Rle_0_sqr x) as Z; pose proof (Rle_0_sqr y) as Z'; unfold Rsqr in *; lra).
  apply Rle_trans with (t ^ 2 * (x * x + y * y)); [now apply Rmult_le_compat_r|]. rewrite <- (Rmult_1_r (t ^ 2)) at 2. apply Rmult_le_compat_l; [|exact X]. replace (t ^ 2) with (Rsqr t) by (unfold Rsqr; ring). apply Rle_0_sqr.
Qed.
Lemma iso_z t p : dot3 (rot_z t p) (rot_z t p) = dot3 p p.
Proof.
  destruct p as [[x y] z]. unfold dot3, rot_z. pose proof (sin2_cos2 t) as E. unfold Rsqr in E. set (c := cos t) in *. set (s := sin t) in *. transitivity ((x * x + y * y) * (s * s + c * c) + z * z); [ring|rewrite E; ring].
Qed.
Lemma iso_x t p : dot3 (rot_x t p) (rot_x t p) = dot3 p p.
Proof.
  destruct p as [[x y] z]. unfold dot3, rot_x. pose proof (sin2_cos2 t) as E. unfold Rsqr in E. set (c := cos t) in *. set (s := sin t) in *. transitivity ((z * z + y * y) * (s * s + c * c) + x * x); [ring|rewrite E; ring].
Qed.
Lemma diff_z t p q : diff3 (rot_z t p) (rot_z t q) = rot_z t (diff3 p q).
Proof. destruct p as [[x y] z], q as [[x' y'] z']. unfold diff3, add3, scal3, rot_z. apply triple_eq; ring. Qed.
Lemma diff_x t p q : diff3 (rot_x t p) (rot_x t q) = rot_x t (diff3 p q).
Proof. destruct p as [[x y] z], q as [[x' y'] z']. unfold diff3, add3, scal3, rot_x. apply triple_eq; ring. Qed.
Lemma chord_x t p : dot3 p p = 1 -> dot3 (diff3 (rot_x t p) p) (diff3 (rot_x t p) p) <= t ^ 2.
Proof.
  intros H. destruct p as [[x y] z]. pose proof (chord_z t (y, z, x)) as K. unfold dot3, diff3, add3, scal3, rot_z, rot_x in *. lra.
Qed.
Lemma nudged_close tol inc obl phi p : 0 < tol -> sphere3 p -> norm3 (add3 (nudged_point tol inc obl phi p) (scal3 (-1) (map_point (Some inc) (Some obl) (Some phi) p))) <= 2 * tol.
Proof.
  intros Ht Hp. set (A := fun t => rot_axis (- cos obl, - sin obl, 0) t p).
  assert (E : map_point (Some inc) (Some obl) (Some phi) p = rot_x (- (PI / 2)) (rot_z (- phi) (rot_x (PI / 2) (rot_z (- obl) (A (PI / 2 - inc)))))).
  { unfold map_point, A. cbn [angle0]. rewrite horizontal_conj, rot_z_add. replace (- obl + obl) with 0 by ring. rewrite rot_z_0, rot_x_add. replace (PI / 2 + - (PI / 2 - inc)) with inc by ring. reflexivity. }
  rewrite E. unfold nudged_point. fold (A (nudged tol (PI / 2 - inc))). match goal with |- norm3 (add3 ?a (scal3 (-1) ?b)) <= _ => change (norm3 (diff3 a b) <= 2 * tol) end. rewrite diff_x, diff_z, diff_x.
  unfold norm3. rewrite iso_x, iso_z, iso_x. rewrite <- (sqrt_Rsqr (2 * tol)) by lra. apply sqrt_le_1_alt. replace (Rsqr (2 * tol)) with ((tol + tol) ^ 2) by (unfold Rsqr; ring).
  set (t' := nudged tol (PI / 2 - inc)). set (t := PI / 2 - inc). set (a' := nudged tol (- obl)).
  replace (diff3 (rot_z a' (A t')) (rot_z (- obl) (A t))) with (add3 (diff3 (rot_z a' (A t')) (rot_z (- obl) (A t'))) (diff3 (rot_z (- obl) (A t')) (rot_z (- obl) (A t)))).
  2:{ destruct (rot_z a' (A t')) as [[x1 x2] x3], (rot_z (- obl) (A t')) as [[y1 y2] y3], (rot_z (- obl) (A t)) as [[z1 z2] z3]. unfold diff3, add3, scal3. apply triple_eq; ring. }
  assert (S : forall s, dot3 (A s) (A s) = 1). { intros s. unfold A. rewrite horizontal_conj, iso_z, iso_x, iso_z. exact Hp. }
  assert (Z : forall q, dot3 (diff3 q q) (diff3 q q) = 0) by (intros [[q1 q2] q3]; unfold dot3, diff3, add3, scal3; ring).
  assert (T2 : 0 <= tol ^ 2) by (apply pow_le; lra).
  apply tri3; try lra.
  - unfold a', nudged. destruct (Req_EM_T (- obl) 0) as [e|e]; [rewrite e, rot_z_0; apply chord_z, S|rewrite Z; exact T2].
  - rewrite diff_z, iso_z. unfold t', nudged. fold t. destruct (Req_EM_T t 0) as [e|e]; [|rewrite Z; exact T2]. rewrite e. unfold A. rewrite rot_axis_zero, horizontal_conj. set (q := rot_z (- obl) p).
    replace p with (rot_z obl q) at 1 2 by (unfold q; rewrite rot_z_add, Rplus_opp_r; apply rot_z_0).
    replace (rot_z (- obl) (rot_z obl q)) with q by (rewrite rot_z_add; replace (- obl + obl) with 0 by ring; now rewrite rot_z_0).
    rewrite diff_z, iso_z. rewrite <- (Rsqr_neg tol) || idtac. replace (tol ^ 2) with ((- tol) ^ 2) by ring. apply chord_x. unfold q. rewrite iso_z. exact Hp.
Qed.
