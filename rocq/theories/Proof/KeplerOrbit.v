(** Accuracy of positions and radial velocities computed with the code's own Kepler solver. *)
From Coq Require Import Reals Lra Lia ZArith QArith Qreals List Psatz.
From Coquelicot Require Import Coquelicot.
From Verif Require Import Base.RealAux Model.Kepler Model.Keplerian Spec.KeplerSpec Spec.OrbitSpec Proof.KeplerProof Proof.KeplerExact Proof.KeplerMore Proof.KeplerianProof Proof.KeplerianMore Proof.KeplerStarter Proof.KeplerAccuracy.
Open Scope R_scope.

Lemma kepler_near M e E : 0 <= e < 1 -> 0.000000000000008 <= Rabs (Rmod M (2 * PI) - PI) -> kepler_eq M e E ->
  exists X, kepler M e = (sin_true X e, cos_true X e) /\ Rabs (X - E) <= 0.0000000000000038.
Proof.
  intros He HP HK. destruct (Rmod_decomp M (2 * PI)) as [k Hk]. set (E0 := E - 2 * PI * IZR k).
  assert (HE0 : E = E0 + 2 * PI * IZR k) by (unfold E0; ring).
  assert (K0 : kepler_eq (wrap_M M) e E0). { unfold kepler_eq, wrap_M in *. rewrite HE0, sin_shift in HK. lra. } 
  destruct (ecc_anomaly_close M e E0 He K0) as [C R0].
  pose proof (fold_M_range M) as FR. pose proof (fold_root M e E0 He K0) as F. destruct (solve_close (fold_M M) e _ FR He F) as [C2 R]. pose proof (away_from_pi _ e _ He R F) as AW. change (Rmod M (2 * PI)) with (wrap_M M) in HP.
  assert (HA : 0.000000000000008 <= PI - fold_M M). { unfold fold_M, high, Rgtb in *. destruct (Rltb PI (wrap_M M)) eqn:Hh; [apply Rltb_true in Hh; rewrite Rabs_right in HP; lra|apply Rltb_false in Hh; rewrite Rabs_left1 in HP; lra]. }
  pose proof pi_hi as PH. exists (ecc_anomaly M e + 2 * PI * IZR k). split.
  - replace (sin_true (ecc_anomaly M e + 2 * PI * IZR k) e) with (sin_true (ecc_anomaly M e) e) by (unfold sin_true; now rewrite sin_shift, cos_shift).
    replace (cos_true (ecc_anomaly M e + 2 * PI * IZR k) e) with (cos_true (ecc_anomaly M e) e) by (unfold cos_true; now rewrite cos_shift). unfold kepler. assert (Q : forall X, X < PI -> 0 <= X -> true_anomaly X e = (sin_true X e, cos_true X e)). { intros X H1 H0. apply true_anomaly_spec; [exact He|]. assert (0 < cos (0.5 * X)); [|lra]. apply cos_gt_0; lra. }
    unfold ecc_anomaly. cbv zeta. set (X := refine _ _ _ _) in *. clearbody X. set (Ef := if high M then 2 * PI - E0 else E0) in *. apply Rabs_le_between in C2. assert (TX : true_anomaly X e = (sin_true X e, cos_true X e)) by (apply Q; nra).
    destruct (high M); [|exact TX]. rewrite true_anomaly_reflect, TX. cbn [fst snd]. destruct (true_reflect X e) as [-> ->]. reflexivity.
  - replace (ecc_anomaly M e + 2 * PI * IZR k - E) with (ecc_anomaly M e - E0) by (unfold E0; ring). eapply Rle_trans; [exact C|]. unfold Rmin. destruct (Rle_dec E0 (2 * PI - E0)); lra.
Qed.
Lemma rotate_diff o x y x' y' i : vsub (rotate_vector o x y i) (rotate_vector o x' y' i) = rotate_vector o (x - x') (y - y') i.
Proof. unfold rotate_vector. destruct (ob_ecc o) as [[[e sw] cw]|], i, (ob_node o) as [[sn cn]|]; cbn; repeat (apply f_equal2; try ring). Qed.
Lemma rad_true o e sw cw X : ob_ecc o = Some (e, sw, cw) -> 0 <= e < 1 -> rad o (cos_true X e) * cos_true X e = cos X - e /\ rad o (cos_true X e) * sin_true X e = sqrt (1 - e ^ 2) * sin X.
Proof.
  intros H He. unfold rad. rewrite H. pose proof (one_minus_ecos_pos X e He) as HF. assert (D : 0 < 1 - e ^ 2) by nra.
  assert (R : (1 - e ^ 2) / (1 + e * cos_true X e) = 1 - e * cos X).
  { unfold cos_true. replace (1 + e * ((cos X - e) / (1 - e * cos X))) with ((1 - e ^ 2) / (1 - e * cos X)) by (field; lra). field. lra. }
  rewrite R. unfold cos_true, sin_true. split; field; lra.
Qed.
Lemma chord X E : (cos X - cos E) ^ 2 + (sin X - sin E) ^ 2 <= (X - E) ^ 2.
Proof.
  assert (H : forall d, 2 * (1 - cos d) <= d ^ 2). { assert (P : forall d, 0 <= d -> 2 * (1 - cos d) <= d ^ 2). { intros d Hd. destruct (PolyBounds.taylor_lower 0 d Hd) as [C _]. cbn [Nat.mul Nat.add] in C. replace (PolyBounds.taylor_cos 1) with (QArith_base.Qmake 1 1 :: QArith_base.Qmake 0 1 :: QArith_base.Qmake (-1) 2 :: nil) in C by (vm_compute; reflexivity). cbn [PolyBounds.peval] in C. unfold Q2R in C. cbn [QArith_base.Qnum QArith_base.Qden] in C. lra. }
    intros d. destruct (Rle_lt_dec 0 d); [now apply P|]. rewrite <- cos_neg. replace (d ^ 2) with ((- d) ^ 2) by ring. apply P. lra. }
  specialize (H (X - E)). rewrite cos_minus in H. pose proof (sin2_cos2 X) as U1. pose proof (sin2_cos2 E) as U2. unfold Rsqr in *. lra.
Qed.
Lemma position_close au kep o t : exact_solver kep -> orbit_ok o -> ob_parallax o = None -> (ob_ecc o <> None -> 0.000000000000008 <= Rabs (Rmod (mean_anomaly o t) (2 * PI) - PI)) ->
  dist (vsub (relative_position au kepler o t None) (relative_position au kep o t None)) <= 0.000000000000004 * ob_semimajor o.
Proof.
  intros Hk Hok Hp Ha. assert (Hps : pscale au o None = 1) by (unfold pscale, eff_parallax; now rewrite Hp). rewrite !relpos_form, Hps.
  assert (V : forall c u v, vsub (vscale c u) (vscale c v) = vscale c (vsub u v)). { intros c [[x y] z] [[x' y'] z']. cbn. repeat (apply f_equal2; try ring). } rewrite V.
  assert (A0 : 0 < ob_semimajor o) by apply Hok.
  assert (N : norm2 (vsub (unit_pos kepler o t) (unit_pos kep o t)) <= (0.000000000000004) ^ 2).
  { unfold unit_pos, true_anomaly_sc. destruct (ob_ecc o) as [[[e sw] cw]|] eqn:Ee.
    - destruct Hok as (Q1 & Q2 & Q3 & Q4 & Q5 & Q6). destruct (Q5 _ _ _ Ee) as [He Hw]. destruct (Hk (mean_anomaly o t) e He) as (E & HE & ->). destruct (kepler_near (mean_anomaly o t) e E He (Ha ltac:(discriminate)) HE) as (X & -> & B).
      destruct (rad_true o e sw cw X Ee He) as [-> ->]. destruct (rad_true o e sw cw E Ee He) as [-> ->]. rewrite rotate_diff, norm2_rotate. 2:{ exact (conj Q1 (conj Q2 (conj Q3 (conj Q4 (conj Q5 Q6))))). }
      pose proof (chord X E) as C. assert (K : 0 <= 1 - e ^ 2) by nra. pose proof (sqrt_sqrt _ K) as K2. set (k := sqrt _) in *.
      apply Rle_trans with ((X - E) ^ 2). { eapply Rle_trans; [|exact C]. replace (cos X - e - (cos E - e)) with (cos X - cos E) by ring. apply Rplus_le_compat_l. replace ((k * sin X - k * sin E) ^ 2) with (k * k * (sin X - sin E) ^ 2) by ring. rewrite K2. pose proof (pow2_ge_0 (sin X - sin E)). pose proof (pow2_ge_0 e). nra. }
      rewrite <- (pow2_abs (X - E)). apply pow_incr. split; [apply Rabs_pos|]. lra.
    - rewrite rotate_diff, norm2_rotate by assumption. unfold Rminus. rewrite !Rplus_opp_r. lra. }
  unfold dist. rewrite norm2_scale. replace (0.000000000000004 * ob_semimajor o) with (sqrt ((0.000000000000004 * ob_semimajor o)²)) by (apply sqrt_Rsqr; lra). apply sqrt_le_1_alt. unfold Rsqr. pose proof (pow2_ge_0 (ob_semimajor o)). nra.
Qed.
Lemma rv_close au kep o t K : exact_solver kep -> orbit_ok o -> (ob_ecc o <> None -> 0.000000000000008 <= Rabs (Rmod (mean_anomaly o t) (2 * PI) - PI)) ->
  Rabs (radial_velocity au kepler o t (Some K) - radial_velocity au kep o t (Some K)) <= 0.000000000000006 * Rabs K.
Proof.
  intros Hk Hok Ha. rewrite !rv_form. unfold vel_amp, eff_semi, true_anomaly_sc. pose proof (Rabs_pos K) as PK. destruct (ob_ecc o) as [[[e sw] cw]|] eqn:Ee.
  - destruct Hok as (Q1 & Q2 & Q3 & Q4 & Q5 & Q6). destruct (Q5 _ _ _ Ee) as [He Hw]. destruct (Hk (mean_anomaly o t) e He) as (E & HE & ->).
    destruct (kepler_close (mean_anomaly o t) e E He (Ha ltac:(discriminate)) HE) as [B1 B2]. destruct (kepler (mean_anomaly o t) e) as [s c]. cbn [fst snd] in *. set (s' := sin_true E e) in *. set (c' := cos_true E e) in *.
    replace (K * 1 * (cw * (c + e) - sw * s) - K * 1 * (cw * (c' + e) - sw * s')) with ((cw * (c - c') - sw * (s - s')) * K) by ring. rewrite Rabs_mult. apply Rmult_le_compat_r; [exact PK|].
    set (a := c - c') in *. set (b := s - s') in *. apply Rsqr_incr_0; [|apply Rabs_pos|lra]. rewrite <- Rsqr_abs. unfold Rsqr.
    assert (A2 : a * a <= 0.000000000000004 * 0.000000000000004) by (apply Rabs_le_between in B2; nra). assert (A3 : b * b <= 0.000000000000004 * 0.000000000000004) by (apply Rabs_le_between in B1; nra).
    unfold unit_pair in Hw. assert (CS : (cw * a - sw * b) * (cw * a - sw * b) <= (sw ^ 2 + cw ^ 2) * (a * a + b * b)). { pose proof (Rle_0_sqr (cw * b + sw * a)) as Z. unfold Rsqr in Z. lra. } rewrite Hw in CS. lra.
  - unfold Rminus. rewrite Rplus_opp_r, Rabs_R0. lra.
Qed.
