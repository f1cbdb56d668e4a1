From Coq Require Import Reals Lra Lia ZArith Psatz.
From Coquelicot Require Import Coquelicot.
From Verif.Base Require Import RealAux.
From Verif.Model Require Import Kepler.
From Verif.Spec Require Import KeplerSpec.
Open Scope R_scope.

Lemma true_anomaly_circle E ecc : (fst (true_anomaly E ecc))² + (snd (true_anomaly E ecc))² = 1.
Proof.
  unfold true_anomaly; simpl. set (t := tan_half_f E ecc).
  assert (0 < 1 + t²) by (pose proof (Rle_0_sqr t); lra).
  unfold Rsqr in *. field. lra.
Qed.
Lemma kepler_circle M ecc : (fst (kepler M ecc))² + (snd (kepler M ecc))² = 1.
Proof. apply true_anomaly_circle. Qed.

Lemma two_PI_pos : 0 < 2 * PI.
Proof. pose proof PI_RGT_0. lra. Qed.

Lemma wrap_M_periodic M k : wrap_M (M + 2 * PI * IZR k) = wrap_M M.
Proof.
  unfold wrap_M. replace (M + 2 * PI * IZR k) with (M + IZR k * (2 * PI)) by ring.
  apply Rmod_plus_mult. pose proof two_PI_pos. lra.
Qed.
Lemma kepler_periodic M ecc k : kepler (M + 2 * PI * IZR k) ecc = kepler M ecc.
Proof.
  unfold kepler, ecc_anomaly, fold_M, high. now rewrite !wrap_M_periodic.
Qed.

Lemma wrap_M_0 : wrap_M 0 = 0.
Proof. unfold wrap_M. apply Rmod_small; pose proof two_PI_pos; lra. Qed.
Lemma wrap_M_range M : 0 <= wrap_M M < 2 * PI.
Proof. apply Rmod_range, two_PI_pos. Qed.
Lemma fold_M_range M : 0 <= fold_M M <= PI.
Proof.
  pose proof (wrap_M_range M). unfold fold_M, high.
  destruct (Rgtb (wrap_M M) PI) eqn:Hh; unfold Rgtb in Hh.
  - apply Rltb_true in Hh. lra.
  - apply Rltb_false in Hh. lra.
Qed.
Lemma wrap_M_opp M : wrap_M M <> 0 -> wrap_M (- M) = 2 * PI - wrap_M M.
Proof.
  intros Hn. pose proof (wrap_M_range M) as Hr.
  destruct (Rmod_decomp M (2 * PI)) as [k Hk]. fold (wrap_M M) in Hk.
  unfold wrap_M at 1. apply Rmod_unique with (k := (- k - 1)%Z).
  - apply two_PI_pos.
  - lra.
  - rewrite minus_IZR, opp_IZR. lra.
Qed.
Lemma wrap_M_opp0 M : wrap_M M = 0 -> wrap_M (- M) = 0.
Proof.
  intros H0. destruct (Rmod_decomp M (2 * PI)) as [k Hk]. fold (wrap_M M) in Hk.
  unfold wrap_M. apply Rmod_unique with (k := (- k)%Z).
  - apply two_PI_pos.
  - pose proof two_PI_pos; lra.
  - rewrite opp_IZR. lra.
Qed.

Lemma tan_half_reflect E : cos (0.5 * E) <> 0 -> tan (0.5 * (2 * PI - E)) = - tan (0.5 * E).
Proof.
  intros H. replace (0.5 * (2 * PI - E)) with (PI - 0.5 * E) by lra.
  unfold tan. rewrite Rtrigo_facts.sin_pi_minus, Rtrigo_facts.cos_pi_minus.
  field. auto.
Qed.
Lemma tan_half_reflect_gen E : tan (0.5 * (2 * PI - E)) = - tan (0.5 * E).
Proof.
  replace (0.5 * (2 * PI - E)) with (PI - 0.5 * E) by lra.
  unfold tan. rewrite Rtrigo_facts.sin_pi_minus, Rtrigo_facts.cos_pi_minus.
  unfold Rdiv. rewrite Rinv_opp. ring.
Qed.

Lemma true_anomaly_reflect E ecc :
  true_anomaly (2 * PI - E) ecc = (- fst (true_anomaly E ecc), snd (true_anomaly E ecc)).
Proof.
  unfold true_anomaly, tan_half_f; simpl. rewrite tan_half_reflect_gen.
  set (a := sqrt ((1 + ecc) / (1 - ecc))). set (t := tan (0.5 * E)).
  replace (a * - t) with (- (a * t)) by ring.
  rewrite <- Rsqr_neg. f_equal. ring.
Qed.


Lemma PI_bounds : 3.14 < PI < 3.15.
Proof.
  destruct (PI_2_3_7_ineq 1) as [H1 H2].
  unfold PI_2_3_7_tg, tg_alt, Ratan_seq in *. simpl in *. lra.
Qed.

Lemma kepler_reflect M ecc :
  wrap_M M <> PI -> 0 <= ecc < 1 ->
  (* only needed when M is a multiple of 2 PI *)
  fst (kepler 0 ecc) = 0 ->
  kepler (- M) ecc = (- fst (kepler M ecc), snd (kepler M ecc)).
Proof.
  intros Hpi He H0. pose proof (wrap_M_range M) as Hr. pose proof PI_RGT_0 as Hp.
  destruct (Req_dec (wrap_M M) 0) as [Hz|Hnz].
  - assert (kepler (-M) ecc = kepler M ecc) as ->.
    { unfold kepler, ecc_anomaly, fold_M, high. rewrite wrap_M_opp0 by auto. rewrite Hz. reflexivity. }
    assert (kepler M ecc = kepler 0 ecc) as ->.
    { unfold kepler, ecc_anomaly, fold_M, high. rewrite Hz.
      now rewrite wrap_M_0. }
    destruct (kepler 0 ecc) as [s0 c0]. simpl in *. rewrite H0. now rewrite Ropp_0.
  - unfold kepler, ecc_anomaly, fold_M, high. rewrite wrap_M_opp by auto.
    unfold Rgtb. destruct (Rltb PI (wrap_M M)) eqn:Hh.
    + apply Rltb_true in Hh.
      assert (Rltb PI (2 * PI - wrap_M M) = false) as -> by (apply Rltb_false; lra).
      rewrite true_anomaly_reflect. cbn [fst snd]. rewrite Ropp_involutive.
      symmetry. apply surjective_pairing.
    + apply Rltb_false in Hh.
      assert (Rltb PI (2 * PI - wrap_M M) = true) as -> by (apply Rltb_true; lra).
      replace (2 * PI - (2 * PI - wrap_M M)) with (wrap_M M) by ring.
      now rewrite true_anomaly_reflect.
Qed.

(** the starting value is well defined *)
Lemma st_alpha_pos M e : M <= PI -> 0 <= e < 1 -> 0 < st_alpha M e.
Proof.
  intros HM He. pose proof PI_bounds. unfold st_alpha.
  assert (Hd : 0 < PI - 6 / PI).
  { apply Rmult_lt_reg_r with PI; [lra|].
    replace ((PI - 6 / PI) * PI) with (PI * PI - 6) by (field; lra). nra. }
  assert (0 < 3 * PI / (PI - 6 / PI)) by (apply Rdiv_lt_0_compat; lra).
  assert (0 <= 1.6 / (PI - 6 / PI) * (PI - M) / (1 + e)).
  { apply Rdiv_le_0_compat; [|lra]. apply Rmult_le_pos; [|lra].
    apply Rlt_le, Rdiv_lt_0_compat; lra. }
  lra.
Qed.
Lemma st_d_pos M e : M <= PI -> 0 <= e < 1 -> 0 < st_d M e (1 - e).
Proof.
  intros HM He. pose proof (st_alpha_pos M e HM He). unfold st_d.
  assert (0 <= st_alpha M e * e) by nra. lra.
Qed.
Lemma st_d_ome M e : M <= PI -> 0 <= e < 1 -> 0 < st_d M e (1 - e) - (1 - e).
Proof.
  intros HM He. pose proof (st_alpha_pos M e HM He). unfold st_d.
  assert (0 <= st_alpha M e * e) by nra. lra.
Qed.
Lemma st_r_ge M e : 0 <= M <= PI -> 0 <= e < 1 -> M ^ 3 <= st_r M e (1 - e).
Proof.
  intros HM He. unfold st_r, Rsqr.
  pose proof (st_alpha_pos M e (proj2 HM) He). pose proof (st_d_pos M e (proj2 HM) He).
  pose proof (st_d_ome M e (proj2 HM) He).
  assert (0 <= 3 * (st_alpha M e * st_d M e (1-e)) * (st_d M e (1-e) - (1-e))).
  { apply Rmult_le_pos; [|lra]. assert (0 < st_alpha M e * st_d M e (1-e)) by nra. lra. }
  nra.
Qed.
Lemma st_q_ge M e : 0 <= M <= PI -> 0 <= e < 1 -> - M ^ 2 < st_q M e (1 - e).
Proof.
  intros HM He. unfold st_q, Rsqr.
  pose proof (st_alpha_pos M e (proj2 HM) He). pose proof (st_d_pos M e (proj2 HM) He).
  assert (0 < st_alpha M e * st_d M e (1-e)) by nra.
  assert (0 < 2 * (st_alpha M e * st_d M e (1-e)) * (1 - e)) by nra. nra.
Qed.
Lemma pow3_lt a b : 0 <= a < b -> a ^ 3 < b ^ 3.
Proof.
  intros H. assert (a * a <= b * b) by nra. assert (0 <= a * a) by nra.
  assert (a * a * a < b * b * b); [|simpl; nra].
  apply Rle_lt_trans with (b * b * a); [nra|]. apply Rmult_lt_compat_l; nra.
Qed.
Lemma st_disc_pos M e : 0 <= M <= PI -> 0 <= e < 1 -> 0 < st_disc M e (1 - e).
Proof.
  intros HM He. pose proof (st_r_ge M e HM He). pose proof (st_q_ge M e HM He).
  unfold st_disc, Rsqr. set (q := st_q M e (1-e)) in *. set (r := st_r M e (1-e)) in *.
  assert (HM3 : 0 <= M ^ 3) by (apply pow_le; lra).
  assert (M ^ 3 * M ^ 3 <= r * r) by (apply Rmult_le_compat; lra).
  destruct (Rle_dec 0 q) as [Hq|Hq].
  - destruct (Req_dec q 0) as [->|].
    + assert (0 < M ^ 3).
      { apply pow_lt. destruct (Req_dec M 0) as [->|]; [exfalso; simpl in *; nra|lra]. }
      assert (0 < r * r) by nra. nra.
    + assert (0 < q * q) by nra. assert (0 < q * q * q) by nra. nra.
  - assert (Hneg : (- q) ^ 3 < (M ^ 2) ^ 3).
    { apply pow3_lt; lra. }
    replace ((M ^ 2) ^ 3) with (M ^ 3 * M ^ 3) in Hneg by ring.
    replace ((- q) ^ 3) with (- (q * q * q)) in Hneg by ring. lra.
Qed.
Lemma st_w_pos M e : 0 <= M <= PI -> 0 <= e < 1 -> 0 < st_w M e (1 - e).
Proof.
  intros HM He. unfold st_w. apply Rsqr_pos_lt. apply Rgt_not_eq.
  apply cbrt_pos. pose proof (Rabs_pos (st_r M e (1-e))).
  pose proof (sqrt_lt_R0 _ (st_disc_pos M e HM He)). lra.
Qed.
Lemma st_den_pos M e : 0 <= M <= PI -> 0 <= e < 1 -> 0 < st_den M e (1 - e).
Proof.
  intros HM He. pose proof (st_w_pos M e HM He). unfold st_den, Rsqr.
  set (w := st_w M e (1-e)) in *. set (q := st_q M e (1-e)).
  pose proof (Rle_0_sqr (q + w/2)) as Hs. unfold Rsqr in Hs.
  assert (0 < w * w) by (apply Rmult_lt_0_compat; auto).
  replace (w * w + w * q + q * q) with ((q + w/2) * (q + w/2) + 3/4 * (w * w)) by field. lra.
Qed.
Lemma starter_nonneg M e : 0 <= M <= PI -> 0 <= e < 1 -> 0 <= starter M e (1 - e).
Proof.
  intros HM He. unfold starter. pose proof (st_d_pos M e (proj2 HM) He).
  pose proof (st_den_pos M e HM He). pose proof (st_w_pos M e HM He).
  pose proof (st_r_ge M e HM He). assert (0 <= M ^ 3) by (apply pow_le; lra).
  apply Rdiv_le_0_compat; [|lra].
  assert (0 <= 2 * st_r M e (1 - e) * st_w M e (1 - e) / st_den M e (1 - e)); [|lra].
  apply Rdiv_le_0_compat; [|lra]. nra.
Qed.

(** exactness at periapsis *)
Lemma starter_0 e : starter 0 e (1 - e) = 0.
Proof. unfold starter, st_r. unfold Rdiv. ring. Qed.
Lemma refine_root M e E : E - e * sin E = M -> refine M e (1 - e) E = E.
Proof.
  intros H. unfold refine, rf_dE.
  assert (rf_f0 M e (1 - e) E = 0) as -> by (unfold rf_f0; lra).
  unfold Rdiv. ring.
Qed.
Lemma refine_0 e : refine 0 e (1 - e) 0 = 0.
Proof. apply refine_root. rewrite sin_0. ring. Qed.
Lemma refine_fixed_iff M e E :
  rf_den5 M e (1 - e) E <> 0 ->
  (refine M e (1 - e) E = E <-> E - e * sin E = M).
Proof.
  intros Hd. split; [|apply refine_root].
  unfold refine, rf_dE. intros H.
  assert (- rf_f0 M e (1 - e) E / rf_den5 M e (1 - e) E = 0) as H1 by lra.
  apply Rmult_eq_compat_r with (r := rf_den5 M e (1-e) E) in H1.
  replace (- rf_f0 M e (1 - e) E / rf_den5 M e (1 - e) E * rf_den5 M e (1 - e) E)
    with (- rf_f0 M e (1-e) E) in H1 by (field; auto).
  unfold rf_f0 in H1. lra.
Qed.
Lemma high_0 : high 0 = false.
Proof. unfold high, Rgtb. rewrite wrap_M_0. apply Rltb_false. pose proof PI_RGT_0; lra. Qed.
Lemma ecc_anomaly_0 e : ecc_anomaly 0 e = 0.
Proof.
  unfold ecc_anomaly, fold_M. rewrite high_0, wrap_M_0, starter_0. apply refine_0.
Qed.
Lemma true_anomaly_0 e : true_anomaly 0 e = (0, 1).
Proof.
  unfold true_anomaly, tan_half_f. rewrite Rmult_0_r, tan_0, Rmult_0_r. unfold Rsqr.
  f_equal; field.
Qed.
Lemma kepler_0 e : kepler 0 e = (0, 1).
Proof. unfold kepler. rewrite ecc_anomaly_0. apply true_anomaly_0. Qed.
Lemma kepler_periapsis k e : kepler (2 * PI * IZR k) e = (0, 1).
Proof.
  replace (2 * PI * IZR k) with (0 + 2 * PI * IZR k) by ring.
  rewrite kepler_periodic. apply kepler_0.
Qed.

(** conversion from eccentric to true anomaly *)
Lemma cos_half E : cos E = 2 * (cos (0.5 * E) * cos (0.5 * E)) - 1.
Proof.
  replace E with (2 * (0.5 * E)) at 1 by lra. rewrite cos_2a_cos. ring.
Qed.
Lemma sin_half E : sin E = 2 * (sin (0.5 * E) * cos (0.5 * E)).
Proof.
  replace E with (2 * (0.5 * E)) at 1 by lra. rewrite sin_2a. ring.
Qed.
Lemma one_minus_ecos_pos E e : 0 <= e < 1 -> 0 < 1 - e * cos E.
Proof. intros He. pose proof (COS_bound E). nra. Qed.

Lemma true_anomaly_spec E e : 0 <= e < 1 -> cos (0.5 * E) <> 0 ->
  true_anomaly E e = (sin_true E e, cos_true E e).
Proof.
  intros He Hc. unfold true_anomaly, sin_true, cos_true.
  set (t := tan_half_f E e).
  set (c := cos (0.5 * E)) in *. set (s := sin (0.5 * E)).
  assert (Hsc : s * s = 1 - c * c).
  { pose proof (sin2_cos2 (0.5 * E)) as H. unfold Rsqr in H. fold s c in H. lra. }
  assert (Hq : 0 < (1 + e) / (1 - e)) by (apply Rdiv_lt_0_compat; lra).
  assert (Ht2 : t * t = (1 + e) / (1 - e) * ((1 - c * c) / (c * c))).
  { unfold t, tan_half_f, tan. fold s c.
    replace (sqrt ((1 + e) / (1 - e)) * (s / c) * (sqrt ((1 + e) / (1 - e)) * (s / c)))
      with ((sqrt ((1 + e) / (1 - e)) * sqrt ((1 + e) / (1 - e))) * ((s * s) / (c * c)))
      by (field; auto).
    rewrite sqrt_sqrt by lra. now rewrite Hsc. }
  assert (Hden : 0 < 1 - e * (2 * (c * c) - 1)).
  { pose proof (one_minus_ecos_pos E e He). rewrite cos_half in H. exact H. }
  assert (Hc2 : 0 < c * c) by nra.
  assert (Hden2 : 1 + t * t = (1 - e * (2 * (c * c) - 1)) / ((1 - e) * (c * c))).
  { rewrite Ht2. field. split; lra. }
  rewrite cos_half, sin_half. fold c s. unfold Rsqr. f_equal.
  - rewrite Hden2. unfold t, tan_half_f, tan. fold s c.
    assert (Hs : sqrt ((1 + e) / (1 - e)) = sqrt (1 - e ^ 2) / (1 - e)).
    { replace ((1 + e) / (1 - e)) with ((1 - e ^ 2) / ((1 - e) * (1 - e))) by (field; lra).
      rewrite sqrt_div_alt by nra. rewrite sqrt_square by lra. reflexivity. }
    rewrite Hs. field. repeat split; lra.
  - rewrite Hden2, Ht2. field. repeat split; lra.
Qed.

(** circular orbits *)
Lemma refine_circ M E : refine M 0 (1 - 0) E = M.
Proof.
  unfold refine, rf_dE, rf_den5, rf_f3, rf_f2, rf_f1.
  set (d := rf_d4 M 0 (1-0) E). unfold rf_f0. field.
Qed.
Lemma ecc_anomaly_circ M : ecc_anomaly M 0 = wrap_M M.
Proof.
  unfold ecc_anomaly, fold_M. rewrite !refine_circ. destruct (high M); ring.
Qed.
Lemma kepler_circ M : cos (0.5 * M) <> 0 -> kepler M 0 = (sin M, cos M).
Proof.
  intros Hc. unfold kepler. rewrite ecc_anomaly_circ.
  destruct (Rmod_decomp M (2 * PI)) as [k Hk]. fold (wrap_M M) in Hk.
  assert (HE : forall j, cos (wrap_M M + 2 * IZR j * PI) = cos (wrap_M M)
                      /\ sin (wrap_M M + 2 * IZR j * PI) = sin (wrap_M M)).
  { intros j. destruct (Z_le_gt_dec 0 j) as [Hj|Hj].
    - rewrite <- (Z2Nat.id j Hj), <- INR_IZR_INZ. split; [apply cos_period|apply sin_period].
    - set (x := wrap_M M). set (n := Z.to_nat (- j)).
      assert (IZR j = - INR n) as -> by (unfold n; rewrite INR_IZR_INZ, Z2Nat.id, opp_IZR by lia; ring).
      split; [rewrite <- (cos_period _ n)|rewrite <- (sin_period _ n)]; f_equal; ring. }
  destruct (HE k) as [Hcos Hsin].
  replace (wrap_M M + 2 * IZR k * PI) with M in * by lra.
  assert (Hc' : cos (0.5 * wrap_M M) <> 0).
  { intros H0. apply Hc. rewrite cos_half in Hcos. rewrite (cos_half (wrap_M M)), H0 in Hcos. nra. }
  rewrite true_anomaly_spec by (try lra; auto).
  unfold sin_true, cos_true. rewrite <- Hcos, <- Hsin.
  replace (1 - 0 ^ 2) with 1 by ring. rewrite sqrt_1. f_equal; field.
Qed.
