From Coq Require Import Reals ZArith Lra Lia List Bool Psatz.
From Coquelicot Require Import Coquelicot.
From Verif.Base Require Import RealAux.
From Verif.Model Require Import LimbDark LightCurves TransitOrbit.
From Verif.Spec Require Import LimbDarkSpec TransitSpec.
From Verif.Proof Require Import LimbDarkProof LimbDarkArea.
Import ListNotations.
Open Scope R_scope.

(** ** light_curves.limb_dark *)
Lemma div_ge a b c : 0 < c -> b * c <= a -> b <= a / c.
Proof. intros Hc H. apply Rmult_le_reg_r with c; auto. unfold Rdiv. rewrite Rmult_assoc, Rinv_l by lra. lra. Qed.
Lemma div_le a b c : 0 < c -> a <= b * c -> a / c <= b.
Proof. intros Hc H. apply Rmult_le_reg_r with c; auto. unfold Rdiv. rewrite Rmult_assoc, Rinv_l by lra. lra. Qed.

Lemma transit_lc_flat eps quad orbit u t : 0 < lo_central_radius orbit -> 0 <= lo_radius orbit ->
  disk_flux u <> 0 ->
  (depth_z (lo_relative_position orbit t) <= 0 \/
   lo_central_radius orbit + lo_radius orbit <= separation (lo_relative_position orbit t)) ->
  transit_light_curve eps quad orbit u t = 0.
Proof.
  intros HR Hr HF H. unfold transit_light_curve.
  destruct (lo_relative_position orbit t) as [[x y] z]. cbn [depth_z separation snd] in H.
  destruct (Rgtb z 0) eqn:E; [|reflexivity]. apply Rltb_true in E.
  destruct H as [H|H]; [lra|]. apply light_curve_no_occ'; auto.
  assert (0 <= lo_radius orbit / lo_central_radius orbit) by (apply Rdiv_le_0_compat; lra).
  rewrite (Rabs_right (lo_radius orbit / lo_central_radius orbit)) by lra.
  rewrite Rabs_right.
  - apply div_ge; auto. rewrite Rmult_plus_distr_r. unfold Rdiv. rewrite Rmult_assoc, Rinv_l by lra. lra.
  - apply Rle_ge, Rdiv_le_0_compat; [apply sqrt_pos|auto].
Qed.
Lemma transit_lc_in_front eps quad orbit u t x y z : lo_relative_position orbit t = (x, y, z) -> 0 < z ->
  transit_light_curve eps quad orbit u t =
  light_curve eps quad u (sqrt (x^2 + y^2) / lo_central_radius orbit) (lo_radius orbit / lo_central_radius orbit).
Proof.
  intros E Hz. unfold transit_light_curve. rewrite E.
  replace (Rgtb z 0) with true by (symmetry; apply Rltb_true; lra). reflexivity.
Qed.
Lemma transit_lc_uniform_bounds eps quad orbit t : -1 <= transit_light_curve eps quad orbit [] t <= 0.
Proof.
  unfold transit_light_curve. destruct (lo_relative_position orbit t) as [[x y] z].
  destruct (Rgtb z 0); [apply uniform_bounds|lra].
Qed.
Definition sample_orbit : lc_orbit :=
  {| lo_central_radius := 2; lo_radius := 0.1; lo_relative_position := fun t => (t, 1, 5) |}.
Lemma transit_lc_sat : 0 < lo_central_radius sample_orbit /\ 0 <= lo_radius sample_orbit /\
  disk_flux [0.4; 0.3] <> 0 /\
  lo_central_radius sample_orbit + lo_radius sample_orbit <= separation (lo_relative_position sample_orbit 10).
Proof.
  cbn. repeat split; try lra; [apply no_occ_sat|].
  apply Rle_trans with (sqrt (10*10)); [rewrite sqrt_square by lra; lra|]. apply sqrt_le_1_alt. lra.
Qed.

(** ** emission *)
Definition em_dip eps quad (r_star : R) (u : list R) (bd : em_body) (t : R) : R :=
  transit_light_curve eps quad
    {| lo_central_radius := r_star; lo_radius := eb_radius bd; lo_relative_position := eb_relative_position bd |} u t.
Lemma emission_length eps quad rs us bodies t :
  length (emission_light_curve eps quad rs us bodies t) = S (length bodies).
Proof. unfold emission_light_curve. cbn. now rewrite map_length. Qed.
Lemma emission_central_sum eps quad rs us bodies t :
  nth 0 (emission_light_curve eps quad rs us bodies t) 0 =
  1 + Rsum (map (fun bd => em_dip eps quad rs us bd t) bodies).
Proof.
  unfold emission_light_curve. cbn [nth]. unfold emission_central. rewrite Rplus_comm. f_equal.
Qed.
Lemma emission_body_nth eps quad rs us bodies t i bd : nth_error bodies i = Some bd ->
  nth (S i) (emission_light_curve eps quad rs us bodies t) 0 = emission_body eps quad rs bd t.
Proof.
  intros H. unfold emission_light_curve. cbn [nth].
  revert i H. induction bodies as [|b0 bs IH]; intros [|i] H; cbn in *; try discriminate.
  - injection H as ->. reflexivity.
  - apply IH. exact H.
Qed.
Lemma emission_body_front eps quad rs bd t : 0 <= depth_z (eb_relative_position bd t) ->
  emission_body eps quad rs bd t = eb_amplitude bd.
Proof.
  unfold emission_body. destruct (eb_relative_position bd t) as [[x y] z]. cbn [depth_z snd]. intros H.
  replace (Rltb z 0) with false by (symmetry; apply Rltb_false; lra). ring.
Qed.
Lemma emission_body_clear eps quad rs bd t : 0 < eb_radius bd -> 0 <= rs -> disk_flux (eb_u bd) <> 0 ->
  rs + eb_radius bd <= separation (eb_relative_position bd t) ->
  emission_body eps quad rs bd t = eb_amplitude bd.
Proof.
  intros Hr Hs HF. unfold emission_body. destruct (eb_relative_position bd t) as [[x y] z]. cbn [separation]. intros H.
  rewrite light_curve_no_occ'; auto.
  - destruct (Rltb z 0); ring.
  - assert (0 <= rs / eb_radius bd) by (apply Rdiv_le_0_compat; lra).
    rewrite (Rabs_right (rs / eb_radius bd)) by lra. rewrite Rabs_right.
    + apply div_ge; auto. rewrite Rmult_plus_distr_r. unfold Rdiv. rewrite Rmult_assoc, Rinv_l by lra. lra.
    + apply Rle_ge, Rdiv_le_0_compat; [apply sqrt_pos|auto].
Qed.
Lemma emission_body_hidden eps quad rs bd t : 0 < eb_radius bd ->
  depth_z (eb_relative_position bd t) < 0 ->
  separation (eb_relative_position bd t) + eb_radius bd <= rs -> eb_radius bd < rs ->
  emission_body eps quad rs bd t = 0.
Proof.
  intros Hr. unfold emission_body. destruct (eb_relative_position bd t) as [[x y] z]. cbn [separation depth_z snd].
  intros Hz H Hlt. replace (Rltb z 0) with true by (symmetry; apply Rltb_true; lra).
  pose proof (sqrt_pos (x^2+y^2)) as Hs.
  assert (H1 : 0 <= sqrt (x^2+y^2) / eb_radius bd) by (apply Rdiv_le_0_compat; lra).
  assert (H2 : 1 < rs / eb_radius bd).
  { apply Rmult_lt_reg_r with (eb_radius bd); auto. unfold Rdiv. rewrite Rmult_assoc, Rinv_l by lra. lra. }
  rewrite light_curve_full_occ; [ring| |].
  - rewrite !Rabs_right by lra. apply div_ge; auto. rewrite Rmult_plus_distr_r. unfold Rdiv.
    rewrite Rmult_assoc, Rinv_l by lra. lra.
  - rewrite !Rabs_right by lra. lra.
Qed.
Definition sample_body : em_body :=
  {| eb_radius := 0.1; eb_relative_position := fun t => (t, 0, -5); eb_u := [0.2]; eb_amplitude := 3 |}.
Lemma emission_sat : 0 < eb_radius sample_body /\ depth_z (eb_relative_position sample_body 0.5) < 0 /\
  separation (eb_relative_position sample_body 0.5) + eb_radius sample_body <= 1 /\ eb_radius sample_body < 1.
Proof.
  cbn. repeat split; try lra. replace (sqrt _) with 0.5; [lra|]. symmetry. apply sqrt_lem_1; lra.
Qed.

(** ** TransitOrbit *)
Lemma to_speed_duration P d v tt b ror o :
  make_transit_orbit P d v tt b ror = Ok o ->
  (forall x, d = Some x -> x <> 0) -> (d = None -> forall x, v = Some x -> x <> 0) ->
  to_speed o * to_duration o = 2 * sqrt (Rmax 0 ((1 + to_ror o)^2 - to_impact o ^ 2)).
Proof.
  intros H Hd Hv. unfold make_transit_orbit in H.
  destruct d as [d|].
  - injection H as <-. cbn. specialize (Hd d eq_refl). unfold Rsqr. rewrite !Rmult_1_r. field. auto.
  - destruct v as [v|]; [|discriminate]. injection H as <-. cbn. specialize (Hv eq_refl v eq_refl).
    unfold Rsqr. rewrite !Rmult_1_r. field. auto.
Qed.
Lemma to_construct P d v tt b ror :
  (d = None /\ v = None -> make_transit_orbit P d v tt b ror = Err ValueError) /\
  (d <> None \/ v <> None -> exists o, make_transit_orbit P d v tt b ror = Ok o /\
     to_period o = P /\ (forall x, d = Some x -> to_duration o = x) /\
     (d = None -> forall x, v = Some x -> to_speed o = x) /\
     to_time_transit o = match tt with Some x => x | None => 0 end /\
     to_impact o = match b with Some x => x | None => 0 end /\
     to_ror o = match ror with Some x => x | None => 0 end).
Proof.
  split.
  - intros [-> ->]. reflexivity.
  - intros H. unfold make_transit_orbit. destruct d as [d|]; [|destruct v as [v|]].
    + eexists; split; [reflexivity|]. cbn. repeat split; try congruence; intros; congruence.
    + eexists; split; [reflexivity|]. cbn. repeat split; try congruence; intros; congruence.
    + destruct H; congruence.
Qed.
Lemma to_dt_range o t : 0 < to_period o -> - (to_period o / 2) <= to_dt o t < to_period o / 2.
Proof. intros H. unfold to_dt. pose proof (Rmod_range (t - (to_time_transit o - 0.5 * to_period o)) (to_period o) H). lra. Qed.
Lemma to_dt_decomp o t : exists k : Z, t = to_time_transit o + IZR k * to_period o + to_dt o t.
Proof.
  unfold to_dt. destruct (Rmod_decomp (t - (to_time_transit o - 0.5 * to_period o)) (to_period o)) as [k E].
  exists k. lra.
Qed.
Lemma to_dt_unique o t k s : 0 < to_period o -> - (to_period o / 2) <= s < to_period o / 2 ->
  t = to_time_transit o + IZR k * to_period o + s -> to_dt o t = s.
Proof.
  intros HP Hs ->. unfold to_dt.
  rewrite (Rmod_unique _ (to_period o) (s + 0.5 * to_period o) k); auto; lra.
Qed.
Lemma to_periodic o t k : 0 < to_period o ->
  to_relative_position o (t + IZR k * to_period o) = to_relative_position o t.
Proof.
  intros HP. unfold to_relative_position.
  replace (to_dt o (t + IZR k * to_period o)) with (to_dt o t); [reflexivity|].
  unfold to_dt. replace (t + IZR k * to_period o - (to_time_transit o - 0.5 * to_period o))
    with ((t - (to_time_transit o - 0.5 * to_period o)) + IZR k * to_period o) by ring.
  now rewrite Rmod_plus_mult by lra.
Qed.
Lemma to_at_transit o k : 0 < to_period o -> 0 < to_duration o ->
  to_relative_position o (to_time_transit o + IZR k * to_period o) = (0, to_impact o, 1).
Proof.
  intros HP HD. unfold to_relative_position.
  rewrite (to_dt_unique o _ k 0) by lra. rewrite Rabs_R0.
  replace (Rltb 0 (0.5 * to_duration o)) with true by (symmetry; apply Rltb_true; lra).
  f_equal; [f_equal; ring|ring].
Qed.
(** nearest transit centre: distance from t to the closest time_transit + k*period *)
Definition near_transit (t0 P half t : R) : Prop := exists k : Z, Rabs (t - (t0 + IZR k * P)) < half.
Lemma to_front_iff o t : 0 < to_period o -> 
  let '(_, _, z) := to_relative_position o t in
  (z = 1 /\ near_transit (to_time_transit o) (to_period o) (to_duration o / 2) t) \/
  (z = -1 /\ ~ near_transit (to_time_transit o) (to_period o) (to_duration o / 2) t).
Proof.
  intros HP. unfold to_relative_position.
  destruct (to_dt_decomp o t) as [k E]. pose proof (to_dt_range o t HP) as Hr.
  destruct (Rltb (Rabs (to_dt o t)) (0.5 * to_duration o)) eqn:Ec.
  - left. split; [ring|]. apply Rltb_true in Ec. exists k. replace (t - (to_time_transit o + IZR k * to_period o)) with (to_dt o t) by lra. lra.
  - right. split; [ring|]. apply Rltb_false in Ec. intros [j Hj].
    (* |dt| is the distance to the nearest centre *)
    assert (Rabs (to_dt o t) <= Rabs (t - (to_time_transit o + IZR j * to_period o))).
    { rewrite E at 2. replace (to_time_transit o + IZR k * to_period o + to_dt o t - (to_time_transit o + IZR j * to_period o))
        with (IZR (k - j) * to_period o + to_dt o t) by (rewrite minus_IZR; ring).
      destruct (Z.lt_trichotomy (k - j) 0) as [Hz|[Hz|Hz]].
      - assert (IZR (k-j) <= -1) by (change (-1) with (IZR (-1)); apply IZR_le; lia).
        rewrite (Rabs_left1 (IZR (k-j) * to_period o + to_dt o t)) by nra.
        apply Rabs_le. nra.
      - rewrite Hz. rewrite Rmult_0_l, Rplus_0_l. lra.
      - assert (1 <= IZR (k-j)) by (change 1 with (IZR 1); apply IZR_le; lia).
        rewrite (Rabs_right (IZR (k-j) * to_period o + to_dt o t)) by nra.
        apply Rabs_le. nra. }
    lra.
Qed.
Lemma to_light_curve_flat eps quad o u t : 0 < to_period o ->
  ~ near_transit (to_time_transit o) (to_period o) (to_duration o / 2) t ->
  transit_light_curve eps quad (to_lc_orbit o) u t = 0.
Proof.
  intros HP H. pose proof (to_front_iff o t HP) as HF.
  unfold transit_light_curve, to_lc_orbit; cbn [lo_relative_position lo_central_radius lo_radius].
  destruct (to_relative_position o t) as [[x y] z]. destruct HF as [[-> Hn]|[-> _]]; [tauto|].
  replace (Rgtb (-1) 0) with false by (symmetry; apply Rltb_false; lra). reflexivity.
Qed.
(** contact: separation compared with 1 + ror according to the time to mid transit *)
Lemma to_contact o k s : 0 < to_period o -> 0 < to_duration o ->
  to_speed o * to_duration o = 2 * sqrt (Rmax 0 ((1 + to_ror o)^2 - to_impact o ^ 2)) ->
  Rabs (to_impact o) < 1 + to_ror o -> - (to_period o / 2) <= s < to_period o / 2 ->
  let d := separation (to_relative_position o (to_time_transit o + IZR k * to_period o + s)) in
  (Rabs s = to_duration o / 2 -> d = 1 + to_ror o) /\
  (Rabs s < to_duration o / 2 -> d < 1 + to_ror o) /\
  (to_duration o / 2 < Rabs s -> 1 + to_ror o < d).
Proof.
  intros HP HD HS Hb Hs d. unfold d, to_relative_position, separation.
  rewrite (to_dt_unique o _ k s) by auto.
  set (v := to_speed o) in *. set (D := to_duration o) in *. set (b := to_impact o) in *. set (q := 1 + to_ror o) in *.
  assert (Hb2 : b^2 < q^2).
  { apply Rabs_def2 in Hb. nra. }
  rewrite Rmax_right in HS by lra.
  assert (Hv2 : (v * (D / 2))^2 = q^2 - b^2).
  { replace (v * (D/2)) with (sqrt (q^2 - b^2)) by lra. rewrite <- Rsqr_pow2. apply Rsqr_sqrt. lra. }
  assert (Hs2 : s^2 = (Rabs s)^2) by (rewrite <- !Rsqr_pow2; apply Rsqr_abs).
  assert (Hq0 : 0 < q) by (pose proof (Rabs_pos b); lra).
  pose proof (Rabs_pos s) as Hs0.
  assert (HqS : sqrt (q^2) = q) by (rewrite <- Rsqr_pow2; apply sqrt_Rsqr; lra).
  assert (Hv0 : 0 < v^2).
  { assert (0 < v^2 * (D/2)^2) by (replace (v^2 * (D/2)^2) with ((v*(D/2))^2) by ring; lra).
    assert (0 < (D/2)^2) by nra. nra. }
  assert (Ex : (v * s)^2 + b^2 = v^2 * (Rabs s)^2 + b^2) by (rewrite <- Hs2; ring).
  rewrite Ex. clear Ex.
  assert (Hv2' : v^2 * (D/2)^2 = q^2 - b^2) by (rewrite <- Hv2; ring).
  repeat split; intros Hc.
  - rewrite Hc, Hv2'. replace (q^2 - b^2 + b^2) with (q^2) by ring. exact HqS.
  - rewrite <- HqS. apply sqrt_lt_1_alt. split.
    + assert (0 <= v^2 * Rabs s^2) by (apply Rmult_le_pos; [lra|apply pow2_ge_0]). pose proof (pow2_ge_0 b). lra.
    + assert (Rabs s^2 < (D/2)^2) by nra. nra.
  - rewrite <- HqS. apply sqrt_lt_1_alt. split; [apply pow2_ge_0|].
    assert ((D/2)^2 < Rabs s^2) by nra. nra.
Qed.
Definition sample_to : transit_orbit :=
  {| to_period := 10; to_speed := 2 * sqrt (Rmax 0 ((1 + 0.1)² - 0.5²)) / 0.3; to_duration := 0.3;
     to_time_transit := 1; to_impact := 0.5; to_ror := 0.1 |}.
Lemma sample_to_ok : make_transit_orbit 10 (Some 0.3) None (Some 1) (Some 0.5) (Some 0.1) = Ok sample_to.
Proof. reflexivity. Qed.
