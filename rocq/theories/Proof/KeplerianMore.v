From Coq Require Import Reals ZArith List Bool Arith Lra Lia.
From Coquelicot Require Import Coquelicot.
From Verif.Base Require Import RealAux Analysis.
From Verif.Model Require Import Kepler Keplerian LimbDark LightCurves.
From Verif.Spec Require Import KeplerSpec OrbitSpec.
From Verif.Proof Require Import KeplerProof KeplerExact KeplerMore KeplerianProof.
Import ListNotations.
Open Scope R_scope.

(** ** The transit *)
Lemma transit_true_anomaly e s c : 0 <= e < 1 -> unit_pair s c -> s <> -1 ->
  cos_true (transit_E0 e s c) e = s /\ sin_true (transit_E0 e s c) e = c.
Proof.
  intros He Hu Hs. unfold unit_pair in Hu.
  assert (Hs1 : 0 < 1 + s) by (assert (-1 <= s <= 1) by (eapply unit_abs; rewrite Rplus_comm; exact Hu);
    destruct (Rle_lt_or_eq_dec (-1) s); lra).
  assert (Hs2 : -1 <= s <= 1) by (eapply unit_abs; rewrite Rplus_comm; exact Hu).
  set (x := sqrt (1 + e) * (1 + s)). set (y := sqrt (1 - e) * c).
  assert (Hx : 0 < x) by (apply Rmult_lt_0_compat; [apply sqrt_lt_R0; lra|assumption]).
  assert (Hes : 0 < 1 + e * s) by nra.
  assert (Hxx : x * x = (1 + e) * (1 + s) ^ 2).
  { unfold x. transitivity ((sqrt (1 + e) * sqrt (1 + e)) * (1 + s) ^ 2); [ring|]. rewrite sqrt_sqrt by lra. ring. }
  assert (Hyy : y * y = (1 - e) * (1 - s) * (1 + s)).
  { unfold y. transitivity ((sqrt (1 - e) * sqrt (1 - e)) * c ^ 2); [ring|]. rewrite sqrt_sqrt by lra.
    replace (c ^ 2) with (1 - s ^ 2) by lra. ring. }
  set (w := sqrt (1 - e ^ 2)).
  assert (Hw : sqrt (1 + e) * sqrt (1 - e) = w) by (unfold w; rewrite <- sqrt_mult by lra; f_equal; ring).
  assert (Hww : w * w = 1 - e ^ 2) by (unfold w; apply sqrt_sqrt; nra).
  assert (Hxy : x * y = w * c * (1 + s)) by (unfold x, y; rewrite <- Hw; ring).
  assert (Hden : x² + y² = 2 * (1 + s) * (1 + e * s)) by (unfold Rsqr; rewrite Hxx, Hyy; ring).
  assert (Hne : x <> 0 \/ y <> 0) by (left; lra).
  set (h := atan2 y x).
  assert (Hch : cos h * cos h = x * x / (x² + y²)).
  { unfold h. rewrite cos_atan2 by assumption. unfold Rdiv.
    transitivity (x * x * / (sqrt (x² + y²) * sqrt (x² + y²))).
    - field. apply Rgt_not_eq. now apply hyp_pos.
    - rewrite sqrt_sqrt; [reflexivity|]. pose proof (Rle_0_sqr x). pose proof (Rle_0_sqr y). lra. }
  assert (Hsh : sin h * sin h = y * y / (x² + y²)).
  { unfold h. rewrite sin_atan2 by assumption. unfold Rdiv.
    transitivity (y * y * / (sqrt (x² + y²) * sqrt (x² + y²))).
    - field. apply Rgt_not_eq. now apply hyp_pos.
    - rewrite sqrt_sqrt; [reflexivity|]. pose proof (Rle_0_sqr x). pose proof (Rle_0_sqr y). lra. }
  assert (Hsc : sin h * cos h = x * y / (x² + y²)).
  { unfold h. rewrite sin_atan2, cos_atan2 by assumption. unfold Rdiv.
    transitivity (x * y * / (sqrt (x² + y²) * sqrt (x² + y²))).
    - field. apply Rgt_not_eq. now apply hyp_pos.
    - rewrite sqrt_sqrt; [reflexivity|]. pose proof (Rle_0_sqr x). pose proof (Rle_0_sqr y). lra. }
  assert (HcE : cos (transit_E0 e s c) = (e + s) / (1 + e * s)).
  { unfold transit_E0. fold x y h. rewrite cos_2a, Hch, Hsh, Hden, Hxx, Hyy. field. split; lra. }
  assert (HsE : sin (transit_E0 e s c) = w * c / (1 + e * s)).
  { unfold transit_E0. fold x y h. rewrite sin_2a. replace (2 * sin h * cos h) with (2 * (sin h * cos h)) by ring.
    rewrite Hsc, Hden, Hxy. field. split; lra. }
  assert (Hd : 1 - e * ((e + s) / (1 + e * s)) = (1 - e ^ 2) / (1 + e * s)) by (field; lra).
  assert (He2 : 0 < 1 - e ^ 2) by nra.
  unfold cos_true, sin_true. rewrite HcE, HsE, Hd. fold w. split.
  - replace ((e + s) / (1 + e * s) - e) with ((1 - e ^ 2) * s / (1 + e * s)) by (field; lra).
    field. split; lra.
  - replace (w * (w * c / (1 + e * s))) with ((w * w) * c / (1 + e * s)) by (field; lra). rewrite Hww.
    field. split; lra.
Qed.

Section Orb.
Variables (G au : R).
Hypothesis HG : 0 < G.

Lemma tasc_at_transit kep c b o : exact_solver kep -> orbit_ok o -> make_orbital G c b = Ok o ->
  (forall e sw cw, ob_ecc o = Some (e, sw, cw) -> sw <> -1) ->
  true_anomaly_sc kep o (ob_time_transit o) =
  match ob_ecc o with None => (1, 0) | Some (_, sw, cw) => (cw, sw) end.
Proof.
  intros Hk Hok Ho Hsw. destruct (orbital_fields G c b o Ho) as (_ & _ & _ & _ & _ & _ & (M0 & f & Hecc & Htr & _) & _).
  assert (HP : 0 < ob_period o) by (now destruct Hok as (_ & ? & _)). pose proof PI_RGT_0 as HPI.
  assert (EM : mean_anomaly o (ob_time_transit o) = M0).
  { unfold mean_anomaly. rewrite Htr. field. split; lra. }
  unfold true_anomaly_sc. rewrite EM. destruct Hecc as [(E & _ & -> & _)|(e & sw & cw & E & _ & _ & -> & _)]; rewrite E.
  - replace (0.5 * PI) with (PI / 2) by lra. now rewrite sin_PI2, cos_PI2.
  - assert (He : 0 <= e < 1 /\ unit_pair sw cw) by (destruct Hok as (_ & _ & _ & _ & He & _); exact (He _ _ _ E)).
    destruct He as [He Hu].
    destruct (Hk (transit_M0 e sw cw) e He) as (E' & HE & ->).
    assert (HE0 : kepler_eq (transit_M0 e sw cw) e (transit_E0 e sw cw)) by reflexivity.
    rewrite (kepler_eq_unique _ e E' _ ltac:(lra) HE HE0).
    destruct (transit_true_anomaly e sw cw He Hu (Hsw _ _ _ E)) as [-> ->]. reflexivity.
Qed.
Lemma rotate_shape o x y : exists X Y Z, rotate_vector o x y true = (X, Y, Z) /\
  let '(x1, y1) := match ob_ecc o with None => (x, y) | Some (_, sw, cw) => (cw * x - sw * y, sw * x + cw * y) end in
  (orbit_ok o -> X ^ 2 + Y ^ 2 = x1 ^ 2 + (ob_cos_incl o * y1) ^ 2) /\ Z = - ob_sin_incl o * y1.
Proof.
  unfold rotate_vector. destruct (ob_ecc o) as [[[e sw] cw]|]; destruct (ob_node o) as [[sn cn]|] eqn:En;
  (eexists; eexists; eexists; split; [reflexivity|]; split; [|reflexivity]);
  intros (_ & _ & _ & _ & _ & Hn); try (specialize (Hn _ _ En); unfold unit_pair in Hn).
  all: try ring.
  - set (x1 := cw * x - sw * y). set (y1 := sw * x + cw * y).
    transitivity ((sn ^ 2 + cn ^ 2) * (x1 ^ 2 + (ob_cos_incl o * y1) ^ 2)); [ring|]. rewrite Hn. ring.
  - transitivity ((sn ^ 2 + cn ^ 2) * (x ^ 2 + (ob_cos_incl o * y) ^ 2)); [ring|]. rewrite Hn. ring.
Qed.
(** impact parameter and inclination are consistent: a r cos i = b R at transit *)
Lemma impact_consistent c b o : orbit_ok o -> make_orbital G c b = Ok o -> c_radius c <> 0 ->
  ob_semimajor o * rad o (match ob_ecc o with None => 0 | Some (_, sw, _) => sw end) * ob_cos_incl o
  = ob_impact o * c_radius c.
Proof.
  intros Hok Ho HR. destruct (orbital_fields G c b o Ho) as (_ & _ & _ & _ & _ & _ & (M0 & f & Hecc & _ & Hi) & _).
  destruct Hok as (Ha & _ & _ & _ & He & _).
  assert (Hf : f * rad o (match ob_ecc o with None => 0 | Some (_, sw, _) => sw end) = 1 /\ f <> 0).
  { unfold rad. destruct Hecc as [(E & _ & _ & ->)|(e & sw & cw & E & _ & _ & _ & ->)]; rewrite E; [lra|].
    destruct (He _ _ _ E) as [He' Hu]. unfold unit_pair in Hu.
    assert (-1 <= sw <= 1) by (eapply unit_abs; rewrite Rplus_comm; exact Hu).
    assert (0 < 1 + e * sw) by nra. assert (0 < 1 - e ^ 2) by nra.
    split; [field; split; lra|]. apply Rgt_not_eq. now apply Rdiv_lt_0_compat. }
  destruct Hf as [Hf Hf0].
  set (r := rad o _) in *. cbn zeta in Hi.
  destruct Hi as [(_ & Hc & _)|[(i & _ & _ & Hc & _ & Hb)|(_ & _ & Hc & _ & Hb)]].
  - rewrite Hc. transitivity ((f * r) * (ob_impact o * c_radius c)); [field; lra|]. rewrite Hf. ring.
  - rewrite Hc, Hb. transitivity ((f * r) * (ob_semimajor o * cos i / f)).
    + field. assumption.
    + rewrite Hf. field. repeat split; try assumption. lra.
  - rewrite Hc, Hb. ring.
Qed.
Lemma at_transit kep c b o : exact_solver kep -> orbit_ok o -> make_orbital G c b = Ok o -> ob_parallax o = None ->
  0 < c_radius c -> (forall e sw cw, ob_ecc o = Some (e, sw, cw) -> sw <> -1) -> 0 < ob_sin_incl o ->
  sky_sep (relative_position au kep o (ob_time_transit o) None) = Rabs (ob_impact o) * c_radius c /\
  0 < along (relative_position au kep o (ob_time_transit o) None).
Proof.
  intros Hk Hok Ho Hp HR Hsw Hsi. rewrite relpos_form.
  assert (Hps : pscale au o None = 1) by (unfold pscale, eff_parallax; now rewrite Hp). rewrite Hps, Rmult_1_r.
  unfold unit_pos. rewrite (tasc_at_transit kep c b o Hk Hok Ho Hsw).
  pose proof (impact_consistent c b o Hok Ho (Rgt_not_eq _ _ HR)) as Himp.
  assert (Hrad : 0 < rad o (match ob_ecc o with None => 0 | Some (_, sw, _) => sw end)).
  { apply rad_bounds; [assumption|]. destruct Hok as (_ & _ & _ & _ & He & _).
    destruct (ob_ecc o) as [[[e sw] cw]|]; [|lra]. destruct (He _ _ _ eq_refl) as [_ Hu].
    eapply unit_abs. unfold unit_pair in Hu. rewrite Rplus_comm. exact Hu. }
  set (r := rad o _) in *.
  assert (Ha : 0 < ob_semimajor o) by (now destruct Hok).
  assert (Hs : forall X Y : R, X ^ 2 + Y ^ 2 = (ob_cos_incl o * r) ^ 2 ->
     sqrt ((- ob_semimajor o * X) ^ 2 + (- ob_semimajor o * Y) ^ 2) = Rabs (ob_impact o) * c_radius c).
  { intros X Y H. replace ((- ob_semimajor o * X) ^ 2 + (- ob_semimajor o * Y) ^ 2)
      with (ob_semimajor o ^ 2 * (X ^ 2 + Y ^ 2)) by ring. rewrite H.
    replace (ob_semimajor o ^ 2 * (ob_cos_incl o * r) ^ 2) with ((ob_impact o * c_radius c)²)
      by (rewrite <- Himp; unfold Rsqr; ring).
    rewrite sqrt_Rsqr_abs, Rabs_mult. f_equal. apply Rabs_right. lra. }
  destruct (ob_ecc o) as [[[e sw] cw]|] eqn:Ee.
  - destruct (rotate_shape o (r * sw) (r * cw)) as (X & Y & Z & E & H). fold r. rewrite E. rewrite Ee in H.
    destruct H as [HXY HZ]. specialize (HXY Hok).
    assert (Hu : sw ^ 2 + cw ^ 2 = 1) by (destruct Hok as (_ & _ & _ & _ & He & _); now apply (He _ _ _ Ee)).
    cbn [vscale sky_sep along].
    assert (Ey : sw * (r * sw) + cw * (r * cw) = r) by (transitivity (r * (sw ^ 2 + cw ^ 2)); [ring|rewrite Hu; ring]).
    assert (Ex : cw * (r * sw) - sw * (r * cw) = 0) by ring.
    rewrite Ex, Ey in HXY. rewrite Ey in HZ. split.
    + apply Hs. rewrite HXY. ring.
    + rewrite HZ. replace (- ob_semimajor o * (- ob_sin_incl o * r)) with (ob_semimajor o * ob_sin_incl o * r) by ring.
      apply Rmult_lt_0_compat; [now apply Rmult_lt_0_compat|assumption].
  - fold r. destruct (rotate_shape o (r * 0) (r * 1)) as (X & Y & Z & E & H). rewrite E. rewrite Ee in H.
    destruct H as [HXY HZ]. specialize (HXY Hok). cbn [vscale sky_sep along]. split.
    + apply Hs. rewrite HXY. ring.
    + rewrite HZ. replace (- ob_semimajor o * (- ob_sin_incl o * (r * 1))) with (ob_semimajor o * ob_sin_incl o * r) by ring.
      apply Rmult_lt_0_compat; [now apply Rmult_lt_0_compat|assumption].
Qed.

(** ** Velocities are derivatives *)
Lemma deriv_ext (f g : R -> R) (x l : R) : (forall t, f t = g t) -> is_derive f x l -> is_derive g x l.
Proof. intros H. now apply is_derive_ext. Qed.
Lemma deriv_mult (f g : R -> R) (x df dg : R) : is_derive f x df -> is_derive g x dg ->
  is_derive (fun t => f t * g t) x (df * g x + f x * dg).
Proof. intros Hf Hg. apply (is_derive_mult f g x df dg Hf Hg). intros; apply Rmult_comm. Qed.
Lemma derive_lin a b (x y : R -> R) (t dx dy : R) : is_derive x t dx -> is_derive y t dy ->
  is_derive (fun s => a * x s + b * y s) t (a * dx + b * dy).
Proof.
  intros Hx Hy. apply (is_derive_plus (fun s => a * x s) (fun s => b * y s)).
  - now apply (is_derive_scal x t a dx).
  - now apply (is_derive_scal y t b dy).
Qed.
Lemma rotate_lin o i : exists a b c d e f, forall x y,
  rotate_vector o x y i = (a * x + b * y, c * x + d * y, e * x + f * y).
Proof.
  unfold rotate_vector. destruct (ob_ecc o) as [[[ec sw] cw]|], i, (ob_node o) as [[sn cn]|].
  - exists (cn * cw - sn * (ob_cos_incl o * sw)), (- cn * sw - sn * (ob_cos_incl o * cw)),
      (sn * cw + cn * (ob_cos_incl o * sw)), (- sn * sw + cn * (ob_cos_incl o * cw)),
      (- ob_sin_incl o * sw), (- ob_sin_incl o * cw). intros. apply f_equal2; [apply f_equal2|]; ring.
  - exists cw, (- sw), (ob_cos_incl o * sw), (ob_cos_incl o * cw),
      (- ob_sin_incl o * sw), (- ob_sin_incl o * cw). intros. apply f_equal2; [apply f_equal2|]; ring.
  - exists (cn * cw - sn * sw), (- cn * sw - sn * cw), (sn * cw + cn * sw), (- sn * sw + cn * cw), (- sw), (- cw).
    intros. apply f_equal2; [apply f_equal2|]; ring.
  - exists cw, (- sw), sw, cw, (- sw), (- cw). intros. apply f_equal2; [apply f_equal2|]; ring.
  - exists cn, (- sn * ob_cos_incl o), sn, (cn * ob_cos_incl o), 0, (- ob_sin_incl o).
    intros. apply f_equal2; [apply f_equal2|]; ring.
  - exists 1, 0, 0, (ob_cos_incl o), 0, (- ob_sin_incl o). intros. apply f_equal2; [apply f_equal2|]; ring.
  - exists cn, (- sn), sn, cn, 0, (-1). intros. apply f_equal2; [apply f_equal2|]; ring.
  - exists 1, 0, 0, 1, 0, (-1). intros. apply f_equal2; [apply f_equal2|]; ring.
Qed.
Lemma rotate_derive o i (x y : R -> R) (t dx dy : R) : is_derive x t dx -> is_derive y t dy ->
  vderive (fun s => rotate_vector o (x s) (y s) i) t (rotate_vector o dx dy i).
Proof.
  intros Hx Hy. destruct (rotate_lin o i) as (a & b & c & d & e & f & H). unfold vderive. rewrite H. cbn [vx vy along].
  split; [|split].
  - apply (deriv_ext (fun s => a * x s + b * y s)); [intros s; now rewrite H|]. now apply derive_lin.
  - apply (deriv_ext (fun s => c * x s + d * y s)); [intros s; now rewrite H|]. now apply derive_lin.
  - apply (deriv_ext (fun s => e * x s + f * y s)); [intros s; now rewrite H|]. now apply derive_lin.
Qed.
Lemma vderive_scale k p t v : vderive p t v -> vderive (fun s => vscale k (p s)) t (vscale k v).
Proof.
  intros (H1 & H2 & H3). destruct v as [[a b] c]. cbn [vx vy along] in *. split; [|split]; cbn [vscale vx vy along].
  - apply (deriv_ext (fun s => k * vx (p s))); [intros s; now destruct (p s) as [[? ?] ?]|].
    now apply (is_derive_scal (fun s => vx (p s)) t k a).
  - apply (deriv_ext (fun s => k * vy (p s))); [intros s; now destruct (p s) as [[? ?] ?]|].
    now apply (is_derive_scal (fun s => vy (p s)) t k b).
  - apply (deriv_ext (fun s => k * along (p s))); [intros s; now destruct (p s) as [[? ?] ?]|].
    now apply (is_derive_scal (fun s => along (p s)) t k c).
Qed.
Lemma vderive_ext p q t v : (forall s, p s = q s) -> vderive p t v -> vderive q t v.
Proof.
  intros H (H1 & H2 & H3). split; [|split].
  - apply (deriv_ext (fun s => vx (p s))); [intros; now rewrite H|assumption].
  - apply (deriv_ext (fun s => vy (p s))); [intros; now rewrite H|assumption].
  - apply (deriv_ext (fun s => along (p s))); [intros; now rewrite H|assumption].
Qed.
Lemma mean_anomaly_derive o t : ob_period o <> 0 -> is_derive (mean_anomaly o) t (2 * PI / ob_period o).
Proof. intros H. unfold mean_anomaly. auto_derive; [auto|]. field. assumption. Qed.

Lemma Rpower_15 x : 0 < x -> Rpower x 1.5 = x * sqrt x.
Proof.
  intros H. replace 1.5 with (1 + / 2) by lra. rewrite Rpower_plus, Rpower_1, Rpower_sqrt by assumption. reflexivity.
Qed.
(** the orbit-plane coordinates *)
Lemma plane_derive kep o t : exact_solver kep -> orbit_ok o ->
  let n := 2 * PI / ob_period o / sqrt (1 - ecc_val o ^ 2) in
  let sc := true_anomaly_sc kep o in
  is_derive (fun s => rad o (snd (sc s)) * snd (sc s)) t (n * - fst (sc t)) /\
  is_derive (fun s => rad o (snd (sc s)) * fst (sc s)) t (n * (snd (sc t) + ecc_val o)).
Proof.
  intros Hk Hok. pose proof Hok as (_ & HP & _ & _ & He & _).
  assert (HP0 : ob_period o <> 0) by lra.
  pose proof (mean_anomaly_derive o t HP0) as HM.
  cbn zeta. unfold true_anomaly_sc, rad, ecc_val. destruct (ob_ecc o) as [[[e sw] cw]|] eqn:Ee.
  - destruct (He _ _ _ eq_refl) as [He' _].
    pose proof (kepler_jvp_correct kep (mean_anomaly o) (fun _ => e) t (2 * PI / ob_period o) 0 Hk HM) as HJ.
    specialize (HJ (is_derive_const e t)).
    assert (Hl : locally t (fun _ : R => 0 <= e < 1)) by (now exists (mkposreal 1 Rlt_0_1)).
    specialize (HJ Hl). unfold kepler_jvp in HJ.
    pose proof (exact_unit kep Hk (mean_anomaly o t) e He') as Hunit.
    destruct (kep (mean_anomaly o t) e) as [s c] eqn:Ek. cbn [fst snd] in *. destruct HJ as [Hs Hc].
    assert (Hc1 : -1 <= c <= 1) by (eapply unit_abs; exact Hunit).
    assert (Hd : 0 < 1 + e * c) by nra. assert (Hq : 0 < 1 - e ^ 2) by nra.
    set (w := sqrt (1 - e ^ 2)) in *. assert (Hw : 0 < w) by (now apply sqrt_lt_R0).
    assert (Hww : 1 - e ^ 2 = w * w) by (unfold w; now rewrite sqrt_sqrt by lra).
    set (F := kepler_fdot e s c (2 * PI / ob_period o) 0) in *.
    assert (EF : F = 2 * PI / ob_period o * (1 + e * c) ^ 2 / (w * w * w)).
    { unfold F, kepler_fdot. rewrite Rpower_15 by assumption. fold w. rewrite Hww.
      transitivity (2 * PI / ob_period o * (1 + e * c) ^ 2 / (w * w * w) + 0 * ((2 + e * c) * s / (w * w))); [|ring].
      unfold Rdiv. ring. }
    set (sf := fun x => fst (kep (mean_anomaly o x) e)) in *.
    set (cf := fun x => snd (kep (mean_anomaly o x) e)) in *.
    assert (Ecf : cf t = c) by (unfold cf; now rewrite Ek).
    assert (Esf : sf t = s) by (unfold sf; now rewrite Ek).
    assert (Hrad : is_derive (fun x => (1 - e ^ 2) / (1 + e * cf x)) t ((1 - e ^ 2) * e * (s * F) / (1 + e * c) ^ 2)).
    { evar_last. 
      - apply (is_derive_div (fun _ => 1 - e ^ 2) (fun x => 1 + e * cf x) t 0 (0 + e * (- s * F))).
        + apply (is_derive_const (1 - e ^ 2) t).
        + apply (is_derive_plus (fun _ => 1) (fun x => e * cf x) t 0 (e * (- s * F))); [apply (is_derive_const 1 t)|].
          now apply (is_derive_scal cf t e).
        + rewrite Ecf. lra.
      - cbn. rewrite Ecf. field. lra. }
    split.
    + evar_last; [apply (deriv_mult (fun x => (1 - e ^ 2) / (1 + e * cf x)) cf t _ _ Hrad Hc)|].
      cbn. rewrite Ecf, EF. change (1 - e * (e * 1)) with (1 - e ^ 2). rewrite Hww. field. repeat split; lra.
    + evar_last; [apply (deriv_mult (fun x => (1 - e ^ 2) / (1 + e * cf x)) sf t _ _ Hrad Hs)|].
      cbn. rewrite Ecf, Esf, EF. change (1 - e * (e * 1)) with (1 - e ^ 2). rewrite Hww.
      transitivity (2 * PI / ob_period o / w * (e * (s ^ 2 + c ^ 2) + c)).
      * field. repeat split; lra.
      * rewrite Hunit. field. split; lra.
  - assert (S1 : sqrt (1 - 0 ^ 2) = 1) by (replace (1 - 0 ^ 2) with 1 by ring; apply sqrt_1).
    rewrite S1. cbn [fst snd]. split.
    + apply (deriv_ext (fun s => cos (mean_anomaly o s))); [intros; ring|].
      evar_last; [apply (is_derive_comp cos (mean_anomaly o) t _ _ (is_derive_cos _) HM)|].
      cbn. field. assumption.
    + apply (deriv_ext (fun s => sin (mean_anomaly o s))); [intros; ring|].
      evar_last; [apply (is_derive_comp sin (mean_anomaly o) t _ _ (is_derive_sin _) HM)|].
      cbn. field. assumption.
Qed.
Lemma unit_pos_derive kep o t : exact_solver kep -> orbit_ok o ->
  vderive (unit_pos kep o) t (vscale (2 * PI / ob_period o / sqrt (1 - ecc_val o ^ 2)) (unit_vel kep o t true)).
Proof.
  intros Hk Hok. destruct (plane_derive kep o t Hk Hok) as [Hx Hy]. 
  pose proof (rotate_derive o true _ _ _ _ _ Hx Hy) as H. rewrite rotate_scale in H.
  unfold unit_vel. destruct (true_anomaly_sc kep o t) as [s c] eqn:E. cbn [fst snd] in H.
  revert H. apply vderive_ext. intros u. unfold unit_pos. now destruct (true_anomaly_sc kep o u).
Qed.
Lemma relvel_derive kep o t : exact_solver kep -> orbit_ok o -> ob_semiamplitude o = None ->
  exists v, relative_velocity au kep o t None = Ok v /\ vderive (fun s => relative_position au kep o s None) t v.
Proof.
  intros Hk Hok Hs. eexists. split; [reflexivity|]. rewrite vel_form. unfold eff_semi. rewrite Hs.
  apply (vderive_ext (fun s => vscale (- ob_semimajor o * pscale au o None) (unit_pos kep o s))).
  { intros s. now rewrite relpos_form. }
  pose proof (vderive_scale (- ob_semimajor o * pscale au o None) _ _ _ (unit_pos_derive kep o t Hk Hok)) as H.
  rewrite vscale_vscale in H. revert H. match goal with |- vderive _ _ (vscale ?x _) -> vderive _ _ (vscale ?y _) => assert (E : y = x) end.
  { unfold vel_amp, eff_semi. rewrite Hs. destruct Hok as (_ & HP & HM & _).
    unfold Rdiv. generalize (/ sqrt (1 - ecc_val o ^ 2)). intros q. field. split; lra. }
  now rewrite E.
Qed.
Lemma vel_derive kep o t : exact_solver kep -> orbit_ok o -> ob_semiamplitude o = None ->
  exists v, velocity au kep o t None = Ok v /\ vderive (fun s => position au kep o s None) t v.
Proof.
  intros Hk Hok Hs. eexists. split; [reflexivity|]. rewrite vel_form. unfold eff_semi. rewrite Hs.
  apply (vderive_ext (fun s => vscale (- ob_semimajor o * c_mass (ob_central o) / total_mass o * pscale au o None) (unit_pos kep o s))).
  { intros s. now rewrite position_form. }
  pose proof (vderive_scale (- ob_semimajor o * c_mass (ob_central o) / total_mass o * pscale au o None) _ _ _ (unit_pos_derive kep o t Hk Hok)) as H.
  rewrite vscale_vscale in H. revert H. match goal with |- vderive _ _ (vscale ?x _) -> vderive _ _ (vscale ?y _) => assert (E : y = x) end.
  { unfold vel_amp, eff_semi. rewrite Hs. destruct Hok as (_ & HP & HM & _).
    unfold Rdiv. generalize (/ sqrt (1 - ecc_val o ^ 2)). intros q. field. split; lra. }
  now rewrite E.
Qed.
Lemma cvel_derive kep o t m : exact_solver kep -> orbit_ok o -> ob_semiamplitude o = None -> ob_mass o = Some m ->
  vderive (fun s => match central_position au kep o s None with Ok p => p | Err _ => (0, 0, 0) end) t
          (central_velocity au kep o t None).
Proof.
  intros Hk Hok Hs Hm. unfold central_velocity. rewrite vel_form. unfold eff_semi. rewrite Hs.
  apply (vderive_ext (fun s => vscale (ob_semimajor o * m / total_mass o * pscale au o None) (unit_pos kep o s))).
  { intros s. now rewrite (cpos_form au kep o s None m Hm). }
  pose proof (vderive_scale (ob_semimajor o * m / total_mass o * pscale au o None) _ _ _ (unit_pos_derive kep o t Hk Hok)) as H.
  rewrite vscale_vscale in H. revert H. match goal with |- vderive _ _ (vscale ?x _) -> vderive _ _ (vscale ?y _) => assert (E : y = x) end.
  { unfold vel_amp, eff_semi. rewrite Hs, Hm. destruct Hok as (_ & HP & HM & _).
    unfold Rdiv. generalize (/ sqrt (1 - ecc_val o ^ 2)). intros q. field. split; lra. }
  now rewrite E.
Qed.

(** ** Radial velocity *)
Lemma unit_angle s c : s ^ 2 + c ^ 2 = 1 -> exists f, s = sin f /\ c = cos f.
Proof.
  intros H. exists (atan2 s c).
  assert (Hne : c <> 0 \/ s <> 0). { destruct (Req_dec c 0) as [->|]; [|now left]. right. intros ->. lra. }
  assert (Hq : sqrt (c² + s²) = 1). { replace (c² + s²) with 1 by (unfold Rsqr; lra). apply sqrt_1. }
  rewrite sin_atan2, cos_atan2 by assumption. rewrite Hq. split; field.
Qed.
Lemma along_rotate o x y i : along (rotate_vector o x y i) =
  - (if i then ob_sin_incl o else 1) * match ob_ecc o with None => y | Some (_, sw, cw) => sw * x + cw * y end.
Proof. unfold rotate_vector. destruct (ob_ecc o) as [[[e sw] cw]|], i, (ob_node o) as [[sn cn]|]; cbn; ring. Qed.
Lemma along_scale c v : along (vscale c v) = c * along v.
Proof. now destruct v as [[x y] z]. Qed.
Lemma rv_along kep o t K : radial_velocity au kep o t K = - along (central_velocity au kep o t K).
Proof. unfold radial_velocity. now destruct (central_velocity au kep o t K) as [[x y] z]. Qed.
Lemma rv_form kep o t K : radial_velocity au kep o t K =
  vel_amp au o (ob_mass o) K None * (match eff_semi o K with None => ob_sin_incl o | _ => 1 end) *
  (let '(s, c) := true_anomaly_sc kep o t in
   match ob_ecc o with None => c | Some (e, sw, cw) => cw * (c + e) - sw * s end).
Proof.
  rewrite rv_along. unfold central_velocity.
  assert (E : forall mm, along (snd (position_and_velocity au kep o t None mm K None)) =
    vel_amp au o mm K None * - ((match eff_semi o K with None => ob_sin_incl o | _ => 1 end) *
  (let '(s, c) := true_anomaly_sc kep o t in
   match ob_ecc o with None => c | Some (e, sw, cw) => cw * (c + e) - sw * s end))).
  { intros mm. rewrite vel_form, along_scale. f_equal. unfold unit_vel.
    destruct (true_anomaly_sc kep o t) as [s c]. rewrite along_rotate. unfold ecc_val.
    destruct (eff_semi o K), (ob_ecc o) as [[[e sw] cw]|]; ring. }
  destruct K as [K|].
  - rewrite E. unfold vel_amp, eff_semi. ring.
  - rewrite E. ring.
Qed.
Lemma rv_K o t K e w : orbit_ok o -> ob_ecc o = Some (e, sin w, cos w) ->
  exists f, true_anomaly_sc kepler o t = (sin f, cos f) /\
    radial_velocity au kepler o t (Some K) = K * (cos (w + f) + e * cos w).
Proof.
  intros Hok Ee. pose proof (tasc_unit kepler o t kepler_unit Hok) as H.
  destruct (true_anomaly_sc kepler o t) as [s c] eqn:E. cbn [fst snd] in H.
  destruct (unit_angle s c H) as (f & -> & ->). exists f. split; [reflexivity|].
  rewrite rv_form, E, Ee. unfold vel_amp, eff_semi. rewrite cos_plus. ring.
Qed.
Lemma rv_K_circular kep o t K : ob_ecc o = None ->
  radial_velocity au kep o t (Some K) = K * cos (mean_anomaly o t).
Proof. intros Ee. rewrite rv_form. unfold true_anomaly_sc. rewrite Ee. unfold vel_amp, eff_semi. ring. Qed.
(** semiamplitude implied by the masses *)
Lemma rv_mass o t e w m : orbit_ok o -> ob_ecc o = Some (e, sin w, cos w) -> ob_mass o = Some m ->
  ob_semiamplitude o = None -> ob_parallax o = None ->
  exists f, true_anomaly_sc kepler o t = (sin f, cos f) /\
    radial_velocity au kepler o t None =
      2 * PI * ob_semimajor o * (m / (m + c_mass (ob_central o))) * ob_sin_incl o / (ob_period o * sqrt (1 - e ^ 2))
      * (cos (w + f) + e * cos w).
Proof.
  intros Hok Ee Hm Hs Hp. pose proof (tasc_unit kepler o t kepler_unit Hok) as H.
  destruct (true_anomaly_sc kepler o t) as [s c] eqn:E. cbn [fst snd] in H.
  destruct (unit_angle s c H) as (f & -> & ->). exists f. split; [reflexivity|].
  rewrite rv_form, E, Ee. unfold vel_amp, eff_semi, pscale, eff_parallax, ecc_val. rewrite Hs, Hp, Hm, Ee.
  unfold total_mass, total_mass_of. rewrite Hm. rewrite cos_plus.
  destruct Hok as (_ & HP & HT & _ & He & _). unfold total_mass, total_mass_of in HT. rewrite Hm in HT.
  destruct (He _ _ _ Ee) as [He' _].
  assert (Hq : 0 < sqrt (1 - e ^ 2)) by (apply sqrt_lt_R0; nra). field. repeat split; lra.
Qed.
Lemma cp_massless kep o t p : ob_mass o = None -> central_position au kep o t p = Err TypeError.
Proof. intros Hm. unfold central_position. now rewrite Hm. Qed.
Lemma rv_massless o t e w : orbit_ok o -> ob_ecc o = Some (e, sin w, cos w) -> ob_mass o = None ->
  ob_semiamplitude o = None -> ob_parallax o = None ->
  exists f, true_anomaly_sc kepler o t = (sin f, cos f) /\
    radial_velocity au kepler o t None =
      2 * PI * ob_semimajor o * (1 / c_mass (ob_central o)) * ob_sin_incl o / (ob_period o * sqrt (1 - e ^ 2))
      * (cos (w + f) + e * cos w).
Proof.
  intros Hok Ee Hm Hs Hp. pose proof (tasc_unit kepler o t kepler_unit Hok) as H.
  destruct (true_anomaly_sc kepler o t) as [s c] eqn:E. cbn [fst snd] in H.
  destruct (unit_angle s c H) as (f & -> & ->). exists f. split; [reflexivity|].
  rewrite rv_form, E, Ee. unfold vel_amp, eff_semi, pscale, eff_parallax, ecc_val. rewrite Hs, Hp, Hm, Ee.
  unfold total_mass, total_mass_of. rewrite Hm. rewrite cos_plus.
  destruct Hok as (_ & HP & HT & _ & He & _). unfold total_mass, total_mass_of in HT. rewrite Hm in HT.
  destruct (He _ _ _ Ee) as [He' _].
  assert (Hq : 0 < sqrt (1 - e ^ 2)) by (apply sqrt_lt_R0; nra). field. repeat split; lra.
Qed.
Lemma rv_massless_circ kep o t : orbit_ok o -> ob_ecc o = None -> ob_mass o = None ->
  ob_semiamplitude o = None -> ob_parallax o = None ->
    radial_velocity au kep o t None =
      2 * PI * ob_semimajor o * (1 / c_mass (ob_central o)) * ob_sin_incl o / ob_period o * cos (mean_anomaly o t).
Proof.
  intros Hok Ee Hm Hs Hp.
  rewrite rv_form. unfold true_anomaly_sc, vel_amp, eff_semi, pscale, eff_parallax, ecc_val. rewrite Hs, Hp, Hm, Ee.
  unfold total_mass, total_mass_of. rewrite Hm.
  destruct Hok as (_ & HP & HT & _). unfold total_mass, total_mass_of in HT. rewrite Hm in HT.
  replace (1 - 0 ^ 2) with 1 by ring. rewrite sqrt_1. field. repeat split; lra.
Qed.
Lemma stored_semiamplitude kep o t K : ob_semiamplitude o = Some K ->
  central_velocity au kep o t None = central_velocity au kep o t (Some K) /\
  radial_velocity au kep o t None = radial_velocity au kep o t (Some K) /\
  velocity au kep o t None = Ok (central_velocity au kep o t (Some K)) /\
  relative_velocity au kep o t None = Ok (central_velocity au kep o t (Some K)).
Proof.
  intros H.
  assert (E : central_velocity au kep o t None = central_velocity au kep o t (Some K)).
  { unfold central_velocity. rewrite !vel_form. unfold vel_amp, eff_semi. now rewrite H. }
  split; [assumption|]. split; [now rewrite !rv_along, E|].
  unfold velocity, relative_velocity, central_velocity. rewrite !vel_form. unfold vel_amp, eff_semi. now rewrite H.
Qed.

(** ** Ascending node *)
Lemma b_set_node_orbital c b o Omega : make_orbital G c b = Ok o ->
  make_orbital G c (b_set_node b Omega) =
  Ok (set_node o (match Omega with None => None | Some w => Some (sin w, cos w) end)).
Proof.
  unfold make_orbital. cbn [b_set_node b_time_transit b_time_peri b_period b_semimajor b_inclination b_impact_param
    b_eccentricity b_omega_peri b_sin_omega_peri b_cos_omega_peri b_asc_node b_sin_asc_node b_cos_asc_node b_mass b_radius b_semiamplitude b_parallax].
  destruct (match b_semimajor b with Some _ => _ | None => _ end) as [[a p]|]; [|discriminate].
  destruct (angle_pair (b_omega_peri b) _ _) as [sw cw].
  destruct (angle_pair (b_asc_node b) _ _) as [sn cn].
  destruct (match b_eccentricity b with Some _ => _ | None => _ end) as [[[M0 f] ecc]|]; [|destruct Omega; discriminate].
  destruct (match b_impact_param b with Some _ => _ | None => _ end) as [[b' ci] si].
  intros H. injection H as <-. destruct Omega; reflexivity.
Qed.
Lemma node_rotation kep o n t p : (forall s c, n = Some (s, c) -> unit_pair s c) -> ob_node o = None ->
  let u := relative_position au kep o t p in let v := relative_position au kep (set_node o n) t p in
  along v = along u /\ sky_sep v = sky_sep u /\
  forall s c, n = Some (s, c) -> vx v = c * vx u - s * vy u /\ vy v = s * vx u + c * vy u.
Proof.
  intros Hn Ho. cbn zeta. rewrite !relpos_form.
  change (pscale au (set_node o n) p) with (pscale au o p). change (ob_semimajor (set_node o n)) with (ob_semimajor o).
  set (k := - ob_semimajor o * pscale au o p). unfold unit_pos.
  change (true_anomaly_sc kep (set_node o n) t) with (true_anomaly_sc kep o t).
  destruct (true_anomaly_sc kep o t) as [sf cf]. change (rad (set_node o n) cf) with (rad o cf).
  set (x := rad o cf * cf). set (y := rad o cf * sf). unfold rotate_vector. rewrite Ho.
  cbn [set_node ob_ecc ob_node ob_cos_incl ob_sin_incl].
  destruct (match ob_ecc o with Some _ => _ | None => _ end) as [x1 y1].
  destruct n as [[s c]|]; cbn [vscale along sky_sep vx vy].
  - specialize (Hn _ _ eq_refl). unfold unit_pair in Hn. split; [reflexivity|]. split.
    + f_equal. transitivity ((s ^ 2 + c ^ 2) * ((k * x1) ^ 2 + (k * (ob_cos_incl o * y1)) ^ 2)); [ring|]. rewrite Hn. ring.
    + intros s' c' [= <- <-]. split; ring.
  - split; [reflexivity|]. split; [reflexivity|]. congruence.
Qed.
Lemma angles_polar kep o t p :
  let '(rho, theta) := relative_angles au kep o t p in
  let v := relative_position au kep o t p in
  rho = sky_sep v /\ vx v = rho * cos theta /\ vy v = rho * sin theta /\ - PI < theta <= PI.
Proof.
  unfold relative_angles. destruct (relative_position au kep o t p) as [[x y] z]. cbn [sky_sep vx vy].
  split; [reflexivity|]. split; [|split; [|apply atan2_range]].
  - destruct (Req_dec x 0) as [Hx|Hx]; [destruct (Req_dec y 0) as [Hy|Hy]|].
    + subst. replace (0 ^ 2 + 0 ^ 2) with 0 by ring. rewrite sqrt_0. ring.
    + rewrite cos_atan2 by now right. subst x. unfold Rdiv. ring.
    + rewrite cos_atan2 by now left. replace (x ^ 2 + y ^ 2) with (x² + y²) by (unfold Rsqr; ring).
      field. apply Rgt_not_eq, hyp_pos. now left.
  - destruct (Req_dec y 0) as [Hy|Hy]; [destruct (Req_dec x 0) as [Hx|Hx]|].
    + subst. replace (0 ^ 2 + 0 ^ 2) with 0 by ring. rewrite sqrt_0. ring.
    + rewrite sin_atan2 by now left. subst y. unfold Rdiv. ring.
    + rewrite sin_atan2 by now right. replace (x ^ 2 + y ^ 2) with (x² + y²) by (unfold Rsqr; ring).
      field. apply Rgt_not_eq, hyp_pos. now right.
Qed.
Lemma lc_depends eps quad rs r u (p q : R -> vec) t : sky_sep (p t) = sky_sep (q t) -> along (p t) = along (q t) ->
  transit_light_curve eps quad {| lo_central_radius := rs; lo_radius := r; lo_relative_position := p |} u t =
  transit_light_curve eps quad {| lo_central_radius := rs; lo_radius := r; lo_relative_position := q |} u t.
Proof.
  unfold transit_light_curve. cbn [lo_relative_position lo_central_radius lo_radius].
  destruct (p t) as [[x y] z], (q t) as [[x' y'] z']. cbn [sky_sep along]. now intros -> ->.
Qed.

(** ** System *)
Lemma build_orbitals c os : build_bodies G c (map AOrbital os) = Ok os.
Proof. induction os as [|o os IH]; [reflexivity|]. cbn [map build_bodies rbind]. now rewrite IH. Qed.
Lemma build_app c l1 l2 : build_bodies G c (l1 ++ l2) =
  rbind (build_bodies G c l1) (fun a => rbind (build_bodies G c l2) (fun b => Ok (a ++ b))).
Proof.
  induction l1 as [|x l1 IH].
  - cbn. destruct (build_bodies G c l2); reflexivity.
  - cbn [app build_bodies]. destruct (match x with ABody _ => _ | AOrbital _ => _ end) as [o|]; [|reflexivity]. cbn [rbind].
    rewrite IH. destruct (build_bodies G c l1) as [a|]; [|reflexivity]. cbn [rbind].
    destruct (build_bodies G c l2); reflexivity.
Qed.
Definition build1 (c : central) (b : body_of arr) : result orbital := rbind (make_body b) (make_orbital G c).
Lemma add_body_spec s b co : add_body G s b co =
  rbind (build1 (match co with Some c => c | None => sys_central s end) b)
        (fun o => Ok {| sys_central := sys_central s; sys_bodies := sys_bodies s ++ [o] |}).
Proof.
  unfold add_body, make_system, build1. destruct co as [c|].
  - destruct (make_body b) as [b'|]; [|reflexivity]. cbn [rbind].
    destruct (make_orbital G c b') as [o|]; [|reflexivity]. cbn [rbind].
    now rewrite build_app, build_orbitals.
  - cbn [rbind]. rewrite build_app, build_orbitals. cbn [rbind build_bodies].
    destruct (make_body b) as [b'|]; [|reflexivity]. cbn [rbind].
    destruct (make_orbital G (sys_central s) b') as [o|]; reflexivity.
Qed.
Fixpoint add_all (s : system) (l : list (body_of arr * option central)) : result system :=
  match l with [] => Ok s | (b, c) :: l' => rbind (add_body G s b c) (fun s' => add_all s' l') end.
Lemma add_all_spec l : forall s s', add_all s l = Ok s' ->
  sys_central s' = sys_central s /\
  exists os, sys_bodies s' = sys_bodies s ++ os /\ length os = length l /\
    forall i b co, nth_error l i = Some (b, co) ->
      exists o, nth_error os i = Some o /\ build1 (match co with Some c => c | None => sys_central s end) b = Ok o.
Proof.
  induction l as [|[b co] l IH]; intros s s' H.
  - injection H as <-. split; [reflexivity|]. exists []. rewrite app_nil_r. repeat split. intros [|i]; discriminate.
  - cbn [add_all] in H. rewrite add_body_spec in H.
    destruct (build1 _ b) as [o|] eqn:E; [|discriminate]. cbn [rbind] in H.
    destruct (IH _ _ H) as (Hc & os & Hb & Hl & Hn). cbn [sys_central sys_bodies] in *.
    split; [assumption|]. exists (o :: os). rewrite Hb, <- app_assoc. split; [reflexivity|]. split; [simpl; congruence|].
    intros [|i] b' co' Hi.
    + injection Hi as -> ->. now exists o.
    + now apply Hn.
Qed.
Lemma add_all_make_system c bs : add_all {| sys_central := c; sys_bodies := [] |} (map (fun b => (b, None)) bs) =
  make_system G (Some c) (map ABody bs).
Proof.
  unfold make_system. cbn [rbind].
  assert (H : forall bs os, add_all {| sys_central := c; sys_bodies := os |} (map (fun b => (b, None)) bs) =
     rbind (build_bodies G c (map ABody bs)) (fun x => Ok {| sys_central := c; sys_bodies := os ++ x |})).
  { clear bs. induction bs as [|b bs IH]; intros os; cbn [map add_all build_bodies rbind]; [now rewrite app_nil_r|].
    rewrite add_body_spec. cbn [sys_central sys_bodies]. unfold build1.
    destruct (rbind (make_body b) (make_orbital G c)) as [o|]; [|reflexivity]. cbn [rbind]. rewrite IH.
    destruct (build_bodies G c (map ABody bs)) as [x|]; [|reflexivity]. cbn [rbind]. now rewrite <- app_assoc. }
  apply H.
Qed.
End Orb.
