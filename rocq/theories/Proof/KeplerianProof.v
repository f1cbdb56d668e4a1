From Coq Require Import Reals ZArith List Bool Arith Lra Lia.
From Coquelicot Require Import Coquelicot.
From Verif.Base Require Import RealAux Analysis.
From Verif.Model Require Import Kepler Keplerian.
From Verif.Spec Require Import KeplerSpec OrbitSpec.
From Verif.Proof Require Import KeplerProof KeplerExact KeplerMore.
Import ListNotations.
Open Scope R_scope.

(** ** Central *)
Lemma fpow_third x : 0 < x -> fpow x (1 / 3) ^ 3 = x.
Proof.
  intros H. transitivity (cbrt x ^ 3); [|apply cbrt_cube]. f_equal. unfold fpow, cbrt.
  destruct (Rlt_dec 0 x); [|lra]. f_equal. lra.
Qed.
Lemma opt_sc_scalar a : opt_sc a = true <-> scalar a.
Proof.
  unfold scalar. destruct a as [[x|n]|]; simpl; split; intros H; try easy.
  - intros y [= <-]. now exists x.
  - destruct (H _ eq_refl). discriminate.
Qed.
Lemma central_accepts mass radius density :
  (exists c, make_central mass radius density = Ok c) <->
  (scalar mass /\ scalar radius /\ scalar density /\
   ((mass = None /\ radius = None) \/
    (mass <> None /\ radius <> None /\ density = None) \/
    (mass <> None /\ radius = None /\ density <> None) \/
    (mass = None /\ radius <> None /\ density <> None))).
Proof.
  rewrite <- !opt_sc_scalar. unfold make_central.
  destruct mass as [[m|]|], radius as [[r|]|], density as [[d|]|]; simpl;
    (split; [intros [c H]; try discriminate H; repeat split; try easy; intuition congruence
            |intros (H1 & H2 & H3 & H4); try discriminate; try (eexists; reflexivity);
             exfalso; intuition congruence]).
Qed.
Lemma central_density mass radius density c :
  (forall m, mass = Some (Sc m) -> 0 < m) -> (forall r, radius = Some (Sc r) -> 0 < r) ->
  (forall d, density = Some (Sc d) -> 0 < d) ->
  make_central mass radius density = Ok c ->
  c_density c = 3 * c_mass c / (4 * PI * c_radius c ^ 3) /\
  0 < c_mass c /\ 0 < c_radius c /\ 0 < c_density c /\
  (forall m, mass = Some (Sc m) -> c_mass c = m) /\ (forall r, radius = Some (Sc r) -> c_radius c = r) /\
  (forall d, density = Some (Sc d) -> c_density c = d).
Proof.
  intros Hm Hr Hd. unfold make_central. pose proof PI_RGT_0 as HPI.
  assert (P3 : forall r, 0 < r -> 0 < 4 * PI * r ^ 3).
  { intros r H. apply Rmult_lt_0_compat; [lra|]. now apply pow_lt. }
  destruct mass as [[m|]|], radius as [[r|]|], density as [[d|]|]; simpl; intros H; try discriminate;
    injection H as <-; cbn [c_mass c_radius c_density];
    try specialize (Hm _ eq_refl); try specialize (Hr _ eq_refl); try specialize (Hd _ eq_refl).
  - split; [reflexivity|]. repeat split; try assumption; try (intros ? [= <-]; reflexivity); try congruence.
    apply Rdiv_lt_0_compat; [lra|now apply P3].
  - assert (Hx : 0 < 3 * m / (4 * PI * d)) by (apply Rdiv_lt_0_compat; [lra|apply Rmult_lt_0_compat; lra]).
    change (fpow (3 * m / (4 * PI * d)) (1 / 3) * (fpow (3 * m / (4 * PI * d)) (1 / 3) * (fpow (3 * m / (4 * PI * d)) (1 / 3) * 1)))
      with (fpow (3 * m / (4 * PI * d)) (1 / 3) ^ 3).
    rewrite fpow_third by assumption.
    repeat split; try assumption; try (intros ? [= <-]; reflexivity); try congruence.
    + field. split; [|split]; lra.
    + unfold fpow. destruct (Rlt_dec 0 (3 * m / (4 * PI * d))); [|lra]. unfold Rpower. apply exp_pos.
  - assert (P3r := P3 r Hr). simpl in P3r.
    repeat split; try assumption; try (intros ? [= <-]; reflexivity); try congruence.
    + field. repeat split; lra.
    + apply Rdiv_lt_0_compat; [|lra]. apply Rmult_lt_0_compat; [|lra]. exact P3r.
  - repeat split; try assumption; try (intros ? [= <-]; reflexivity); try congruence; try lra.
    + field. lra.
    + apply Rdiv_lt_0_compat; [|lra]. apply Rmult_lt_0_compat; [|lra]. lra.
  - repeat split; try assumption; try (intros ? [= <-]; reflexivity); try congruence; try lra.
    apply Rdiv_lt_0_compat; lra.
Qed.

(** ** Body *)
Lemma forallb_opt_sc l : forallb opt_sc l = true <-> forall a, In a l -> scalar a.
Proof.
  rewrite forallb_forall. split; intros H a Ha; [now apply opt_sc_scalar, H|now apply opt_sc_scalar, H].
Qed.
Lemma some_ne {A} (o : option A) : some o = true <-> o <> None.
Proof. destruct o; simpl; split; easy. Qed.
Lemma some_none {A} (o : option A) : some o = false <-> o = None.
Proof. destruct o; simpl; split; easy. Qed.

Lemma body_accepts b : (exists b', make_body b = Ok b') <-> body_valid b.
Proof.
  unfold make_body, body_valid. change (all_args b) with (b_all b).
  rewrite <- forallb_opt_sc. set (F := forallb opt_sc (b_all b)).
  rewrite <- !some_ne, <- some_none.
  generalize (some (b_period b)) (some (b_semimajor b)) (some (b_omega_peri b)) (some (b_sin_omega_peri b))
    (some (b_cos_omega_peri b)) (some (b_asc_node b)) (some (b_sin_asc_node b)) (some (b_cos_asc_node b))
    (some (b_eccentricity b)) (some (b_impact_param b)) (some (b_inclination b)) (some (b_time_transit b)) (some (b_time_peri b)) F.
  intros x1 x2 x3 x4 x5 x6 x7 x8 x9 x10 x11 x12 x13 f.
  destruct x1, x2; simpl; try (split; [intros [? H]; discriminate|intuition congruence]);
  destruct f; simpl; try (split; [intros [? H]; discriminate|intuition congruence]);
  destruct x3, x4, x5; simpl; try (split; [intros [? H]; discriminate|intuition congruence]);
  destruct x6, x7, x8; simpl; try (split; [intros [? H]; discriminate|intuition congruence]);
  destruct x9; simpl; try (split; [intros [? H]; discriminate|intuition congruence]);
  destruct x10, x11; simpl; try (split; [intros [? H]; discriminate|intuition congruence]);
  destruct x12, x13; simpl; try (split; [intros [? H]; discriminate|intuition congruence]);
  (split; [intros _; intuition congruence|intros _; eexists; reflexivity]).
Qed.
Lemma body_values b b' : make_body b = Ok b' -> b' = b_values b.
Proof.
  unfold make_body. repeat match goal with |- (if ?c then _ else _) = _ -> _ => destruct c; [discriminate|] end.
  congruence.
Qed.

(** ** OrbitalBody construction *)
Definition valid_body (b : body) : Prop :=
  (b_period b = None <-> b_semimajor b <> None) /\
  (b_eccentricity b <> None -> b_omega_peri b <> None \/ (b_sin_omega_peri b <> None /\ b_cos_omega_peri b <> None)).
Lemma oval_none a : oval a = None <-> a = None.
Proof. destruct a; simpl; split; easy. Qed.
Lemma body_valid_values b : body_valid b -> valid_body (b_values b).
Proof.
  intros (H1 & H2 & H3 & H4 & H5 & H6 & H7 & H8 & H9). unfold valid_body, b_values. cbn.
  rewrite !oval_none. split; [exact H1|]. intros He. apply H7 in He. destruct He as [He|He]; [now left|].
  right. split; [assumption|now apply H4].
Qed.

Section Orb.
Variables (G au : R).
Hypothesis HG : 0 < G.
Notation make_orbital := (make_orbital G).
Notation central_from_orbital := (central_from_orbital G).

Lemma orbital_ok c b : valid_body b -> exists o, make_orbital c b = Ok o.
Proof.
  intros [H1 H2]. unfold Keplerian.make_orbital.
  destruct (b_semimajor b) as [a|], (b_period b) as [p|];
    try (exfalso; destruct H1 as [Ha Hb]; first [now apply Ha|now discriminate (Hb ltac:(discriminate))]).
  - unfold angle_pair. destruct (b_omega_peri b), (b_sin_omega_peri b), (b_cos_omega_peri b), (b_eccentricity b), (b_asc_node b); cbn;
      try (destruct (H2 ltac:(discriminate)) as [?|[? ?]]; congruence);
      (destruct (b_impact_param b); [|destruct (b_inclination b)]); eexists; reflexivity.
  - unfold angle_pair. destruct (b_omega_peri b), (b_sin_omega_peri b), (b_cos_omega_peri b), (b_eccentricity b), (b_asc_node b); cbn;
      try (destruct (H2 ltac:(discriminate)) as [?|[? ?]]; congruence);
      (destruct (b_impact_param b); [|destruct (b_inclination b)]); eexists; reflexivity.
Qed.

(** everything the later proofs need to know about a constructed orbit *)
Lemma orbital_fields c b o : make_orbital c b = Ok o ->
  ob_central o = c /\ ob_mass o = b_mass b /\ ob_radius o = b_radius b /\
  ob_semiamplitude o = b_semiamplitude b /\ ob_parallax o = b_parallax b /\
  ((b_semimajor b = None /\ b_period b = Some (ob_period o) /\
     ob_semimajor o = cbrt (G * total_mass o * ob_period o ^ 2 / (4 * PI ^ 2))) \/
   (b_period b = None /\ b_semimajor b = Some (ob_semimajor o) /\
     ob_period o = 2 * PI * ob_semimajor o * sqrt (ob_semimajor o / (G * total_mass o)))) /\
  (exists M0 f,
     ((ob_ecc o = None /\ b_eccentricity b = None /\ M0 = 0.5 * PI /\ f = 1) \/
      (exists e sw cw, ob_ecc o = Some (e, sw, cw) /\ b_eccentricity b = Some e /\
         angle_pair (b_omega_peri b) (b_sin_omega_peri b) (b_cos_omega_peri b) = (Some sw, Some cw) /\
         M0 = transit_M0 e sw cw /\ f = (1 + e * sw) / (1 - e ^ 2))) /\
     ob_time_ref o = - M0 * ob_period o / (2 * PI) /\
     let d := f * c_radius c / ob_semimajor o in
     ((b_impact_param b = Some (ob_impact o) /\ ob_cos_incl o = d * ob_impact o /\ ob_sin_incl o = sqrt (1 - ob_cos_incl o ^ 2)) \/
      (exists i, b_impact_param b = None /\ b_inclination b = Some i /\ ob_cos_incl o = cos i /\ ob_sin_incl o = sin i /\ ob_impact o = cos i / d) \/
      (b_impact_param b = None /\ b_inclination b = None /\ ob_cos_incl o = 0 /\ ob_sin_incl o = 1 /\ ob_impact o = 0))) /\
  ob_time_transit o = match b_time_transit b with
     | Some t => t
     | None => match b_time_peri b with Some tp => tp - ob_time_ref o | None => 0 end end /\
  (ob_node o = match angle_pair (b_asc_node b) (b_sin_asc_node b) (b_cos_asc_node b) with
     | (Some s, Some k) => Some (s, k) | _ => None end).
Proof.
  unfold Keplerian.make_orbital. intros H.
  destruct (angle_pair (b_omega_peri b) (b_sin_omega_peri b) (b_cos_omega_peri b)) as [sw cw] eqn:Ew.
  destruct (angle_pair (b_asc_node b) (b_sin_asc_node b) (b_cos_asc_node b)) as [sn cn] eqn:En.
  destruct (match b_semimajor b with Some _ => _ | None => _ end) as [[a p]|] eqn:Eap; [|discriminate].
  destruct (match b_eccentricity b with Some _ => _ | None => _ end) as [[[M0 f] ecc]|] eqn:Ee; [|discriminate].
  destruct (match b_impact_param b with Some _ => _ | None => _ end) as [[b' ci] si] eqn:Ei.
  injection H as <-. cbn [ob_central ob_mass ob_radius ob_semiamplitude ob_parallax ob_semimajor ob_period ob_ecc ob_time_ref ob_impact ob_cos_incl ob_sin_incl ob_time_transit ob_node].
  unfold total_mass. cbn [ob_central ob_mass].
  do 5 (split; [reflexivity|]). split; [|split; [|split]].
  - destruct (b_semimajor b) as [a0|], (b_period b) as [p0|]; try discriminate; injection Eap as <- <-.
    + right. repeat split.
    + left. repeat split.
  - exists M0, f. split; [|split].
    + destruct (b_eccentricity b) as [e|].
      * destruct sw as [sw|], cw as [cw|]; try discriminate. injection Ee as <- <- <-.
        right. exists e, sw, cw. repeat split.
      * injection Ee as <- <- <-. left. repeat split.
    + reflexivity.
    + cbn zeta. destruct (b_impact_param b) as [ip|].
      * injection Ei as <- <- <-. left. repeat split.
      * destruct (b_inclination b) as [i|]; injection Ei as <- <- <-.
        -- right. left. exists i. repeat split.
        -- right. right. repeat split.
  - reflexivity.
  - destruct sn, cn; reflexivity.
Qed.


Lemma unit_sin_cos a : unit_pair (sin a) (cos a).
Proof. unfold unit_pair. pose proof (sin2_cos2 a) as H. unfold Rsqr in H. lra. Qed.

(** physically meaningful arguments give a well-formed orbit *)
Lemma angle_pair_unit ang s k sw cw : (ang = None -> forall s' k', s = Some s' -> k = Some k' -> unit_pair s' k') ->
  angle_pair ang s k = (Some sw, Some cw) -> unit_pair sw cw.
Proof.
  unfold angle_pair. destruct ang as [a|]; intros H E.
  - injection E as <- <-. apply unit_sin_cos.
  - injection E as -> ->. now apply (H eq_refl).
Qed.
Lemma cbrt_pos' x : 0 < x -> 0 < cbrt x. Proof. apply cbrt_pos. Qed.
Lemma total_mass_pos c b : body_physical c b -> 0 < total_mass_of c (b_mass b).
Proof. intros (H1 & H2 & _). unfold total_mass_of. destruct (b_mass b) as [m|]; [specialize (H2 m eq_refl); lra|lra]. Qed.
Lemma total_mass_eq c b o : make_orbital c b = Ok o -> total_mass o = total_mass_of c (b_mass b).
Proof. intros H. destruct (orbital_fields c b o H) as (E1 & E2 & _). unfold total_mass. now rewrite E1, E2. Qed.
Lemma orbit_wf c b o : body_physical c b -> make_orbital c b = Ok o -> Rabs (ob_cos_incl o) <= 1 -> orbit_ok o.
Proof.
  intros Hp Ho Hci. pose proof (total_mass_pos c b Hp) as HM. rewrite <- (total_mass_eq c b o Ho) in HM.
  destruct Hp as (Hc & Hm & HP & Ha & He & Hw & Hn). pose proof PI_RGT_0 as HPI.
  destruct (orbital_fields c b o Ho) as (_ & _ & _ & _ & _ & Hap & (M0 & f & Hecc & _ & Hi) & _ & Hnode).
  assert (HGM : 0 < G * total_mass o) by (now apply Rmult_lt_0_compat).
  unfold orbit_ok.
  assert (Hpos : 0 < ob_semimajor o /\ 0 < ob_period o).
  { destruct Hap as [(_ & Ep & Ea)|(_ & Ea & Ep)].
    - assert (0 < ob_period o) by now apply HP. split; [|assumption]. rewrite Ea. apply cbrt_pos.
      apply Rdiv_lt_0_compat; [|nra]. apply Rmult_lt_0_compat; [assumption|]. nra.
    - assert (0 < ob_semimajor o) by now apply Ha. split; [assumption|]. rewrite Ep.
      apply Rmult_lt_0_compat; [nra|]. apply sqrt_lt_R0. now apply Rdiv_lt_0_compat. }
  destruct Hpos as [Hpa Hpp]. split; [assumption|]. split; [assumption|]. split; [assumption|]. split; [|split].
  - cbn zeta in Hi. destruct Hi as [(_ & _ & Hs)|[(i & _ & _ & -> & -> & _)|(_ & _ & -> & -> & _)]].
    + unfold unit_pair. rewrite Hs. rewrite <- (Rsqr_pow2 (sqrt _)). rewrite Rsqr_sqrt; [ring|].
      apply Rabs_le_between in Hci. nra.
    + apply unit_sin_cos.
    + unfold unit_pair. ring.
  - intros e sw cw E. destruct Hecc as [(E0 & _)|(e' & sw' & cw' & E0 & Eb & Ew & _)]; [congruence|].
    rewrite E0 in E. injection E as <- <- <-. split; [now apply He|]. eapply angle_pair_unit; [exact Hw|exact Ew].
  - intros sn cn E. rewrite Hnode in E.
    destruct (angle_pair (b_asc_node b) _ _) as [[s|] [k|]] eqn:En; try discriminate.
    injection E as <- <-. eapply angle_pair_unit; [exact Hn|exact En].
Qed.

(** ** Kepler's third law *)
Lemma third_law c b o : make_orbital c b = Ok o -> 0 < total_mass o -> 0 <= ob_semimajor o ->
  4 * PI ^ 2 * ob_semimajor o ^ 3 = G * total_mass o * ob_period o ^ 2.
Proof.
  intros Ho HM Ha. pose proof PI_RGT_0 as HPI.
  destruct (orbital_fields c b o Ho) as (_ & _ & _ & _ & _ & Hap & _).
  destruct Hap as [(_ & _ & Ea)|(_ & _ & Ep)].
  - rewrite Ea. rewrite cbrt_cube. field. lra.
  - rewrite Ep. set (a := ob_semimajor o) in *. set (M := total_mass o) in *.
    assert (0 < G * M) by (now apply Rmult_lt_0_compat).
    replace ((2 * PI * a * sqrt (a / (G * M))) ^ 2) with (4 * PI ^ 2 * a ^ 2 * (sqrt (a / (G * M)))²) by (unfold Rsqr; ring).
    rewrite Rsqr_sqrt. 2:{ apply Rmult_le_pos; [assumption|]. left. now apply Rinv_0_lt_compat. }
    field. split; apply Rgt_not_eq; assumption.
Qed.
Lemma from_orbital_inverse P a r m c b o : P <> 0 ->
  central_from_orbital (Sc P) (Sc a) r (option_map Sc m) = Ok c ->
  b_period b = Some P -> b_mass b = m -> make_orbital c b = Ok o ->
  ob_semimajor o = a /\ ob_period o = P.
Proof.
  intros HP Hc Hb Hm Ho. pose proof PI_RGT_0 as HPI.
  destruct (orbital_fields c b o Ho) as (_ & _ & _ & _ & _ & Hap & _).
  destruct Hap as [(_ & Ep & Ea)|(En & _)]; [|congruence].
  assert (EP : ob_period o = P) by congruence. split; [|assumption].
  rewrite Ea, EP, (total_mass_eq c b o Ho), Hm. apply cbrt_unique.
  unfold Keplerian.central_from_orbital in Hc. cbn [is_sc val andb negb] in Hc.
  assert (Hmass : c_mass c = 4 * PI ^ 2 * a ^ 3 / (G * P ^ 2) - match m with None => 0 | Some m => m end).
  { destruct m as [m|]; cbn [option_map opt_sc is_sc negb val] in Hc.
    - destruct r as [[r|]|]; cbn in Hc; try discriminate; injection Hc as <-; reflexivity.
    - destruct r as [[r|]|]; cbn in Hc; try discriminate; injection Hc as <-; rewrite Rminus_0_r; reflexivity. }
  unfold total_mass_of. rewrite Hmass. destruct m as [m|]; field; repeat split; try lra; assumption.
Qed.

(** ** Shape of positions and velocities *)
Definition rad (o : orbital) (cosf : R) : R :=
  match ob_ecc o with None => 1 | Some (e, _, _) => (1 - e ^ 2) / (1 + e * cosf) end.
Lemma rotate_scale o c x y i : rotate_vector o (c * x) (c * y) i = vscale c (rotate_vector o x y i).
Proof.
  unfold rotate_vector. destruct (ob_ecc o) as [[[e sw] cw]|], i, (ob_node o) as [[sn cn]|]; cbn;
    repeat (apply f_equal2; try ring).
Qed.
Definition eff_parallax (o : orbital) (p : option R) : option R := match p with None => ob_parallax o | s => s end.
Definition pscale (o : orbital) (p : option R) : R := match eff_parallax o p with None => 1 | Some p => au * p end.
Definition eff_semi (o : orbital) (k : option R) : option R := match k with None => ob_semiamplitude o | s => s end.
Definition unit_pos (kep : R -> R -> R * R) (o : orbital) (t : R) : vec :=
  let '(s, c) := true_anomaly_sc kep o t in rotate_vector o (rad o c * c) (rad o c * s) true.
Definition unit_vel (kep : R -> R -> R * R) (o : orbital) (t : R) (incl : bool) : vec :=
  let '(s, c) := true_anomaly_sc kep o t in rotate_vector o (- s) (c + ecc_val o) incl.
Lemma vscale_vscale a b v : vscale a (vscale b v) = vscale (a * b) v.
Proof. destruct v as [[x y] z]. cbn. repeat (apply f_equal2; try ring). Qed.
Lemma pos_form kep o t a m k p :
  fst (position_and_velocity au kep o t (Some a) m k p) = vscale (a * pscale o p) (unit_pos kep o t).
Proof.
  unfold position_and_velocity, unit_pos, pscale, eff_parallax.
  destruct (true_anomaly_sc kep o t) as [s c]. rewrite <- rotate_scale. unfold rad.
  destruct (ob_ecc o) as [[[e sw] cw]|] eqn:Ee; destruct p as [p|]; [| destruct (ob_parallax o) as [q|]| |destruct (ob_parallax o) as [q|]]; cbn [fst];
  match goal with |- ?f _ ?x ?y _ = ?f _ ?x' ?y' _ => replace x with x' by ring; replace y with y' by ring; reflexivity end.
Qed.
Definition vel_amp (o : orbital) (m k : option R) (p : option R) : R :=
  match eff_semi o k with
  | Some k => k
  | None => 2 * PI * ob_semimajor o * (match m with None => 1 | Some m => m end) / (total_mass o * ob_period o)
            / sqrt (1 - ecc_val o ^ 2) * pscale o p
  end.
Lemma vel_form kep o t a m k p :
  snd (position_and_velocity au kep o t a m k p) =
  vscale (vel_amp o m k p) (unit_vel kep o t (match eff_semi o k with None => true | _ => false end)).
Proof.
  unfold position_and_velocity, unit_vel, vel_amp, eff_semi, pscale, eff_parallax, ecc_val.
  destruct (true_anomaly_sc kep o t) as [s c]. rewrite <- rotate_scale.
  assert (S1 : sqrt (1 - 0 ^ 2) = 1) by (replace (1 - 0 ^ 2) with 1 by ring; apply sqrt_1).
  assert (D : forall x, x = x / sqrt (1 - 0 ^ 2)) by (intros; rewrite S1; field).
  destruct (ob_ecc o) as [[[e sw] cw]|] eqn:Ee; destruct k as [k|]; try destruct (ob_semiamplitude o) as [k'|];
  destruct p as [p|]; try destruct (ob_parallax o) as [q|]; cbn [snd];
  try rewrite <- D;
  match goal with |- ?f _ ?x ?y _ = ?f _ ?x' ?y' _ => replace x with x' by ring; replace y with y' by ring; reflexivity end.
Qed.
Lemma relpos_form kep o t p : relative_position au kep o t p = vscale (- ob_semimajor o * pscale o p) (unit_pos kep o t).
Proof. apply pos_form. Qed.
Lemma position_form kep o t p : position au kep o t p =
  vscale (- ob_semimajor o * c_mass (ob_central o) / total_mass o * pscale o p) (unit_pos kep o t).
Proof. apply pos_form. Qed.
Lemma cpos_form kep o t p m : ob_mass o = Some m -> central_position au kep o t p =
  Ok (vscale (ob_semimajor o * m / total_mass o * pscale o p) (unit_pos kep o t)).
Proof. intros H. unfold central_position. rewrite H. f_equal. apply pos_form. Qed.

(** ** Distances *)
Lemma norm2_rotate o x y : orbit_ok o -> norm2 (rotate_vector o x y true) = x ^ 2 + y ^ 2.
Proof.
  intros (_ & _ & _ & Hi & He & Hn). unfold rotate_vector, unit_pair in *.
  destruct (ob_ecc o) as [[[e sw] cw]|].
  - destruct (He _ _ _ eq_refl) as [_ Hw].
    set (x1 := cw * x - sw * y). set (y1 := sw * x + cw * y).
    assert (E : x1 ^ 2 + y1 ^ 2 = x ^ 2 + y ^ 2).
    { transitivity ((sw ^ 2 + cw ^ 2) * (x ^ 2 + y ^ 2)); [unfold x1, y1; ring|]. rewrite Hw. ring. }
    rewrite <- E. destruct (ob_node o) as [[sn cn]|]; cbn.
    + specialize (Hn _ _ eq_refl).
      transitivity ((sn ^ 2 + cn ^ 2) * (x1 ^ 2 + (ob_cos_incl o * y1) ^ 2) + (ob_sin_incl o * y1) ^ 2); [ring|].
      rewrite Hn. transitivity (x1 ^ 2 + (ob_sin_incl o ^ 2 + ob_cos_incl o ^ 2) * y1 ^ 2); [ring|]. rewrite Hi. ring.
    + transitivity (x1 ^ 2 + (ob_sin_incl o ^ 2 + ob_cos_incl o ^ 2) * y1 ^ 2); [ring|]. rewrite Hi. ring.
  - destruct (ob_node o) as [[sn cn]|]; cbn.
    + specialize (Hn _ _ eq_refl).
      transitivity ((sn ^ 2 + cn ^ 2) * (x ^ 2 + (ob_cos_incl o * y) ^ 2) + (ob_sin_incl o * y) ^ 2); [ring|].
      rewrite Hn. transitivity (x ^ 2 + (ob_sin_incl o ^ 2 + ob_cos_incl o ^ 2) * y ^ 2); [ring|]. rewrite Hi. ring.
    + transitivity (x ^ 2 + (ob_sin_incl o ^ 2 + ob_cos_incl o ^ 2) * y ^ 2); [ring|]. rewrite Hi. ring.
Qed.
Lemma norm2_scale c v : norm2 (vscale c v) = c ^ 2 * norm2 v.
Proof. destruct v as [[x y] z]. cbn. ring. Qed.

Definition unit_solver (kep : R -> R -> R * R) : Prop :=
  forall M e, 0 <= e < 1 -> fst (kep M e) ^ 2 + snd (kep M e) ^ 2 = 1.
Lemma kepler_unit : unit_solver kepler.
Proof.
  intros M e He. pose proof (kepler_circle_pair M e) as H. destruct (kepler M e) as [s c]. cbn in *. lra.
Qed.
Lemma exact_unit kep : exact_solver kep -> unit_solver kep.
Proof.
  intros H M e He. destruct (H M e He) as (E & _ & ->). cbn [fst snd].
  pose proof (cos_true_circle E e ltac:(lra)) as HC. unfold Rsqr in HC. lra.
Qed.
Lemma tasc_unit kep o t : unit_solver kep -> orbit_ok o ->
  fst (true_anomaly_sc kep o t) ^ 2 + snd (true_anomaly_sc kep o t) ^ 2 = 1.
Proof.
  intros Hk (_ & _ & _ & _ & He & _). unfold true_anomaly_sc.
  destruct (ob_ecc o) as [[[e sw] cw]|]; [|apply unit_sin_cos].
  apply Hk. now apply (He e sw cw).
Qed.
Lemma unit_abs s c : s ^ 2 + c ^ 2 = 1 -> -1 <= c <= 1.
Proof. intros H. pose proof (pow2_ge_0 s). split; nra. Qed.
Lemma rad_bounds o c : orbit_ok o -> -1 <= c <= 1 -> 1 - ecc_val o <= rad o c <= 1 + ecc_val o /\ 0 < rad o c.
Proof.
  intros (_ & _ & _ & _ & He & _) Hc. unfold rad, ecc_val.
  destruct (ob_ecc o) as [[[e sw] cw]|]; [|lra]. destruct (He _ _ _ eq_refl) as [He' _].
  assert (Hd : 0 < 1 + e * c) by nra.
  assert (Hlo : 1 - e <= (1 - e ^ 2) / (1 + e * c)).
  { apply Rmult_le_reg_r with (1 + e * c); [assumption|].
    replace ((1 - e ^ 2) / (1 + e * c) * (1 + e * c)) with (1 - e ^ 2) by (field; lra). 
    assert (0 <= (1 - e) * e * (1 - c)) by (apply Rmult_le_pos; [apply Rmult_le_pos|]; lra). nra. }
  assert (Hhi : (1 - e ^ 2) / (1 + e * c) <= 1 + e).
  { apply Rmult_le_reg_r with (1 + e * c); [assumption|].
    replace ((1 - e ^ 2) / (1 + e * c) * (1 + e * c)) with (1 - e ^ 2) by (field; lra).
    assert (0 <= (1 + e) * e * (1 + c)) by (apply Rmult_le_pos; [apply Rmult_le_pos|]; lra). nra. }
  split; [lra|]. lra.
Qed.
Lemma norm2_unit_pos kep o t : unit_solver kep -> orbit_ok o ->
  norm2 (unit_pos kep o t) = rad o (snd (true_anomaly_sc kep o t)) ^ 2.
Proof.
  intros Hk Ho. pose proof (tasc_unit kep o t Hk Ho) as HU. unfold unit_pos.
  destruct (true_anomaly_sc kep o t) as [s c]. cbn [fst snd] in *. rewrite norm2_rotate by assumption.
  transitivity (rad o c ^ 2 * (s ^ 2 + c ^ 2)); [ring|]. rewrite HU. ring.
Qed.
Lemma dist_relpos kep o t : unit_solver kep -> orbit_ok o -> ob_parallax o = None ->
  dist (relative_position au kep o t None) = ob_semimajor o * rad o (snd (true_anomaly_sc kep o t)).
Proof.
  intros Hk Ho Hp. unfold dist. rewrite relpos_form, norm2_scale, norm2_unit_pos by assumption.
  assert (Hps : pscale o None = 1) by (unfold pscale, eff_parallax; now rewrite Hp). rewrite Hps.
  replace ((- ob_semimajor o * 1) ^ 2 * rad o (snd (true_anomaly_sc kep o t)) ^ 2)
    with ((ob_semimajor o * rad o (snd (true_anomaly_sc kep o t)))²) by (unfold Rsqr; ring).
  apply sqrt_Rsqr. apply Rmult_le_pos; [destruct Ho; lra|].
  left. apply rad_bounds; [assumption|]. eapply unit_abs. now apply tasc_unit.
Qed.
Lemma dist_bounds kep o t : unit_solver kep -> orbit_ok o -> ob_parallax o = None ->
  ob_semimajor o * (1 - ecc_val o) <= dist (relative_position au kep o t None) <= ob_semimajor o * (1 + ecc_val o).
Proof.
  intros Hk Ho Hp. rewrite dist_relpos by assumption.
  assert (Hc : -1 <= snd (true_anomaly_sc kep o t) <= 1) by (eapply unit_abs; now apply tasc_unit).
  destruct (rad_bounds o _ Ho Hc) as [[H1 H2] _]. destruct Ho as [Ha _].
  split; apply Rmult_le_compat_l; lra.
Qed.
Lemma parallax_scales kep o t p : ob_parallax o = None ->
  relative_position au kep o t (Some p) = vscale (au * p) (relative_position au kep o t None).
Proof.
  intros Hp. rewrite !relpos_form, vscale_vscale. unfold pscale, eff_parallax. rewrite Hp. f_equal. ring.
Qed.

(** ** Reference times *)
Lemma time_peri_given c b o tp : make_orbital c b = Ok o -> b_time_transit b = None -> b_time_peri b = Some tp ->
  time_peri o = tp.
Proof.
  intros H Ht Hp. destruct (orbital_fields c b o H) as (_ & _ & _ & _ & _ & _ & _ & E & _).
  unfold time_peri. rewrite E, Ht, Hp. ring.
Qed.
Lemma time_transit_given c b o tt : make_orbital c b = Ok o -> b_time_transit b = Some tt -> ob_time_transit o = tt.
Proof.
  intros H Ht. destruct (orbital_fields c b o H) as (_ & _ & _ & _ & _ & _ & _ & E & _). now rewrite E, Ht.
Qed.
Lemma mean_anomaly_peri o : ob_period o <> 0 -> mean_anomaly o (time_peri o) = 0.
Proof. intros H. unfold mean_anomaly, time_peri. field. assumption. Qed.
Lemma peri_distance o k : orbit_ok o -> ob_parallax o = None ->
  dist (relative_position au kepler o (time_peri o + IZR k * ob_period o) None) = ob_semimajor o * (1 - ecc_val o).
Proof.
  intros Ho Hp. rewrite dist_relpos; [|apply kepler_unit|assumption|assumption]. f_equal.
  destruct Ho as (Ha & HP & _ & _ & He & _). unfold true_anomaly_sc, rad, ecc_val.
  destruct (ob_ecc o) as [[[e sw] cw]|]; [|lra]. destruct (He _ _ _ eq_refl) as [He' _].
  assert (EM : mean_anomaly o (time_peri o + IZR k * ob_period o) = 2 * PI * IZR k).
  { unfold mean_anomaly, time_peri. field. lra. }
  rewrite EM, kepler_periapsis. cbn [snd]. field. lra.
Qed.

(** ** Periodicity *)
Definition periodic_solver (kep : R -> R -> R * R) : Prop :=
  forall M e (k : Z), kep (M + 2 * PI * IZR k) e = kep M e.
Lemma sin_shift x (k : Z) : sin (x + 2 * PI * IZR k) = sin x.
Proof.
  destruct (Z_le_gt_dec 0 k) as [H|H].
  - rewrite <- (Z2Nat.id k H), <- INR_IZR_INZ. replace (x + 2 * PI * INR (Z.to_nat k)) with (x + 2 * INR (Z.to_nat k) * PI) by ring.
    apply sin_period.
  - rewrite <- (sin_period (x + 2 * PI * IZR k) (Z.to_nat (- k))). f_equal.
    rewrite INR_IZR_INZ, Z2Nat.id by lia. rewrite opp_IZR. ring.
Qed.
Lemma cos_shift x (k : Z) : cos (x + 2 * PI * IZR k) = cos x.
Proof. rewrite !cos_sin. rewrite <- (sin_shift (PI / 2 + x) k). f_equal. ring. Qed.
Lemma tasc_periodic kep o t k : periodic_solver kep -> ob_period o <> 0 ->
  true_anomaly_sc kep o (t + IZR k * ob_period o) = true_anomaly_sc kep o t.
Proof.
  intros Hk HP. unfold true_anomaly_sc.
  assert (EM : mean_anomaly o (t + IZR k * ob_period o) = mean_anomaly o t + 2 * PI * IZR k).
  { unfold mean_anomaly. field. assumption. }
  rewrite EM. destruct (ob_ecc o) as [[[e sw] cw]|]; [apply Hk|]. now rewrite sin_shift, cos_shift.
Qed.
Lemma pv_periodic kep o t k a m s p : periodic_solver kep -> ob_period o <> 0 ->
  position_and_velocity au kep o (t + IZR k * ob_period o) a m s p = position_and_velocity au kep o t a m s p.
Proof. intros Hk HP. unfold position_and_velocity. now rewrite tasc_periodic. Qed.

(** ** Barycentre *)
Lemma barycentre kep o t p m : ob_mass o = Some m -> total_mass o <> 0 ->
  exists cp, central_position au kep o t p = Ok cp /\
    vadd (vscale m (position au kep o t p)) (vscale (c_mass (ob_central o)) cp) = (0, 0, 0) /\
    relative_position au kep o t p = vsub (position au kep o t p) cp.
Proof.
  intros Hm HT. eexists. split; [apply cpos_form; exact Hm|]. rewrite position_form, relpos_form.
  destruct (unit_pos kep o t) as [[x y] z]. unfold total_mass, total_mass_of in *. rewrite Hm in *. cbn.
  split; (apply f_equal2; [apply f_equal2|]; field; assumption).
Qed.
Lemma barycentre_velocity kep o t m : ob_mass o = Some m -> total_mass o <> 0 -> ob_period o <> 0 -> ob_semiamplitude o = None ->
  exists v rv, velocity au kep o t None = Ok v /\ relative_velocity au kep o t None = Ok rv /\
    vadd (vscale m v) (vscale (c_mass (ob_central o)) (central_velocity au kep o t None)) = (0, 0, 0) /\
    rv = vsub v (central_velocity au kep o t None).
Proof.
  intros Hm HT HP Hs. eexists. eexists. split; [reflexivity|]. split; [reflexivity|].
  unfold central_velocity. rewrite !vel_form. unfold eff_semi, vel_amp, eff_semi. rewrite Hs, Hm.
  destruct (unit_vel kep o t true) as [[x y] z]. unfold total_mass, total_mass_of in *. rewrite Hm in *. cbn.
  unfold Rdiv. generalize (/ sqrt (1 - ecc_val o * (ecc_val o * 1))). intros q.
  split; (apply f_equal2; [apply f_equal2|]; field; split; assumption).
Qed.
Lemma barycentre_velocity_K kep o t m K : ob_mass o = Some m -> m <> 0 ->
  exists v rv, velocity au kep o t (Some K) = Ok v /\ relative_velocity au kep o t (Some K) = Ok rv /\
    vadd (vscale m v) (vscale (c_mass (ob_central o)) (central_velocity au kep o t (Some K))) = (0, 0, 0) /\
    rv = vsub v (central_velocity au kep o t (Some K)).
Proof.
  intros Hm H0. unfold velocity, relative_velocity. rewrite Hm. eexists. eexists. split; [reflexivity|]. split; [reflexivity|].
  unfold central_velocity. rewrite !vel_form. unfold eff_semi, vel_amp, eff_semi.
  destruct (unit_vel kep o t false) as [[x y] z]. unfold total_mass, total_mass_of in *. rewrite Hm in *. cbn.
  split; (apply f_equal2; [apply f_equal2|]; field; assumption).
Qed.
End Orb.
