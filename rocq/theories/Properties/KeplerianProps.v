(** Properties C31-C43, C68: Keplerian orbits and systems, orbits/keplerian.py *)
From Coq Require Import Reals Lra Lia List ZArith.
From Coquelicot Require Import Coquelicot.
From Verif.Base Require Import RealAux.
From Verif.Model Require Import Kepler Keplerian LimbDark LightCurves.
From Verif.Spec Require Import KeplerSpec OrbitSpec.
From Verif.Proof Require Import KeplerProof KeplerExact KeplerMore KeplerianProof KeplerianMore.
Import ListNotations.
Open Scope R_scope.

(** A concrete eccentric, inclined, massive body used to show the hypotheses are met. *)
Definition sample_central : central := {| c_mass := 1; c_radius := 1; c_density := 3 * 1 / (4 * PI * 1 ^ 3) |}.
Definition no_args : body_of arr :=
  {| b_time_transit := None; b_time_peri := None; b_period := None; b_semimajor := None; b_inclination := None;
     b_impact_param := None; b_eccentricity := None; b_omega_peri := None; b_sin_omega_peri := None;
     b_cos_omega_peri := None; b_asc_node := None; b_sin_asc_node := None; b_cos_asc_node := None;
     b_mass := None; b_radius := None; b_semiamplitude := None; b_parallax := None |}.
Definition sample_args : body_of arr :=
  {| b_time_transit := Some (Sc 2); b_time_peri := None; b_period := None; b_semimajor := Some (Sc 10);
     b_inclination := None; b_impact_param := Some (Sc 0.2); b_eccentricity := Some (Sc 0.3);
     b_omega_peri := Some (Sc 1); b_sin_omega_peri := None; b_cos_omega_peri := None;
     b_asc_node := None; b_sin_asc_node := None; b_cos_asc_node := None;
     b_mass := Some (Sc 0.1); b_radius := Some (Sc 0.1); b_semiamplitude := None; b_parallax := None |}.
Definition sample_body : body := b_values sample_args.
Lemma sample_physical : body_physical sample_central sample_body.
Proof.
  unfold body_physical, sample_body, sample_args, b_values, oval. cbn.
  repeat split; intros; try discriminate; try congruence; try lra;
    try (match goal with H : Some _ = Some _ |- _ => injection H as <- end; lra).
Qed.
Lemma sample_orbit G : 0 < G -> exists o, make_orbital G sample_central sample_body = Ok o /\ orbit_ok o /\
  ob_parallax o = None /\ ob_semiamplitude o = None /\ ob_mass o = Some 0.1 /\ ob_ecc o = Some (0.3, sin 1, cos 1) /\
  0 < ob_sin_incl o /\ ob_node o = None.
Proof.
  intros HG. eexists. split; [reflexivity|].
  assert (Hs : -1 <= sin 1 <= 1) by apply SIN_bound.
  assert (Hc : 0 <= (1 + 0.3 * sin 1) / (1 - 0.3 ^ 2) * 1 / 10 * 0.2 <= 1/2).
  { replace ((1 + 0.3 * sin 1) / (1 - 0.3 ^ 2) * 1 / 10 * 0.2) with ((1 + 0.3 * sin 1) * (2 / 91)) by (simpl; lra).
    split; lra. }
  split; [|cbn; repeat split].
  - apply (orbit_wf G HG sample_central sample_body); [apply sample_physical|reflexivity|].
    cbn -[pow]. rewrite Rabs_right; lra.
  - apply sqrt_lt_R0. change (0.3 * (0.3 * 1)) with (0.3 ^ 2).
    set (q := (1 + 0.3 * sin 1) / (1 - 0.3 ^ 2) * 1 / 10 * 0.2) in *. nra.
Qed.

(** C31 *)
Theorem C31_central_accepts_exactly : forall mass radius density,
  (exists c, make_central mass radius density = Ok c) <->
  (scalar mass /\ scalar radius /\ scalar density /\
   ((mass = None /\ radius = None) \/
    (mass <> None /\ radius <> None /\ density = None) \/
    (mass <> None /\ radius = None /\ density <> None) \/
    (mass = None /\ radius <> None /\ density <> None))).
Proof. exact central_accepts. Qed.
Print Assumptions C31_central_accepts_exactly.
Theorem C31_central_consistent : forall mass radius density c,
  (forall m, mass = Some (Sc m) -> 0 < m) -> (forall r, radius = Some (Sc r) -> 0 < r) ->
  (forall d, density = Some (Sc d) -> 0 < d) ->
  make_central mass radius density = Ok c ->
  c_density c = 3 * c_mass c / (4 * PI * c_radius c ^ 3) /\
  0 < c_mass c /\ 0 < c_radius c /\ 0 < c_density c /\
  (forall m, mass = Some (Sc m) -> c_mass c = m) /\ (forall r, radius = Some (Sc r) -> c_radius c = r) /\
  (forall d, density = Some (Sc d) -> c_density c = d).
Proof. exact central_density. Qed.
Print Assumptions C31_central_consistent.
Theorem C31_central_default : exists c, make_central None None None = Ok c /\ c_mass c = 1 /\ c_radius c = 1.
Proof. eexists. split; [reflexivity|]. split; reflexivity. Qed.
Print Assumptions C31_central_default.
Example C31_satisfiable : exists c, make_central (Some (Sc 1.2)) None (Some (Sc 0.5)) = Ok c.
Proof. eexists. reflexivity. Qed.

(** C32 *)
Theorem C32_third_law : forall G, 0 < G -> forall c b o, make_orbital G c b = Ok o ->
  0 < total_mass o -> 0 <= ob_semimajor o ->
  4 * PI ^ 2 * ob_semimajor o ^ 3 = G * total_mass o * ob_period o ^ 2.
Proof. exact third_law. Qed.
Print Assumptions C32_third_law.
Theorem C32_total_mass : forall o, total_mass o =
  c_mass (ob_central o) + match ob_mass o with None => 0 | Some m => m end.
Proof. intros o. unfold total_mass, total_mass_of. destruct (ob_mass o); lra. Qed.
Print Assumptions C32_total_mass.
Theorem C32_keeps_period_or_semimajor : forall G c b o, make_orbital G c b = Ok o ->
  (forall p, b_period b = Some p -> ob_period o = p) /\ (forall a, b_semimajor b = Some a -> ob_semimajor o = a).
Proof.
  intros G c b o H. destruct (orbital_fields G c b o H) as (_ & _ & _ & _ & _ & Hap & _).
  destruct Hap as [(E1 & E2 & _)|(E1 & E2 & _)]; split; congruence.
Qed.
Print Assumptions C32_keeps_period_or_semimajor.
Theorem C32_from_orbital_properties : forall G, 0 < G -> forall P a r m c b o, P <> 0 ->
  central_from_orbital G (Sc P) (Sc a) r (option_map Sc m) = Ok c ->
  b_period b = Some P -> b_mass b = m -> make_orbital G c b = Ok o ->
  ob_semimajor o = a /\ ob_period o = P.
Proof. exact from_orbital_inverse. Qed.
Print Assumptions C32_from_orbital_properties.
Example C32_satisfiable : exists o, make_orbital 2945 sample_central sample_body = Ok o /\ 0 < total_mass o /\ 0 <= ob_semimajor o.
Proof.
  destruct (sample_orbit 2945 ltac:(lra)) as (o & H & (Ha & _ & HM & _) & _). exists o. repeat split; try assumption; lra.
Qed.
Example C32_from_satisfiable : exists c, central_from_orbital 2945 (Sc 10) (Sc 20) None (option_map Sc (Some 0.01)) = Ok c.
Proof. eexists. reflexivity. Qed.

(** C33 *)
Theorem C33_body_validation : forall b, (exists b', make_body b = Ok b') <-> body_valid b.
Proof. exact body_accepts. Qed.
Print Assumptions C33_body_validation.
Theorem C33_valid_body_gives_orbit : forall G c b b', make_body b = Ok b' -> exists o, make_orbital G c b' = Ok o.
Proof.
  intros G c b b' H. rewrite (body_values b b' H). apply orbital_ok. apply body_valid_values. apply body_accepts. now exists b'.
Qed.
Print Assumptions C33_valid_body_gives_orbit.
Example C33_satisfiable : make_body sample_args = Ok sample_body.
Proof. reflexivity. Qed.

(** C34 *)
Theorem C34_time_peri_round_trip : forall G c b o tp, make_orbital G c b = Ok o ->
  b_time_transit b = None -> b_time_peri b = Some tp -> time_peri o = tp.
Proof. exact time_peri_given. Qed.
Print Assumptions C34_time_peri_round_trip.
Theorem C34_time_transit_kept : forall G c b o tt, make_orbital G c b = Ok o ->
  b_time_transit b = Some tt -> ob_time_transit o = tt.
Proof. exact time_transit_given. Qed.
Print Assumptions C34_time_transit_kept.
Theorem C34_periastron_distance : forall au o (k : Z), orbit_ok o -> ob_parallax o = None ->
  dist (relative_position au kepler o (time_peri o + IZR k * ob_period o) None) = ob_semimajor o * (1 - ecc_val o).
Proof. exact peri_distance. Qed.
Print Assumptions C34_periastron_distance.
Example C34_satisfiable : exists o, make_orbital 2945 sample_central sample_body = Ok o /\ orbit_ok o /\ ob_parallax o = None.
Proof. destruct (sample_orbit 2945 ltac:(lra)) as (o & H & Hok & Hp & _). now exists o. Qed.
Theorem C34_physical_arguments_give_orbits : forall G, 0 < G -> forall c b o, body_physical c b ->
  make_orbital G c b = Ok o -> Rabs (ob_cos_incl o) <= 1 -> orbit_ok o.
Proof. exact orbit_wf. Qed.
Print Assumptions C34_physical_arguments_give_orbits.

(** C35: for the exact solution of Kepler's equation; sin(omega) <> -1 *)
Theorem C35_transit : forall G au kep c b o, exact_solver kep -> orbit_ok o -> make_orbital G c b = Ok o ->
  ob_parallax o = None -> 0 < c_radius c ->
  (forall e sw cw, ob_ecc o = Some (e, sw, cw) -> sw <> -1) -> 0 < ob_sin_incl o ->
  sky_sep (relative_position au kep o (ob_time_transit o) None) = Rabs (ob_impact o) * c_radius c /\
  0 < along (relative_position au kep o (ob_time_transit o) None).
Proof. exact at_transit. Qed.
Print Assumptions C35_transit.
Theorem C35_impact_param_kept : forall G c b o ip, make_orbital G c b = Ok o ->
  b_impact_param b = Some ip -> ob_impact o = ip.
Proof.
  intros G c b o ip H Hb. destruct (orbital_fields G c b o H) as (_ & _ & _ & _ & _ & _ & (M0 & f & _ & _ & Hi) & _).
  cbn zeta in Hi. destruct Hi as [(E & _)|[(i & E & _)|(E & _)]]; congruence.
Qed.
Print Assumptions C35_impact_param_kept.
Example C35_satisfiable : exact_solver exact_kepler /\
  exists o, make_orbital 2945 sample_central sample_body = Ok o /\ orbit_ok o /\ ob_parallax o = None /\
    (forall e sw cw, ob_ecc o = Some (e, sw, cw) -> sw <> -1) /\ 0 < ob_sin_incl o.
Proof.
  split; [apply exact_kepler_exact|].
  destruct (sample_orbit 2945 ltac:(lra)) as (o & H & Hok & Hp & _ & _ & He & Hs & _). exists o.
  split; [exact H|]. split; [exact Hok|]. split; [exact Hp|]. split; [|exact Hs].
  intros e sw cw E. rewrite He in E. injection E as <- <- <-. assert (0 < sin 1); [|lra].
  apply sin_gt_0; [lra|]. pose proof PI2_3_2. lra.
Qed.
(** sin(omega) = -1, cos(omega) = 0 given exactly: the planet is behind the star at "transit" *)
Definition behind_args : body_of arr :=
  {| b_time_transit := Some (Sc 0); b_time_peri := None; b_period := None; b_semimajor := Some (Sc 10);
     b_inclination := None; b_impact_param := None; b_eccentricity := Some (Sc 0.5);
     b_omega_peri := None; b_sin_omega_peri := Some (Sc (-1)); b_cos_omega_peri := Some (Sc 0);
     b_asc_node := None; b_sin_asc_node := None; b_cos_asc_node := None;
     b_mass := None; b_radius := None; b_semiamplitude := None; b_parallax := None |}.
Theorem C35_omega_minus_90_refuted : forall G au kep, 0 < G -> exact_solver kep ->
  exists b o, make_body behind_args = Ok b /\ make_orbital G sample_central b = Ok o /\ orbit_ok o /\ ob_sin_incl o = 1 /\
  along (relative_position au kep o (ob_time_transit o) None) = -5.
Proof.
  intros G au kep HG Hk. eexists. eexists. split; [reflexivity|]. split; [reflexivity|]. split; [|split; [reflexivity|]].
  - refine (orbit_wf G HG sample_central (b_values behind_args) _ _ eq_refl _).
    + unfold body_physical, behind_args, b_values, oval. cbn. unfold unit_pair.
      repeat split; intros; try discriminate; try lra;
      repeat match goal with H : Some _ = Some _ |- _ => injection H as <- end; try lra.
    + cbn. rewrite Rabs_R0. lra.
  - rewrite relpos_form. unfold pscale, eff_parallax, unit_pos, true_anomaly_sc.
    match goal with |- context [mean_anomaly ?o ?t] => assert (EM : mean_anomaly o t = 0) end.
    { unfold mean_anomaly. cbn -[transit_M0]. 
      assert (E0 : transit_M0 0.5 (-1) 0 = 0).
      { unfold transit_M0, transit_E0. rewrite Rmult_0_r. replace (1 + -1) with 0 by ring. rewrite Rmult_0_r, atan2_0_0, Rmult_0_r, sin_0. ring. }
      rewrite E0. unfold Rdiv. ring. }
    rewrite EM. cbn [ob_ecc].
    destruct (Hk 0 0.5 ltac:(lra)) as (E & HE & Ek).
    assert (HE0 : kepler_eq 0 0.5 0) by (unfold kepler_eq; rewrite sin_0; ring).
    rewrite (kepler_eq_unique 0 0.5 E 0 ltac:(lra) HE HE0) in Ek.
    cbn -[sin_true cos_true pow] in *. rewrite Ek. unfold sin_true, cos_true. rewrite sin_0, cos_0. cbn -[pow]. lra.
Qed.
Print Assumptions C35_omega_minus_90_refuted.

(** C36, for the code's own solver *)
Theorem C36_distance_bounds : forall au o t, orbit_ok o -> ob_parallax o = None ->
  ob_semimajor o * (1 - ecc_val o) <= dist (relative_position au kepler o t None) <= ob_semimajor o * (1 + ecc_val o).
Proof. intros au o t. apply dist_bounds. apply kepler_unit. Qed.
Print Assumptions C36_distance_bounds.
Theorem C36_circular_distance : forall au o t, orbit_ok o -> ob_parallax o = None -> ob_ecc o = None ->
  dist (relative_position au kepler o t None) = ob_semimajor o.
Proof.
  intros au o t Hok Hp He. pose proof (dist_bounds au kepler o t kepler_unit Hok Hp) as H.
  unfold ecc_val in H. rewrite He in H. lra.
Qed.
Print Assumptions C36_circular_distance.
Theorem C36_parallax_only_rescales : forall au kep o t p, ob_parallax o = None ->
  relative_position au kep o t (Some p) = vscale (au * p) (relative_position au kep o t None).
Proof. exact parallax_scales. Qed.
Print Assumptions C36_parallax_only_rescales.

(** C37, for the code's own solver *)
Theorem C37_periodic : forall au o t (k : Z) p K, ob_period o <> 0 ->
  let t' := t + IZR k * ob_period o in
  relative_position au kepler o t' p = relative_position au kepler o t p /\
  position au kepler o t' p = position au kepler o t p /\
  central_position au kepler o t' p = central_position au kepler o t p /\
  velocity au kepler o t' K = velocity au kepler o t K /\
  central_velocity au kepler o t' K = central_velocity au kepler o t K /\
  relative_velocity au kepler o t' K = relative_velocity au kepler o t K /\
  radial_velocity au kepler o t' K = radial_velocity au kepler o t K.
Proof.
  intros au o t k p K HP. cbn zeta.
  assert (Hk : periodic_solver kepler) by (intros M e j; apply kepler_periodic).
  unfold relative_position, position, central_position, velocity, radial_velocity, central_velocity, relative_velocity.
  assert (HP' : forall a b c d, position_and_velocity au kepler o (t + IZR k * ob_period o) a b c d = position_and_velocity au kepler o t a b c d)
    by (intros; now apply pv_periodic).
  repeat (split; [destruct (ob_mass o), (ob_parallax o), (ob_semiamplitude o), p, K; rewrite ?HP'; reflexivity|]).
  destruct (ob_mass o), (ob_parallax o), (ob_semiamplitude o), p, K; rewrite ?HP'; reflexivity.
Qed.
Print Assumptions C37_periodic.
Example C37_satisfiable : exists o, make_orbital 2945 sample_central sample_body = Ok o /\ ob_period o <> 0.
Proof. destruct (sample_orbit 2945 ltac:(lra)) as (o & H & (_ & HP & _) & _). exists o. split; [assumption|lra]. Qed.

(** C38 *)
Theorem C38_barycentre : forall au kep o t p m, ob_mass o = Some m -> total_mass o <> 0 ->
  exists cp, central_position au kep o t p = Ok cp /\
    vadd (vscale m (position au kep o t p)) (vscale (c_mass (ob_central o)) cp) = (0, 0, 0) /\
    relative_position au kep o t p = vsub (position au kep o t p) cp.
Proof. exact barycentre. Qed.
Print Assumptions C38_barycentre.
Theorem C38_barycentre_velocity : forall au kep o t m, ob_mass o = Some m -> total_mass o <> 0 ->
  ob_period o <> 0 -> ob_semiamplitude o = None ->
  exists v rv, velocity au kep o t None = Ok v /\ relative_velocity au kep o t None = Ok rv /\
    vadd (vscale m v) (vscale (c_mass (ob_central o)) (central_velocity au kep o t None)) = (0, 0, 0) /\
    rv = vsub v (central_velocity au kep o t None).
Proof. exact barycentre_velocity. Qed.
Print Assumptions C38_barycentre_velocity.
Theorem C38_barycentre_velocity_semiamplitude : forall au kep o t m K, ob_mass o = Some m -> m <> 0 ->
  exists v rv, velocity au kep o t (Some K) = Ok v /\ relative_velocity au kep o t (Some K) = Ok rv /\
    vadd (vscale m v) (vscale (c_mass (ob_central o)) (central_velocity au kep o t (Some K))) = (0, 0, 0) /\
    rv = vsub v (central_velocity au kep o t (Some K)).
Proof. exact barycentre_velocity_K. Qed.
Print Assumptions C38_barycentre_velocity_semiamplitude.
Example C38_satisfiable : exists o, make_orbital 2945 sample_central sample_body = Ok o /\ ob_mass o = Some 0.1 /\
  total_mass o <> 0 /\ ob_period o <> 0 /\ ob_semiamplitude o = None.
Proof.
  destruct (sample_orbit 2945 ltac:(lra)) as (o & H & (_ & HP & HM & _) & _ & Hs & Hm & _). exists o.
  repeat split; try assumption; lra.
Qed.

(** C39, for the exact solution of Kepler's equation (unconditional for circular orbits) *)
Theorem C39_relative_velocity_is_derivative : forall au kep o t, exact_solver kep -> orbit_ok o -> ob_semiamplitude o = None ->
  exists v, relative_velocity au kep o t None = Ok v /\ vderive (fun s => relative_position au kep o s None) t v.
Proof. exact relvel_derive. Qed.
Print Assumptions C39_relative_velocity_is_derivative.
Theorem C39_velocity_is_derivative : forall au kep o t, exact_solver kep -> orbit_ok o -> ob_semiamplitude o = None ->
  exists v, velocity au kep o t None = Ok v /\ vderive (fun s => position au kep o s None) t v.
Proof. exact vel_derive. Qed.
Print Assumptions C39_velocity_is_derivative.
Theorem C39_central_velocity_is_derivative : forall au kep o t m, exact_solver kep -> orbit_ok o ->
  ob_semiamplitude o = None -> ob_mass o = Some m ->
  vderive (fun s => match central_position au kep o s None with Ok p => p | Err _ => (0, 0, 0) end) t
          (central_velocity au kep o t None).
Proof. exact cvel_derive. Qed.
Print Assumptions C39_central_velocity_is_derivative.
Example C39_satisfiable : exact_solver exact_kepler /\
  exists o, make_orbital 2945 sample_central sample_body = Ok o /\ orbit_ok o /\ ob_semiamplitude o = None /\ ob_mass o = Some 0.1.
Proof.
  split; [apply exact_kepler_exact|].
  destruct (sample_orbit 2945 ltac:(lra)) as (o & H & Hok & _ & Hs & Hm & _). now exists o.
Qed.

(** C40, for the code's own solver *)
Theorem C40_radial_velocity_semiamplitude : forall au o t K e w, orbit_ok o -> ob_ecc o = Some (e, sin w, cos w) ->
  exists f, true_anomaly_sc kepler o t = (sin f, cos f) /\
    radial_velocity au kepler o t (Some K) = K * (cos (w + f) + e * cos w).
Proof. exact rv_K. Qed.
Print Assumptions C40_radial_velocity_semiamplitude.
Theorem C40_radial_velocity_circular : forall au kep o t K, ob_ecc o = None ->
  radial_velocity au kep o t (Some K) = K * cos (mean_anomaly o t).
Proof. exact rv_K_circular. Qed.
Print Assumptions C40_radial_velocity_circular.
Theorem C40_radial_velocity_from_masses : forall au o t e w m, orbit_ok o -> ob_ecc o = Some (e, sin w, cos w) ->
  ob_mass o = Some m -> ob_semiamplitude o = None -> ob_parallax o = None ->
  exists f, true_anomaly_sc kepler o t = (sin f, cos f) /\
    radial_velocity au kepler o t None =
      2 * PI * ob_semimajor o * (m / (m + c_mass (ob_central o))) * ob_sin_incl o / (ob_period o * sqrt (1 - e ^ 2))
      * (cos (w + f) + e * cos w).
Proof. exact rv_mass. Qed.
Print Assumptions C40_radial_velocity_from_masses.
Theorem C40_radial_velocity_sign : forall au kep o t K,
  radial_velocity au kep o t K = - along (central_velocity au kep o t K).
Proof. exact rv_along. Qed.
Print Assumptions C40_radial_velocity_sign.
Example C40_satisfiable : exists o, make_orbital 2945 sample_central sample_body = Ok o /\ orbit_ok o /\
  ob_ecc o = Some (0.3, sin 1, cos 1) /\ ob_mass o = Some 0.1 /\ ob_semiamplitude o = None /\ ob_parallax o = None.
Proof. destruct (sample_orbit 2945 ltac:(lra)) as (o & H & Hok & Hp & Hs & Hm & He & _). now exists o. Qed.

(** C41: true for the central; the body's and relative velocities get the central's values *)
Theorem C41_stored_semiamplitude_central : forall au kep o t K, ob_semiamplitude o = Some K ->
  central_velocity au kep o t None = central_velocity au kep o t (Some K) /\
  radial_velocity au kep o t None = radial_velocity au kep o t (Some K) /\
  velocity au kep o t None = Ok (central_velocity au kep o t (Some K)) /\
  relative_velocity au kep o t None = Ok (central_velocity au kep o t (Some K)).
Proof. exact stored_semiamplitude. Qed.
Print Assumptions C41_stored_semiamplitude_central.
Definition rv_args : body_of arr :=
  {| b_time_transit := Some (Sc 0); b_time_peri := None; b_period := None; b_semimajor := Some (Sc 10);
     b_inclination := None; b_impact_param := None; b_eccentricity := None;
     b_omega_peri := None; b_sin_omega_peri := None; b_cos_omega_peri := None;
     b_asc_node := None; b_sin_asc_node := None; b_cos_asc_node := None;
     b_mass := Some (Sc 0.5); b_radius := None; b_semiamplitude := Some (Sc 1); b_parallax := None |}.
Theorem C41_stored_semiamplitude_body_refuted : forall G au kep, 0 < G ->
  exists b o, make_body rv_args = Ok b /\ make_orbital G sample_central b = Ok o /\
    ob_semiamplitude o = Some 1 /\
    velocity au kep o (ob_time_transit o) None <> velocity au kep o (ob_time_transit o) (Some 1) /\
    relative_velocity au kep o (ob_time_transit o) None <> relative_velocity au kep o (ob_time_transit o) (Some 1).
Proof.
  intros G au kep HG. eexists. eexists. split; [reflexivity|]. split; [reflexivity|]. split; [reflexivity|].
  unfold velocity, relative_velocity, position_and_velocity, true_anomaly_sc.
  match goal with |- context [mean_anomaly ?o ?t] => assert (EM : mean_anomaly o t = PI / 2) end.
  { unfold mean_anomaly. cbn. pose proof PI_RGT_0.
    assert (0 < sqrt (10 / (G * (0.5 + 1)))). { apply sqrt_lt_R0. apply Rdiv_lt_0_compat; [lra|]. apply Rmult_lt_0_compat; lra. }
    replace (0.5 * PI) with (PI / 2) by lra. field. split; lra. }
  rewrite EM, sin_PI2, cos_PI2. unfold total_mass, total_mass_of. cbn. split; intros H; injection H; intros; lra.
Qed.
Print Assumptions C41_stored_semiamplitude_body_refuted.

(** C42 *)
Theorem C42_node_rotates_sky : forall au kep o n t p, (forall s c, n = Some (s, c) -> unit_pair s c) -> ob_node o = None ->
  let u := relative_position au kep o t p in let v := relative_position au kep (set_node o n) t p in
  along v = along u /\ sky_sep v = sky_sep u /\
  forall s c, n = Some (s, c) -> vx v = c * vx u - s * vy u /\ vy v = s * vx u + c * vy u.
Proof. exact node_rotation. Qed.
Print Assumptions C42_node_rotates_sky.
Theorem C42_node_only_changes_node : forall G c b o Omega, make_orbital G c b = Ok o ->
  make_orbital G c (b_set_node b Omega) =
  Ok (set_node o (match Omega with None => None | Some w => Some (sin w, cos w) end)).
Proof. exact b_set_node_orbital. Qed.
Print Assumptions C42_node_only_changes_node.
Theorem C42_light_curve_independent_of_node : forall au kep o n eps quad u t,
  (forall s c, n = Some (s, c) -> unit_pair s c) -> ob_node o = None ->
  forall rs r,
  transit_light_curve eps quad {| lo_central_radius := rs; lo_radius := r;
     lo_relative_position := fun t => relative_position au kep (set_node o n) t None |} u t =
  transit_light_curve eps quad {| lo_central_radius := rs; lo_radius := r;
     lo_relative_position := fun t => relative_position au kep o t None |} u t.
Proof.
  intros au kep o n eps quad u t Hn Ho rs r. destruct (node_rotation au kep o n t None Hn Ho) as (H1 & H2 & _).
  now apply lc_depends.
Qed.
Print Assumptions C42_light_curve_independent_of_node.
Theorem C42_relative_angles_polar : forall au kep o t p,
  let '(rho, theta) := relative_angles au kep o t p in
  let v := relative_position au kep o t p in
  rho = sky_sep v /\ vx v = rho * cos theta /\ vy v = rho * sin theta /\ - PI < theta <= PI.
Proof. exact angles_polar. Qed.
Print Assumptions C42_relative_angles_polar.
Example C42_satisfiable : exists o, make_orbital 2945 sample_central sample_body = Ok o /\ ob_node o = None.
Proof. destruct (sample_orbit 2945 ltac:(lra)) as (o & H & Hr). exists o. split; [assumption|apply Hr]. Qed.

(** C43: arbitrary histories of add_body calls *)
Theorem C43_add_body_history : forall G l s s', add_all G s l = Ok s' ->
  sys_central s' = sys_central s /\
  exists os, sys_bodies s' = sys_bodies s ++ os /\ length os = length l /\
    forall i b co, nth_error l i = Some (b, co) ->
      exists o, nth_error os i = Some o /\
        rbind (make_body b) (make_orbital G (match co with Some c => c | None => sys_central s end)) = Ok o.
Proof. exact add_all_spec. Qed.
Print Assumptions C43_add_body_history.
Theorem C43_shape : forall G l s s', add_all G s l = Ok s' -> sys_shape s' = (sys_shape s + length l)%nat.
Proof.
  intros G l s s' H. destruct (add_all_spec G l s s' H) as (_ & os & Hb & Hl & _).
  unfold sys_shape. rewrite Hb, app_length. lia.
Qed.
Print Assumptions C43_shape.
Theorem C43_same_as_constructor : forall G c bs,
  add_all G {| sys_central := c; sys_bodies := [] |} (map (fun b => (b, None)) bs) = make_system G (Some c) (map ABody bs).
Proof. exact add_all_make_system. Qed.
Print Assumptions C43_same_as_constructor.
Example C43_satisfiable : exists s', add_all 2945 {| sys_central := sample_central; sys_bodies := [] |}
   [(sample_args, None); (rv_args, Some sample_central); (behind_args, None)] = Ok s' /\ sys_shape s' = 3%nat.
Proof. eexists. split; reflexivity. Qed.

(** C68: a body without mass *)
Theorem C68_massless_central_position : forall au kep o t p, ob_mass o = None -> central_position au kep o t p = Err TypeError.
Proof. exact cp_massless. Qed.
Print Assumptions C68_massless_central_position.
(** same formula as C40_radial_velocity_from_masses with m/(m+M) replaced by (1 M_sun)/M *)
Theorem C68_massless_radial_velocity : forall au o t e w, orbit_ok o -> ob_ecc o = Some (e, sin w, cos w) -> ob_mass o = None ->
  ob_semiamplitude o = None -> ob_parallax o = None ->
  exists f, true_anomaly_sc kepler o t = (sin f, cos f) /\
    radial_velocity au kepler o t None =
      2 * PI * ob_semimajor o * (1 / c_mass (ob_central o)) * ob_sin_incl o / (ob_period o * sqrt (1 - e ^ 2))
      * (cos (w + f) + e * cos w).
Proof. exact rv_massless. Qed.
Print Assumptions C68_massless_radial_velocity.
Theorem C68_massless_radial_velocity_circular : forall au kep o t, orbit_ok o -> ob_ecc o = None -> ob_mass o = None ->
  ob_semiamplitude o = None -> ob_parallax o = None ->
    radial_velocity au kep o t None =
      2 * PI * ob_semimajor o * (1 / c_mass (ob_central o)) * ob_sin_incl o / ob_period o * cos (mean_anomaly o t).
Proof. exact rv_massless_circ. Qed.
Print Assumptions C68_massless_radial_velocity_circular.
Definition massless_args : body_of arr :=
  {| b_time_transit := Some (Sc 0); b_time_peri := None; b_period := None; b_semimajor := Some (Sc 10);
     b_inclination := None; b_impact_param := None; b_eccentricity := None;
     b_omega_peri := None; b_sin_omega_peri := None; b_cos_omega_peri := None;
     b_asc_node := None; b_sin_asc_node := None; b_cos_asc_node := None;
     b_mass := None; b_radius := None; b_semiamplitude := None; b_parallax := None |}.
Example C68_satisfiable : exists b o, make_body massless_args = Ok b /\ make_orbital 2945 sample_central b = Ok o /\ orbit_ok o /\
  ob_ecc o = None /\ ob_mass o = None /\ ob_semiamplitude o = None /\ ob_parallax o = None.
Proof.
  eexists. eexists. split; [reflexivity|]. split; [reflexivity|]. split; [|repeat split].
  refine (orbit_wf 2945 _ sample_central (b_values massless_args) _ _ eq_refl _); [lra| |].
  - unfold body_physical, massless_args, b_values, oval. cbn. unfold unit_pair.
    repeat split; intros; try discriminate; try lra;
      repeat match goal with H : Some _ = Some _ |- _ => injection H as <- end; try lra.
  - cbn. rewrite Rabs_R0. lra.
Qed.
