(** C99: gradients of radial velocities of systems of surfaces on Keplerian orbits obtained by automatic differentiation. *)
From Coq Require Import Reals List ZArith Lra Lia.
From Coquelicot Require Import Hierarchy Derive.
From Verif Require Import Base.RealAux Model.Kepler Model.Keplerian Model.Poly Model.Ylm Model.RvMap Model.Surface Model.StarryLightCurve Model.SurfaceSystem Model.AutoDiff Model.TransitGrad Model.KeplerGrad Model.StarryGrad Model.StarryRvGrad Model.SystemGrad.
From Verif Require Model.Stack Proof.SystemGradMore Model.Rotation.
From Verif Require Import Spec.OccultSpec Spec.KeplerSpec Spec.OrbitSpec Spec.RotationSpec Spec.YlmSpec Spec.SurfaceSpec Spec.AutoDiffSpec Spec.KeplerGradSpec Spec.StarryGradSpec Spec.StarryRvGradSpec Spec.SystemGradSpec.
From Verif Require Import Proof.AutoDiff Proof.KeplerExact Proof.KeplerianProof Proof.KeplerGrad Proof.Euler Proof.StarryGrad Proof.StarryGradFlux Proof.StarryGradDesign Proof.StarryGradPoly Proof.StarryGradCurve Proof.ShadowExamples Proof.SystemGrad Proof.SystemRvGrad Proof.SystemGradFree Properties.KeplerianProps Properties.KeplerGradProps Properties.StarryGradProps Properties.StarryRvGradProps Properties.SystemGradProps.
From Verif Require Proof.SystemExamples Proof.KeplerianMore Proof.StarryProof Proof.SystemRv.
Import ListNotations.
Local Open Scope R_scope.

(** Differentiating the radial velocities of a system of rigidly rotating surfaces at any array of times changes no entry of the result
    (an error stays the same error) and gives finite tangents, unless a body is exactly in front of or behind the centre of the star or
    the flux in the denominator of a velocity is 0. *)
Theorem C99_finite : forall as_euler eps low high A2 au kep, 0 < eps -> exact_solver kep -> forall sys d ts tds, fin_system d sys -> List.Forall2 fin tds ts -> proper_system sys -> surfaces_all rigid sys ->
  (forall t, In t ts -> system_meets (rv_bare_ok as_euler eps low high A2) (rv_occulted_ok as_euler eps low high A2) au kep sys t) ->
  fin_table (starry_radial_velocity_d as_euler eps low high A2 au kep d tds) (starry_radial_velocity as_euler eps low high A2 au kep sys ts).
Proof. exact rv_fin. Qed.
Print Assumptions C99_finite.
(** The tangents are the derivatives along every differentiable path of systems and times through a regular point. *)
Theorem C99_derivative : forall as_euler eps low high A2 au kep, 0 < eps -> exact_solver kep -> forall s sys d fts tds, tracks_system sys s d -> List.Forall2 (fun f td => tracks f s td) fts tds -> proper_system (sys s) ->
  (forall z, surfaces_all rigid (sys z)) ->
  (forall f, In f fts -> system_meets (rv_bare_ok as_euler eps low high A2) (rv_occulted_regular as_euler eps low high A2) au kep (sys s) (f s)) ->
  tracks_table (fun z => starry_radial_velocity as_euler eps low high A2 au kep (sys z) (map (fun f => f z) fts)) s (starry_radial_velocity_d as_euler eps low high A2 au kep d tds).
Proof. exact rv_tracks. Qed.
Print Assumptions C99_derivative.

(** Exactly which entries have gradients, at every time: the velocity of the star has one unless some body is in line with its centre,
    in front or behind; the velocity of a body has one unless the body has a surface and is itself in line. *)
Theorem C99_finite_iff : forall as_euler eps low high A2 au kep, 0 < eps -> exact_solver kep -> forall sys d ts tds rows, fin_system d sys -> List.Forall2 fin tds ts -> proper_system sys -> surfaces_all (fun s => rigid s /\ wf_ylm (s_y s)) sys ->
  (forall t, In t ts -> system_meets (rv_bare_ok as_euler eps low high A2) (rv_divides as_euler eps low high A2) au kep sys t) ->
  starry_radial_velocity as_euler eps low high A2 au kep sys ts = Ok rows ->
  exists drows, starry_radial_velocity_d as_euler eps low high A2 au kep d tds = Ok drows /\ List.Forall2 (row_gradients au kep sys) ts drows.
Proof. exact rv_iff. Qed.
Print Assumptions C99_finite_iff.
(** When nothing of the star is hidden (contacts and bodies behind it included) and its visible flux is not 0, the velocity of the star and
    its gradient are those of the star alone plus the reflex velocity due to the first body. *)
Theorem C99_unhidden : forall as_euler eps low high A2 au kep, zyz_euler as_euler -> 0 < eps -> exact_solver kep -> forall sys d ts tds drows, fin_system d sys -> List.Forall2 fin tds ts -> proper_system sys -> rigid (ss_surface sys) -> wf_ylm (s_y (ss_surface sys)) ->
  (forall t, In t ts -> nothing_hidden au kep sys t /\
    visible_flux (seen_intensity (y_data (s_y (ss_surface sys))) (s_u (ss_surface sys)) (s_inc (ss_surface sys)) (s_obl (ss_surface sys)) (rotational_phase (ss_surface sys) t)) <> 0) ->
  starry_radial_velocity_d as_euler eps low high A2 au kep d tds = Ok drows ->
  List.Forall2 (fun td row => exists q c bs, hd_error (sy_bodies d) = Some q /\ row = dadd c (radial_velocity_d au kep (fst q) td None) :: bs /\
    bare_rv_d as_euler (rs_map (sy_surface d)) (rs_period (sy_surface d)) (rs_radius (sy_surface d)) (rotational_phase_d (sy_surface d) td) = Ok c) tds drows.
Proof. exact rv_free. Qed.
Print Assumptions C99_unhidden.
(** When the body of a system of one is aligned with the centre of the star, in front or behind, the velocity of the star has no
    gradient. *)
Theorem C99_finite_refuted : forall as_euler eps low high A2 au kep sys d t td o, zyz_euler as_euler -> exact_solver kep -> fin_system d sys -> fin td t -> proper_system sys -> surfaces_all rigid sys -> s_period (ss_surface sys) <> None ->
  wf_ylm (s_y (ss_surface sys)) -> divides_by_nonzero (dividing_flux as_euler eps low high A2 (ss_surface sys) None (rotational_phase (ss_surface sys) t)) ->
  ss_bodies sys = [o] -> ss_surfaces sys = [None] -> ob_radius o <> None -> sky_sep (relative_position au kep o t None) = 0 ->
  starry_radial_velocity_d as_euler eps low high A2 au kep d [td] = Ok [[None; cst 0]].
Proof. exact rv_system_aligned. Qed.
Print Assumptions C99_finite_refuted.

(** a star with a bright side that turns once a day and shows it at time 2, and a planet on an eccentric orbit that passes beside it,
    differentiated in the impact parameter *)
Definition turning : surface :=
  {| s_y := s_y spotty; s_inc := None; s_obl := None; s_u := []; s_period := Some 1; s_amplitude := 1; s_normalize := false; s_phase := - (2 * PI * 2 / 1); s_radius := 1; s_shear := None |}.
Definition turning_d : rsurface_d :=
  {| rs_map := {| sd_ydeg := 1; sd_y := map cst (ylm_todense (s_y spotty)); sd_inc := None; sd_obl := None; sd_u := []; sd_amplitude := cst 1 |}; rs_period := Some (cst 1); rs_phase := cst (- (2 * PI * 2 / 1)); rs_radius := cst 1 |}.
Definition rv_system (o : orbital) : ssystem := {| ss_central := sample_central; ss_surface := turning; ss_bodies := [o]; ss_surfaces := [None] |}.
Definition rv_system_d (od : orbital_d) : ssystem_d := {| sy_radius := cst 1; sy_surface := turning_d; sy_bodies := [(od, None)] |}.
Lemma turning_visible : visible_flux (seen_intensity (y_data (s_y turning)) (s_u turning) (s_inc turning) (s_obl turning) (rotational_phase turning 2)) <> 0.
Proof.
  assert (E : rotational_phase turning 2 = Some 0) by (unfold rotational_phase, turning; cbn [s_period s_phase]; f_equal; ring). rewrite E. exact spotty_visible.
Qed.
Lemma turning_divides eps low high A2 g : (match g with None => True | Some g => og_occ g = false end) -> divides_by_nonzero (dividing_flux rotvec_zyz eps low high A2 turning g (rotational_phase turning 2)).
Proof. intros H. eexists. split; [apply C97_dividing_flux; [exact rotvec_zyz_ok|exact spotty_wf|exact H]|exact turning_visible]. Qed.
Lemma rv_system_meets eps low high A2 o : ob_radius o = Some 0.1 -> sky_sep (relative_position 215 exact_kepler o 2 None) = 1.5 -> 0 < along (relative_position 215 exact_kepler o 2 None) ->
  system_meets (rv_bare_ok rotvec_zyz eps low high A2) (rv_occulted_regular rotvec_zyz eps low high A2) 215 exact_kepler (rv_system o) 2.
Proof.
  intros Er HS HA. split; [now apply turning_divides|]. intros o' own [H|[]] r Er'. injection H as <- <-. rewrite Er in Er'. injection Er' as <-. cbv zeta. cbn [rv_system ss_central ss_surface c_radius sample_central].
  destruct (relative_position 215 exact_kepler o 2 None) as [[x y] z]. cbn [sky_sep along] in HS, HA. split; [|discriminate].
  replace (0.1 / 1) with 0.1 by field. replace (x / 1) with x by field. replace (y / 1) with y by field. replace (z / 1) with z by field. split; [split|].
  - intros [-> ->]. replace (0 ^ 2 + 0 ^ 2) with 0 in HS by ring. rewrite sqrt_0 in HS. lra.
  - apply turning_divides. destruct (og_occ _) eqn:E; [|reflexivity]. apply StarryProof.geometry_occ in E. cbn in E. destruct E as [E _].
    match type of E with ?u < _ => replace u with (sqrt (x ^ 2 + y ^ 2)) in E by (f_equal; unfold Rsqr; ring) end. rewrite HS in E. lra.
  - unfold regular_sight. cbv zeta. rewrite HS. split; [lra|]. split; [lra|]. intros H. lra.
Qed.
Lemma turning_rigid o : surfaces_all rigid (rv_system o).
Proof. split; [split; [reflexivity|cbn; intros H; injection H; lra]|]. intros s [H|[]]; discriminate. Qed.
Lemma rv_system_proper o : proper_orbit o -> proper_system (rv_system o).
Proof.
  intros H. split; [cbn; lra|]. split; [split; [cbn [rv_system ss_surface turning s_u]; rewrite SystemExamples.ld_flux_nil; pose proof PI_RGT_0; lra|cbn; intros E; injection E; lra]|].
  split; [intros o' [<-|[]]; exact H|intros s' [E|[]]; discriminate].
Qed.
Lemma rv_system_fin o od : fin_orbital od o -> fin_system (rv_system_d od) (rv_system o).
Proof.
  intros H. split; [apply fin_cst|]. split.
  - split; [|split; [apply fin_cst|split; apply fin_cst]]. split; [reflexivity|]. split; [reflexivity|]. split; [reflexivity|]. split; [exact (FL_cst (ylm_todense (s_y spotty)))|]. split; [constructor|apply fin_cst].
  - split; [reflexivity|]. constructor; [|constructor]. split; [exact H|exact I].
Qed.
Lemma rv_system_tracks o od s : tracks_orbital o s od -> locally s (fun z => 0 <= ecc_val (o z) < 1) -> tracks_system (fun z => rv_system (o z)) s (rv_system_d od).
Proof.
  intros H He. split; [apply tracks_cst|]. split.
  - split; [|split; [|split; apply tracks_cst]].
    + split; [intros z; repeat split|]. split; [exact (TL_cst s (ylm_todense (s_y spotty)))|]. split; [exact (TL_cst s nil)|apply tracks_cst].
    + exists (fun _ => 1). split; [reflexivity|apply tracks_cst].
  - exists [(o, None)]. split; [intros z; split; reflexivity|]. constructor; [|constructor]. split; [exact H|]. split; [exact He|exact I].
Qed.
Example C99_sat : exists o od, (forall z, make_orbital 2945 sample_central (ex_family z) = Ok (o z)) /\ tracks_system (fun z => rv_system (o z)) 1.5 (rv_system_d od) /\ fin_system (rv_system_d od) (rv_system (o 1.5)) /\
  List.Forall2 (fun f td => tracks f 1.5 td) [fun _ => 2] [cst 2] /\ List.Forall2 fin [cst 2] [2] /\ proper_system (rv_system (o 1.5)) /\ (forall z, surfaces_all rigid (rv_system (o z))) /\
  (forall eps low high A2, system_meets (rv_bare_ok rotvec_zyz eps low high A2) (rv_occulted_regular rotvec_zyz eps low high A2) 215 exact_kepler (rv_system (o 1.5)) 2) /\ exact_solver exact_kepler.
Proof.
  assert (EO : exists o, forall z, make_orbital 2945 sample_central (ex_family z) = Ok (o z)) by (eexists (fun z => _); intros z; reflexivity). destruct EO as (o & EO).
  destruct (ex_orbit 1.5 (o 1.5) ltac:(lra) (EO 1.5)) as (P & Er & HS & HA & C1 & C2).
  assert (Tc : tracks (fun _ : R => c_mass sample_central) 1.5 (cst 1)) by exact (tracks_cst 1 1.5). assert (Tr : tracks (fun _ : R => c_radius sample_central) 1.5 (cst 1)) by exact (tracks_cst 1 1.5).
  destruct (C94_constructor_derivative 2945 (fun _ => sample_central) ex_family o 1.5 (cst 1) (cst 1) (ex_family_d 1.5) ltac:(lra) Tc Tr (ex_family_tracks 1.5) EO) as (od & Eod & Tod); [exact sample_physical|exact C2|intros _; exact C1|].
  destruct (C94_constructor_finite 2945 sample_central (ex_family 1.5) (o 1.5) (cst 1) (cst 1) (ex_family_d 1.5) ltac:(lra) (fin_cst 1) (fin_cst 1) (ex_family_fin 1.5) (EO 1.5)) as (od' & Eod' & Fod); [exact sample_physical|exact C2|intros _; exact C1|].
  assert (od' = od) as -> by congruence. exists o, od. split; [exact EO|]. split; [apply rv_system_tracks; [exact Tod|]|].
  { apply filter_forall. intros z. pose proof (EO z) as E. injection E as E. unfold ecc_val. rewrite <- E. cbn. lra. }
  split; [now apply rv_system_fin|]. split; [constructor; [apply tracks_cst|constructor]|]. split; [constructor; [apply fin_cst|constructor]|]. split; [now apply rv_system_proper|]. split; [intros z; apply turning_rigid|].
  split; [intros; now apply rv_system_meets|exact exact_kepler_exact].
Qed.
(** the same planet with impact parameter 0 *)
Example C99_refuted_sat : exists o, make_orbital 2945 sample_central (ex_family 0) = Ok o /\ fin_system (rv_system_d (const_orbital_d o)) (rv_system o) /\ proper_system (rv_system o) /\ surfaces_all rigid (rv_system o) /\
  s_period (ss_surface (rv_system o)) <> None /\ wf_ylm (s_y (ss_surface (rv_system o))) /\ ob_radius o <> None /\ sky_sep (relative_position 215 exact_kepler o 2 None) = 0 /\ zyz_euler rotvec_zyz /\
  (forall eps low high A2, divides_by_nonzero (dividing_flux rotvec_zyz eps low high A2 (ss_surface (rv_system o)) None (rotational_phase (ss_surface (rv_system o)) 2))).
Proof.
  destruct (make_orbital 2945 sample_central (ex_family 0)) as [o|] eqn:E; [|discriminate]. exists o. destruct (ex_orbit 0 o ltac:(lra) E) as (P & Er & HS & _).
  split; [reflexivity|]. split; [apply rv_system_fin, const_fin_orbital|]. split; [now apply rv_system_proper|]. split; [apply turning_rigid|]. split; [discriminate|]. split; [exact spotty_wf|]. split; [rewrite Er; discriminate|].
  split; [exact HS|]. split; [exact rotvec_zyz_ok|]. intros. now apply turning_divides.
Qed.
(** that star with a planet exactly behind it (circular orbit, half a period after the transit): the velocities exist, the planet is in line *)
Lemma planet_behind o : make_orbital 1 SystemExamples.sun (b_values (SystemExamples.planet 1)) = Ok o -> proper_orbit o /\ ob_radius o = Some 0.1 /\ (forall au kep, sky_sep (relative_position au kep o 2 None) = 0 /\ along (relative_position au kep o 2 None) < 0).
Proof.
  intros E. injection E as <-. pose proof PI_RGT_0 as P. split; [|split; [reflexivity|]].
  - unfold proper_orbit, total_mass, ecc_val. cbn -[Rmult Rdiv Rplus PI]. split; [lra|]. split; [lra|]. split; [lra|]. intros H. injection H. lra.
  - intros au kep. assert (M : 2 * PI * (2 - 0 - - (0.5 * PI) * 4 / (2 * PI)) / 4 = 3 * (PI / 2)) by (replace 0.5 with (/ 2) by lra; field; lra).
    unfold relative_position, position_and_velocity, true_anomaly_sc, mean_anomaly. cbn -[pow cbrt Rmult Rdiv Rplus Rminus Ropp sqrt]. rewrite M, cos_3PI2, sin_3PI2. set (c := cbrt _).
    assert (C : 0 < c) by (apply cbrt_pos, Rdiv_lt_0_compat; [lra|]; apply Rmult_lt_0_compat; [lra|]; apply Rmult_lt_0_compat; lra).
    split; [|lra]. replace ((- c * 0) ^ 2 + (0 * (- c * -1)) ^ 2) with 0 by ring. apply sqrt_0.
Qed.
Example C99_iff_sat : exists o, let sys := {| ss_central := SystemExamples.sun; ss_surface := turning; ss_bodies := [o]; ss_surfaces := [None] |} in
  (exists d, fin_system d sys) /\ proper_system sys /\ surfaces_all (fun s => rigid s /\ wf_ylm (s_y s)) sys /\ in_line 215 exact_kepler 2 o /\ exact_solver exact_kepler /\
  forall eps low high A2, system_meets (rv_bare_ok rotvec_zyz eps low high A2) (rv_divides rotvec_zyz eps low high A2) 215 exact_kepler sys 2 /\
  exists rows, starry_radial_velocity rotvec_zyz eps low high A2 215 exact_kepler sys [2] = Ok rows.
Proof.
  destruct (make_orbital 1 SystemExamples.sun (b_values (SystemExamples.planet 1))) as [o|] eqn:E; [|discriminate]. exists o. cbv zeta. destruct (planet_behind o E) as (P & Er & H). destruct (H 215 exact_kepler) as [HS HA].
  assert (Ht : proper_surface turning) by (split; [cbn [turning s_u]; rewrite SystemExamples.ld_flux_nil; pose proof PI_RGT_0; lra|cbn; intros K; injection K; lra]).
  split; [exists {| sy_radius := cst 1; sy_surface := turning_d; sy_bodies := [(const_orbital_d o, None)] |}|].
  { split; [apply fin_cst|]. split; [|split; [reflexivity|constructor; [split; [apply const_fin_orbital|exact I]|constructor]]].
    split; [|split; [apply fin_cst|split; apply fin_cst]]. split; [reflexivity|]. split; [reflexivity|]. split; [reflexivity|]. split; [exact (FL_cst (ylm_todense (s_y spotty)))|]. split; [constructor|apply fin_cst]. }
  split; [split; [cbn; lra|split; [exact Ht|split; [intros o' [<-|[]]; exact P|intros s' [K|[]]; discriminate]]]|].
  split; [split; [split; [exact (proj1 (turning_rigid o))|exact spotty_wf]|intros s' [K|[]]; discriminate]|]. split; [exact HS|]. split; [exact exact_kepler_exact|]. intros eps low high A2. split.
  - split; [now apply turning_divides|]. intros o' own [K|[]] r _. injection K as <- <-. cbv zeta. unfold rv_divides. destruct (relative_position 215 exact_kepler o 2 None) as [[x y] z]. cbn [sky_sep] in HS. apply SystemGradMore.sep_zero in HS. destruct HS as [-> ->].
    split; [left; cbn; split; field|discriminate].
  - destruct (SystemRvGrad.surf_veq_ok turning (proj1 (turning_rigid o)) ltac:(discriminate)) as (veq & Ev).
    assert (A : forall r x y z, (r = None \/ exists r', r = Some r' /\ (1 + r' <= sqrt (Rotation.none0 x ^ 2 + Rotation.none0 y ^ 2) \/ Rotation.none0 z <= 0)) -> exists w, surface_radial_velocity rotvec_zyz eps low high A2 turning r x y z (rotational_phase turning 2) = Ok w).
    { intros r x y z K. eexists. exact (SystemRv.rv_alone rotvec_zyz rotvec_zyz_ok eps low high A2 turning veq _ spotty_wf Ev eq_refl (proj1 Ht) turning_visible r x y z K). }
    unfold starry_radial_velocity, system_radial_velocity, system_observable_times. cbn [Stack.mapM]. unfold system_observable. cbn [ss_surface ss_bodies ss_surfaces combine Stack.mapM length Nat.ltb Nat.leb]. destruct (A None None None None (or_introl eq_refl)) as (w & ->). cbn [rbind].
    unfold central_obs, body_obs, body_radius. cbn [ss_surface]. rewrite Er. destruct (relative_position 215 exact_kepler o 2 None) as [[x y] z]. cbn [rbind along] in *.
    match goal with |- context [surface_radial_velocity _ _ _ _ _ turning (Some ?r) (Some ?x) (Some ?y) (Some ?z) _] => destruct (A (Some r) (Some x) (Some y) (Some z)) as (w' & ->) end.
    + right. eexists. split; [reflexivity|]. right. cbn. unfold Rdiv. rewrite Rinv_1. lra.
    + cbn [rbind]. eexists. reflexivity.
Qed.
Example C99_unhidden_sat : exists o, fin_system (rv_system_d (const_orbital_d o)) (rv_system o) /\ proper_system (rv_system o) /\ rigid (ss_surface (rv_system o)) /\ wf_ylm (s_y (ss_surface (rv_system o))) /\
  nothing_hidden 215 exact_kepler (rv_system o) 2 /\
  visible_flux (seen_intensity (y_data (s_y (ss_surface (rv_system o)))) (s_u (ss_surface (rv_system o))) (s_inc (ss_surface (rv_system o))) (s_obl (ss_surface (rv_system o))) (rotational_phase (ss_surface (rv_system o)) 2)) <> 0 /\
  forall eps low high A2, 0 < eps -> exists drows, starry_radial_velocity_d rotvec_zyz eps low high A2 215 exact_kepler (rv_system_d (const_orbital_d o)) [cst 2] = Ok drows.
Proof.
  destruct (make_orbital 2945 sample_central (ex_family 1.5)) as [o|] eqn:E; [|discriminate]. exists o. destruct (ex_orbit 1.5 o ltac:(lra) E) as (P & Er & HS & HA & _).
  pose proof (rv_system_fin o _ (const_fin_orbital o)) as F. pose proof (rv_system_proper o P) as Hp. pose proof (beside_hides_nothing turning o Er HS) as Hn.
  split; [exact F|]. split; [exact Hp|]. split; [exact (proj1 (turning_rigid o))|]. split; [exact spotty_wf|]. split; [exact Hn|]. split; [exact turning_visible|]. intros eps low high A2 He.
  assert (Hm : forall t, In t [2] -> system_meets (rv_bare_ok rotvec_zyz eps low high A2) (rv_occulted_ok rotvec_zyz eps low high A2) 215 exact_kepler (rv_system o) t).
  { intros t [<-|[]]. pose proof (rv_system_meets eps low high A2 o Er HS HA) as [M1 M2]. split; [exact M1|]. intros o' own K r Er'. pose proof (M2 o' own K r Er') as M. cbv zeta in *. destruct (relative_position 215 exact_kepler o' 2 None) as [[x y] z]. destruct M as (M & M'). split; [exact (proj1 M)|]. intros s K'. exact (proj1 (M' s K')). }
  assert (Ft : List.Forall2 fin [cst 2] [2]) by (constructor; [apply fin_cst|constructor]).
  pose proof (C99_finite rotvec_zyz eps low high A2 215 exact_kepler He exact_kepler_exact _ _ _ _ F Ft Hp (turning_rigid o) Hm) as G. unfold fin_table in G. destruct (starry_radial_velocity _ _ _ _ _ _ _ _ _) as [v|e] eqn:Ev; [destruct G as (ds & G & _); now exists ds|]. exfalso.
  assert (Hl : ld_flux (s_u turning) <> 0) by (cbn [turning s_u]; rewrite SystemExamples.ld_flux_nil; pose proof PI_RGT_0; lra).
  destruct (SystemRvGrad.surf_veq_ok turning (proj1 (turning_rigid o)) ltac:(discriminate)) as (veq & Eq).
  unfold starry_radial_velocity, system_radial_velocity, system_observable_times in Ev. cbn [Stack.mapM] in Ev. unfold system_observable in Ev. cbn [rv_system ss_surface ss_bodies ss_surfaces combine Stack.mapM length Nat.ltb Nat.leb] in Ev.
  pose proof (fun r x y z K => SystemRv.rv_alone rotvec_zyz rotvec_zyz_ok eps low high A2 turning veq _ spotty_wf Eq eq_refl Hl turning_visible r x y z K) as A.
  rewrite (A None None None None (or_introl eq_refl)) in Ev. cbn [rbind] in Ev.
  unfold central_obs, body_obs, body_radius in Ev. cbn [ss_surface] in Ev. rewrite Er in Ev. pose proof (Hn o 0.1 (or_introl eq_refl) Er) as K. cbv zeta in K. destruct (relative_position 215 exact_kepler o 2 None) as [[x y] z]. destruct K as (_ & K). cbn [rbind] in Ev.
  cbn [rv_system ss_central ss_surface] in *. rewrite A in Ev; [discriminate|]. right. eexists. split; [reflexivity|exact K].
Qed.
