(** C98: gradients of light curves of systems of surfaces on Keplerian orbits obtained by automatic differentiation. *)
From Coq Require Import Reals List ZArith Lra Lia.
From Coquelicot Require Import Hierarchy Derive.
From Verif Require Import Base.RealAux Model.Kepler Model.Keplerian Model.Poly Model.Ylm Model.RvMap Model.Surface Model.StarryLightCurve Model.SurfaceSystem Model.AutoDiff Model.TransitGrad Model.KeplerGrad Model.StarryGrad Model.SystemGrad.
From Verif Require Import Spec.OccultSpec Spec.KeplerSpec Spec.OrbitSpec Spec.RotationSpec Spec.YlmSpec Spec.AutoDiffSpec Spec.KeplerGradSpec Spec.StarryGradSpec Spec.SystemGradSpec.
From Verif Require Import Proof.AutoDiff Proof.KeplerExact Proof.KeplerianProof Proof.KeplerGrad Proof.Euler Proof.StarryGrad Proof.StarryGradFlux Proof.StarryGradDesign Proof.StarryGradPoly Proof.StarryGradCurve Proof.ShadowExamples Proof.SystemGrad Proof.SystemGradMore Proof.SystemGradFree Properties.KeplerianProps Properties.KeplerGradProps Properties.StarryGradProps.
From Verif Require Proof.SystemExamples Proof.KeplerianMore Proof.StarryProof.
Import ListNotations.
Local Open Scope R_scope.

(** Differentiating the light curve of a system with respect to the time, the parameters of the orbits, the radii and the
    coefficients, limb darkenings, amplitudes, periods and phases of the surfaces changes no entry of the result (an error stays the
    same error) and gives finite tangents, unless a body is exactly in front of or behind the centre of the star: for any number of
    bodies, with or without surfaces, maps of any degree. *)
Theorem C98_finite : forall as_euler eps low high A2 au kep, 0 < eps -> exact_solver kep -> forall sys d t td, fin_system d sys -> fin td t -> proper_system sys -> no_alignment au kep sys t ->
  fin_results (starry_light_curve_d as_euler eps low high A2 au kep d td) (starry_light_curve as_euler eps low high A2 au kep sys t).
Proof. exact system_fin. Qed.
Print Assumptions C98_finite.
(** The tangents are the derivatives along every differentiable path of systems and times through a regular point. *)
Theorem C98_derivative : forall as_euler eps low high A2 au kep, 0 < eps -> exact_solver kep -> forall s sys d t td, tracks_system sys s d -> tracks t s td -> proper_system (sys s) ->
  regular_system au eps high kep (sys s) (t s) ->
  tracks_results (fun z => starry_light_curve as_euler eps low high A2 au kep (sys z) (t z)) s (starry_light_curve_d as_euler eps low high A2 au kep d td).
Proof. exact system_tracks. Qed.
Print Assumptions C98_derivative.
(** The same for arrays of times: one row per time. *)
Theorem C98_times_finite : forall as_euler eps low high A2 au kep, 0 < eps -> exact_solver kep -> forall sys d ts tds, fin_system d sys -> List.Forall2 fin tds ts -> proper_system sys -> (forall t, In t ts -> no_alignment au kep sys t) ->
  fin_table (starry_light_curve_times_d as_euler eps low high A2 au kep d tds) (system_observable_times au kep (surface_light_curve as_euler eps low high A2) sys ts).
Proof. exact times_fin. Qed.
Print Assumptions C98_times_finite.
Theorem C98_times_derivative : forall as_euler eps low high A2 au kep, 0 < eps -> exact_solver kep -> forall s sys d fts tds, tracks_system sys s d -> List.Forall2 (fun f td => tracks f s td) fts tds -> proper_system (sys s) ->
  (forall f, In f fts -> regular_system au eps high kep (sys s) (f s)) ->
  tracks_table (fun z => system_observable_times au kep (surface_light_curve as_euler eps low high A2) (sys z) (map (fun f => f z) fts)) s (starry_light_curve_times_d as_euler eps low high A2 au kep d tds).
Proof. exact times_tracks. Qed.
Print Assumptions C98_times_derivative.
(** Exactly which entries have gradients: the flux of the star has one unless some body is in line with its centre, in front or behind;
    the flux of a body has one unless the body has a surface and is itself in line. *)
Theorem C98_finite_iff : forall as_euler eps low high A2 au kep, 0 < eps -> exact_solver kep -> forall sys d t td, fin_system d sys -> fin td t -> proper_system sys -> surfaces_all (fun s => wf_ylm (s_y s)) sys ->
  forall v, ss_bodies sys <> [] -> starry_light_curve as_euler eps low high A2 au kep sys t = Ok v ->
  exists c bs, starry_light_curve_d as_euler eps low high A2 au kep d td = Ok (c :: bs) /\ (c = None <-> exists o, In o (ss_bodies sys) /\ in_line au kep t o) /\
    List.Forall2 (fun b p => b = None <-> snd p <> None /\ in_line au kep t (fst p)) bs (combine (ss_bodies sys) (ss_surfaces sys)).
Proof. exact system_iff. Qed.
Print Assumptions C98_finite_iff.
(** When nothing of a star of degree at least 1 is hidden (contacts and bodies behind it included), the flux of the star and its gradient
    are those of the star alone, whatever the number of bodies. *)
Theorem C98_unhidden : forall as_euler eps low high A2 au kep, zyz_euler as_euler -> 0 < eps -> exact_solver kep -> forall sys d t td ds, fin_system d sys -> fin td t -> proper_system sys -> wf_ylm (s_y (ss_surface sys)) -> surf_ydeg (ss_surface sys) <> 0%nat ->
  nothing_hidden au kep sys t -> starry_light_curve_d as_euler eps low high A2 au kep d td = Ok ds ->
  exists c bs, ds = c :: bs /\ bare_light_curve_d as_euler (rs_map (sy_surface d)) (rotational_phase_d (sy_surface d) td) = Ok c.
Proof. exact flux_free. Qed.
Print Assumptions C98_unhidden.
(** When the body of a system of one is aligned with the centre of the star, in front or behind, the flux of the star has no gradient. *)
Theorem C98_finite_refuted : forall as_euler eps low high A2 au kep sys d t td o, zyz_euler as_euler -> exact_solver kep -> fin_system d sys -> fin td t -> proper_system sys -> wf_ylm (s_y (ss_surface sys)) ->
  ss_bodies sys = [o] -> ss_surfaces sys = [None] -> ob_radius o <> None -> sky_sep (relative_position au kep o t None) = 0 ->
  starry_light_curve_d as_euler eps low high A2 au kep d td = Ok [None; cst 0].
Proof. exact system_aligned. Qed.
Print Assumptions C98_finite_refuted.

(** a spotted star and a transiting planet on an eccentric orbit, differentiated in the impact parameter *)
Definition ex_system (o : orbital) : ssystem := {| ss_central := sample_central; ss_surface := spotty; ss_bodies := [o]; ss_surfaces := [None] |}.
Definition ex_system_d (od : orbital_d) : ssystem_d :=
  {| sy_radius := cst 1; sy_surface := {| rs_map := {| sd_ydeg := 1; sd_y := map cst (ylm_todense (s_y spotty)); sd_inc := None; sd_obl := None; sd_u := []; sd_amplitude := cst 1 |}; rs_period := None; rs_phase := cst 0; rs_radius := cst 1 |};
     sy_bodies := [(od, None)] |}.
Lemma ex_system_fin o od : fin_orbital od o -> fin_system (ex_system_d od) (ex_system o).
Proof.
  intros H. split; [apply fin_cst|]. split.
  - split; [|split; [exact I|split; apply fin_cst]]. split; [reflexivity|]. split; [reflexivity|]. split; [reflexivity|]. split; [exact (FL_cst (ylm_todense (s_y spotty)))|]. split; [constructor|apply fin_cst].
  - split; [reflexivity|]. constructor; [|constructor]. split; [exact H|exact I].
Qed.
Lemma ex_system_tracks o od s : tracks_orbital o s od -> locally s (fun z => 0 <= ecc_val (o z) < 1) -> tracks_system (fun z => ex_system (o z)) s (ex_system_d od).
Proof.
  intros H He. split; [apply tracks_cst|]. split.
  - split; [|split; [intros z; reflexivity|split; apply tracks_cst]]. split; [intros z; repeat split|]. split; [exact (TL_cst s (ylm_todense (s_y spotty)))|]. split; [exact (TL_cst s nil)|apply tracks_cst].
  - exists [(o, None)]. split; [intros z; split; reflexivity|]. constructor; [|constructor]. split; [exact H|]. split; [exact He|exact I].
Qed.
Lemma ex_system_proper o : proper_orbit o -> proper_system (ex_system o).
Proof.
  intros H. split; [cbn; lra|]. split; [split; [cbn [ex_system ss_surface spotty s_u]; rewrite SystemExamples.ld_flux_nil; pose proof PI_RGT_0; lra|discriminate]|].
  split; [intros o' [<-|[]]; exact H|intros s' [E|[]]; discriminate].
Qed.
(** an orbit of this family: its separation at the time of transit is the impact parameter *)
Lemma ex_orbit ip o : 0 <= ip <= 2 -> make_orbital 2945 sample_central (ex_family ip) = Ok o ->
  proper_orbit o /\ ob_radius o = Some 0.1 /\ sky_sep (relative_position 215 exact_kepler o 2 None) = ip /\ 0 < along (relative_position 215 exact_kepler o 2 None) /\
  Rabs (ob_cos_incl o) < 1 /\ (forall e sw cw, ob_ecc o = Some (e, sw, cw) -> sw <> -1).
Proof.
  intros Hip E. assert (H1 : 0 < sin 1) by (apply sin_gt_0; [lra|]; pose proof PI2_1; lra). pose proof (SIN_bound 1) as H2.
  assert (Hc : Rabs (ob_cos_incl o) < 1 /\ 0 < ob_sin_incl o /\ ob_parallax o = None /\ ob_impact o = ip /\ ob_time_transit o = 2 /\ ob_radius o = Some 0.1 /\ ob_ecc o = Some (0.3, sin 1, cos 1) /\ (forall e sw cw, ob_ecc o = Some (e, sw, cw) -> sw <> -1)).
  { injection E as <-. cbn -[pow]. set (q := (1 + 0.3 * sin 1) / (1 - 0.3 * (0.3 * 1)) * 1 / 10 * ip).
    assert (Q0 : 0 <= (1 + 0.3 * sin 1) / (1 - 0.3 * (0.3 * 1)) * 1 / 10 <= 1/4) by (cbn; lra).
    assert (Q : 0 <= q <= 1/2) by (unfold q; split; [apply Rmult_le_pos; [exact (proj1 Q0)|apply Hip]|]; apply Rle_trans with (1/4 * 2); [apply Rmult_le_compat; [exact (proj1 Q0)|apply Hip|exact (proj2 Q0)|apply Hip]|lra]).
    split; [apply Rabs_def1; lra|]. split; [apply sqrt_lt_R0; nra|]. repeat (split; [reflexivity|]). intros e sw cw Ee. injection Ee as <- <- <-. lra. }
  destruct Hc as (C1 & C2 & C3 & C4 & C5 & C6 & C7 & C8).
  assert (Hok : orbit_ok o) by (apply (make_wf 2945 sample_central (ex_family ip) o ltac:(lra) E sample_physical); intros _; exact C1).
  destruct (KeplerianMore.at_transit 2945 215 exact_kepler sample_central (ex_family ip) o exact_kepler_exact Hok E C3 ltac:(cbn; lra) C8 C2) as [HS HA].
  rewrite C5, C4 in HS. rewrite C5 in HA. destruct Hok as (_ & HP & HM & _). cbn [c_radius sample_central] in HS. rewrite Rabs_pos_eq, Rmult_1_r in HS by lra.
  split; [split; [lra|]; split; [lra|]; split; [unfold ecc_val; rewrite C7; lra|rewrite C6; intros H; injection H; lra]|]. now repeat (split; [assumption|]).
Qed.
Lemma away x y : sqrt (x ^ 2 + y ^ 2) = 0.3 -> ~ (x = 0 /\ y = 0).
Proof. intros HS [-> ->]. replace (0 ^ 2 + 0 ^ 2) with 0 in HS by ring. rewrite sqrt_0 in HS. lra. Qed.
Example C98_sat : exists o od, (forall z, make_orbital 2945 sample_central (ex_family z) = Ok (o z)) /\ tracks_system (fun z => ex_system (o z)) 0.3 (ex_system_d od) /\ tracks (fun _ => 2) 0.3 (cst 2) /\
  fin_system (ex_system_d od) (ex_system (o 0.3)) /\ proper_system (ex_system (o 0.3)) /\ no_alignment 215 exact_kepler (ex_system (o 0.3)) 2 /\
  regular_system 215 (/ 1000000) [(0, 2)] exact_kepler (ex_system (o 0.3)) 2 /\ exact_solver exact_kepler.
Proof.
  assert (EO : exists o, forall z, make_orbital 2945 sample_central (ex_family z) = Ok (o z)) by (eexists (fun z => _); intros z; reflexivity). destruct EO as (o & EO).
  destruct (ex_orbit 0.3 (o 0.3) ltac:(lra) (EO 0.3)) as (P & Er & HS & HA & C1 & C2).
  assert (Tc : tracks (fun _ : R => c_mass sample_central) 0.3 (cst 1)) by exact (tracks_cst 1 0.3). assert (Tr : tracks (fun _ : R => c_radius sample_central) 0.3 (cst 1)) by exact (tracks_cst 1 0.3).
  destruct (C94_constructor_derivative 2945 (fun _ => sample_central) ex_family o 0.3 (cst 1) (cst 1) (ex_family_d 0.3) ltac:(lra) Tc Tr (ex_family_tracks 0.3) EO) as (od & Eod & Tod); [exact sample_physical|exact C2|intros _; exact C1|].
  destruct (C94_constructor_finite 2945 sample_central (ex_family 0.3) (o 0.3) (cst 1) (cst 1) (ex_family_d 0.3) ltac:(lra) (fin_cst 1) (fin_cst 1) (ex_family_fin 0.3) (EO 0.3)) as (od' & Eod' & Fod); [exact sample_physical|exact C2|intros _; exact C1|].
  assert (od' = od) as -> by congruence. exists o, od. split; [exact EO|]. split; [apply ex_system_tracks; [exact Tod|]|].
  { apply filter_forall. intros z. pose proof (EO z) as E. injection E as E. unfold ecc_val. rewrite <- E. cbn. lra. }
  split; [apply tracks_cst|]. split; [now apply ex_system_fin|]. split; [now apply ex_system_proper|].
  split; [|split; [|exact exact_kepler_exact]].
  - split; [exact I|]. intros o' own [H|[]] r Er'. injection H as <- <-. cbv zeta. cbn [ex_system ss_central c_radius sample_central].
    destruct (relative_position 215 exact_kepler (o 0.3) 2 None) as [[x y] z]. cbn [sky_sep] in HS. split; [|discriminate]. replace (x / 1) with x by field. replace (y / 1) with y by field. now apply away.
  - split; [exact I|]. intros o' own [H|[]] r Er'. injection H as <- <-. rewrite Er in Er'. injection Er' as <-. cbv zeta. cbn [ex_system ss_central ss_surface c_radius sample_central].
    destruct (relative_position 215 exact_kepler (o 0.3) 2 None) as [[x y] z]. cbn [sky_sep along] in HS, HA. split; [|discriminate]. unfold regular_sight. replace (0.1 / 1) with 0.1 by field. replace (x / 1) with x by field. replace (y / 1) with y by field. replace (z / 1) with z by field. split; [now apply away|]. cbv zeta. rewrite HS.
    split; [lra|]. split; [lra|]. intros _ _. exact (proj1 C95_regular_sat).
Qed.
(** the same planet with impact parameter 0 *)
Example C98_refuted_sat : exists o, make_orbital 2945 sample_central (ex_family 0) = Ok o /\ fin_system (ex_system_d (const_orbital_d o)) (ex_system o) /\ proper_system (ex_system o) /\
  wf_ylm (s_y (ss_surface (ex_system o))) /\ ob_radius o <> None /\ sky_sep (relative_position 215 exact_kepler o 2 None) = 0 /\ zyz_euler rotvec_zyz.
Proof.
  destruct (make_orbital 2945 sample_central (ex_family 0)) as [o|] eqn:E; [|discriminate]. exists o. destruct (ex_orbit 0 o ltac:(lra) E) as (P & Er & HS & _).
  split; [reflexivity|]. split; [apply ex_system_fin, const_fin_orbital|]. split; [now apply ex_system_proper|]. split; [exact spotty_wf|]. split; [rewrite Er; discriminate|]. split; [exact HS|exact rotvec_zyz_ok].
Qed.
(** a uniform star with that planet and one that passes beside it: the light curve exists, the first one is in line, the other one is not *)
Example C98_iff_sat : exists star o1 o2, let sys := {| ss_central := sample_central; ss_surface := star; ss_bodies := [o1; o2]; ss_surfaces := [None; Some star] |} in
  (exists d, fin_system d sys) /\ proper_system sys /\ surfaces_all (fun s => wf_ylm (s_y s)) sys /\ ss_bodies sys <> [] /\ in_line 215 exact_kepler 2 o1 /\ ~ in_line 215 exact_kepler 2 o2 /\
  forall eps low high A2, exists v, starry_light_curve rotvec_zyz eps low high A2 215 exact_kepler sys 2 = Ok v.
Proof.
  destruct (make_orbital 2945 sample_central (ex_family 0)) as [o1|] eqn:E1; [|discriminate]. destruct (ex_orbit 0 o1 ltac:(lra) E1) as (P1 & Er1 & HS1 & _).
  destruct (make_orbital 2945 sample_central (ex_family 1)) as [o2|] eqn:E2; [|discriminate]. destruct (ex_orbit 1 o2 ltac:(lra) E2) as (P2 & Er2 & HS2 & _).
  destruct SystemExamples.flat_ylm as (v & _ & Wv & _ & Dv).
  set (star := {| s_y := v; s_inc := None; s_obl := None; s_u := []; s_period := None; s_amplitude := 1; s_normalize := false; s_phase := 0; s_radius := 1; s_shear := None |}).
  set (star_d := {| rs_map := {| sd_ydeg := surf_ydeg star; sd_y := map cst (ylm_todense v); sd_inc := None; sd_obl := None; sd_u := []; sd_amplitude := cst 1 |}; rs_period := None; rs_phase := cst 0; rs_radius := cst 1 |}).
  assert (Fs : fin_rsurface star_d star).
  { split; [|split; [exact I|split; apply fin_cst]]. split; [reflexivity|]. split; [reflexivity|]. split; [reflexivity|]. split; [exact (FL_cst (ylm_todense v))|]. split; [constructor|apply fin_cst]. }
  assert (Ps : proper_surface star) by (split; [cbn [star s_u]; rewrite SystemExamples.ld_flux_nil; pose proof PI_RGT_0; lra|discriminate]).
  exists star, o1, o2. cbv zeta. split.
  { exists {| sy_radius := cst 1; sy_surface := star_d; sy_bodies := [(const_orbital_d o1, None); (const_orbital_d o2, Some star_d)] |}. split; [apply fin_cst|]. split; [exact Fs|]. split; [reflexivity|].
    constructor; [split; [apply const_fin_orbital|exact I]|]. constructor; [split; [apply const_fin_orbital|exact Fs]|constructor]. }
  split. { split; [cbn; lra|]. split; [exact Ps|]. split; [intros o [<-|[<-|[]]]; assumption|intros s [H|[H|[]]]; [discriminate|injection H as <-; exact Ps]]. }
  split. { split; [exact Wv|]. intros s [H|[H|[]]]; [discriminate|injection H as <-; exact Wv]. }
  split; [discriminate|]. split; [exact HS1|]. split; [unfold in_line; rewrite HS2; lra|]. intros eps low high A2.
  assert (T : forall r x y z theta, exists w, surface_light_curve rotvec_zyz eps low high A2 star r x y z theta = Ok w).
  { intros [r|] x y z theta; [|eexists; exact (StarryProof.light_curve_no_occultor rotvec_zyz rotvec_zyz_ok star Wv eps low high A2 x y z theta)]; unfold surface_light_curve; change (surf_ydeg star) with (Z.to_nat (y_deg v)); rewrite Dv; cbn [Nat.eqb]; eexists; reflexivity. }
  unfold starry_light_curve, system_observable. cbn [ss_surface ss_bodies ss_surfaces combine Stack.mapM length Nat.ltb Nat.leb]. destruct (T None None None None (rotational_phase star 2)) as (w & ->). cbn [rbind].
  unfold central_obs, body_obs, body_radius. cbn [ss_surface]. rewrite Er1, Er2. destruct (relative_position 215 exact_kepler o1 2 None) as [[x1 y1] z1], (relative_position 215 exact_kepler o2 2 None) as [[x2 y2] z2]. cbn [rbind].
  repeat match goal with |- context [surface_light_curve ?a ?e ?l ?h ?A star ?r ?x ?y ?z ?th] => destruct (T r x y z th) as (? & ->); cbn [rbind] end. eexists. reflexivity.
Qed.
(** the spotted star and the planet that passes beside it *)
Lemma beside_hides_nothing star o : ob_radius o = Some 0.1 -> sky_sep (relative_position 215 exact_kepler o 2 None) = 1.5 -> nothing_hidden 215 exact_kepler {| ss_central := sample_central; ss_surface := star; ss_bodies := [o]; ss_surfaces := [None] |} 2.
Proof.
  intros Er HS o' r [<-|[]] Er'. rewrite Er in Er'. injection Er' as <-. cbv zeta. cbn [ss_central c_radius sample_central]. destruct (relative_position 215 exact_kepler o 2 None) as [[x y] z]. cbn [sky_sep] in HS. split.
  - intros [-> ->]. replace (0 ^ 2 + 0 ^ 2) with 0 in HS by ring. rewrite sqrt_0 in HS. lra.
  - left. replace (0.1 / 1) with 0.1 by field. replace (x / 1) with x by field. replace (y / 1) with y by field. rewrite HS. lra.
Qed.
Example C98_unhidden_sat : exists o, fin_system (ex_system_d (const_orbital_d o)) (ex_system o) /\ proper_system (ex_system o) /\ wf_ylm (s_y (ss_surface (ex_system o))) /\ surf_ydeg (ss_surface (ex_system o)) <> 0%nat /\
  nothing_hidden 215 exact_kepler (ex_system o) 2 /\ forall eps low high A2, 0 < eps -> exists ds, starry_light_curve_d rotvec_zyz eps low high A2 215 exact_kepler (ex_system_d (const_orbital_d o)) (cst 2) = Ok ds.
Proof.
  destruct (make_orbital 2945 sample_central (ex_family 1.5)) as [o|] eqn:E; [|discriminate]. exists o. destruct (ex_orbit 1.5 o ltac:(lra) E) as (P & Er & HS & _).
  pose proof (ex_system_fin o _ (const_fin_orbital o)) as F. pose proof (ex_system_proper o P) as Hp. pose proof (beside_hides_nothing spotty o Er HS) as Hn.
  split; [exact F|]. split; [exact Hp|]. split; [exact spotty_wf|]. split; [discriminate|]. split; [exact Hn|]. intros eps low high A2 He.
  assert (Ha : no_alignment 215 exact_kepler (ex_system o) 2).
  { split; [exact I|]. intros o' own [K|[]] r Er'. injection K as <- <-. pose proof (Hn o r (or_introl eq_refl) Er') as K. cbv zeta in *. destruct (relative_position 215 exact_kepler o 2 None) as [[x y] z]. destruct K as (K & _). split; [|discriminate].
    cbn [ex_system ss_central c_radius sample_central]. replace (x / 1) with x by field. replace (y / 1) with y by field. exact K. }
  pose proof (C98_finite rotvec_zyz eps low high A2 215 exact_kepler He exact_kepler_exact _ _ _ _ F (fin_cst 2) Hp Ha) as G. unfold fin_results in G. destruct (starry_light_curve _ _ _ _ _ _ _ _ _) as [v|e] eqn:Ev; [destruct G as (ds & G & _); now exists ds|]. exfalso.
  unfold starry_light_curve, system_observable in Ev. cbn [ex_system ss_surface ss_bodies ss_surfaces combine Stack.mapM length Nat.ltb Nat.leb] in Ev. rewrite (StarryProof.light_curve_no_occultor rotvec_zyz rotvec_zyz_ok spotty spotty_wf) in Ev. cbn [rbind] in Ev.
  unfold central_obs, body_obs, body_radius in Ev. cbn [ss_surface] in Ev. rewrite Er in Ev. pose proof (Hn o 0.1 (or_introl eq_refl) Er) as K. cbv zeta in K. destruct (relative_position 215 exact_kepler o 2 None) as [[x y] z]. destruct K as (_ & K). cbn [rbind] in Ev.
  cbn [ex_system ss_central ss_surface] in *. rewrite (StarryProof.light_curve_not_occ rotvec_zyz rotvec_zyz_ok spotty spotty_wf) in Ev; [discriminate|discriminate|exact K].
Qed.
