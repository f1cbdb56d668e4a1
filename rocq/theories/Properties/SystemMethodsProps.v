(** C91: the methods of System and the light curve of a System are those of its bodies, row by row *)
From Coq Require Import Reals ZArith List Bool Arith Lia Lra.
From Verif Require Import Base.RealAux Model.Keplerian Model.LimbDark Model.LightCurves Model.Stack Model.SystemMethods Spec.StackSpec Spec.SystemMethodsSpec Spec.TransitSpec Proof.SystemMethods.
From Verif Require Properties.StackProps Properties.KeplerianProps.
Import ListNotations.
Local Open Scope R_scope.

(** Times: a number or array of any shape, or a Quantity in days ([get_time]).  Row i of the answer is body i, whether
    the bodies could be stacked or had to be looped over. *)
Theorem C91_relative_position : forall au kep s t ts u b, sys_bodies s <> [] -> get_time t = Some ts ->
  uniformly has_parallax b (sys_bodies s) -> u = (if b then u_arcsec else u_R_sun) ->
  exists out, sys_relative_position au kep s t = Ok out /\ vector_rows u (sys_bodies s) ts (fun o x => Ok (relative_position au kep o x None)) out.
Proof. intros au kep s t ts u b Hne Ht Hb ->. apply vector_ok; [exact Hne|exact Ht| |eauto]. intros o Ho. now rewrite position_unit_of, (Hb o Ho). Qed.
Print Assumptions C91_relative_position.
Theorem C91_position : forall au kep s t ts u b, sys_bodies s <> [] -> get_time t = Some ts ->
  uniformly has_parallax b (sys_bodies s) -> u = (if b then u_arcsec else u_R_sun) ->
  exists out, sys_position au kep s t = Ok out /\ vector_rows u (sys_bodies s) ts (fun o x => Ok (position au kep o x None)) out.
Proof. intros au kep s t ts u b Hne Ht Hb ->. apply vector_ok; [exact Hne|exact Ht| |eauto]. intros o Ho. now rewrite position_unit_of, (Hb o Ho). Qed.
Print Assumptions C91_position.
Theorem C91_central_position : forall au kep s t ts u b, sys_bodies s <> [] -> get_time t = Some ts ->
  uniformly has_parallax b (sys_bodies s) -> u = (if b then u_arcsec else u_R_sun) -> (forall o, In o (sys_bodies s) -> ob_mass o <> None) ->
  exists out, sys_central_position au kep s t = Ok out /\ vector_rows u (sys_bodies s) ts (fun o x => central_position au kep o x None) out.
Proof.
  intros au kep s t ts u b Hne Ht Hb -> Hm. apply vector_ok; [exact Hne|exact Ht| |].
  - intros o Ho. now rewrite position_unit_of, (Hb o Ho).
  - intros o Ho x. pose proof (Hm o Ho) as H. unfold central_position. destruct (ob_mass o); [eauto|contradiction].
Qed.
Print Assumptions C91_central_position.
Theorem C91_velocity : forall au kep s t ts u b, sys_bodies s <> [] -> get_time t = Some ts ->
  uniformly angular_velocity b (sys_bodies s) -> u = (if b then u_arcsec_per_day else u_R_sun_per_day) ->
  exists out, sys_velocity au kep s t = Ok out /\ vector_rows u (sys_bodies s) ts (fun o x => velocity au kep o x None) out.
Proof. intros au kep s t ts u b Hne Ht Hb ->. apply vector_ok; [exact Hne|exact Ht| |unfold velocity; eauto]. intros o Ho. now rewrite velocity_unit_of, (Hb o Ho). Qed.
Print Assumptions C91_velocity.
Theorem C91_central_velocity : forall au kep s t ts u b, sys_bodies s <> [] -> get_time t = Some ts ->
  uniformly angular_velocity b (sys_bodies s) -> u = (if b then u_arcsec_per_day else u_R_sun_per_day) ->
  exists out, sys_central_velocity au kep s t = Ok out /\ vector_rows u (sys_bodies s) ts (fun o x => Ok (central_velocity au kep o x None)) out.
Proof. intros au kep s t ts u b Hne Ht Hb ->. apply vector_ok; [exact Hne|exact Ht| |eauto]. intros o Ho. now rewrite velocity_unit_of, (Hb o Ho). Qed.
Print Assumptions C91_central_velocity.
Theorem C91_relative_velocity : forall au kep s t ts u b, sys_bodies s <> [] -> get_time t = Some ts ->
  uniformly angular_velocity b (sys_bodies s) -> u = (if b then u_arcsec_per_day else u_R_sun_per_day) ->
  exists out, sys_relative_velocity au kep s t = Ok out /\ vector_rows u (sys_bodies s) ts (fun o x => relative_velocity au kep o x None) out.
Proof. intros au kep s t ts u b Hne Ht Hb ->. apply vector_ok; [exact Hne|exact Ht| |unfold relative_velocity; eauto]. intros o Ho. now rewrite velocity_unit_of, (Hb o Ho). Qed.
Print Assumptions C91_relative_velocity.
Theorem C91_radial_velocity : forall au kep s t ts u b, sys_bodies s <> [] -> get_time t = Some ts ->
  uniformly angular_velocity b (sys_bodies s) -> u = (if b then u_arcsec_per_day else u_R_sun_per_day) ->
  exists out, sys_radial_velocity au kep s t = Ok out /\ scalar_rows u (sys_bodies s) ts (fun o x => radial_velocity au kep o x None) out.
Proof. intros au kep s t ts u b Hne Ht Hb ->. apply scalar_ok; [exact Hne|exact Ht|]. intros o Ho. now rewrite velocity_unit_of, (Hb o Ho). Qed.
Print Assumptions C91_radial_velocity.

(** a system in which some bodies give a parallax and others do not cannot be evaluated at all *)
Theorem C91_mixed_parallax_raises : forall au kep s t ts, get_time t = Some ts -> mixed has_parallax (sys_bodies s) ->
  sys_relative_position au kep s t = Err ValueError /\ sys_position au kep s t = Err ValueError.
Proof. intros au kep s t ts Ht Hm. split; (apply (vector_mixed s t ts Ht); [eauto|now apply mixed_positions]). Qed.
Print Assumptions C91_mixed_parallax_raises.
Theorem C91_mixed_velocity_raises : forall au kep s t ts, get_time t = Some ts -> mixed angular_velocity (sys_bodies s) ->
  sys_velocity au kep s t = Err ValueError /\ sys_central_velocity au kep s t = Err ValueError /\
  sys_relative_velocity au kep s t = Err ValueError /\ sys_radial_velocity au kep s t = Err ValueError.
Proof.
  intros au kep s t ts Ht Hm. apply mixed_velocities in Hm. split; [|split; [|split]].
  - apply (vector_mixed s t ts Ht); [unfold velocity; eauto|exact Hm].
  - apply (vector_mixed s t ts Ht); [eauto|exact Hm].
  - apply (vector_mixed s t ts Ht); [unfold relative_velocity; eauto|exact Hm].
  - apply (scalar_mixed s t ts Ht); exact Hm.
Qed.
Print Assumptions C91_mixed_velocity_raises.
(** nor can a system without bodies *)
Theorem C91_no_bodies : forall au kep s t, sys_bodies s = [] ->
  (exists e, sys_relative_position au kep s t = Err e) /\ (exists e, sys_position au kep s t = Err e) /\
  (exists e, sys_central_position au kep s t = Err e) /\ (exists e, sys_velocity au kep s t = Err e) /\
  (exists e, sys_central_velocity au kep s t = Err e) /\ (exists e, sys_relative_velocity au kep s t = Err e) /\
  (exists e, sys_radial_velocity au kep s t = Err e).
Proof. intros au kep s t E. split; [|split; [|split; [|split; [|split; [|split]]]]]; exact (no_bodies s _ t E). Qed.
Print Assumptions C91_no_bodies.
(** the position of the central is undefined for a body without a mass, so one such body makes the call raise *)
Theorem C91_missing_mass_raises : forall au kep s t ts, get_time t = Some ts -> (exists o, In o (sys_bodies s) /\ ob_mass o = None) ->
  exists e, sys_central_position au kep s t = Err e.
Proof. exact central_position_mass. Qed.
Print Assumptions C91_missing_mass_raises.

(** the radii of the system *)
Theorem C91_radii : forall s, sys_bodies s <> [] -> (forall o, In o (sys_bodies s) -> ob_radius o <> None) ->
  exists X Y, sys_radius s = Ok (Node u_R_sun [Leaf X]) /\ sys_central_radius s = Ok (Node u_R_sun [Leaf Y]) /\
    ashape X = [length (sys_bodies s)] /\ ashape Y = [length (sys_bodies s)] /\
    forall i o, nth_error (sys_bodies s) i = Some o -> ob_radius o = Some (aget X [i]) /\ aget Y [i] = c_radius (ob_central o).
Proof.
  intros s Hne Hr. destruct (radius_ok s Hne Hr) as (X & E & S & V). destruct (central_radius_ok s Hne) as (Y & E' & S' & V').
  exists X, Y. split; [exact E|]. split; [exact E'|]. split; [exact S|]. split; [exact S'|]. intros i o Hi. split; [now apply V|now apply V'].
Qed.
Print Assumptions C91_radii.

(** limb_dark_light_curve(system, u)(time): one entry per body, each the light curve of that body alone *)
Theorem C91_light_curve : forall au kep eps quad s u time, sys_bodies s <> [] ->
  (forall o, In o (sys_bodies s) -> ob_parallax o = None /\ ob_radius o <> None) ->
  exists l, system_light_curve au kep eps quad s u time = Ok l /\ length l = length (sys_bodies s) /\
    forall i o rp, nth_error (sys_bodies s) i = Some o -> ob_radius o = Some rp ->
      nth_error l i = Some (transit_light_curve eps quad (kep_lc_orbit au kep (ob_central o) o rp) u time).
Proof. exact light_ok. Qed.
Print Assumptions C91_light_curve.
(** a body with a parallax, or without a radius, makes it raise *)
Theorem C91_light_curve_raises : forall au kep eps quad s u time, sys_bodies s <> [] ->
  (exists o, In o (sys_bodies s) /\ (ob_parallax o <> None \/ ob_radius o = None)) -> exists e, system_light_curve au kep eps quad s u time = Err e.
Proof. exact light_fails. Qed.
Print Assumptions C91_light_curve_raises.

(** a stack that has to be looped over (one body is eccentric, the other is not), and one with mixed parallaxes *)
Import KeplerianProps.
Definition circular_args : body_of Keplerian.arr :=
  {| b_time_transit := Some (Sc 0); b_time_peri := None; b_period := Some (Sc 4); b_semimajor := None;
     b_inclination := None; b_impact_param := None; b_eccentricity := None;
     b_omega_peri := None; b_sin_omega_peri := None; b_cos_omega_peri := None;
     b_asc_node := None; b_sin_asc_node := None; b_cos_asc_node := None;
     b_mass := None; b_radius := Some (Sc 0.1); b_semiamplitude := None; b_parallax := None |}.
Definition eccentric_args : body_of Keplerian.arr :=
  {| b_time_transit := Some (Sc 1); b_time_peri := None; b_period := Some (Sc 9); b_semimajor := None;
     b_inclination := None; b_impact_param := Some (Sc 0.2); b_eccentricity := Some (Sc 0.3);
     b_omega_peri := Some (Sc 1); b_sin_omega_peri := None; b_cos_omega_peri := None;
     b_asc_node := None; b_sin_asc_node := None; b_cos_asc_node := None;
     b_mass := Some (Sc 0.01); b_radius := Some (Sc 0.2); b_semiamplitude := None; b_parallax := None |}.
Definition parallax_args : body_of Keplerian.arr :=
  {| b_time_transit := Some (Sc 1); b_time_peri := None; b_period := Some (Sc 9); b_semimajor := None;
     b_inclination := None; b_impact_param := None; b_eccentricity := None;
     b_omega_peri := None; b_sin_omega_peri := None; b_cos_omega_peri := None;
     b_asc_node := None; b_sin_asc_node := None; b_cos_asc_node := None;
     b_mass := None; b_radius := Some (Sc 0.2); b_semiamplitude := None; b_parallax := Some (Sc 0.05) |}.
Example C91_sat : exists s o o', make_system 2945 (Some sample_central) [ABody circular_args; ABody eccentric_args] = Ok s /\ sys_bodies s = [o; o'] /\
  uniformly has_parallax false (sys_bodies s) /\ uniformly angular_velocity false (sys_bodies s) /\
  (forall q, In q (sys_bodies s) -> ob_parallax q = None /\ ob_radius q <> None) /\ (exists q, In q (sys_bodies s) /\ ob_mass q = None) /\ structure (orbital_tree o) <> structure (orbital_tree o').
Proof.
  eexists. eexists. eexists. split; [reflexivity|]. split; [reflexivity|]. split; [|split; [|split; [|split]]].
  - intros q [<-|[<-|[]]]; reflexivity.
  - intros q [<-|[<-|[]]]; reflexivity.
  - intros q [<-|[<-|[]]]; (split; [reflexivity|discriminate]).
  - eexists. split; [left; reflexivity|reflexivity].
  - discriminate.
Qed.
Example C91_sat_mixed : exists s, make_system 2945 (Some sample_central) [ABody circular_args; ABody parallax_args] = Ok s /\
  mixed has_parallax (sys_bodies s) /\ mixed angular_velocity (sys_bodies s).
Proof.
  eexists. split; [reflexivity|]. split; (eexists; eexists; split; [left; reflexivity|split; [right; left; reflexivity|discriminate]]).
Qed.
Example C91_sat_time : get_time (Leaf (scalar 3)) = Some (scalar 3) /\ get_time (q_scalar u_day 3) = Some (scalar 3).
Proof. split; reflexivity. Qed.
