(** C93: gradients of transit light curves (light_curves/limb_dark.py with a TransitOrbit) obtained by automatic differentiation. *)
From Coq Require Import Reals List ZArith Lra.
From Coquelicot Require Import Hierarchy Derive.
From Verif Require Import Base.RealAux Model.LimbDark Model.LightCurves Model.TransitOrbit Model.AutoDiff Model.LightCurveGrad Model.TransitGrad.
From Verif Require Import Spec.LimbDarkSpec Spec.OccultSpec Spec.AutoDiffSpec Spec.TransitSpec Spec.TransitGradSpec.
From Verif Require Import Proof.LightCurveGrad Proof.LightCurveTangent Proof.LightCurveGradFacts Proof.TransitGrad.
Import ListNotations.
Local Open Scope R_scope.

(** Finite whenever the body is not exactly at the centre of the disk (nor behind the centre of the star) and has a size. *)
Theorem C93_gradients_finite : forall eps quad d o us u td t, 0 < eps -> List.Forall2 fin us u -> disk_flux u <> 0 ->
  fin_orbit d o -> fin td t -> to_period o <> 0 -> ~ (to_speed o * to_dt o t = 0 /\ to_impact o = 0) -> to_ror o <> 0 ->
  fin (transit_light_curve_d eps quad (to_lc_orbit_d d) us td) (transit_light_curve eps quad (to_lc_orbit o) u t).
Proof. exact to_finite. Qed.
Print Assumptions C93_gradients_finite.
(** For an impact parameter of 0 -- its default -- every gradient is undefined in the middle of every transit. *)
Theorem C93_gradients_finite_refuted : forall eps quad d o us td k, fin_orbit d o -> fin td (to_time_transit o + IZR k * to_period o) ->
  0 < to_period o -> to_impact o = 0 -> transit_light_curve_d eps quad (to_lc_orbit_d d) us td = None.
Proof. exact mid_undefined. Qed.
Print Assumptions C93_gradients_finite_refuted.
Example C93_refuted_sat : exists o, make_transit_orbit 10 (Some 0.4) None None None (Some 0.1) = Ok o /\ grad_time (/ 1000000) [(0, 2)] o [0.3] 20 = None.
Proof.
  eexists. split; [reflexivity|]. unfold grad_time.
  rewrite (mid_undefined _ _ _ _ _ _ 2 (const_fin _)); [reflexivity|exists 1; cbn; do 2 f_equal; lra|cbn; lra|reflexivity].
Qed.
(** The constructor: finite when the body transits, that is |impact parameter| < |1 + radius ratio|; *)
Theorem C93_constructor_finite : forall p du ti im ro per dur tt imp ror o, fin p per -> fin du dur -> fin ti tt -> fin im imp -> fin ro ror ->
  dur <> 0 -> Rabs imp < Rabs (1 + ror) ->
  (make_transit_orbit per (Some dur) None (Some tt) (Some imp) (Some ror) = Ok o -> fin_orbit (orbit_from_duration_d p du ti im ro) o) /\
  (make_transit_orbit per None (Some dur) (Some tt) (Some imp) (Some ror) = Ok o -> fin_orbit (orbit_from_speed_d p du ti im ro) o).
Proof. intros. split; [now apply orbit_from_duration_fin|now apply orbit_from_speed_fin]. Qed.
Print Assumptions C93_constructor_finite.
(** otherwise, at any time (in transit or not), the light curve of an orbit given by its duration has no gradient. *)
Theorem C93_constructor_finite_refuted : forall eps quad us td p du ti im ro imp ror, fin im imp -> fin ro ror -> Rabs (1 + ror) <= Rabs imp ->
  transit_light_curve_d eps quad (to_lc_orbit_d (orbit_from_duration_d p du ti im ro)) us td = None.
Proof. exact from_duration_undefined. Qed.
Print Assumptions C93_constructor_finite_refuted.
Example C93_constructor_sat : Rabs 0.3 < Rabs (1 + 0.1) /\ Rabs (1 + 0.1) <= Rabs 1.2 /\ make_transit_orbit 10 (Some 0.4) None (Some 1) (Some 0.3) (Some 0.1) = Ok ex_orbit.
Proof. rewrite !Rabs_pos_eq by lra. split; [lra|]. split; [lra|]. reflexivity. Qed.

(** Away from the edges of the window |dt| < duration / 2, from half a period and from the exceptional points of C92, along any
    differentiable path of orbits, coefficients and times the tangent is the derivative of the light curve. *)
Theorem C93_tangent_is_derivative : forall eps quad us xs o tf s d td, 0 < eps -> List.Forall2 (fun f x => tracks f s x) us xs -> disk_flux (map (fun f => f s) us) <> 0 ->
  tracks_orbit o s d -> tracks tf s td -> to_period (o s) <> 0 -> (forall k, tf s <> to_time_transit (o s) + (IZR k - 0.5) * to_period (o s)) ->
  Rabs (to_dt (o s) (tf s)) <> 0.5 * to_duration (o s) -> 0 < separation (to_relative_position (o s) (tf s)) ->
  (Rabs (to_dt (o s) (tf s)) < 0.5 * to_duration (o s) -> regular_point eps quad (separation (to_relative_position (o s) (tf s))) (to_ror (o s))) ->
  (0.5 * to_duration (o s) < Rabs (to_dt (o s) (tf s)) -> ~ (separation (to_relative_position (o s) (tf s)) = 1 /\ to_ror (o s) = 0)) ->
  tracks (fun w => transit_light_curve eps quad (to_lc_orbit (o w)) (map (fun f => f w) us) (tf w)) s (transit_light_curve_d eps quad (to_lc_orbit_d d) xs td).
Proof. exact to_tracks. Qed.
Print Assumptions C93_tangent_is_derivative.
(** Such a path is that of the arguments of the constructor. *)
Theorem C93_constructor_derivative : forall per dur tt imp ror s p du ti im ro o, tracks per s p -> tracks dur s du -> tracks tt s ti -> tracks imp s im -> tracks ror s ro ->
  dur s <> 0 -> Rabs (imp s) < Rabs (1 + ror s) ->
  ((forall w, make_transit_orbit (per w) (Some (dur w)) None (Some (tt w)) (Some (imp w)) (Some (ror w)) = Ok (o w)) -> tracks_orbit o s (orbit_from_duration_d p du ti im ro)) /\
  ((forall w, make_transit_orbit (per w) None (Some (dur w)) (Some (tt w)) (Some (imp w)) (Some (ror w)) = Ok (o w)) -> tracks_orbit o s (orbit_from_speed_d p du ti im ro)).
Proof. intros. split; intros E; [now apply (from_duration_tracks per dur tt imp ror)|now apply (from_speed_tracks per dur tt imp ror)]. Qed.
Print Assumptions C93_constructor_derivative.
(** In particular jax.grad with respect to the time gives the slope of the light curve. *)
Theorem C93_time_gradient : forall eps quad u o t, 0 < eps -> disk_flux u <> 0 -> to_period o <> 0 -> (forall k, t <> to_time_transit o + (IZR k - 0.5) * to_period o) ->
  Rabs (to_dt o t) <> 0.5 * to_duration o -> 0 < separation (to_relative_position o t) ->
  (Rabs (to_dt o t) < 0.5 * to_duration o -> regular_point eps quad (separation (to_relative_position o t)) (to_ror o)) ->
  (0.5 * to_duration o < Rabs (to_dt o t) -> ~ (separation (to_relative_position o t) = 1 /\ to_ror o = 0)) ->
  exists g, grad_time eps quad o u t = Some g /\ is_derive (fun w => transit_light_curve eps quad (to_lc_orbit o) u w) t g.
Proof. exact time_gradient. Qed.
Print Assumptions C93_time_gradient.
Example C93_regular_sat : 0 < to_period ex_orbit /\ (forall k, 1 <> to_time_transit ex_orbit + (IZR k - 0.5) * to_period ex_orbit) /\ Rabs (to_dt ex_orbit 1) < 0.5 * to_duration ex_orbit /\
  0 < separation (to_relative_position ex_orbit 1) /\ regular_point (/ 1000000) [(0, 2)] (separation (to_relative_position ex_orbit 1)) (to_ror ex_orbit).
Proof. exact ex_regular. Qed.
(** Outside of the window the gradient is exactly zero in every direction. *)
Theorem C93_zero_outside_transit : forall eps quad d o us u td t, 0 < eps -> List.Forall2 fin us u -> disk_flux u <> 0 -> fin_orbit d o -> fin td t -> to_period o <> 0 ->
  ~ (to_speed o * to_dt o t = 0 /\ to_impact o = 0) -> to_ror o <> 0 -> 0.5 * to_duration o <= Rabs (to_dt o t) ->
  transit_light_curve_d eps quad (to_lc_orbit_d d) us td = Some (0, 0).
Proof. exact to_zero. Qed.
Print Assumptions C93_zero_outside_transit.
