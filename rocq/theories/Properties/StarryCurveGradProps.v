(** C96: gradients of light curves of spherical-harmonic maps obtained by automatic differentiation. *)
From Coq Require Import Reals List Lra Lia.
From Coquelicot Require Import Hierarchy Derive AutoDerive.
From Verif Require Import Base.RealAux Model.LimbDark Model.Poly Model.Solution Model.SolutionVector Model.Ylm Model.RvMap Model.Surface Model.StarryLightCurve Model.AutoDiff Model.LightCurveGrad Model.TransitGrad Model.StarryGrad.
From Verif Require Import Spec.LimbDarkSpec Spec.OccultSpec Spec.RotationSpec Spec.SurfaceSpec Spec.YlmSpec Spec.AutoDiffSpec Spec.StarryGradSpec.
From Verif Require Import Proof.AutoDiff Proof.Euler Proof.StarryGrad Proof.StarryGradFlux Proof.StarryGradDesign Proof.StarryGradPoly Proof.StarryGradCurve Proof.StarryGradFree Proof.StarryGradShape Proof.ShadowExamples Properties.StarryGradProps.
From Verif Require Proof.SystemExamples.
Import ListNotations.
Local Open Scope R_scope.

(** Without an occultor: differentiating with respect to the coefficients of the map, the limb darkening, the amplitude and the
    rotation phase does not change the result (an error stays the same error), and the tangent is finite at every point. *)
Theorem C96_bare_finite : forall as_euler eps low high A2 sf sd theta td, fin_surface sd sf -> fin_opt td theta -> ld_flux (s_u sf) <> 0 ->
  fin_result (bare_light_curve_d as_euler sd td) (surface_light_curve as_euler eps low high A2 sf None None None None theta).
Proof. exact bare_fin. Qed.
Print Assumptions C96_bare_finite.
(** It is the derivative along every differentiable path of surfaces and phases, at every point. *)
Theorem C96_bare_derivative : forall as_euler eps low high A2 s sf sd theta td, tracks_surface sf s sd -> tracks_opt theta s td -> ld_flux (s_u (sf s)) <> 0 ->
  tracks_result (fun w => surface_light_curve as_euler eps low high A2 (sf w) None None None None (theta w)) s (bare_light_curve_d as_euler sd td).
Proof. exact bare_tracks. Qed.
Print Assumptions C96_bare_derivative.
(** With an occultor (map of degree at least 1), in front of the star, behind it or beside it, contacts included: the result does not
    change and the tangent is finite, unless the centres are exactly aligned; *)
Theorem C96_occulted_finite : forall as_euler eps low high A2, 0 < eps -> forall sf sd theta td, fin_surface sd sf -> fin_opt td theta -> ld_flux (s_u sf) <> 0 ->
  forall R' X Y Z r x y z, sd_ydeg sd <> 0%nat -> fin R' r -> fin X x -> fin Y y -> fin Z z -> ~ (x = 0 /\ y = 0) ->
  fin_result (occulted_light_curve_d as_euler eps low high A2 sd R' X Y Z td) (surface_light_curve as_euler eps low high A2 sf (Some r) (Some x) (Some y) (Some z) theta).
Proof. exact occulted_fin. Qed.
Print Assumptions C96_occulted_finite.
(** in that case there is a result but no gradient (with respect to anything), even when the body is behind the star. *)
Theorem C96_occulted_finite_refuted : forall as_euler eps low high A2 sf sd R' X Y Z td, wf_ylm (s_y sf) -> fin_surface sd sf -> sd_ydeg sd <> 0%nat -> fin X 0 -> fin Y 0 ->
  occulted_light_curve_d as_euler eps low high A2 sd R' X Y Z td = Ok None.
Proof. exact aligned_none. Qed.
Print Assumptions C96_occulted_finite_refuted.
(** When nothing is hidden (contacts included) the gradient is that of the same surface without occultor: zero with respect to the
    position and the radius of the body. *)
Theorem C96_unhidden : forall as_euler, zyz_euler as_euler -> forall eps low high A2, 0 < eps -> forall sf sd theta td, wf_ylm (s_y sf) -> fin_surface sd sf -> fin_opt td theta -> ld_flux (s_u sf) <> 0 ->
  forall R' X Y Z r x y z, sd_ydeg sd <> 0%nat -> fin R' r -> fin X x -> fin Y y -> fin Z z -> ~ (x = 0 /\ y = 0) -> 1 + r <= sqrt (x ^ 2 + y ^ 2) \/ z <= 0 ->
  occulted_light_curve_d as_euler eps low high A2 sd R' X Y Z td = bare_light_curve_d as_euler sd td.
Proof. exact occulted_free. Qed.
Print Assumptions C96_unhidden.
(** Away from the limb, from contacts and from the thresholds of the guards the tangent is the derivative along every
    differentiable path of surfaces, phases, positions and radii. *)
Theorem C96_occulted_derivative : forall as_euler eps low high A2, 0 < eps -> forall s sf sd theta td, tracks_surface sf s sd -> tracks_opt theta s td -> ld_flux (s_u (sf s)) <> 0 ->
  forall r x y z R' X Y Z, sd_ydeg sd <> 0%nat -> tracks r s R' -> tracks x s X -> tracks y s Y -> tracks z s Z -> ~ (x s = 0 /\ y s = 0) ->
  sqrt (x s ^ 2 + y s ^ 2) <> 1 + r s -> z s <> 0 -> (sqrt (x s ^ 2 + y s ^ 2) < 1 + r s -> 0 < z s -> starry_regular_point eps high (sqrt (x s ^ 2 + y s ^ 2)) (r s)) ->
  tracks_result (fun w => surface_light_curve as_euler eps low high A2 (sf w) (Some (r w)) (Some (x w)) (Some (y w)) (Some (z w)) (theta w)) s
    (occulted_light_curve_d as_euler eps low high A2 sd R' X Y Z td).
Proof. exact occulted_tracks. Qed.
Print Assumptions C96_occulted_derivative.

(** a map of degree 1 with a bright side, differentiated with respect to its amplitude and the phase of its rotation; the
    occultor moves in x over the point of [C95_position_sat] *)
Definition C96_surface (w : R) : surface :=
  {| s_y := s_y spotty; s_inc := None; s_obl := None; s_u := []; s_period := None; s_amplitude := 1 + w; s_normalize := false; s_phase := 0; s_radius := 1; s_shear := None |}.
Definition C96_traced : surface_d :=
  {| sd_ydeg := 1; sd_y := map cst (ylm_todense (s_y spotty)); sd_inc := None; sd_obl := None; sd_u := []; sd_amplitude := Some (1, 1) |}.
Example C96_sat : tracks_surface C96_surface 0 C96_traced /\ tracks_opt (fun w => Some w) 0 (Some (Some (0, 1))) /\ fin_surface C96_traced (C96_surface 0) /\ fin_opt (Some (Some (0, 1))) (Some 0) /\
  ld_flux (s_u (C96_surface 0)) <> 0 /\ wf_ylm (s_y (C96_surface 0)) /\ zyz_euler rotvec_zyz /\ sd_ydeg C96_traced <> 0%nat /\
  tracks (fun w => 0.3 + w) 0 (Some (0.3, 1)) /\ fin (Some (0.3, 1)) 0.3.
Proof.
  assert (Ta : forall a, tracks (fun w => a + w) 0 (Some (a, 1))) by (intros a; exists 1; split; [do 2 f_equal; ring|]; auto_derive; [exact I|ring]).
  assert (Tt : tracks (fun w => w) 0 (Some (0, 1))) by (exists 1; split; [reflexivity|]; auto_derive; [exact I|ring]).
  split.
  { split; [intros z; repeat split|]. split; [exact (TL_cst 0 (ylm_todense (s_y spotty)))|]. split; [exact (TL_cst 0 nil)|]. exact (Ta 1). }
  split; [exists (fun w => w); split; [reflexivity|exact Tt]|]. split.
  { split; [reflexivity|]. split; [reflexivity|]. split; [reflexivity|]. split; [exact (FL_cst (ylm_todense (s_y spotty)))|]. split; [constructor|]. exists 1. cbn [C96_traced C96_surface sd_amplitude s_amplitude]. do 2 f_equal. ring. }
  split; [exists 1; reflexivity|]. split; [cbn [C96_surface s_u]; rewrite SystemExamples.ld_flux_nil; pose proof PI_RGT_0; lra|].
  split; [exact spotty_wf|]. split; [exact rotvec_zyz_ok|]. split; [discriminate|]. split; [exact (Ta 0.3)|now exists 1].
Qed.
