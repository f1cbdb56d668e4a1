(** C97: gradients of radial velocities of spherical-harmonic maps obtained by automatic differentiation. *)
From Coq Require Import Reals List Lra Lia.
From Coquelicot Require Import Hierarchy Derive AutoDerive.
From Verif Require Import Base.RealAux Model.LimbDark Model.Poly Model.Basis Model.Solution Model.SolutionVector Model.Rotation Model.Ylm Model.RvMap Model.Surface Model.StarryLightCurve Model.AutoDiff Model.LightCurveGrad Model.TransitGrad Model.StarryGrad Model.StarryRvGrad.
From Verif Require Import Spec.LimbDarkSpec Spec.OccultSpec Spec.RotationSpec Spec.SurfaceSpec Spec.YlmSpec Spec.AutoDiffSpec Spec.StarryGradSpec Spec.StarryRvGradSpec Spec.ShadowSpec.
From Verif Require Import Proof.AutoDiff Proof.Euler Proof.StarryGrad Proof.StarryGradFlux Proof.StarryGradDesign Proof.StarryGradPoly Proof.StarryGradCurve Proof.StarryGradFree Proof.StarryGradShape Proof.StarryRvGrad Proof.StarryRvFree Proof.ShadowExamples.
From Verif Require Proof.SystemExamples Proof.StarryProof.
Import ListNotations.
Local Open Scope R_scope.

(** Without an occultor: differentiating with respect to the coefficients of the map, the limb darkening, the amplitude, the phase,
    the period and the radius does not change the radial velocity (an error stays the same error), and the tangent is finite
    wherever the flux by which the code divides is not zero. *)
Theorem C97_bare_finite : forall as_euler eps low high A2 sf sd pd rd theta td, fin_surface sd sf -> fin_rotation sf pd rd -> fin_opt td theta -> ld_flux (s_u sf) <> 0 ->
  divides_by_nonzero (dividing_flux as_euler eps low high A2 sf None theta) ->
  fin_result (bare_rv_d as_euler sd pd rd td) (surface_radial_velocity as_euler eps low high A2 sf None None None None theta).
Proof. exact bare_rv_fin. Qed.
Print Assumptions C97_bare_finite.
(** It is the derivative along every differentiable path of surfaces and phases. *)
Theorem C97_bare_derivative : forall as_euler eps low high A2 s sf sd pd rd theta td, tracks_surface sf s sd -> tracks_rotation sf s pd rd -> tracks_opt theta s td -> ld_flux (s_u (sf s)) <> 0 ->
  divides_by_nonzero (dividing_flux as_euler eps low high A2 (sf s) None (theta s)) ->
  tracks_result (fun w => surface_radial_velocity as_euler eps low high A2 (sf w) None None None None (theta w)) s (bare_rv_d as_euler sd pd rd td).
Proof. exact bare_rv_tracks. Qed.
Print Assumptions C97_bare_derivative.
(** When nothing is hidden, the flux by which the code divides is the flux of the visible disk. *)
Theorem C97_dividing_flux : forall as_euler, zyz_euler as_euler -> forall eps low high A2 s theta g, wf_ylm (s_y s) -> (match g with None => True | Some g => og_occ g = false end) ->
  dividing_flux as_euler eps low high A2 s g theta = Ok (visible_flux (seen_intensity (y_data (s_y s)) (s_u s) (s_inc s) (s_obl s) theta)).
Proof. exact dividing_free. Qed.
Print Assumptions C97_dividing_flux.
(** With an occultor, in front of the star, behind it or beside it, contacts included: the result does not change and the tangent is
    finite, unless the centres are exactly aligned; *)
Theorem C97_occulted_finite : forall as_euler eps low high A2, 0 < eps -> forall sf sd pd rd theta td, fin_surface sd sf -> fin_rotation sf pd rd -> fin_opt td theta -> ld_flux (s_u sf) <> 0 ->
  forall R' X Y Z r x y z, fin R' r -> fin X x -> fin Y y -> fin Z z -> ~ (x = 0 /\ y = 0) ->
  divides_by_nonzero (dividing_flux as_euler eps low high A2 sf (Some (geometry r (Some x) (Some y) (Some z))) theta) ->
  fin_result (occulted_rv_d as_euler eps low high A2 sd pd rd R' X Y Z td) (surface_radial_velocity as_euler eps low high A2 sf (Some r) (Some x) (Some y) (Some z) theta).
Proof. exact occulted_rv_fin. Qed.
Print Assumptions C97_occulted_finite.
(** in that case there is a result but no gradient (with respect to anything), even when the body is behind the star. *)
Theorem C97_occulted_finite_refuted : forall as_euler eps low high A2 sf sd pd rd R' X Y Z td, wf_ylm (s_y sf) -> fin_surface sd sf -> fin_rotation sf pd rd -> s_period sf <> None -> fin X 0 -> fin Y 0 ->
  occulted_rv_d as_euler eps low high A2 sd pd rd R' X Y Z td = Ok None.
Proof. exact aligned_rv_none. Qed.
Print Assumptions C97_occulted_finite_refuted.
(** When nothing is hidden (contacts included) the gradient is that of the same surface without occultor. *)
Theorem C97_unhidden : forall as_euler, zyz_euler as_euler -> forall eps low high A2, 0 < eps -> forall sf sd pd rd theta td, wf_ylm (s_y sf) -> fin_surface sd sf -> fin_rotation sf pd rd -> fin_opt td theta -> ld_flux (s_u sf) <> 0 ->
  visible_flux (seen_intensity (y_data (s_y sf)) (s_u sf) (s_inc sf) (s_obl sf) theta) <> 0 ->
  forall R' X Y Z r x y z, fin R' r -> fin X x -> fin Y y -> fin Z z -> ~ (x = 0 /\ y = 0) -> 1 + r <= sqrt (x ^ 2 + y ^ 2) \/ z <= 0 ->
  occulted_rv_d as_euler eps low high A2 sd pd rd R' X Y Z td = bare_rv_d as_euler sd pd rd td.
Proof. exact occulted_rv_free. Qed.
Print Assumptions C97_unhidden.
(** Away from the limb, from contacts and from the thresholds of the guards the tangent is the derivative along every
    differentiable path of surfaces, phases, positions and radii. *)
Theorem C97_occulted_derivative : forall as_euler eps low high A2, 0 < eps -> forall s sf sd pd rd theta td, tracks_surface sf s sd -> tracks_rotation sf s pd rd -> tracks_opt theta s td -> ld_flux (s_u (sf s)) <> 0 ->
  forall r x y z R' X Y Z, tracks r s R' -> tracks x s X -> tracks y s Y -> tracks z s Z -> ~ (x s = 0 /\ y s = 0) ->
  sqrt (x s ^ 2 + y s ^ 2) <> 1 + r s -> z s <> 0 -> (sqrt (x s ^ 2 + y s ^ 2) < 1 + r s -> 0 < z s -> starry_regular_point eps high (sqrt (x s ^ 2 + y s ^ 2)) (r s)) ->
  divides_by_nonzero (dividing_flux as_euler eps low high A2 (sf s) (Some (geometry (r s) (Some (x s)) (Some (y s)) (Some (z s)))) (theta s)) ->
  tracks_result (fun w => surface_radial_velocity as_euler eps low high A2 (sf w) (Some (r w)) (Some (x w)) (Some (y w)) (Some (z w)) (theta w)) s
    (occulted_rv_d as_euler eps low high A2 sd pd rd R' X Y Z td).
Proof. exact occulted_rv_tracks. Qed.
Print Assumptions C97_occulted_derivative.

(** a rotating map of degree 1 with a bright side, differentiated with respect to its amplitude, its phase and its period *)
Definition C97_surface (w : R) : surface :=
  {| s_y := s_y spotty; s_inc := None; s_obl := None; s_u := []; s_period := Some (exp w); s_amplitude := 1 + w; s_normalize := false; s_phase := 0; s_radius := 1; s_shear := None |}.
Definition C97_traced : surface_d :=
  {| sd_ydeg := 1; sd_y := map cst (ylm_todense (s_y spotty)); sd_inc := None; sd_obl := None; sd_u := []; sd_amplitude := Some (1, 1) |}.
Lemma spotty_visible : visible_flux (seen_intensity (y_data (s_y (C97_surface 0))) (s_u (C97_surface 0)) (s_inc (C97_surface 0)) (s_obl (C97_surface 0)) None) <> 0.
Proof.
  pose proof (spotty_flux 0) as H. pose proof PI_RGT_0 as P. intros E. unfold in_units in H.
  assert (H0 : visible_flux (seen_of spotty (rotational_phase spotty 0)) = 0) by exact E. unfold visible_flux in H0. rewrite H0 in H. unfold Rdiv in H. rewrite ?Rmult_0_l, ?Rmult_0_r in H. lra.
Qed.
Example C97_sat : tracks_surface C97_surface 0 C97_traced /\ tracks_rotation C97_surface 0 (Some (Some (1, 1))) (cst 1) /\ fin_surface C97_traced (C97_surface 0) /\ ld_flux (s_u (C97_surface 0)) <> 0 /\ wf_ylm (s_y (C97_surface 0)) /\ zyz_euler rotvec_zyz /\
  fin_rotation (C97_surface 0) (Some (Some (1, 1))) (cst 1) /\ s_period (C97_surface 0) <> None /\
  visible_flux (seen_intensity (y_data (s_y (C97_surface 0))) (s_u (C97_surface 0)) (s_inc (C97_surface 0)) (s_obl (C97_surface 0)) None) <> 0 /\
  (forall eps low high A2, divides_by_nonzero (dividing_flux rotvec_zyz eps low high A2 (C97_surface 0) None None)) /\
  (forall eps low high A2, divides_by_nonzero (dividing_flux rotvec_zyz eps low high A2 (C97_surface 0) (Some (geometry 0.1 (Some 0.3) (Some 0) (Some (-1)))) None)).
Proof.
  assert (Ta : forall a, tracks (fun w => a + w) 0 (Some (a, 1))) by (intros a; exists 1; split; [do 2 f_equal; ring|]; auto_derive; [exact I|ring]).
  split.
  { split; [intros z; repeat split|]. split; [exact (TL_cst 0 (ylm_todense (s_y spotty)))|]. split; [exact (TL_cst 0 nil)|]. exact (Ta 1). }
  split.
  { split; [intros z; split; [reflexivity|]; cbn [C97_surface s_period]; intros H; injection H; intros E; pose proof (exp_pos z); lra|]. split; [|exact (tracks_cst 1 0)].
    exists exp. split; [reflexivity|]. exists 1. split; [now rewrite exp_0|]. auto_derive; [exact I|rewrite exp_0; ring]. }
  split.
  { split; [reflexivity|]. split; [reflexivity|]. split; [reflexivity|]. split; [exact (FL_cst (ylm_todense (s_y spotty)))|]. split; [constructor|]. exists 1. cbn [C97_traced C97_surface sd_amplitude s_amplitude]. do 2 f_equal. ring. }
  split; [cbn [C97_surface s_u]; rewrite SystemExamples.ld_flux_nil; pose proof PI_RGT_0; lra|].
  split; [exact spotty_wf|]. split; [exact rotvec_zyz_ok|]. split.
  { split; [reflexivity|]. split; [cbn [C97_surface s_period]; rewrite exp_0; intros H; injection H; lra|]. split; [exists 1; cbn [C97_surface s_period]; now rewrite exp_0|now exists 0]. }
  split; [discriminate|]. split; [exact spotty_visible|]. split; intros; (eexists; split; [apply C97_dividing_flux; [exact rotvec_zyz_ok|exact spotty_wf|]|exact spotty_visible]).
  - exact I.
  - destruct (og_occ _) eqn:E; [|reflexivity]. apply StarryProof.geometry_occ in E. cbn [none0] in E. lra.
Qed.
