(** C83: the light curve of a system in terms of what the bodies hide of each other (starry/light_curves.py, starry/system_observable.py). *)
From Coq Require Import Reals Lra Lia ZArith List Bool Arith.
From Coquelicot Require Import Coquelicot.
From Verif Require Import Base.RealAux Base.Dict Model.Keplerian Model.Poly Model.Basis Model.S2fft Model.Rotation Model.SolutionVector Model.Ylm Model.Surface Model.StarryLightCurve Model.SurfaceSystem
  Spec.LimbDarkSpec Spec.HarmonicSpec Spec.RotationSpec Spec.BasisSpec Spec.DiskSpec Spec.OccultSpec Spec.YlmSpec Spec.SurfaceSpec Spec.SystemSpec Spec.SkySpec Spec.ShadowSpec
  Proof.Euler Proof.StarryProof Proof.SystemLight Proof.SystemExamples Proof.OccultedFlux Proof.Shadows Proof.ShadowExamples.
Import ListNotations.
Open Scope R_scope.

(** the star's entry, for a star with a map: the flux that no body in front hides, when no point of the star is hidden twice *)
Theorem C83_disjoint : forall as_euler eps low high A2 au kep sys t row, zyz_euler as_euler -> 0 < eps -> let s := ss_surface sys in let theta := rotational_phase s t in
  length (ss_bodies sys) = length (ss_surfaces sys) -> wf_ylm (s_y s) -> surf_ydeg s <> 0%nat -> right_inverse (ncoef (surf_deg s)) (A2_inv (Z.of_nat (surf_deg s))) (A2 (surf_deg s)) -> 0 < c_radius (ss_central sys) ->
  List.Forall (regular eps high) (occultors_of au kep sys t) -> disjoint_shadows (occultors_of au kep sys t) -> starry_light_curve as_euler eps low high A2 au kep sys t = Ok row ->
  exists errs bs, row = (in_units s (flux_past (occultors_of au kep sys t) (seen_of s theta)) + Rsum errs) :: bs /\ length bs = length (ss_bodies sys) /\ Forall2 (error_of low high s theta) (occultors_of au kep sys t) errs.
Proof. intros as_euler eps low high A2 au kep sys t row Hz He s theta L W H0 HA Hrc RG D E. rewrite <- (disjoint_counted _ _ D). exact (system_counted as_euler Hz eps low high A2 au kep He sys t row L W H0 HA Hrc RG E). Qed.
Print Assumptions C83_disjoint.
(** in general every body in front takes away all the light behind it, however often that has been taken away already *)
Theorem C83_counted : forall as_euler eps low high A2 au kep sys t row, zyz_euler as_euler -> 0 < eps -> let s := ss_surface sys in let theta := rotational_phase s t in
  length (ss_bodies sys) = length (ss_surfaces sys) -> wf_ylm (s_y s) -> surf_ydeg s <> 0%nat -> right_inverse (ncoef (surf_deg s)) (A2_inv (Z.of_nat (surf_deg s))) (A2 (surf_deg s)) -> 0 < c_radius (ss_central sys) ->
  List.Forall (regular eps high) (occultors_of au kep sys t) -> starry_light_curve as_euler eps low high A2 au kep sys t = Ok row ->
  exists errs bs, row = (in_units s (flux_counted (occultors_of au kep sys t) (seen_of s theta)) + Rsum errs) :: bs /\ length bs = length (ss_bodies sys) /\ Forall2 (error_of low high s theta) (occultors_of au kep sys t) errs.
Proof. intros as_euler eps low high A2 au kep sys t row Hz He. exact (system_counted as_euler Hz eps low high A2 au kep He sys t row). Qed.
Print Assumptions C83_counted.
(** so two bodies that both hide a star of flux 1 completely give it the flux -1 *)
Theorem C83_overlap_refuted : forall as_euler eps low high A2 au kep, zyz_euler as_euler -> exists cs sys, wf_ylm (s_y cs) /\
  make_ssystem 1 (Some sun) (Some cs) [(SBody big None, None); (SBody big None, None)] = Ok sys /\
  surface_light_curve as_euler eps low high A2 cs None None None None (rotational_phase cs 0) = Ok 1 /\
  flux_past (occultors_of au kep sys 0) (seen_of cs (rotational_phase cs 0)) = 0 /\ starry_light_curve as_euler eps low high A2 au kep sys 0 = Ok [-1; 0; 0].
Proof. exact double_eclipse_refuted. Qed.
Print Assumptions C83_overlap_refuted.
(** a limb-darkened star without a map, of flux 1 *)
Theorem C83_limb_darkened : forall as_euler eps low high A2 au kep sys t row, zyz_euler as_euler -> 0 < eps -> let s := ss_surface sys in let theta := rotational_phase s t in
  length (ss_bodies sys) = length (ss_surfaces sys) -> wf_ylm (s_y s) -> surf_ydeg s = 0%nat -> ld_flux (s_u s) <> 0 -> in_units s (visible_flux (seen_of s theta)) = 1 -> 0 < c_radius (ss_central sys) ->
  List.Forall (regular_ld eps high) (occultors_of au kep sys t) -> disjoint_shadows (occultors_of au kep sys t) -> starry_light_curve as_euler eps low high A2 au kep sys t = Ok row ->
  exists errs bs, row = (in_units s (flux_past (occultors_of au kep sys t) (seen_of s theta)) + Rsum errs) :: bs /\ length bs = length (ss_bodies sys) /\ Forall2 (error_ld high (s_u s)) (occultors_of au kep sys t) errs.
Proof. intros as_euler eps low high A2 au kep sys t row Hz He s theta L W H0 HL H1 Hrc RG D E. rewrite <- (disjoint_counted _ _ D). exact (system_counted_zero as_euler Hz eps low high A2 au kep He sys t row L W H0 HL H1 Hrc RG E). Qed.
Print Assumptions C83_limb_darkened.
(** the entry of a body: nothing without a surface, otherwise its flux that the star does not hide *)
Theorem C83_body : forall as_euler eps low high A2 au kep sys t row i o s, zyz_euler as_euler -> 0 < eps -> length (ss_bodies sys) = length (ss_surfaces sys) -> starry_light_curve as_euler eps low high A2 au kep sys t = Ok row -> nth_error (ss_bodies sys) i = Some o ->
  (nth_error (ss_surfaces sys) i = Some None -> nth_error row (S i) = Some 0) /\
  (nth_error (ss_surfaces sys) i = Some (Some s) -> let theta := rotational_phase s t in
   wf_ylm (s_y s) -> surf_ydeg s <> 0%nat -> right_inverse (ncoef (surf_deg s)) (A2_inv (Z.of_nat (surf_deg s))) (A2 (surf_deg s)) -> (forall r, ob_radius o = Some r -> 0 < r) ->
   List.Forall (regular eps high) (occultors_of_body au kep sys t o) ->
   exists errs, nth_error row (S i) = Some (in_units s (flux_past (occultors_of_body au kep sys t o) (seen_of s theta)) + Rsum errs) /\ Forall2 (error_of low high s theta) (occultors_of_body au kep sys t o) errs).
Proof. intros as_euler eps low high A2 au kep sys t row i o s Hz He. exact (body_flux as_euler Hz eps low high A2 au kep He sys t row i o s). Qed.
Print Assumptions C83_body.
Theorem C83_limb_darkened_body : forall as_euler eps low high A2 au kep sys t row i o s, zyz_euler as_euler -> 0 < eps -> length (ss_bodies sys) = length (ss_surfaces sys) -> starry_light_curve as_euler eps low high A2 au kep sys t = Ok row -> nth_error (ss_bodies sys) i = Some o ->
  (nth_error (ss_surfaces sys) i = Some (Some s) -> let theta := rotational_phase s t in
   wf_ylm (s_y s) -> surf_ydeg s = 0%nat -> ld_flux (s_u s) <> 0 -> in_units s (visible_flux (seen_of s theta)) = 1 -> (forall r, ob_radius o = Some r -> 0 < r) ->
   List.Forall (regular_ld eps high) (occultors_of_body au kep sys t o) ->
   exists errs, nth_error row (S i) = Some (in_units s (flux_past (occultors_of_body au kep sys t o) (seen_of s theta)) + Rsum errs) /\ Forall2 (error_ld high (s_u s)) (occultors_of_body au kep sys t o) errs).
Proof. intros as_euler eps low high A2 au kep sys t row i o s Hz He. exact (body_flux_zero as_euler Hz eps low high A2 au kep He sys t row i o s). Qed.
Print Assumptions C83_limb_darkened_body.

(** a planet in front of a star with a map of degree 1 *)
Example C83_sat : zyz_euler rotvec_zyz /\ wf_ylm (s_y spotty) /\ surf_ydeg spotty <> 0%nat /\ (exists A2, right_inverse (ncoef (surf_deg spotty)) (A2_inv (Z.of_nat (surf_deg spotty))) (A2 (surf_deg spotty))) /\
  exists sys, make_ssystem 1 (Some sun) (Some spotty) [(SBody (planet 1) None, None)] = Ok sys /\ length (ss_bodies sys) = length (ss_surfaces sys) /\ 0 < c_radius (ss_central sys) /\
  forall au kep, occultors_of au kep sys 0 = [(0, 0, 0.1)] /\ disjoint_shadows (occultors_of au kep sys 0) /\ List.Forall (regular (/ 10000) [(0, 2)]) (occultors_of au kep sys 0).
Proof.
  split; [exact rotvec_zyz_ok|split; [exact spotty_wf|split; [cbn; discriminate|split; [|exact small_transit]]]]. destruct A2_exists as (A2 & H). exists A2. apply H. cbn. lia.
Qed.
(** a uniform star of flux 1 *)
Example C83_sat_limb_darkened : exists v, wf_ylm (s_y (flat 1 v)) /\ surf_ydeg (flat 1 v) = 0%nat /\ ld_flux (s_u (flat 1 v)) <> 0 /\ forall theta, in_units (flat 1 v) (visible_flux (seen_of (flat 1 v) theta)) = 1.
Proof.
  destruct flat_ylm as (v & _ & W & D & D0). exists v. assert (L : ld_flux (s_u (flat 1 v)) <> 0) by (cbn [flat s_u]; rewrite ld_flux_nil; pose proof PI_RGT_0; lra).
  split; [exact W|split; [exact D0|split; [exact L|]]]. intros theta. transitivity (s_amplitude (flat 1 v) * 1); [exact (ydeg0_flux (flat 1 v) 1 theta W D L)|cbn; ring].
Qed.
