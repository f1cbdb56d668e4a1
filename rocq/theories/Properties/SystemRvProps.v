(** C90: the radial velocities of a system in terms of what the bodies hide of each other (starry/doppler.py, starry/system_observable.py). *)
From Coq Require Import Reals Lra Lia ZArith List Bool Arith.
From Coquelicot Require Import Coquelicot.
From Verif Require Import Base.RealAux Base.Dict Model.Keplerian Model.Poly Model.Basis Model.S2fft Model.Rotation Model.SolutionVector Model.Ylm Model.Surface Model.StarryLightCurve Model.SurfaceSystem
  Spec.LimbDarkSpec Spec.HarmonicSpec Spec.RotationSpec Spec.BasisSpec Spec.DiskSpec Spec.OccultSpec Spec.YlmSpec Spec.SurfaceSpec Spec.SystemSpec Spec.SkySpec Spec.ShadowSpec Spec.QuadSpec Spec.RvSystemSpec
  Proof.Euler Proof.SystemExamples Proof.OccultedFlux Proof.SystemRv Proof.SystemRvLimit Proof.RvCounter.
Import ListNotations.
Open Scope R_scope.

(** the star's entry: the velocity of the star alone, plus the changes that each body in front makes on its own, plus the
    reflex motion due to the first body *)
Theorem C90_star : forall as_euler, zyz_euler as_euler -> forall eps low high A2 au kep, 0 < eps -> forall sys ts rows i t o os veq, let s := ss_surface sys in let theta := rotational_phase s t in
  ss_bodies sys = o :: os -> length (ss_bodies sys) = length (ss_surfaces sys) -> wf_ylm (s_y s) -> surf_veq s = Ok veq -> s_shear s = None -> ld_flux (s_u s) <> 0 -> visible_flux (seen_of s theta) <> 0 ->
  right_inverse (ncoef (surf_deg s + 1)) (A2_inv (Z.of_nat (surf_deg s + 1))) (A2 (surf_deg s + 1)%nat) -> 0 < c_radius (ss_central sys) ->
  List.Forall (regular_rv eps high) (occultors_of au kep sys t) -> starry_radial_velocity as_euler eps low high A2 au kep sys ts = Ok rows -> nth_error ts i = Some t ->
  let v0 := s_amplitude s * mean_velocity s veq theta [] in
  exists vs bs, nth_error rows i = Some ((v0 + Rsum (map (fun v => v - v0) vs) + radial_velocity au kep o t None) :: bs) /\ length bs = length (ss_bodies sys) /\ Forall2 (rv_past low high s veq theta) (occultors_of au kep sys t) vs.
Proof. exact system_rv. Qed.
Print Assumptions C90_star.
(** while one body is in front: the mean velocity of what it leaves visible (the Rossiter-McLaughlin effect), as the order grows *)
Theorem C90_transit : forall as_euler A2 au kep sys t o os veq x y r, zyz_euler as_euler -> let s := ss_surface sys in let theta := rotational_phase s t in
  ss_bodies sys = o :: os -> length (ss_bodies sys) = length (ss_surfaces sys) -> wf_ylm (s_y s) -> surf_veq s = Ok veq -> s_shear s = None -> ld_flux (s_u s) <> 0 -> visible_flux (seen_of s theta) <> 0 ->
  right_inverse (ncoef (surf_deg s + 1)) (A2_inv (Z.of_nat (surf_deg s + 1))) (A2 (surf_deg s + 1)%nat) -> 0 < c_radius (ss_central sys) ->
  occultors_of au kep sys t = [(x, y, r)] -> let D := (surf_deg s + 1)%nat in let b := sqrt (x ^ 2 + y ^ 2) in
  exists g h, green_coefficients D g (turned x y (moving_of s veq theta)) /\ green_coefficients D h (turned x y (seen_of s theta)) /\
  (0 <= r -> b < 1 + r -> r < 1 + b -> even_bounds 20 D h b r < Rabs (flux_past [(x, y, r)] (seen_of s theta)) -> forall delta, 0 < delta ->
   exists N, forall n low high, (N <= n)%nat -> gauss_legendre (Nat.min n 20) low -> gauss_legendre n high -> exists eps0, 0 < eps0 /\ forall eps, 0 < eps <= eps0 ->
   exists num den, den <> 0 /\ Rabs (num - flux_past [(x, y, r)] (moving_of s veq theta)) <= delta + even_bounds 20 D g b r /\ Rabs (den - flux_past [(x, y, r)] (seen_of s theta)) <= delta + even_bounds 20 D h b r /\
   forall ts i rows, nth_error ts i = Some t -> starry_radial_velocity as_euler eps low high A2 au kep sys ts = Ok rows -> exists bs, nth_error rows i = Some ((s_amplitude s * (num / den) + radial_velocity au kep o t None) :: bs)).
Proof. exact transit_rv_limit. Qed.
Print Assumptions C90_transit.
(** two bodies in front of different parts of a uniform star: the changes they make on their own, which the code adds
    (C90_star), are not the change they make together *)
Theorem C90_two_transits_refuted : exists sys o os veq, make_ssystem 1 (Some sun) (Some turning_star) pebbles = Ok sys /\ ss_surface sys = turning_star /\ ss_bodies sys = o :: os /\ surf_veq turning_star = Ok veq /\
  forall au kep, disjoint_shadows (occultors_of au kep sys 0) /\ List.Forall (regular_rv (/ 10000) [(0, 2)]) (occultors_of au kep sys 0) /\
  forall theta, velocity_counted turning_star veq theta (occultors_of au kep sys 0) <> mean_velocity turning_star veq theta (occultors_of au kep sys 0).
Proof.
  destruct pebble_system as (sys & o & os & E & Es & Eb & _ & _ & H). destruct star_ready as (Hv & Nv & _). exists sys, o, os, (2 * PI * 1 / 27). split; [exact E|split; [exact Es|split; [exact Eb|split; [exact Hv|]]]].
  intros au kep. destruct (H au kep) as [EO R]. split; [rewrite EO; exact pebbles_disjoint|]. split; [exact R|]. intros theta. rewrite EO. exact (two_pebbles _ theta Nv).
Qed.
Print Assumptions C90_two_transits_refuted.
(** the entry of a body: nothing without a surface; otherwise the mean velocity of the part that the star does not hide,
    relative to the body itself (its orbital motion is not added) *)
Theorem C90_body : forall as_euler, zyz_euler as_euler -> forall eps low high A2 au kep, 0 < eps -> forall sys ts rows i t k o s,
  length (ss_bodies sys) = length (ss_surfaces sys) -> starry_radial_velocity as_euler eps low high A2 au kep sys ts = Ok rows -> nth_error ts i = Some t -> nth_error (ss_bodies sys) k = Some o ->
  exists row, nth_error rows i = Some row /\
  (nth_error (ss_surfaces sys) k = Some None -> nth_error row (S k) = Some 0) /\
  (nth_error (ss_surfaces sys) k = Some (Some s) -> let theta := rotational_phase s t in forall veq,
   wf_ylm (s_y s) -> surf_veq s = Ok veq -> s_shear s = None -> ld_flux (s_u s) <> 0 -> visible_flux (seen_of s theta) <> 0 ->
   right_inverse (ncoef (surf_deg s + 1)) (A2_inv (Z.of_nat (surf_deg s + 1))) (A2 (surf_deg s + 1)%nat) -> (forall r, ob_radius o = Some r -> 0 < r) ->
   List.Forall (regular_rv eps high) (occultors_of_body au kep sys t o) ->
   match occultors_of_body au kep sys t o with
   | [] => nth_error row (S k) = Some (s_amplitude s * mean_velocity s veq theta [])
   | oc :: _ => exists v, nth_error row (S k) = Some v /\ rv_past low high s veq theta oc v
   end).
Proof. exact body_rv. Qed.
Print Assumptions C90_body.

(** the system with the two planets meets the hypotheses *)
Example C90_sat : zyz_euler rotvec_zyz /\ wf_ylm (s_y turning_star) /\ (exists veq, surf_veq turning_star = Ok veq) /\ s_shear turning_star = None /\ ld_flux (s_u turning_star) <> 0 /\ (forall theta, visible_flux (seen_of turning_star theta) <> 0) /\
  (exists A2, right_inverse (ncoef (surf_deg turning_star + 1)) (A2_inv (Z.of_nat (surf_deg turning_star + 1))) (A2 (surf_deg turning_star + 1)%nat)) /\
  exists sys o os, make_ssystem 1 (Some sun) (Some turning_star) pebbles = Ok sys /\ ss_surface sys = turning_star /\ ss_bodies sys = o :: os /\ length (ss_bodies sys) = length (ss_surfaces sys) /\ 0 < c_radius (ss_central sys) /\
  forall au kep, occultors_of au kep sys 0 = [pebble1; pebble2] /\ List.Forall (regular_rv (/ 10000) [(0, 2)]) (occultors_of au kep sys 0).
Proof.
  destruct star_ready as (Hv & _ & Hs & HL & HI). split; [exact rotvec_zyz_ok|split; [exact star_wf|split; [eexists; exact Hv|split; [exact Hs|split; [exact HL|split; [exact HI|split; [|exact pebble_system]]]]]]].
  destruct A2_exists as (A2 & H). exists A2. apply H. cbn. lia.
Qed.
