(** C58, C59, C60, C61, C74: light curves and radial velocities of surfaces and systems (starry/light_curves.py,
    starry/system_observable.py, starry/orbit.py, starry/doppler.py).  [A2] is the Green's basis matrix, [low] and
    [high] the quadrature rules, [obs] any observable of a surface, [kep] any Kepler solver. *)
From Coq Require Import Reals Lra Lia ZArith List Bool Arith.
From Verif Require Import Base.RealAux Base.Dict Model.Keplerian Model.Poly Model.Basis Model.S2fft Model.Rotation Model.Solution Model.SolutionVector Model.Ylm Model.RvMap Model.Surface Model.StarryLightCurve Model.SurfaceSystem
  Spec.HarmonicSpec Spec.RotationSpec Spec.DiskSpec Spec.BasisSpec Spec.YlmSpec Spec.SurfaceSpec Spec.SystemSpec Proof.Euler Proof.SurfaceProof Proof.SystemProof Proof.SystemLight Proof.SystemExamples.
From Verif Require Model.LimbDark.
Import ListNotations.
Open Scope R_scope.

(** C74: the flux of a surface that nothing hides *)
Theorem C74_unocculted : forall as_euler, zyz_euler as_euler -> forall eps low high A2 s r x y z theta, wf_ylm (s_y s) -> ld_flux (s_u s) <> 0 ->
  (r = None \/ exists r', r = Some r' /\ surf_ydeg s <> 0%nat /\ (1 + r' <= sqrt (none0 x ^ 2 + none0 y ^ 2) \/ none0 z <= 0)) ->
  surface_light_curve as_euler eps low high A2 s r x y z theta = Ok (flux_alone s theta).
Proof. exact unocculted_flux. Qed.
Print Assumptions C74_unocculted.
(** a uniform surface is never darker or brighter than its amplitude times its coefficient *)
Theorem C74_uniform : forall as_euler, zyz_euler as_euler -> forall s theta, wf_ylm (s_y s) -> ld_flux (s_u s) <> 0 -> surf_ydeg s = 0%nat ->
  exists c, y_data (s_y s) = [((0, 0)%Z, c)] /\ flux_alone s theta = s_amplitude s * c.
Proof. exact uniform_flux. Qed.
Print Assumptions C74_uniform.
(** but with an occultor, in front or not, degree 0 means 1 plus the limb-darkened light curve, whatever the amplitude
    and the coefficient *)
Theorem C74_uniform_occultor_refuted : forall as_euler eps low high A2 s r x y z theta, surf_ydeg s = 0%nat ->
  1 + r <= sqrt (x ^ 2 + y ^ 2) \/ z <= 0 ->
  surface_light_curve as_euler eps low high A2 s (Some r) (Some x) (Some y) (Some z) theta = Ok 1.
Proof. exact deg0_clear. Qed.
Print Assumptions C74_uniform_occultor_refuted.
Theorem C74_uniform_transit : forall as_euler eps low high A2 s r x y z theta, surf_ydeg s = 0%nat ->
  sqrt (x ^ 2 + y ^ 2) < 1 + r -> 0 < z ->
  surface_light_curve as_euler eps low high A2 s (Some r) (Some x) (Some y) (Some z) theta =
  Ok (1 + LimbDark.light_curve eps high (s_u s) (sqrt (x ^ 2 + y ^ 2)) r).
Proof. exact deg0_transit. Qed.
Print Assumptions C74_uniform_transit.
Example C74_sat : zyz_euler rotvec_zyz /\ exists v, make_ylm [((0, 0)%Z, 1)] = Ok v /\ wf_ylm v /\ ld_flux (s_u (flat 2 v)) <> 0 /\ surf_ydeg (flat 2 v) = 0%nat.
Proof.
  split; [exact rotvec_zyz_ok|]. destruct flat_ylm as (v & E & W & _ & D0). exists v. split; [exact E|split; [exact W|split; [|exact D0]]].
  change (s_u (flat 2 v)) with (@nil R). rewrite ld_flux_nil. pose proof PI_RGT_0. lra.
Qed.

(** C58: light curves scale with the amplitude, except for degree 0 with an occultor *)
Theorem C58_amplitude : forall as_euler eps low high A2 s r x y z theta, surf_ydeg s <> 0%nat \/ r = None ->
  surface_light_curve as_euler eps low high A2 s r x y z theta =
  rbind (surface_light_curve as_euler eps low high A2 (with_amplitude s 1) r x y z theta) (fun f => Ok (s_amplitude s * f)).
Proof. exact lc_amplitude. Qed.
Print Assumptions C58_amplitude.
Theorem C58_degree0_refuted : forall as_euler eps low high A2 s r x y z theta a, surf_ydeg s = 0%nat ->
  surface_light_curve as_euler eps low high A2 (with_amplitude s a) (Some r) x y z theta = surface_light_curve as_euler eps low high A2 s (Some r) x y z theta.
Proof. exact lc_amplitude_ignored. Qed.
Print Assumptions C58_degree0_refuted.
Example C58_sat : exists d v, make_ylm d = Ok v /\ surf_ydeg (flat 2 v) = 3%nat.
Proof. exists [((0, 0)%Z, 1); ((3, -2)%Z, 0.5)]. eexists. split; reflexivity. Qed.

(** C59: what a system observable is made of *)
Theorem C59_structure : forall au kep obs sys t r, length (ss_bodies sys) = length (ss_surfaces sys) -> ss_bodies sys <> [] -> system_observable au kep obs sys t = Ok r ->
  let rc := c_radius (ss_central sys) in let theta := rotational_phase (ss_surface sys) t in
  exists f0 fs bs, r = (f0 + Rsum (map (fun f => f - f0) fs)) :: bs /\ obs (ss_surface sys) None None None None theta = Ok f0 /\
    length fs = length (ss_bodies sys) /\ length bs = length (ss_bodies sys) /\
    forall i o s, nth_error (ss_bodies sys) i = Some o -> nth_error (ss_surfaces sys) i = Some s -> exists ro f b, ob_radius o = Some ro /\ nth_error fs i = Some f /\ nth_error bs i = Some b /\
      let '(x, y, z) := relative_position au kep o t None in
      obs (ss_surface sys) (Some (ro / rc)) (Some (x / rc)) (Some (y / rc)) (Some (z / rc)) theta = Ok f /\
      match s with
      | None => b = 0
      | Some s => obs s (Some (rc / ro)) (Some (- x / ro)) (Some (- y / ro)) (Some (- z / ro)) (rotational_phase s t) = Ok b
      end.
Proof. exact observable_spec. Qed.
Print Assumptions C59_structure.
Theorem C59_no_bodies : forall au kep obs sys t, ss_bodies sys = [] ->
  system_observable au kep obs sys t = rbind (obs (ss_surface sys) None None None None (rotational_phase (ss_surface sys) t)) (fun f => Ok [f]).
Proof. exact observable_empty. Qed.
Print Assumptions C59_no_bodies.
(** no body in front: the star as if it were alone, unless its map has degree 0 *)
Theorem C59_unocculted : forall as_euler eps low high A2 au kep sys t r, zyz_euler as_euler -> length (ss_bodies sys) = length (ss_surfaces sys) -> wf_ylm (s_y (ss_surface sys)) -> ld_flux (s_u (ss_surface sys)) <> 0 -> 0 < c_radius (ss_central sys) ->
  (forall o, In o (ss_bodies sys) -> not_in_front au kep sys t o) -> starry_light_curve as_euler eps low high A2 au kep sys t = Ok r ->
  let n := length (ss_bodies sys) in let f0 := flux_alone (ss_surface sys) (rotational_phase (ss_surface sys) t) in
  exists bs, length bs = n /\ r = (if (surf_ydeg (ss_surface sys) =? 0)%nat && negb (n =? 0)%nat then INR n - INR (n - 1) * f0 else f0) :: bs.
Proof. exact system_clear. Qed.
Print Assumptions C59_unocculted.
(** degree 0: a star of flux 2 with two planets behind it vanishes *)
Theorem C59_degree0_refuted : forall as_euler eps low high A2 au kep, zyz_euler as_euler -> exists cs sys, wf_ylm (s_y cs) /\
  make_ssystem 1 (Some sun) (Some cs) [(SBody (planet 1) None, None); (SBody (planet 2) None, None)] = Ok sys /\
  (forall o, In o (ss_bodies sys) -> not_in_front au kep sys (-1) o) /\
  surface_light_curve as_euler eps low high A2 cs None None None None (rotational_phase cs (-1)) = Ok 2 /\
  starry_light_curve as_euler eps low high A2 au kep sys (-1) = Ok [0; 0; 0].
Proof. exact system_amplitude_refuted. Qed.
Print Assumptions C59_degree0_refuted.
(** central and body never occult each other at the same time *)
Theorem C59_never_both : forall au kep sys t o r, ob_radius o = Some r -> 0 < r -> 0 < c_radius (ss_central sys) ->
  let '(x, y, z) := relative_position au kep o t None in let rc := c_radius (ss_central sys) in
  ~ (og_occ (geometry (r / rc) (Some (x / rc)) (Some (y / rc)) (Some (z / rc))) = true /\ og_occ (geometry (rc / r) (Some (- x / r)) (Some (- y / r)) (Some (- z / r))) = true).
Proof. exact never_both. Qed.
Print Assumptions C59_never_both.

(** C60: adding bodies one by one is the same as constructing the system with all of them, and body i keeps the
    surface supplied with it *)
Theorem C60_one_by_one : forall G c cs l, rbind (make_ssystem G c cs []) (fun sys => ss_add_all G sys l) = make_ssystem G c cs l.
Proof. exact one_by_one. Qed.
Print Assumptions C60_one_by_one.
Theorem C60_aligned : forall G c cs l sys, rbind (make_ssystem G c cs []) (fun sys => ss_add_all G sys l) = Ok sys ->
  length (ss_bodies sys) = length l /\ length (ss_surfaces sys) = length l /\
  (forall c', c = Some c' -> ss_central sys = c') /\ (forall s, cs = Some s -> ss_surface sys = s) /\
  forall i b s, nth_error l i = Some (b, s) -> exists o, nth_error (ss_bodies sys) i = Some o /\ sbuild1 G (ss_central sys) b = Ok o /\ nth_error (ss_surfaces sys) i = Some (chosen b s).
Proof. intros G c cs l sys H. rewrite one_by_one in H. exact (make_ssystem_ok G c cs l sys H). Qed.
Print Assumptions C60_aligned.
Example C60_sat : forall cs, exists sys, make_ssystem 1 (Some sun) (Some cs) [(SBody (planet 1) (Some cs), None); (SBody (planet 2) None, Some cs)] = Ok sys /\ ss_surfaces sys = [Some cs; Some cs].
Proof. intros cs. eexists. split; reflexivity. Qed.

(** C61: only the first body's reflex motion is added to the central's velocity *)
Theorem C61_first_body : forall au kep obs sys ts o os rows, ss_bodies sys = o :: os -> length (ss_bodies sys) = length (ss_surfaces sys) ->
  system_radial_velocity au kep obs sys ts = Ok rows -> length rows = length ts /\
  forall i t, nth_error ts i = Some t -> exists c bs, system_observable au kep obs sys t = Ok (c :: bs) /\ nth_error rows i = Some ((c + radial_velocity au kep o t None) :: bs).
Proof. exact sys_rv_ok. Qed.
Print Assumptions C61_first_body.
Theorem C61_reflex_refuted : forall as_euler eps low high A2 au kep, zyz_euler as_euler -> exists cs sys o1 o2, wf_ylm (s_y cs) /\
  make_ssystem 1 (Some sun) (Some cs) [(SBody (planet 1) None, None); (SBody (planet 2) None, None)] = Ok sys /\
  ss_bodies sys = [o1; o2] /\ radial_velocity au kep o1 (-1) None = 1 /\ radial_velocity au kep o2 (-1) None = 2 /\
  surface_radial_velocity as_euler eps low high A2 cs None None None None (rotational_phase cs (-1)) = Ok 0 /\
  starry_radial_velocity as_euler eps low high A2 au kep sys [-1] = Ok [[1; 0; 0]].
Proof. exact system_rv_refuted. Qed.
Print Assumptions C61_reflex_refuted.
Theorem C61_no_bodies : forall au kep obs sys ts, ss_bodies sys = [] -> forall rows, system_radial_velocity au kep obs sys ts <> Ok rows.
Proof. exact sys_rv_empty. Qed.
Print Assumptions C61_no_bodies.
Theorem C61_scalar_time : forall au kep obs sys t row, system_radial_velocity_scalar au kep obs sys t <> Ok row.
Proof. intros. apply sys_rv_scalar. Qed.
Print Assumptions C61_scalar_time.
