(** Flux in terms of the rendered intensity, and a concrete star with two planets. *)
From Coq Require Import Reals Lra Lia ZArith List Bool Arith.
From Coquelicot Require Import Coquelicot.
From Verif Require Import Base.RealAux Base.Dict Model.Keplerian Model.Poly Model.Basis Model.S2fft Model.Rotation Model.Solution Model.SolutionVector Model.Ylm Model.RvMap Model.Surface Model.StarryLightCurve Model.SurfaceSystem
  Spec.PolySpec Spec.HarmonicSpec Spec.RotationSpec Spec.DiskSpec Spec.BasisSpec Spec.YlmSpec Spec.SurfaceSpec Spec.SystemSpec Proof.PolyProof Proof.RTProof Proof.YlmProof Proof.YlmMore Proof.YlmFacts Proof.Euler Proof.AxisAngle Proof.KeplerianMore Proof.SurfaceProof Proof.StarryProof Proof.DopplerProof Proof.SystemProof Proof.SystemLight Proof.SurfaceFacts.
From Verif Require Model.Stack Model.LimbDark.
Import ListNotations.
Open Scope R_scope.

Section Flux.
Variable as_euler : R * R * R -> R * R * R.
Hypothesis Hz : zyz_euler as_euler.
Lemma sky_flux s theta : wf_ylm (s_y s) ->
  visible_flux (seen s theta) = visible_flux (sky_intensity (y_data (s_y s)) (s_u s) (s_inc s) (s_obl s) theta).
Proof using Hz.
  intros W. destruct (s_inc s) as [i|] eqn:Ei; [unfold seen; rewrite Ei; destruct (s_obl s); reflexivity|]. destruct (s_obl s) as [o|] eqn:Eo; [|unfold seen; rewrite Ei, Eo; reflexivity].
  rewrite <- (visible_flux_rot as_euler Hz s W theta (- (2 * o))). unfold visible_flux. apply disk_ext_in. intros x y _. unfold seen, seen_intensity, sky_intensity. rewrite Ei, Eo. unfold seen_point, map_point. cbn [angle0].
  assert (E : rot_z (- - o) (rot_z (- (2 * o)) (x, y, zdisk x y)) = rot_z (- o) (x, y, zdisk x y)).
  { replace (- o) with (- - o + - (2 * o)) at 2 by ring. unfold rot_z. rewrite cos_plus, sin_plus. apply triple_eq; ring. }
  rewrite E. reflexivity.
Qed.
Lemma flux_alone_total s theta : wf_ylm (s_y s) -> ld_flux (s_u s) <> 0 -> total_flux s theta = flux_alone s theta.
Proof using Hz. intros W H. unfold total_flux, flux_alone. rewrite sky_flux by exact W. pose proof PI_RGT_0. field. split; [lra|exact H]. Qed.
Lemma unocculted_flux eps low high A2 s r x y z theta : wf_ylm (s_y s) -> ld_flux (s_u s) <> 0 ->
  (r = None \/ exists r', r = Some r' /\ surf_ydeg s <> 0%nat /\ (1 + r' <= sqrt (none0 x ^ 2 + none0 y ^ 2) \/ none0 z <= 0)) ->
  surface_light_curve as_euler eps low high A2 s r x y z theta = Ok (flux_alone s theta).
Proof using Hz.
  intros W H [->|(r' & -> & H0 & Hc)]; rewrite <- (flux_alone_total s theta W H).
  - exact (light_curve_no_occultor as_euler Hz s W eps low high A2 x y z theta).
  - exact (light_curve_not_occ as_euler Hz s W eps low high A2 r' x y z theta H0 Hc).
Qed.
Lemma uniform_flux s theta : wf_ylm (s_y s) -> ld_flux (s_u s) <> 0 -> surf_ydeg s = 0%nat ->
  exists c, y_data (s_y s) = [((0, 0)%Z, c)] /\ flux_alone s theta = s_amplitude s * c.
Proof using Hz.
  intros W H H0. destruct (ydeg0_data (s_y s) W H0) as (c & D). exists c. split; [exact D|]. rewrite <- (flux_alone_total s theta W H). apply ydeg0_flux; assumption.
Qed.
End Flux.

Definition planet (K : R) : body_of arr :=
  {| b_time_transit := None; b_time_peri := None; b_period := Some (Sc 4); b_semimajor := None; b_inclination := None;
     b_impact_param := None; b_eccentricity := None; b_omega_peri := None; b_sin_omega_peri := None;
     b_cos_omega_peri := None; b_asc_node := None; b_sin_asc_node := None; b_cos_asc_node := None;
     b_mass := None; b_radius := Some (Sc 0.1); b_semiamplitude := Some (Sc K); b_parallax := None |}.
Definition sun : central := {| c_mass := 1; c_radius := 1; c_density := 3 * 1 / (4 * PI * 1 ^ 3) |}.
Lemma planet_orbit K : exists o, make_orbital 1 sun (b_values (planet K)) = Ok o /\ make_body (planet K) = Ok (b_values (planet K)) /\ ob_radius o = Some 0.1 /\
  forall au kep, (let '(x, y, z) := relative_position au kep o (-1) None in z <= 0) /\ radial_velocity au kep o (-1) None = K.
Proof.
  eexists. split; [reflexivity|split; [reflexivity|split; [reflexivity|]]]. intros au kep. pose proof PI_RGT_0 as P.
  assert (M : forall a b c : R, 2 * PI * (-1 - 0 - - (0.5 * PI) * 4 / (2 * PI)) / 4 = 0) by (intros; replace 0.5 with (/ 2) by lra; field; lra).
  split.
  - unfold relative_position, position_and_velocity, true_anomaly_sc, mean_anomaly. cbn -[pow cbrt Rmult Rdiv Rplus Rminus Ropp]. rewrite (M 0 0 0), sin_0. right. ring.
  - unfold radial_velocity, central_velocity, position_and_velocity, true_anomaly_sc, mean_anomaly. cbn -[pow cbrt Rmult Rdiv Rplus Rminus Ropp]. rewrite (M 0 0 0), cos_0. ring.
Qed.
Definition flat (amp : R) (v : ylm) : surface :=
  {| s_y := v; s_inc := Some (PI / 2); s_obl := None; s_u := []; s_period := Some 1; s_amplitude := amp; s_normalize := false; s_phase := 0; s_radius := 1; s_shear := None |}.
Lemma flat_ylm : exists v, make_ylm [((0, 0)%Z, 1)] = Ok v /\ wf_ylm v /\ y_data v = [((0, 0)%Z, 1)] /\ Z.to_nat (y_deg v) = 0%nat.
Proof.
  eexists. split; [reflexivity|]. split; [|split; reflexivity]. apply (make_ylm_wf [((0, 0)%Z, 1)]); [|reflexivity].
  split; [constructor; [intros []|constructor]|]. intros k [<-|[]]; unfold valid_lm; cbn; lia.
Qed.
Lemma ld_flux_nil : ld_flux [] = PI.
Proof. unfold ld_flux. rewrite (disk_ext_in _ (fun x _ => 1 + 0 * x + 0 * (x * x))) by (intros; unfold ld_profile; cbn [length bigsum]; ring). rewrite disk_lin. field. Qed.
Lemma two_planets cs K1 K2 : exists sys o1 o2, make_ssystem 1 (Some sun) (Some cs) [(SBody (planet K1) None, None); (SBody (planet K2) None, None)] = Ok sys /\
  ss_central sys = sun /\ ss_surface sys = cs /\ ss_bodies sys = [o1; o2] /\ ss_surfaces sys = [None; None] /\
  forall au kep, not_in_front au kep sys (-1) o1 /\ not_in_front au kep sys (-1) o2 /\ radial_velocity au kep o1 (-1) None = K1 /\ radial_velocity au kep o2 (-1) None = K2.
Proof.
  destruct (planet_orbit K1) as (o1 & E1 & M1 & R1 & H1). destruct (planet_orbit K2) as (o2 & E2 & M2 & R2 & H2).
  exists {| ss_central := sun; ss_surface := cs; ss_bodies := [o1; o2]; ss_surfaces := [None; None] |}, o1, o2.
  split; [|split; [reflexivity|split; [reflexivity|split; [reflexivity|split; [reflexivity|]]]]].
  - unfold make_ssystem. cbn [rbind build_sbodies]. rewrite M1, M2. cbn [rbind]. rewrite E1, E2. reflexivity.
  - intros au kep. destruct (H1 au kep) as [Z1 V1], (H2 au kep) as [Z2 V2]. split; [|split; [|split; assumption]].
    + exists 0.1. split; [exact R1|]. destruct (relative_position au kep o1 (-1) None) as [[x y] z]. now right.
    + exists 0.1. split; [exact R2|]. destruct (relative_position au kep o2 (-1) None) as [[x y] z]. now right.
Qed.
(** a uniform star of amplitude 2 with two planets, none in front: alone its flux is 2, in the system 0 *)
Lemma system_amplitude_refuted as_euler eps low high A2 au kep : zyz_euler as_euler -> exists cs sys, wf_ylm (s_y cs) /\
  make_ssystem 1 (Some sun) (Some cs) [(SBody (planet 1) None, None); (SBody (planet 2) None, None)] = Ok sys /\
  (forall o, In o (ss_bodies sys) -> not_in_front au kep sys (-1) o) /\
  surface_light_curve as_euler eps low high A2 cs None None None None (rotational_phase cs (-1)) = Ok 2 /\
  starry_light_curve as_euler eps low high A2 au kep sys (-1) = Ok [0; 0; 0].
Proof.
  intros Hz. destruct flat_ylm as (v & _ & W & D & D0). set (cs := flat 2 v). destruct (two_planets cs 1 2) as (sys & o1 & o2 & E & E1 & E2 & E3 & E4 & H). destruct (H au kep) as (F1 & F2 & _).
  exists cs, sys. split; [exact W|split; [exact E|split; [|]]].
  - rewrite E3. intros o [<-|[<-|[]]]; assumption.
  - assert (A : surface_light_curve as_euler eps low high A2 cs None None None None (rotational_phase cs (-1)) = Ok 2).
    { rewrite (light_curve_no_occultor as_euler Hz cs W). f_equal. rewrite (ydeg0_flux cs 1 _ W D); [cbn [cs flat s_amplitude]; ring|]. cbn [cs flat s_u]. rewrite ld_flux_nil. pose proof PI_RGT_0. lra. }
    split; [exact A|]. unfold starry_light_curve, system_observable. rewrite E2, A, E3, E4. cbn [rbind length Nat.ltb Nat.leb Nat.sub combine].
    assert (C : forall o, not_in_front au kep sys (-1) o -> central_obs au kep (surface_light_curve as_euler eps low high A2) sys (rotational_phase cs (-1)) (-1) o = Ok 1).
    { intros o Ho. apply central_alone_deg0; [rewrite E2; exact D0|rewrite E1; cbn; lra|exact Ho]. }
    cbn [Stack.mapM]. rewrite (C o1 F1), (C o2 F2). cbn [rbind]. destruct F1 as (r1 & R1 & _), F2 as (r2 & R2 & _).
    rewrite (body_none as_euler eps low high A2 au kep sys (-1) o1 r1 R1), (body_none as_euler eps low high A2 au kep sys (-1) o2 r2 R2). cbn [rbind app Rsum fold_right]. f_equal. f_equal. change (INR 1) with 1. ring.
Qed.
(** two planets whose reflex velocities are 1 and 2: only the first counts *)
Lemma system_rv_refuted as_euler eps low high A2 au kep : zyz_euler as_euler -> exists cs sys o1 o2, wf_ylm (s_y cs) /\
  make_ssystem 1 (Some sun) (Some cs) [(SBody (planet 1) None, None); (SBody (planet 2) None, None)] = Ok sys /\
  ss_bodies sys = [o1; o2] /\ radial_velocity au kep o1 (-1) None = 1 /\ radial_velocity au kep o2 (-1) None = 2 /\
  surface_radial_velocity as_euler eps low high A2 cs None None None None (rotational_phase cs (-1)) = Ok 0 /\
  starry_radial_velocity as_euler eps low high A2 au kep sys [-1] = Ok [[1; 0; 0]].
Proof.
  intros Hz. destruct flat_ylm as (v & _ & W & D & D0). set (cs := flat 1 v). destruct (two_planets cs 1 2) as (sys & o1 & o2 & E & E1 & E2 & E3 & E4 & H). destruct (H au kep) as (F1 & F2 & V1 & V2).
  exists cs, sys, o1, o2. split; [exact W|split; [exact E|split; [exact E3|split; [exact V1|split; [exact V2|]]]]].
  set (th := rotational_phase cs (-1)). assert (P := PI_RGT_0).
  assert (L : ld_flux (s_u cs) <> 0) by (cbn [cs flat s_u]; rewrite ld_flux_nil; lra).
  assert (T : total_flux cs th = 1) by (rewrite (ydeg0_flux cs 1 _ W D L); cbn [cs flat s_amplitude]; ring).
  assert (N : visible_flux (seen_intensity (y_data (s_y cs)) (s_u cs) (s_inc cs) (s_obl cs) th) <> 0).
  { intros Q. unfold total_flux, seen in T. rewrite Q in T. lra. }
  assert (HV : surf_veq cs = Ok (2 * PI * 1 / 1)). { unfold surf_veq. cbn [s_period cs flat s_radius]. destruct (Reqb_spec 1 0); [lra|reflexivity]. }
  assert (HI : forall x y z, seen_intensity (y_data (s_y cs)) (s_u cs) (s_inc cs) (s_obl cs) th (x, y, z) = / PI).
  { intros x y z. unfold seen_intensity. cbn [cs flat s_y]. rewrite D. unfold coeffs_value, ld_profile. destruct (seen_point _ _ _ _) as [[a b] c]. cbn [map Rsum fold_right fst snd length bigsum flat s_u cs]. change (Z.to_nat 0) with 0%nat. rewrite Y00, sq4pi.
    assert (S1 : 0 < sqrt PI) by (apply sqrt_lt_R0; lra). assert (Q : sqrt PI * sqrt PI = PI) by (apply sqrt_sqrt; lra). transitivity (1 / (sqrt PI * sqrt PI)); [field; lra|rewrite Q; field; lra]. }
  assert (RV : forall r x y z, (r = None \/ exists r', r = Some r' /\ (1 + r' <= sqrt (none0 x ^ 2 + none0 y ^ 2) \/ none0 z <= 0)) ->
    surface_radial_velocity as_euler eps low high A2 cs r x y z th = Ok 0).
  { intros r x y z Hc. rewrite (radial_velocity_spec as_euler eps low high A2 cs _ r x y z th Hz W HV eq_refl N L Hc). f_equal.
    match goal with |- _ * (?w / _) = 0 => assert (Ew : w = 0) end; [|rewrite Ew; unfold Rdiv; ring].
    unfold visible_flux. rewrite (disk_ext_in _ (fun x _ => 0 + 2 * x + 0 * (x * x))); [rewrite disk_lin; field|].
    intros a b _. rewrite HI. unfold recession, pole, cross3. cbn [cs flat s_obl s_inc angle0 snd]. rewrite sin_PI2, cos_0, sin_0. field. lra. }
  split; [apply RV; now left|].
  assert (C : forall o, not_in_front au kep sys (-1) o -> central_obs au kep (surface_radial_velocity as_euler eps low high A2) sys th (-1) o = Ok 0).
  { intros o (r & Er & Ho). unfold central_obs, body_radius. rewrite Er, E1, E2. destruct (relative_position au kep o (-1) None) as [[x y] z]. cbn [rbind sun c_radius]. apply RV. right. eexists. split; [reflexivity|].
    cbn [none0]. rewrite E1 in Ho. apply (scaled_sep 1 r x y z); [lra|exact Ho]. }
  assert (O : system_observable au kep (surface_radial_velocity as_euler eps low high A2) sys (-1) = Ok [0; 0; 0]).
  { unfold system_observable. rewrite E2. fold th. rewrite (RV None None None None (or_introl eq_refl)). cbn [rbind]. rewrite E3, E4. cbn [length Nat.ltb Nat.leb Nat.sub combine Stack.mapM].
    rewrite (C o1 F1), (C o2 F2). cbn [rbind]. destruct F1 as (r1 & R1 & _), F2 as (r2 & R2 & _). unfold body_obs, body_radius. rewrite R1, R2.
    destruct (relative_position au kep o1 (-1) None) as [[x1 y1] z1], (relative_position au kep o2 (-1) None) as [[x2 y2] z2]. cbn [rbind app Rsum fold_right]. f_equal. f_equal. change (INR 1) with 1. ring. }
  unfold starry_radial_velocity, system_radial_velocity, system_observable_times. cbn [Stack.mapM]. rewrite O. cbn [rbind]. rewrite E3. cbn [combine map fst snd]. rewrite V1. f_equal. f_equal. f_equal. ring.
Qed.
(** the structure of the observable, spelt out *)
Lemma observable_spec au kep obs sys t r : length (ss_bodies sys) = length (ss_surfaces sys) -> ss_bodies sys <> [] -> system_observable au kep obs sys t = Ok r ->
  let rc := c_radius (ss_central sys) in let theta := rotational_phase (ss_surface sys) t in
  exists f0 fs bs, r = (f0 + Rsum (map (fun f => f - f0) fs)) :: bs /\ obs (ss_surface sys) None None None None theta = Ok f0 /\
    length fs = length (ss_bodies sys) /\ length bs = length (ss_bodies sys) /\
    forall i o s, nth_error (ss_bodies sys) i = Some o -> nth_error (ss_surfaces sys) i = Some s -> exists ro f b, ob_radius o = Some ro /\ nth_error fs i = Some f /\ nth_error bs i = Some b /\
      let '(x, y, z) := relative_position au kep o t None in
      obs (ss_surface sys) (Some (ro / rc)) (Some (x / rc)) (Some (y / rc)) (Some (z / rc)) theta = Ok f /\
      match s with
      | None => b = 0
      | Some s => obs s (Some (rc / ro)) (Some (- x / ro)) (Some (- y / ro)) (Some (- z / ro)) (rotational_phase s t) = Ok b
      end.
Proof.
  intros L N H rc theta. destruct (observable_ok au kep obs sys t r L N H) as (f0 & fs & bs & -> & E0 & Lf & Lb & Nf & Nb). exists f0, fs, bs. split; [|split; [exact E0|split; [exact Lf|split; [exact Lb|]]]].
  - f_equal. assert (G : forall l, Rsum (map (fun f => f - f0) l) = Rsum l - INR (length l) * f0).
    { induction l as [|a l IH]; [cbn; ring|]. cbn [map Rsum fold_right length]. change (fold_right Rplus 0 (map (fun f => f - f0) l)) with (Rsum (map (fun f => f - f0) l)). rewrite IH, S_INR. change (fold_right Rplus 0 l) with (Rsum l). ring. }
    rewrite G. assert (length fs <> 0%nat) by (rewrite Lf; destruct (ss_bodies sys); [contradiction|discriminate]). rewrite minus_INR by lia. change (INR 1) with 1. ring.
  - intros i o s Ho Hs. destruct (Nf i o Ho) as (f & Ef & Of). destruct (Nb i o s Ho Hs) as (b & Eb & Ob). unfold central_obs, body_obs, body_radius in *.
    destruct (ob_radius o) as [ro|]; [|destruct (relative_position au kep o t None) as [[? ?] ?]; discriminate]. exists ro, f, b. split; [reflexivity|split; [exact Ef|split; [exact Eb|]]].
    destruct (relative_position au kep o t None) as [[x y] z]. cbn [rbind] in *. split; [exact Of|]. destruct s; [exact Ob|now injection Ob as <-].
Qed.
Lemma system_clear as_euler eps low high A2 au kep sys t r : zyz_euler as_euler -> length (ss_bodies sys) = length (ss_surfaces sys) -> wf_ylm (s_y (ss_surface sys)) -> ld_flux (s_u (ss_surface sys)) <> 0 -> 0 < c_radius (ss_central sys) ->
  (forall o, In o (ss_bodies sys) -> not_in_front au kep sys t o) -> starry_light_curve as_euler eps low high A2 au kep sys t = Ok r ->
  let n := length (ss_bodies sys) in let f0 := flux_alone (ss_surface sys) (rotational_phase (ss_surface sys) t) in
  exists bs, length bs = n /\ r = (if (surf_ydeg (ss_surface sys) =? 0)%nat && negb (n =? 0)%nat then INR n - INR (n - 1) * f0 else f0) :: bs.
Proof.
  intros Hz L W HL Hc Hn E n f0. unfold f0. rewrite <- (flux_alone_total as_euler Hz (ss_surface sys) _ W HL). exact (system_unocculted as_euler Hz eps low high A2 au kep sys t r L W Hc Hn E).
Qed.
Lemma deg0_clear as_euler eps low high A2 s r x y z theta : surf_ydeg s = 0%nat ->
  1 + r <= sqrt (x ^ 2 + y ^ 2) \/ z <= 0 ->
  surface_light_curve as_euler eps low high A2 s (Some r) (Some x) (Some y) (Some z) theta = Ok 1.
Proof.
  intros H0 H. rewrite light_curve_deg0 by exact H0. destruct (og_occ _) eqn:E; [|f_equal; ring]. apply geometry_occ in E. cbn [none0] in E. lra.
Qed.
Lemma deg0_transit as_euler eps low high A2 s r x y z theta : surf_ydeg s = 0%nat ->
  sqrt (x ^ 2 + y ^ 2) < 1 + r -> 0 < z ->
  surface_light_curve as_euler eps low high A2 s (Some r) (Some x) (Some y) (Some z) theta =
  Ok (1 + LimbDark.light_curve eps high (s_u s) (sqrt (x ^ 2 + y ^ 2)) r).
Proof.
  intros H0 H Hz. rewrite light_curve_deg0 by exact H0. destruct (og_occ _) eqn:E; [reflexivity|].
  assert (T : og_occ (geometry r (Some x) (Some y) (Some z)) = true) by (apply geometry_occ; cbn [none0]; lra). rewrite T in E. discriminate.
Qed.
