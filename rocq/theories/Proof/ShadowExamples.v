(** Two bodies in front of each other. *)
From Coq Require Import Reals Lra Lia ZArith List Bool Arith Psatz.
From Coquelicot Require Import Coquelicot.
From Verif Require Import Base.RealAux Base.Dict Model.Keplerian Model.Poly Model.Basis Model.S2fft Model.Rotation Model.Solution Model.SolutionVector Model.Ylm Model.RvMap Model.Surface Model.StarryLightCurve Model.SurfaceSystem
  Spec.PolySpec Spec.HarmonicSpec Spec.RotationSpec Spec.DiskSpec Spec.BasisSpec Spec.YlmSpec Spec.SurfaceSpec Spec.SystemSpec Spec.SkySpec Spec.ShadowSpec
  Proof.PolyProof Proof.RTProof Proof.YlmProof Proof.YlmMore Proof.YlmFacts Proof.Euler Proof.AxisAngle Proof.KeplerianMore Proof.SurfaceProof Proof.StarryProof Proof.DopplerProof Proof.SystemProof Proof.SystemLight Proof.SurfaceFacts Proof.SystemExamples Proof.OccultedFlux Proof.DiskProof Proof.Shadows.
From Verif Require Model.Stack Model.LimbDark.
Import ListNotations.
Open Scope R_scope.

Definition big : body_of arr :=
  {| b_time_transit := None; b_time_peri := None; b_period := Some (Sc 4); b_semimajor := None; b_inclination := None;
     b_impact_param := None; b_eccentricity := None; b_omega_peri := None; b_sin_omega_peri := None;
     b_cos_omega_peri := None; b_asc_node := None; b_sin_asc_node := None; b_cos_asc_node := None;
     b_mass := None; b_radius := Some (Sc 2); b_semiamplitude := None; b_parallax := None |}.
Lemma big_orbit : exists o, make_orbital 1 sun (b_values big) = Ok o /\ make_body big = Ok (b_values big) /\ ob_radius o = Some 2 /\
  forall au kep, exists z, relative_position au kep o 0 None = (0, 0, z) /\ 0 < z.
Proof.
  eexists. split; [reflexivity|split; [reflexivity|split; [reflexivity|]]]. intros au kep. pose proof PI_RGT_0 as P.
  assert (M : 2 * PI * (0 - 0 - - (0.5 * PI) * 4 / (2 * PI)) / 4 = PI / 2) by (replace 0.5 with (/ 2) by lra; field; lra).
  unfold relative_position, position_and_velocity, true_anomaly_sc, mean_anomaly. cbn -[pow cbrt Rmult Rdiv Rplus Rminus Ropp]. rewrite M, sin_PI2, cos_PI2.
  eexists. split; [apply triple_eq; [ring| |reflexivity]; ring|].
  assert (0 < cbrt (1 * 1 * 4 ^ 2 / (4 * PI ^ 2))); [|lra]. apply cbrt_pos, Rdiv_lt_0_compat; nra.
Qed.
Lemma big_covers x y : in_disk x y -> over (0, 0, 2) x y = true.
Proof. unfold in_disk, over. intros H. destruct (Rlt_dec _ _) as [L|L]; [reflexivity|exfalso; apply L; nra]. Qed.
Theorem double_eclipse as_euler eps low high A2 au kep cs : zyz_euler as_euler -> wf_ylm (s_y cs) -> surf_ydeg cs <> 0%nat -> exists sys f0,
  make_ssystem 1 (Some sun) (Some cs) [(SBody big None, None); (SBody big None, None)] = Ok sys /\
  surface_light_curve as_euler eps low high A2 cs None None None None (rotational_phase cs 0) = Ok f0 /\
  occultors_of au kep sys 0 = [(0, 0, 2); (0, 0, 2)] /\ flux_past (occultors_of au kep sys 0) (seen_of cs (rotational_phase cs 0)) = 0 /\
  starry_light_curve as_euler eps low high A2 au kep sys 0 = Ok [- f0; 0; 0].
Proof.
  intros Hz W H0. destruct big_orbit as (o & E1 & E2 & Er & Ho). destruct (Ho au kep) as (z & Ep & Hp).
  exists {| ss_central := sun; ss_surface := cs; ss_bodies := [o; o]; ss_surfaces := [None; None] |}. exists (in_units cs (disk_integral (fun x y => seen_of cs (rotational_phase cs 0) (x, y, zdisk x y)))).
  split; [unfold make_ssystem; cbn [rbind build_sbodies]; rewrite E2; cbn [rbind]; rewrite E1; reflexivity|]. assert (A := alone_flux as_euler Hz cs W A2 eps low high (rotational_phase cs 0) None None None). split; [exact A|].
  assert (EO : occultors_of au kep {| ss_central := sun; ss_surface := cs; ss_bodies := [o; o]; ss_surfaces := [None; None] |} 0 = [(0, 0, 2); (0, 0, 2)]).
  { unfold occultors_of. cbn [ss_bodies flat_map]. rewrite Er, Ep. destruct (Rlt_dec 0 z); [|contradiction]. cbn [app ss_central sun c_radius]. unfold Rdiv. rewrite Rinv_1, !Rmult_1_r. reflexivity. }
  split; [exact EO|]. split.
  - rewrite EO. unfold flux_past. transitivity (disk_integral (fun _ _ => 0)); [|apply disk_int_zero]. apply disk_ext_in. intros x y Hd. unfold times_hidden. cbn [filter]. rewrite (big_covers x y Hd). reflexivity.
  - unfold starry_light_curve, system_observable. cbn [ss_surface ss_bodies ss_surfaces]. rewrite A. cbn [rbind length Nat.ltb Nat.leb Nat.sub combine Stack.mapM].
    unfold central_obs, body_obs, body_radius. rewrite Er, Ep. cbn [rbind ss_surface ss_central sun c_radius]. 
    rewrite (eclipse_flux as_euler Hz cs W A2 (rotational_phase cs 0) (0 / 1) (0 / 1) eps low high (2 / 1) (z / 1) H0).
    + cbn [rbind app Rsum fold_right]. f_equal. f_equal. change (INR 1) with 1. ring.
    + replace ((0 / 1) ^ 2 + (0 / 1) ^ 2) with 0 by field. rewrite sqrt_0. lra.
    + lra.
    + lra.
Qed.
(** a star with a map of degree 1 whose flux is 1 *)
Definition spotty : surface := {| s_y := {| y_data := [((0, 0)%Z, 1); ((1, 1)%Z, 1 / 2)]; y_deg := 1; y_diagonal := false |}; s_inc := None; s_obl := None; s_u := []; s_period := None; s_amplitude := 1; s_normalize := false; s_phase := 0; s_radius := 1; s_shear := None |}.
Lemma spotty_wf : wf_ylm (s_y spotty).
Proof.
  split; [split; [constructor; [intros [H|[]]; discriminate|constructor; [intros []|constructor]]|intros k [<-|[<-|[]]]; unfold valid_lm; cbn; lia]|]. cbn [y_data y_deg spotty s_y].
  split; [discriminate|split; [lia|split; [intros k [<-|[<-|[]]]; cbn; lia|exists (1, 1)%Z; split; [right; left; reflexivity|reflexivity]]]].
Qed.
Lemma spotty_seen t x y z : seen_of spotty (rotational_phase spotty t) (x, y, z) = / PI + sqrt 3 / (2 * PI) * x.
Proof.
  pose proof PI_RGT_0 as P. assert (S1 : 0 < sqrt PI) by (apply sqrt_lt_R0; lra). assert (Q : sqrt PI * sqrt PI = PI) by (apply sqrt_sqrt; lra).
  unfold seen_of, seen_intensity, rotational_phase. cbn [spotty s_y s_u s_inc s_obl s_period y_data seen_point angle0]. unfold seen_point, map_point. cbn [angle0]. rewrite Ropp_0, !rot_z_0.
  unfold rot_x at 2. rewrite cos_0, sin_0. unfold rot_x. unfold coeffs_value. cbn [map Rsum fold_right fst snd]. change (Z.to_nat 0) with 0%nat. change (Z.to_nat 1) with 1%nat. rewrite Y00, Y1pm by lia. cbn [Z.ltb Z.compare].
  unfold ld_profile. cbn [length bigsum]. rewrite sq4pi. transitivity (1 / (sqrt PI * sqrt PI) + sqrt 3 / (2 * (sqrt PI * sqrt PI)) * x); [field; lra|rewrite Q; field; lra].
Qed.
Lemma spotty_flux t : in_units spotty (disk_integral (fun x y => seen_of spotty (rotational_phase spotty t) (x, y, zdisk x y))) = 1.
Proof.
  pose proof PI_RGT_0 as P. rewrite (disk_ext_in _ (fun x _ => / PI + sqrt 3 / (2 * PI) * x + 0 * (x * x))) by (intros; rewrite spotty_seen; ring). rewrite disk_lin. unfold in_units. cbn [spotty s_amplitude s_u]. rewrite ld_flux_nil. field. lra.
Qed.
(** its light curve behind two bodies that both hide it completely *)
Theorem double_eclipse_refuted as_euler eps low high A2 au kep : zyz_euler as_euler -> exists cs sys, wf_ylm (s_y cs) /\
  make_ssystem 1 (Some sun) (Some cs) [(SBody big None, None); (SBody big None, None)] = Ok sys /\
  surface_light_curve as_euler eps low high A2 cs None None None None (rotational_phase cs 0) = Ok 1 /\
  flux_past (occultors_of au kep sys 0) (seen_of cs (rotational_phase cs 0)) = 0 /\ starry_light_curve as_euler eps low high A2 au kep sys 0 = Ok [-1; 0; 0].
Proof.
  intros Hz. destruct (double_eclipse as_euler eps low high A2 au kep spotty Hz spotty_wf ltac:(cbn; discriminate)) as (sys & f0 & E1 & E2 & _ & E3 & E4). exists spotty, sys. split; [exact spotty_wf|split; [exact E1|]].
  rewrite (alone_flux as_euler Hz spotty spotty_wf A2 eps low high _ None None None), spotty_flux in E2. injection E2 as <-.
  split; [|split; [exact E3|exact E4]]. rewrite (alone_flux as_euler Hz spotty spotty_wf A2 eps low high _ None None None), spotty_flux. reflexivity.
Qed.
(** a small planet in front *)
Lemma small_transit : exists sys, make_ssystem 1 (Some sun) (Some spotty) [(SBody (planet 1) None, None)] = Ok sys /\ length (ss_bodies sys) = length (ss_surfaces sys) /\ 0 < c_radius (ss_central sys) /\
  forall au kep, occultors_of au kep sys 0 = [(0, 0, 0.1)] /\ disjoint_shadows (occultors_of au kep sys 0) /\ List.Forall (regular (/ 10000) [(0, 2)]) (occultors_of au kep sys 0).
Proof.
  assert (PO : exists o, make_orbital 1 sun (b_values (planet 1)) = Ok o /\ make_body (planet 1) = Ok (b_values (planet 1)) /\ ob_radius o = Some 0.1 /\ forall au kep, exists z, relative_position au kep o 0 None = (0, 0, z) /\ 0 < z).
  { eexists. split; [reflexivity|split; [reflexivity|split; [reflexivity|]]]. intros au kep. pose proof PI_RGT_0 as P.
    assert (M : 2 * PI * (0 - 0 - - (0.5 * PI) * 4 / (2 * PI)) / 4 = PI / 2) by (replace 0.5 with (/ 2) by lra; field; lra).
    unfold relative_position, position_and_velocity, true_anomaly_sc, mean_anomaly. cbn -[pow cbrt Rmult Rdiv Rplus Rminus Ropp]. rewrite M, sin_PI2, cos_PI2.
    eexists. split; [apply triple_eq; [ring| |reflexivity]; ring|]. assert (0 < cbrt (1 * 1 * 4 ^ 2 / (4 * PI ^ 2))); [|lra]. apply cbrt_pos, Rdiv_lt_0_compat; nra. }
  destruct PO as (o & E1 & E2 & Er & Ho). exists {| ss_central := sun; ss_surface := spotty; ss_bodies := [o]; ss_surfaces := [None] |}.
  split; [unfold make_ssystem; cbn [rbind build_sbodies]; rewrite E2; cbn [rbind]; rewrite E1; reflexivity|]. split; [reflexivity|split; [cbn; lra|]]. intros au kep. destruct (Ho au kep) as (z & Ep & Hp).
  assert (EO : occultors_of au kep {| ss_central := sun; ss_surface := spotty; ss_bodies := [o]; ss_surfaces := [None] |} 0 = [(0, 0, 0.1)]).
  { unfold occultors_of. cbn [ss_bodies flat_map]. rewrite Er, Ep. destruct (Rlt_dec 0 z); [|contradiction]. cbn [app ss_central sun c_radius]. unfold Rdiv. rewrite Rinv_1, !Rmult_1_r. reflexivity. }
  split; [exact EO|]. rewrite EO. split.
  - intros x y _. unfold times_hidden. cbn [filter]. destruct (over _ _ _); cbn; lia.
  - constructor; [|constructor]. unfold regular. replace (0 ^ 2 + 0 ^ 2) with 0 by ring. rewrite sqrt_0. split; [lra|split; [lra|]]. intros _ _. right. split; [lra|split; [now left|]]. intros x w [E|[]]. injection E as <- <-. split; lra.
Qed.
