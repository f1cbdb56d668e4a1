(** C81: convergence with the order of the radial velocity of an occulted surface (starry/light_curves.py,
    experimental/starry/light_curves and starry/surface.py). *)
From Coq Require Import Reals Lra Lia ZArith List Bool Arith.
From Coquelicot Require Import Coquelicot.
From Verif Require Import Base.RealAux Base.Dict Model.Poly Model.Basis Model.S2fft Model.Rotation Model.SolutionVector Model.Ylm Model.Surface Model.StarryLightCurve
  Spec.LimbDarkSpec Spec.HarmonicSpec Spec.RotationSpec Spec.BasisSpec Spec.DiskSpec Spec.OccultSpec Spec.YlmSpec Spec.SurfaceSpec Spec.SystemSpec Spec.SkySpec Spec.QuadSpec Spec.ShadowSpec
  Proof.Euler Proof.Shadows Proof.RvLimit Proof.OccultedFlux Proof.DopplerProof Proof.DiskProof Proof.PrecisionProof Properties.SkyProps.
Import ListNotations.
Open Scope R_scope.

(** the returned value is the ratio of two numbers that come as close to the flux-weighted recession of the visible part of
    the hemisphere and to its flux as delta and the bound on the 20-node rule *)
Theorem C81_radial_velocity : forall as_euler A2 s veq theta x y, zyz_euler as_euler -> wf_ylm (s_y s) -> surf_veq s = Ok veq -> s_shear s = None -> ld_flux (s_u s) <> 0 ->
  right_inverse (ncoef (surf_deg s + 1)) (A2_inv (Z.of_nat (surf_deg s + 1))) (A2 (surf_deg s + 1)%nat) ->
  let D := (surf_deg s + 1)%nat in let b := sqrt (x ^ 2 + y ^ 2) in
  let I := seen_intensity (y_data (s_y s)) (s_u s) (s_inc s) (s_obl s) theta in
  let V p := I p * recession veq (match s_inc s with Some i => i | None => PI / 2 end) (angle0 (s_obl s)) p in
  exists g h, green_coefficients D g (turned x y V) /\ green_coefficients D h (turned x y I) /\
  forall r, 0 <= r -> b < 1 + r -> r < 1 + b -> even_bounds 20 D h b r < Rabs (unhidden_flux x y r I) -> forall delta, 0 < delta ->
  exists N, forall n low high, (N <= n)%nat -> gauss_legendre (Nat.min n 20) low -> gauss_legendre n high -> exists eps0, 0 < eps0 /\ forall eps, 0 < eps <= eps0 ->
  exists num den, (forall z, 0 < z -> surface_radial_velocity as_euler eps low high A2 s (Some r) (Some x) (Some y) (Some z) theta = Ok (s_amplitude s * (num / den))) /\ den <> 0 /\
    Rabs (num - unhidden_flux x y r V) <= delta + even_bounds 20 D g b r /\ Rabs (den - unhidden_flux x y r I) <= delta + even_bounds 20 D h b r.
Proof. exact rv_limit. Qed.
Print Assumptions C81_radial_velocity.

(** a uniform rotating star: whatever the coefficients h, the condition on the flux holds for all small enough occultors *)
Definition C81_star : surface := {| s_y := {| y_data := [((0, 0)%Z, 1)]; y_deg := 0; y_diagonal := true |}; s_inc := Some 1; s_obl := Some (1 / 4); s_u := []; s_period := Some 27; s_amplitude := 2; s_normalize := true; s_phase := 0; s_radius := 1; s_shear := None |}.
Example C81_rv_sat : zyz_euler rotvec_zyz /\ wf_ylm (s_y C81_star) /\ (exists v, surf_veq C81_star = Ok v) /\ s_shear C81_star = None /\ ld_flux (s_u C81_star) <> 0 /\
  (exists A2, right_inverse (ncoef (surf_deg C81_star + 1)) (A2_inv (Z.of_nat (surf_deg C81_star + 1))) (A2 (surf_deg C81_star + 1)%nat)) /\
  forall h, exists r0, 0 < r0 < 1 / 4 /\ forall r, 0 < r <= r0 -> even_bounds 20 (surf_deg C81_star + 1) h (sqrt (0 ^ 2 + (1 / 2) ^ 2)) r < Rabs (unhidden_flux 0 (1 / 2) r (seen_intensity (y_data (s_y C81_star)) (s_u C81_star) (s_inc C81_star) (s_obl C81_star) (Some 1))).
Proof.
  assert (W : wf_ylm (s_y C81_star)). { split; [split; [constructor; [intros []|constructor]|intros k [<-|[]]; unfold valid_lm; cbn; lia]|]. cbn [y_data y_deg C81_star s_y]. split; [discriminate|split; [lia|split; [intros k [<-|[]]; cbn; lia|exists (0, 0)%Z; split; [left; reflexivity|reflexivity]]]]. }
  assert (E : sqrt (0 ^ 2 + (1 / 2) ^ 2) = 1 / 2) by (replace (0 ^ 2 + (1 / 2) ^ 2) with (1 / 2 * (1 / 2)) by field; apply sqrt_square; lra).
  assert (P := PI_RGT_0).
  split; [exact rotvec_zyz_ok|]. split; [exact W|]. split; [|split; [reflexivity|split; [|split]]].
  - unfold surf_veq. cbn [C81_star s_period s_radius]. unfold Reqb. destruct (Req_EM_T 27 0); [lra|eexists; reflexivity].
  - cbn [C81_star s_u]. change (ld_flux []) with (ld_flux (repeat 1 0)). rewrite flux_ones. cbn [INR]. assert (0 < 2 * PI / (0 + 2)) by (apply Rdiv_lt_0_compat; lra). lra.
  - destruct A2_exists as (A2 & H). exists A2. apply H; cbn; lia.
  - intros h. assert (I0 : forall x y, seen_intensity (y_data (s_y C81_star)) (s_u C81_star) (s_inc C81_star) (s_obl C81_star) (Some 1) (x, y, zdisk x y) = 1 / PI * ld_profile [] (zdisk x y)).
    { intros x y. unfold seen_intensity. cbn [y_data s_y s_u C81_star snd]. f_equal. assert (S1 : 0 < sqrt PI) by (apply sqrt_lt_R0; lra). assert (S2 : sqrt PI * sqrt PI = PI) by (apply sqrt_sqrt; lra).
      destruct (seen_point _ _ _ _) as [[a b] d]. unfold coeffs_value. cbn [map Rsum fold_right fst snd]. change (Z.to_nat 0) with 0%nat. rewrite YlmFacts.Y00, DopplerProof.sq4pi.
      transitivity (1 / (sqrt PI * sqrt PI)); [field; lra|now rewrite S2]. }
    destruct (small_occultor (1 / PI) h (surf_deg C81_star + 1)) as (r0 & H0 & H); [apply Rdiv_lt_0_compat; lra|]. exists r0. split; [exact H0|]. intros r Hr. rewrite E.
    replace (unhidden_flux _ _ _ _) with (1 / PI * occulted_flux [] (1 / 2) r); [now apply H|].
    destruct (ld_hides [] 0 (1 / 2) r) as [C1 C2]. cbv zeta in C1, C2. rewrite E in C2. rewrite <- C2, <- disk_int_scal by exact C1. unfold unhidden_flux, flux_around. apply disk_ext. intros a b. rewrite <- hides_scal. unfold hides, unhidden_by. destruct (Rlt_dec _ _); [reflexivity|]. symmetry. apply I0.
Qed.
