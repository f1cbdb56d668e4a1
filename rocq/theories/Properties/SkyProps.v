(** C77, C78, C79: occultations of maps (starry/core/solution.py, starry/light_curves.py, starry/doppler.py).  [low] and
    [high] are the two Gauss-Legendre rules (any lists of nodes and weights), [eps] the machine epsilon, [A2 D] the inverse
    of A2_inv(D). *)
From Coq Require Import Reals Lra Lia ZArith List Bool Arith.
From Coquelicot Require Import Coquelicot.
From Verif Require Import Base.RealAux Base.Dict Model.Poly Model.Basis Model.S2fft Model.Rotation Model.Solution Model.SolutionVector Model.Ylm Model.RvMap Model.Surface Model.StarryLightCurve
  Spec.HarmonicSpec Spec.RotationSpec Spec.BasisSpec Spec.DiskSpec Spec.OccultSpec Spec.YlmSpec Spec.SurfaceSpec Spec.SystemSpec Spec.SkySpec
  Proof.Euler Proof.SurfaceProof Proof.StarryProof Proof.DopplerProof Proof.SystemExamples Proof.OccultedSky Proof.OccultedFlux.
Import ListNotations.
Open Scope R_scope.

(** C77: entry l^2 + nu of the solution vector is the flux of the n-th Green's basis function over the part of the unit
    disk that an occultor of radius |r| at (0, |b|) does not hide.  Part of it hidden: up to the quadrature error *)
Theorem C77_partly_hidden : forall eps low high lmax b r s l nu f, starry_solution eps low high lmax b r = Ok s -> (l <= lmax)%nat -> (nu <= 2 * l)%nat ->
  green_function l nu f -> 0 < eps -> Rabs b < 1 + Rabs r -> Rabs r < 1 + Rabs b -> clear_of_guards eps high (Rabs b) (Rabs r) ->
  nth (l * l + nu) s 0 = flux_around 0 (Rabs b) (Rabs r) f + green_error (green_rule low high nu) (Rabs b) (Rabs r) l nu.
Proof. exact entry_partial. Qed.
Print Assumptions C77_partly_hidden.
(** nothing hidden: exact *)
Theorem C77_clear : forall eps low high lmax b r s l nu f, starry_solution eps low high lmax b r = Ok s -> (l <= lmax)%nat -> (nu <= 2 * l)%nat ->
  green_function l nu f -> 1 + Rabs r <= Rabs b -> nth (l * l + nu) s 0 = disk_integral f.
Proof. exact entry_clear. Qed.
Print Assumptions C77_clear.
(** all hidden: exactly 0 *)
Theorem C77_all_hidden : forall eps low high lmax b r s l nu, starry_solution eps low high lmax b r = Ok s -> (l <= lmax)%nat -> (nu <= 2 * l)%nat ->
  1 + Rabs b <= Rabs r -> ~ (b = 0 /\ Rabs r = 1) -> nth (l * l + nu) s 0 = 0.
Proof. exact entry_hidden. Qed.
Print Assumptions C77_all_hidden.
(** except for a concentric occultor of exactly the same size, which hides nothing *)
Theorem C77_same_size_refuted : forall eps low high lmax r s l nu f, starry_solution eps low high lmax 0 r = Ok s -> Rabs r = 1 -> (l <= lmax)%nat -> (nu <= 2 * l)%nat ->
  green_function l nu f -> nth (l * l + nu) s 0 = disk_integral f.
Proof. intros eps low high lmax r s l nu f E Hr. exact (entry_centred eps low high lmax s l nu f r E Hr). Qed.
Print Assumptions C77_same_size_refuted.
Theorem C77_length : forall eps low high lmax b r s, starry_solution eps low high lmax b r = Ok s -> length s = ((lmax + 1) * (lmax + 1))%nat.
Proof. exact sol_length. Qed.
Print Assumptions C77_length.
(** the uniform disk and one partly in front of it *)
Example C77_sat : green_function 0 0 (fun _ _ => 1) /\ clear_of_guards (/ 1000) [(0, 2)] (Rabs (1 / 2)) (Rabs (1 / 4)) /\
  Rabs (1 / 2) < 1 + Rabs (1 / 4) /\ Rabs (1 / 4) < 1 + Rabs (1 / 2) /\ exists s, starry_solution (/ 1000) [] [(0, 2)] 2 (1 / 2) (1 / 4) = Ok s.
Proof.
  rewrite !Rabs_right by lra. split; [|split; [|split; [lra|split; [lra|eexists; reflexivity]]]].
  - intros x y _ _. exists 1, 0. unfold green_field. cbn [Nat.even Nat.mul Nat.sub Nat.add]. change (2 / 2)%nat with 1%nat. change (0 / 2)%nat with 0%nat. cbn [fst snd pow]. split; [|split; [|ring]].
    + assert (D : forall t : R, is_derive (fun t : R => t * 1 * 1) t 1); [|apply D]. intros t. auto_derive; [exact I|ring].
    + apply (is_derive_const 0).
  - right. split; [lra|split; [right; lra|]]. intros x w [E|[]]. injection E as <- <-. split; [lra|]. unfold node_at, edge_angle. destruct (Rle_dec _ _); [|lra].
    replace ((PI - 0) / 2 * 0 + (0 + PI) / 2) with (PI / 2) by field. rewrite cos_PI2. lra.
Qed.

(** C78: the light curve of a surface partly hidden by an occultor in front of it, in terms of the intensity on the sky:
    g are the Green's coefficients of the map, they do not depend on the occultor's size or on the rules *)
Theorem C78_partly_hidden : forall as_euler A2 s theta x y, zyz_euler as_euler -> wf_ylm (s_y s) -> surf_ydeg s <> 0%nat ->
  right_inverse (ncoef (surf_deg s)) (A2_inv (Z.of_nat (surf_deg s))) (A2 (surf_deg s)) ->
  let I := seen_intensity (y_data (s_y s)) (s_u s) (s_inc s) (s_obl s) theta in let b := sqrt (x ^ 2 + y ^ 2) in
  exists g, green_coefficients (surf_deg s) g (turned x y I) /\
  forall eps low high r z, 0 < eps -> 0 <= r -> b < 1 + r -> r < 1 + b -> 0 < z -> clear_of_guards eps high b r ->
  surface_light_curve as_euler eps low high A2 s (Some r) (Some x) (Some y) (Some z) theta =
  Ok (s_amplitude s * (unhidden_flux x y r I + edge_errors (surf_deg s) g low high b r) * (PI / ld_flux (s_u s))).
Proof. intros as_euler A2 s theta x y Hz Hy H0 HA. exact (transit_flux as_euler Hz s Hy A2 theta x y H0 HA). Qed.
Print Assumptions C78_partly_hidden.
(** so it is as close to the visible flux as the rules are to the edge integrals *)
Theorem C78_error_bound : forall as_euler s A2 theta x y, zyz_euler as_euler -> wf_ylm (s_y s) -> surf_ydeg s <> 0%nat ->
  right_inverse (ncoef (surf_deg s)) (A2_inv (Z.of_nat (surf_deg s))) (A2 (surf_deg s)) ->
  exists C, forall eps low high r z delta, let b := sqrt (x ^ 2 + y ^ 2) in 0 < eps -> 0 <= r -> b < 1 + r -> r < 1 + b -> 0 < z -> clear_of_guards eps high b r ->
  (forall l nu, (l <= surf_deg s)%nat -> (nu <= 2 * l)%nat -> Rabs (green_error (green_rule low high nu) b r l nu) <= delta) ->
  exists f, surface_light_curve as_euler eps low high A2 s (Some r) (Some x) (Some y) (Some z) theta = Ok f /\
  Rabs (f - s_amplitude s * unhidden_flux x y r (seen_intensity (y_data (s_y s)) (s_u s) (s_inc s) (s_obl s) theta) * (PI / ld_flux (s_u s))) <= C * delta.
Proof. exact transit_error. Qed.
Print Assumptions C78_error_bound.
(** total eclipse: no light, exactly *)
Theorem C78_all_hidden : forall as_euler A2 s theta x y eps low high r z, zyz_euler as_euler -> wf_ylm (s_y s) -> surf_ydeg s <> 0%nat ->
  1 + sqrt (x ^ 2 + y ^ 2) <= r -> ~ (x = 0 /\ y = 0 /\ r = 1) -> 0 < z ->
  surface_light_curve as_euler eps low high A2 s (Some r) (Some x) (Some y) (Some z) theta = Ok 0.
Proof. intros as_euler A2 s theta x y eps low high r z Hz Hy H0. exact (eclipse_flux as_euler Hz s Hy A2 theta x y eps low high r z H0). Qed.
Print Assumptions C78_all_hidden.
(** but an occultor of the same size exactly in front leaves all the light *)
Theorem C78_same_size_refuted : forall as_euler A2 s theta eps low high z, zyz_euler as_euler -> wf_ylm (s_y s) -> surf_ydeg s <> 0%nat ->
  right_inverse (ncoef (surf_deg s)) (A2_inv (Z.of_nat (surf_deg s))) (A2 (surf_deg s)) -> 0 < z ->
  surface_light_curve as_euler eps low high A2 s (Some 1) (Some 0) (Some 0) (Some z) theta =
  Ok (s_amplitude s * visible_flux (seen_intensity (y_data (s_y s)) (s_u s) (s_inc s) (s_obl s) theta) * (PI / ld_flux (s_u s))).
Proof. intros as_euler A2 s theta eps low high z Hz Hy H0 HA Hz'. exact (centred_flux as_euler Hz s Hy A2 theta eps low high z H0 HA Hz'). Qed.
Print Assumptions C78_same_size_refuted.
(** with an inclination given, this is the intensity that is rendered *)
Theorem C78_seen_is_rendered : forall d u i o theta, seen_intensity d u (Some i) o theta = sky_intensity d u (Some i) o theta /\ seen_intensity d u None None theta = sky_intensity d u None None theta.
Proof. intros. split; reflexivity. Qed.
Print Assumptions C78_seen_is_rendered.

(** C79: the radial velocity of a surface partly hidden by an occultor in front of it (the Rossiter-McLaughlin effect) *)
Theorem C79_partly_hidden : forall as_euler A2 s veq theta x y, zyz_euler as_euler -> wf_ylm (s_y s) -> surf_veq s = Ok veq -> s_shear s = None -> ld_flux (s_u s) <> 0 ->
  right_inverse (ncoef (surf_deg s + 1)) (A2_inv (Z.of_nat (surf_deg s + 1))) (A2 (surf_deg s + 1)%nat) ->
  let D := (surf_deg s + 1)%nat in let b := sqrt (x ^ 2 + y ^ 2) in
  let I := seen_intensity (y_data (s_y s)) (s_u s) (s_inc s) (s_obl s) theta in
  let V p := I p * recession veq (match s_inc s with Some i => i | None => PI / 2 end) (angle0 (s_obl s)) p in
  exists g h, green_coefficients D g (turned x y V) /\ green_coefficients D h (turned x y I) /\
  forall eps low high r z, 0 < eps -> 0 <= r -> b < 1 + r -> r < 1 + b -> 0 < z -> clear_of_guards eps high b r ->
  unhidden_flux x y r I + edge_errors D h low high b r <> 0 ->
  surface_radial_velocity as_euler eps low high A2 s (Some r) (Some x) (Some y) (Some z) theta =
  Ok (s_amplitude s * ((unhidden_flux x y r V + edge_errors D g low high b r) / (unhidden_flux x y r I + edge_errors D h low high b r))).
Proof. intros as_euler A2 s veq theta x y Hz Hy Hv Hs Hl HA. exact (transit_rv as_euler Hz s Hy A2 veq Hv theta x y Hs Hl HA). Qed.
Print Assumptions C79_partly_hidden.

(** a map of degree 1 and the inverse matrices *)
Definition C78_map : surface := {| s_y := {| y_data := [((0, 0)%Z, 1); ((1, 1)%Z, 1 / 2)]; y_deg := 1; y_diagonal := false |}; s_inc := Some 1; s_obl := Some (1 / 4); s_u := [0.4; 0.3]; s_period := Some 27; s_amplitude := 2; s_normalize := false; s_phase := 0; s_radius := 1; s_shear := None |}.
Example C78_sat : zyz_euler rotvec_zyz /\ wf_ylm (s_y C78_map) /\ surf_ydeg C78_map <> 0%nat /\ (exists v, surf_veq C78_map = Ok v) /\ s_shear C78_map = None /\
  exists A2, right_inverse (ncoef (surf_deg C78_map)) (A2_inv (Z.of_nat (surf_deg C78_map))) (A2 (surf_deg C78_map)) /\ right_inverse (ncoef (surf_deg C78_map + 1)) (A2_inv (Z.of_nat (surf_deg C78_map + 1))) (A2 (surf_deg C78_map + 1)%nat).
Proof.
  split; [exact rotvec_zyz_ok|]. split; [|split; [|split; [|split; [reflexivity|]]]].
  - split; [split; [constructor; [intros [H|[]]; discriminate|constructor; [intros []|constructor]]|intros k [<-|[<-|[]]]; unfold valid_lm; cbn; lia]|]. cbn [y_data y_deg C78_map s_y]. split; [discriminate|split; [lia|split; [intros k [<-|[<-|[]]]; cbn; lia|exists (1, 1)%Z; split; [right; left; reflexivity|reflexivity]]]].
  - cbn. discriminate.
  - unfold surf_veq. cbn [C78_map s_period s_radius]. unfold Reqb. destruct (Req_EM_T 27 0); [lra|eexists; reflexivity].
  - destruct A2_exists as (A2 & H). exists A2. split; apply H; cbn; lia.
Qed.
