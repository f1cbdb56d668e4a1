(** The radial velocity of a system in which one body transits, as the order grows. *)
From Coq Require Import Reals Lra Lia ZArith List Arith Bool.
From Coquelicot Require Import Coquelicot.
From Verif Require Import Base.RealAux Base.Dict Model.Keplerian Model.Poly Model.Basis Model.S2fft Model.Rotation Model.SolutionVector Model.Ylm Model.Surface Model.StarryLightCurve Model.SurfaceSystem
  Spec.LimbDarkSpec Spec.HarmonicSpec Spec.RotationSpec Spec.BasisSpec Spec.DiskSpec Spec.OccultSpec Spec.YlmSpec Spec.SurfaceSpec Spec.SystemSpec Spec.SkySpec Spec.ShadowSpec Spec.QuadSpec Spec.RvSystemSpec
  Proof.Euler Proof.SystemLight Proof.Shadows Proof.RvLimit Proof.SystemRv.
Import ListNotations.
Open Scope R_scope.

Lemma transit_rv_limit as_euler A2 au kep sys t o os veq x y r : zyz_euler as_euler -> let s := ss_surface sys in let theta := rotational_phase s t in
  ss_bodies sys = o :: os -> length (ss_bodies sys) = length (ss_surfaces sys) -> wf_ylm (s_y s) -> surf_veq s = Ok veq -> s_shear s = None -> ld_flux (s_u s) <> 0 -> visible_flux (seen_of s theta) <> 0 ->
  right_inverse (ncoef (surf_deg s + 1)) (A2_inv (Z.of_nat (surf_deg s + 1))) (A2 (surf_deg s + 1)%nat) -> 0 < c_radius (ss_central sys) ->
  occultors_of au kep sys t = [(x, y, r)] -> let D := (surf_deg s + 1)%nat in let b := sqrt (x ^ 2 + y ^ 2) in
  exists g h, green_coefficients D g (turned x y (moving_of s veq theta)) /\ green_coefficients D h (turned x y (seen_of s theta)) /\
  (0 <= r -> b < 1 + r -> r < 1 + b -> even_bounds 20 D h b r < Rabs (flux_past [(x, y, r)] (seen_of s theta)) -> forall delta, 0 < delta ->
   exists N, forall n low high, (N <= n)%nat -> gauss_legendre (Nat.min n 20) low -> gauss_legendre n high -> exists eps0, 0 < eps0 /\ forall eps, 0 < eps <= eps0 ->
   exists num den, den <> 0 /\ Rabs (num - flux_past [(x, y, r)] (moving_of s veq theta)) <= delta + even_bounds 20 D g b r /\ Rabs (den - flux_past [(x, y, r)] (seen_of s theta)) <= delta + even_bounds 20 D h b r /\
   forall ts i rows, nth_error ts i = Some t -> starry_radial_velocity as_euler eps low high A2 au kep sys ts = Ok rows -> exists bs, nth_error rows i = Some ((s_amplitude s * (num / den) + radial_velocity au kep o t None) :: bs)).
Proof.
  intros Hz s theta EB L W Hv Hs HL HI HA Hrc EO D b. destruct (rv_limit as_euler A2 s veq theta x y Hz W Hv Hs HL HA) as (g & h & Hg & Hh & H). exists g, h. split; [exact Hg|]. split; [exact Hh|].
  intros Hr H1 H2 Hb delta Hd. rewrite !past_unhidden in *. destruct (H r Hr H1 H2 Hb delta Hd) as (N & HN). exists N. intros n low high Hn Gl Gh. destruct (HN n low high Hn Gl Gh) as (e & He & Q). exists e. split; [exact He|]. intros eps Heps.
  destruct (Q eps Heps) as (num & den & E & Nz & B1 & B2). exists num, den. split; [exact Nz|]. split; [exact B1|]. split; [exact B2|].
  intros ts i rows Et Er. destruct (sys_rv_ok au kep _ sys ts o os rows EB L Er) as (_ & K). destruct (K i t Et) as (c & bs & E1 & E2).
  set (v0 := s_amplitude s * mean_velocity s veq theta []).
  destruct (observable_vals au kep (surface_radial_velocity as_euler eps low high A2) sys t v0 (fun oc => oc = (x, y, r)) (fun _ v => v = s_amplitude s * (num / den)) L Hrc) with (row := c :: bs) as (vs & bs' & X1 & X2 & X3).
  - apply rv_alone; try assumption. now left.
  - intros r' x' y' z Hz'. apply rv_alone; try assumption. right. exists r'. split; [reflexivity|]. right. exact Hz'.
  - intros x' y' r' z Hz' Eo v Ev. injection Eo as -> -> ->. assert (E' : Ok v = Ok (s_amplitude s * (num / den))) by (transitivity (surface_radial_velocity as_euler eps low high A2 s (Some r) (Some x) (Some y) (Some z) theta); [symmetry; exact Ev|exact (E z Hz')]). now injection E'.
  - rewrite EO. constructor; [reflexivity|constructor].
  - exact E1.
  - rewrite EO in X3. inversion X3 as [|? v ? ? Y1 Y2]; subst. inversion Y2; subst. injection X1 as -> <-. exists bs. rewrite E2. cbn [map Rsum fold_right]. f_equal. f_equal. ring.
Qed.
