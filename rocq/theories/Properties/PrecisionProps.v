(** C88: starry/multiprecision/precision.py.  The parameters are those of C85 (quad, Uinv, tol, prec, A2m) and of C81 (as_euler, A2, eps and the rules). *)
From Coq Require Import Reals Lra Lia ZArith List Bool Arith.
From Coquelicot Require Import Coquelicot.
From Verif Require Import Base.RealAux Base.Dict Model.Poly Model.Basis Model.Rotation Model.SolutionVector Model.Ylm Model.Surface Model.StarryLightCurve Model.MpBasis Model.MpRotation Model.MpFlux Model.MpPrecision
  Spec.LimbDarkSpec Spec.RotationSpec Spec.BasisSpec Spec.DiskSpec Spec.OccultSpec Spec.YlmSpec Spec.SurfaceSpec Spec.SkySpec Spec.QuadSpec Spec.MpRotationSpec Spec.MpFluxSpec Spec.PrecisionSpec
  Proof.Euler Proof.GaussLegendre Proof.OccultedFlux Proof.PrecisionProof Properties.SkyProps Properties.MpProps Properties.MpFluxProps.
From Verif Require Model.LimbDark.
Import ListNotations.
Open Scope R_scope.

(** the default impact parameter is one at which part of the star is hidden and the reference is defined *)
Theorem C88_default : forall r, 0 < r -> let b := precision_b r None in 0 < b /\ Rabs b < 1 + r /\ r < 1 + Rabs b.
Proof. exact default_b. Qed.
Print Assumptions C88_default.
(** limb_dark_light_curve returns exactly the error of the limb-darkened light curve, *)
Theorem C88_limb_dark : forall quad Uinv A2m r bo, let b := precision_b r bo in exact_quad quad -> b <> 0 -> 0 < r -> Rabs b < 1 + r -> r < 1 + Rabs b -> forall eps high tol prec n, mp_A2_returns n (A2m n) ->
  limb_dark_precision eps high quad Uinv tol prec A2m n r bo = Ok (Rabs (1 + LimbDark.light_curve eps high (repeat 1 n) b r - occulted_flux (repeat 1 n) (Rabs b) r / disk_flux (repeat 1 n))).
Proof. exact precision_ld. Qed.
Print Assumptions C88_limb_dark.
(** which goes to 0 as the order grows *)
Theorem C88_limb_dark_order : forall quad Uinv A2m r bo, let b := precision_b r bo in exact_quad quad -> b <> 0 -> 0 < r -> Rabs b < 1 + r -> r < 1 + Rabs b -> forall n, mp_A2_returns n (A2m n) ->
  forall delta, 0 < delta -> exists N, forall k rule, (N <= k)%nat -> gauss_legendre k rule -> exists eps0, 0 < eps0 /\ forall eps, 0 < eps <= eps0 ->
  forall tol prec, exists e, limb_dark_precision eps rule quad Uinv tol prec A2m n r bo = Ok e /\ 0 <= e <= delta.
Proof. exact precision_ld_limit. Qed.
Print Assumptions C88_limb_dark_order.
(** starry_light_curve returns the error of the light curve of the map, up to the working precision and a multiple of the angle tol by which the reference turns the map *)
Theorem C88_map : forall quad Uinv A2m r bo, let b := precision_b r bo in exact_quad quad -> b <> 0 -> 0 < r -> Rabs b < 1 + r -> r < 1 + Rabs b -> forall as_euler A2 d n, (1 <= d)%nat -> inverse_of_U Uinv -> mp_A2_returns (d + n) (A2m (d + n)%nat) ->
  exists K, 0 <= K /\ forall tol, 0 < tol < 1 -> forall delta, 0 < delta -> exists prec0, 0 < prec0 /\ forall prec, 0 < prec < prec0 ->
  exists v s, ylm_from_dense (repeat 1 ((d + 1) * (d + 1))) true = Ok v /\ make_surface (Some v) (Some (PI / 2)) None (repeat 1 n) None 1 false 0 1 None = Ok s /\
  forall eps low high calc, surface_light_curve as_euler eps low high A2 s (Some r) None (Some b) (Some 1) None = Ok calc ->
  exists e, starry_precision as_euler eps low high A2 quad Uinv tol prec A2m d n r bo = Ok e /\ Rabs (e - Rabs (calc - ones_flux d n b r)) <= delta + K * tol.
Proof. exact precision_map. Qed.
Print Assumptions C88_map.
(** as the order grows it falls to that multiple of tol plus the bound of C81 on the 20 nodes of the polynomial entries *)
Theorem C88_map_order : forall quad Uinv A2m r bo, let b := precision_b r bo in exact_quad quad -> b <> 0 -> 0 < r -> Rabs b < 1 + r -> r < 1 + Rabs b -> forall as_euler A2 d n, zyz_euler as_euler -> (1 <= d)%nat -> inverse_of_U Uinv ->
  mp_A2_returns (d + n) (A2m (d + n)%nat) -> right_inverse (ncoef (d + n)) (A2_inv (Z.of_nat (d + n))) (A2 (d + n)%nat) ->
  exists g K, green_coefficients (d + n) g (turned 0 b (fun p => 2 / sqrt PI * map_at d (repeat 1 (ncoef d)) p * ld_profile (repeat 1 n) (snd p))) /\ 0 <= K /\
  forall tol, 0 < tol < 1 -> forall delta, 0 < delta -> exists N, forall k low high, (N <= k)%nat -> gauss_legendre (Nat.min k 20) low -> gauss_legendre k high -> exists eps0, 0 < eps0 /\ forall eps, 0 < eps <= eps0 ->
  exists prec0, 0 < prec0 /\ forall prec, 0 < prec < prec0 ->
  exists e, starry_precision as_euler eps low high A2 quad Uinv tol prec A2m d n r bo = Ok e /\ 0 <= e <= delta + K * tol + (INR n + 2) / 2 * even_bounds 20 (d + n) g (Rabs b) r.
Proof. exact precision_map_limit. Qed.
Print Assumptions C88_map_order.
(** a map of degree 0: the same as limb_dark_light_curve *)
Theorem C88_uniform : forall quad Uinv A2m r bo, let b := precision_b r bo in exact_quad quad -> b <> 0 -> 0 < r -> Rabs b < 1 + r -> r < 1 + Rabs b -> forall as_euler A2 eps low high tol prec n, mp_A2_returns n (A2m n) ->
  starry_precision as_euler eps low high A2 quad Uinv tol prec A2m 0 n r bo = Ok (Rabs (1 + LimbDark.light_curve eps high (repeat 1 n) (Rabs b) r - occulted_flux (repeat 1 n) (Rabs b) r / disk_flux (repeat 1 n))).
Proof. exact precision_uniform. Qed.
Print Assumptions C88_uniform.
(** the fluxes past and of the occulted star that the reference leaves unanswered *)
Theorem C88_clear_refuted : forall eps high quad Uinv tol prec A2m n r b, 1 + r <= Rabs b -> limb_dark_precision eps high quad Uinv tol prec A2m n r (Some b) = Err AttributeError.
Proof. exact precision_ld_clear. Qed.
Print Assumptions C88_clear_refuted.
Theorem C88_centred_refuted : forall eps high quad Uinv tol prec A2m n r, inverse_of_U Uinv -> 0 < tol < 1 -> -1 < r <= 1 -> limb_dark_precision eps high quad Uinv tol prec A2m n r (Some 0) = Err ZeroDivisionError.
Proof. exact precision_ld_centred. Qed.
Print Assumptions C88_centred_refuted.
(** the rotation by tol moves the flux of C85_map by a multiple of tol that only depends on the map and the limb darkening *)
Theorem C85_nudged_flux : forall d u y, (1 <= d)%nat -> length y = ncoef d -> nth 0 y 0 = 1 -> ld_flux u <> 0 -> exists K, 0 <= K /\
  forall tol inc obl phi b r, 0 < tol < 1 -> obl = 0 \/ cos obl <> 1 -> inc = PI / 2 \/ cos inc <> 0 -> b <> 0 -> 0 < r -> Rabs b < 1 + r -> r < 1 + Rabs b ->
  Rabs (unhidden_flux 0 b r (fun p => 2 / sqrt PI * map_at d y (nudged_point tol inc obl phi p) * ld_profile u (snd p)) - unhidden_flux 0 b r (fun p => 2 / sqrt PI * map_at d y (map_point (Some inc) (Some obl) (Some phi) p) * ld_profile u (snd p))) <= K * tol.
Proof. exact nudge_bound. Qed.
Print Assumptions C85_nudged_flux.

Example C88_sat : exact_quad (fun f lo hi => RInt f lo hi) /\ inverse_of_U (fun l r c => Cconj (mp_U l c r)) /\ precision_b (1 / 4) None = 1 - 1 / 4 /\ zyz_euler rotvec_zyz /\
  (exists M, mp_A2_returns (1 + 2) M) /\ (exists A2 : nat -> matrix, right_inverse (ncoef (1 + 2)) (A2_inv (Z.of_nat (1 + 2))) (A2 (1 + 2)%nat)) /\ exists low high, gauss_legendre (Nat.min 30 20) low /\ gauss_legendre 30 high.
Proof.
  split; [exact (proj1 C85_sat)|split; [exact (proj1 (proj2 C85_sat))|split; [|split; [exact (proj1 C78_sat)|split; [|split]]]]].
  - unfold precision_b, Rltb. destruct (Rlt_dec (1 / 4) 1); [reflexivity|lra].
  - destruct (C80_A2_total (1 + 2)) as (M & H & _). exists M. exact H.
  - destruct A2_exists as (A2 & H). exists A2. apply H. lia.
  - destruct (gauss_exists (Nat.min 30 20)) as (a & Ha). destruct (gauss_exists 30) as (c & Hc). exists a, c. split; assumption.
Qed.
