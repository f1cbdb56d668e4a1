(** C85: starry/multiprecision/flux.py, flux(ydeg, udeg, inc, obl)(b, r, y, phi, u, rotate).  [quad] is an exact integrator, [Uinv] the inverse of U,
    [tol] the constant 1e-20, [prec] the last digit of the working precision, [A2m] what multiprecision A2 returns. *)
From Coq Require Import Reals Lra Lia ZArith List Bool.
From Coquelicot Require Import Coquelicot.
From Verif Require Import Base.RealAux Base.Dict Model.Poly Model.Basis Model.MpBasis Model.MpSolution Model.MpRotation Model.MpFlux
  Spec.RotationSpec Spec.BasisSpec Spec.DiskSpec Spec.YlmSpec Spec.SurfaceSpec Spec.SkySpec Spec.QuadSpec Spec.MpRotationSpec Spec.MpFluxSpec Proof.MpRotationProof Proof.MpRotationDot Proof.MpFluxProof Properties.MpProps.
From Verif Require Proof.SystemExamples.
Import ListNotations.
Open Scope R_scope.

(** a limb darkened disk, part of it hidden: exactly the visible fraction of its light *)
Theorem C85_limb_dark : forall quad Uinv tol prec A2m u inc obl b r y phi rotate, exact_quad quad -> mp_A2_returns (length u) (A2m (length u)) ->
  b <> 0 -> 0 < r -> Rabs b < 1 + r -> r < 1 + Rabs b -> ld_flux u <> 0 ->
  mp_flux quad Uinv tol prec A2m 0 (length u) inc obl b r y phi u rotate = Ok (unhidden_flux 0 b r (fun p => ld_profile u (snd p)) / ld_flux u).
Proof. exact mp_flux_ld. Qed.
Print Assumptions C85_limb_dark.
(** a map, part of it hidden: as the working precision grows, the flux of the visible part of the map times the limb darkening *)
Theorem C85_map : forall quad Uinv tol A2m d u inc obl b r y phi, exact_quad quad -> inverse_of_U Uinv -> mp_A2_returns (d + length u) (A2m (d + length u)%nat) ->
  0 < tol < 1 -> (1 <= d)%nat -> length y = ncoef d -> nth 0 y 0 = 1 -> obl = 0 \/ cos obl <> 1 -> inc = PI / 2 \/ cos inc <> 0 ->
  b <> 0 -> 0 < r -> Rabs b < 1 + r -> r < 1 + Rabs b -> ld_flux u <> 0 ->
  approaches_value (fun prec => mp_flux quad Uinv tol prec A2m d (length u) inc obl b r (Array y) phi u true)
    (PI / ld_flux u * unhidden_flux 0 b r (fun p => 2 / sqrt PI * map_at d y (nudged_point tol inc obl phi p) * ld_profile u (snd p))).
Proof. exact mp_flux_map. Qed.
Print Assumptions C85_map.
(** nothing hidden and no limb darkening *)
Theorem C85_unocculted : forall quad Uinv tol A2m d inc obl b r y phi rotate, inverse_of_U Uinv -> 0 < tol < 1 -> (1 <= d)%nat -> length y = ncoef d -> nth 0 y 0 = 1 ->
  obl = 0 \/ cos obl <> 1 -> inc = PI / 2 \/ cos inc <> 0 -> 1 + r <= Rabs b ->
  approaches_value (fun prec => mp_flux quad Uinv tol prec A2m d 0 inc obl b r (Array y) phi [] rotate) (visible_flux (fun p => 2 / sqrt PI * map_at d y (nudged_point tol inc obl phi p))).
Proof. exact mp_flux_clear. Qed.
Print Assumptions C85_unocculted.
(** the point of the map seen at p is the one the core sees when neither angle is 0, and never farther from it than 2 tol *)
Theorem C85_point : forall tol inc obl phi p, obl <> 0 -> inc <> PI / 2 -> nudged_point tol inc obl phi p = map_point (Some inc) (Some obl) (Some phi) p.
Proof. exact nudged_is_map. Qed.
Print Assumptions C85_point.
Theorem C85_point_close : forall tol inc obl phi p, 0 < tol -> sphere3 p -> norm3 (add3 (nudged_point tol inc obl phi p) (scal3 (-1) (map_point (Some inc) (Some obl) (Some phi) p))) <= 2 * tol.
Proof. exact nudged_close. Qed.
Print Assumptions C85_point_close.
(** total eclipse *)
Theorem C85_total : forall quad Uinv tol prec A2m, inverse_of_U Uinv -> 0 < tol < 1 -> forall inc obl, obl = 0 \/ cos obl <> 1 -> inc = PI / 2 \/ cos inc <> 0 ->
  forall d u b r y phi rotate, d = 0%nat \/ length (y_list y) = ncoef d -> 1 < r -> Rabs b <= r - 1 -> mp_flux quad Uinv tol prec A2m d (length u) inc obl b r y phi u rotate = Ok 0.
Proof. exact flux_total. Qed.
Print Assumptions C85_total.
(** wrong numbers of coefficients *)
Theorem C85_lengths : forall quad Uinv tol prec A2m, inverse_of_U Uinv -> 0 < tol < 1 -> forall inc obl, obl = 0 \/ cos obl <> 1 -> inc = PI / 2 \/ cos inc <> 0 ->
  forall d udeg b r y phi u rotate, length u <> udeg \/ (d <> 0%nat /\ length (y_list y) <> ncoef d) -> mp_flux quad Uinv tol prec A2m d udeg inc obl b r y phi u rotate = Err AssertionError.
Proof. exact flux_assert. Qed.
Print Assumptions C85_lengths.
(** what fails although it is a legitimate question: a concentric occultor, *)
Theorem C85_concentric_refuted : forall quad Uinv tol prec A2m, inverse_of_U Uinv -> 0 < tol < 1 -> forall inc obl, obl = 0 \/ cos obl <> 1 -> inc = PI / 2 \/ cos inc <> 0 ->
  forall d u r y phi rotate, d = 0%nat \/ length (y_list y) = ncoef d -> -1 < r <= 1 -> mp_flux quad Uinv tol prec A2m d (length u) inc obl 0 r y phi u rotate = Err ZeroDivisionError.
Proof. exact flux_centred. Qed.
Print Assumptions C85_concentric_refuted.
(** limb darkening when nothing is hidden, with a map and without, *)
Theorem C85_unocculted_limb_dark_refuted : forall quad Uinv tol prec A2m, inverse_of_U Uinv -> 0 < tol < 1 -> forall inc obl, obl = 0 \/ cos obl <> 1 -> inc = PI / 2 \/ cos inc <> 0 ->
  forall d u b r y phi rotate, d <> 0%nat -> length y = ncoef d -> u <> [] -> 1 + r <= Rabs b -> mp_flux quad Uinv tol prec A2m d (length u) inc obl b r (Array y) phi u rotate = Err ValueError.
Proof. exact flux_clear_dark. Qed.
Print Assumptions C85_unocculted_limb_dark_refuted.
Theorem C85_unocculted_uniform_refuted : forall quad Uinv tol prec A2m inc obl u b r y phi rotate, 1 + r <= Rabs b ->
  mp_flux quad Uinv tol prec A2m 0 (length u) inc obl b r y phi u rotate = Err (match y with Sequence _ => AttributeError | Array _ => NameError end).
Proof. exact flux_clear_uniform. Qed.
Print Assumptions C85_unocculted_uniform_refuted.
(** and rotate=False with a map *)
Theorem C85_rotate_false_refuted : forall quad Uinv tol prec A2m, inverse_of_U Uinv -> 0 < tol < 1 -> forall inc obl, obl = 0 \/ cos obl <> 1 -> inc = PI / 2 \/ cos inc <> 0 ->
  forall d u b r y phi, exact_quad quad -> d <> 0%nat -> length y = ncoef d -> b <> 0 -> 0 < r -> Rabs b < 1 + r -> r < 1 + Rabs b -> mp_flux quad Uinv tol prec A2m d (length u) inc obl b r (Array y) phi u false = Err NameError.
Proof. exact flux_no_rotate. Qed.
Print Assumptions C85_rotate_false_refuted.

Example C85_sat : exact_quad (fun f lo hi => RInt f lo hi) /\ inverse_of_U (fun l r c => Cconj (mp_U l c r)) /\ (exists A2m, mp_A2_returns (1 + length (@nil R)) (A2m (1 + length (@nil R))%nat)) /\ ld_flux [] <> 0 /\
  (Rabs (-1 / 2) < 1 + 1 / 4 /\ 1 / 4 < 1 + Rabs (-1 / 2)) /\ cos 1 <> 0 /\ length [1; 0; 1 / 2; 0] = ncoef 1 /\ (1 + 1 / 4 <= Rabs (-2) /\ Rabs (1 / 2) <= 2 - 1).
Proof.
  split; [intros f lo hi v H; now apply is_RInt_unique|split; [exact adjoint_inverse|split; [|split; [|split; [|split; [|split; [reflexivity|]]]]]]].
  - destruct (C80_A2_total (1 + length (@nil R))) as (M & H & _). exists (fun _ => M). exact H.
  - rewrite SystemExamples.ld_flux_nil. pose proof PI_RGT_0. lra.
  - rewrite (Rabs_left (-1 / 2)) by lra. lra.
  - apply Rgt_not_eq. pose proof PI2_1. apply cos_gt_0; lra.
  - rewrite (Rabs_left (-2)) by lra. rewrite (Rabs_right (1 / 2)) by lra. lra.
Qed.
