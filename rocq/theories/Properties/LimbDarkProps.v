(** Properties C07-C16: core.limb_dark *)
From Coq Require Import Reals Lra List.
From Coquelicot Require Import Coquelicot.
From Verif.Base Require Import RealAux.
From Verif.Model Require Import LimbDark.
From Verif.Spec Require Import LimbDarkSpec.
From Verif.Proof Require Import LimbDarkProof LimbDarkGreen LimbDarkArea.
Import ListNotations.
Open Scope R_scope.

(** C07 *)
Theorem C07_no_occultation_no_change : forall eps quad u b r,
  disk_flux u <> 0 -> 1 + Rabs r <= Rabs b -> light_curve eps quad u b r = 0.
Proof. exact light_curve_no_occ'. Qed.
Print Assumptions C07_no_occultation_no_change.
Example C07_satisfiable : disk_flux [0.4; 0.3] <> 0 /\ 1 + Rabs 0.1 <= Rabs (-1.2).
Proof. exact no_occ_sat. Qed.

(** C08; the excluded point is concentric with exactly equal radii, where the statement
    is false (second theorem). *)
Theorem C08_full_occultation : forall eps quad u b r,
  1 + Rabs b <= Rabs r -> ~ (Rabs b = 0 /\ Rabs r = 1) -> light_curve eps quad u b r = -1.
Proof. exact light_curve_full_occ. Qed.
Print Assumptions C08_full_occultation.
Example C08_satisfiable : 1 + Rabs 0.3 <= Rabs 1.5 /\ ~ (Rabs 0.3 = 0 /\ Rabs 1.5 = 1).
Proof. exact full_occ_sat. Qed.
Theorem C08_concentric_equal_radius_refuted : forall eps quad,
  light_curve eps quad [0.5] 0 1 = - 0.6.
Proof. exact b0r1_value. Qed.
Print Assumptions C08_concentric_equal_radius_refuted.

(** C09 *)
Theorem C09_even : forall eps quad u b r,
  light_curve eps quad u (- b) r = light_curve eps quad u b r /\
  light_curve eps quad u b (- r) = light_curve eps quad u b r.
Proof. exact light_curve_even. Qed.
Print Assumptions C09_even.

(** C10 *)
Theorem C10_greens_basis_preserves_profile : forall (u : list R) (z : R), u <> [] ->
  gsum (greens_basis_transform u) 0 z = intensity u z.
Proof. exact green_preserves. Qed.
Print Assumptions C10_greens_basis_preserves_profile.

(** C11 *)
Theorem C11_normalisation_is_disk_flux : forall u : list R, u <> [] ->
  flux_norm (greens_basis_transform u) = disk_flux u.
Proof. exact flux_norm_is_disk_flux. Qed.
Print Assumptions C11_normalisation_is_disk_flux.
Theorem C11_disk_flux_closed_form : forall u : list R,
  disk_flux u = PI * (1 - ld_norm_sum u 1).
Proof. exact disk_flux_closed. Qed.
Print Assumptions C11_disk_flux_closed_form.

(** C12 *)
Theorem C12_uniform_disk_overlap : forall eps quad b r,
  light_curve eps quad [] b r = - overlap_area (Rabs b) (Rabs r) / PI.
Proof. exact uniform_overlap. Qed.
Print Assumptions C12_uniform_disk_overlap.

(** C13 *)
Theorem C13_uniform_disk_bounds : forall eps quad b r,
  -1 <= light_curve eps quad [] b r <= 0.
Proof. exact uniform_bounds. Qed.
Print Assumptions C13_uniform_disk_bounds.

(** C14: with the semi-perimeter s, area = 4 sqrt(s(s-a)(s-b)(s-c)) *)
Theorem C14_kite_area_heron : forall a b c, 0 <= a -> 0 <= b -> 0 <= c ->
  a <= b + c -> b <= a + c -> c <= a + b ->
  0 <= kite_square a b c /\
  kite_area a b c = 4 * sqrt ((a+b+c)/2 * ((a+b+c)/2 - a) * ((a+b+c)/2 - b) * ((a+b+c)/2 - c)).
Proof. exact kite_props. Qed.
Print Assumptions C14_kite_area_heron.
Theorem C14_kite_area_base_height : forall a x y, 0 <= a ->
  kite_area a (sqrt (x^2 + y^2)) (sqrt ((x - a)^2 + y^2)) = 4 * (a * Rabs y / 2).
Proof. exact kite_area_base_height. Qed.
Print Assumptions C14_kite_area_base_height.
Theorem C14_kite_area_symmetric : forall a b c,
  kite_area a b c = kite_area b a c /\ kite_area a b c = kite_area a c b /\ kite_area a b c = kite_area c b a
  /\ kite_area a b c = kite_area b c a /\ kite_area a b c = kite_area c a b.
Proof. exact kite_perm. Qed.
Print Assumptions C14_kite_area_symmetric.
Example C14_satisfiable : 0 <= 3 /\ 0 <= 4 /\ 0 <= 5 /\ 3 <= 4 + 5 /\ 4 <= 3 + 5 /\ 5 <= 3 + 4.
Proof. lra. Qed.

(** C15 *)
Theorem C15_kappas_law_of_cosines : forall b r, 0 <= r -> Rabs (1 - r) < b < 1 + r ->
  let '(_, kappa0, kappa1) := kappas b r in
  0 < kappa0 < PI /\ 0 < kappa1 < PI /\
  cos kappa0 = (b^2 + r^2 - 1) / (2*b*r) /\ cos kappa1 = (1 + b^2 - r^2)/(2*b).
Proof. exact kappas_thm. Qed.
Print Assumptions C15_kappas_law_of_cosines.
Theorem C15_kappas_area : forall b r, 0 <= r -> Rabs (1 - r) < b < 1 + r ->
  let '(area, kappa0, kappa1) := kappas b r in
  area = kite_area r b 1 /\ area = 2 * b * r * sin kappa0 /\ area = 2 * b * sin kappa1.
Proof. exact kappas_area. Qed.
Print Assumptions C15_kappas_area.
Example C15_satisfiable : Rabs (1 - 0.1) < 1 < 1 + 0.1.
Proof. exact kappas_sat. Qed.

(** C16 *)
Theorem C16_zero_safe_sqrt_value : forall x, 0 <= x ->
  0 <= zero_safe_sqrt x /\ zero_safe_sqrt x ^ 2 = x.
Proof. exact zss_value. Qed.
Print Assumptions C16_zero_safe_sqrt_value.
Theorem C16_zero_safe_sqrt_derivative : forall eps x, 0 < eps -> 10 * eps <= x ->
  is_derive zero_safe_sqrt x (snd (zero_safe_sqrt_jvp eps x 1)).
Proof. exact zss_derive. Qed.
Print Assumptions C16_zero_safe_sqrt_derivative.
Theorem C16_zero_safe_sqrt_jvp_linear : forall eps x a v,
  snd (zero_safe_sqrt_jvp eps x (a * v)) = a * snd (zero_safe_sqrt_jvp eps x v)
  /\ fst (zero_safe_sqrt_jvp eps x v) = zero_safe_sqrt x.
Proof. intros. split; [apply zss_linear|apply zss_primal]. Qed.
Print Assumptions C16_zero_safe_sqrt_jvp_linear.
Theorem C16_zero_safe_sqrt_finite_at_zero : forall eps v, 0 < eps -> zero_safe_sqrt_jvp eps 0 v = (0, 0).
Proof. exact zss_zero. Qed.
Print Assumptions C16_zero_safe_sqrt_finite_at_zero.
(** the derivative rule never divides by zero, whatever the argument *)
Theorem C16_zero_safe_sqrt_never_divides_by_zero : forall eps x, 0 < eps -> zero_safe_sqrt_denom eps x <> 0.
Proof. exact zss_denom. Qed.
Print Assumptions C16_zero_safe_sqrt_never_divides_by_zero.
Theorem C16_zero_safe_sqrt_bounded_near_zero : forall eps x v, 0 <= x < 10 * eps ->
  Rabs (snd (zero_safe_sqrt_jvp eps x v)) <= 0.5 * Rabs v * sqrt (10 * eps).
Proof. exact zss_bounded. Qed.
Print Assumptions C16_zero_safe_sqrt_bounded_near_zero.
