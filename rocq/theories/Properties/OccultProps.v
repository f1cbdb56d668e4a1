(** C75: the limb-darkened light curve is the flux of the visible part of the star. *)
From Coq Require Import Reals Lra Lia List Bool Arith.
From Coquelicot Require Import Coquelicot.
From Verif Require Import Base.RealAux Spec.BasisSpec Spec.DiskSpec Spec.LimbDarkSpec Spec.OccultSpec Model.LimbDark Proof.LimbDarkGreen Proof.Occult.
Import ListNotations.
Open Scope R_scope.

Theorem C75_visible_flux_outside_contact : forall eps quad u b r, disk_flux u <> 0 -> ~ (Rabs b = 0 /\ Rabs r = 1) ->
  1 + Rabs r <= Rabs b \/ 1 + Rabs b <= Rabs r ->
  light_curve eps quad u b r = occulted_flux u (Rabs b) (Rabs r) / disk_flux u - 1.
Proof. exact occ_trivial. Qed.
Print Assumptions C75_visible_flux_outside_contact.
(** in every other configuration, without conditions: the closed-form terms are exact, and the only difference is between two edge
    integrals and the sums [p_entry] the code replaces them by *)
Theorem C75_visible_flux_general : forall eps quad u b r, disk_flux u <> 0 -> Rabs b < 1 + Rabs r -> Rabs r < 1 + Rabs b ->
  light_curve eps quad u b r = occulted_flux u (Rabs b) (Rabs r) / disk_flux u - 1 +
    bigsum (S (length u)) (fun n => nth n (greens_basis_transform u) 0 / disk_flux u *
      (match n with 0%nat | 2%nat => 0 | _ => RInt (edge_integrand (Rabs b) (Rabs r) n) 0 (edge_angle (Rabs b) (Rabs r)) - p_entry eps quad (Rabs b) (Rabs r) ((Rabs b)²) ((Rabs r)²) (edge_angle (Rabs b) (Rabs r)) n end)).
Proof. exact occ_general. Qed.
Print Assumptions C75_visible_flux_general.
(** away from the code's guards those sums are the quadrature rule applied to the edge integrals *)
Theorem C75_visible_flux_up_to_quadrature : forall eps quad u b r, 0 < eps -> disk_flux u <> 0 -> Rabs b < 1 + Rabs r -> Rabs r < 1 + Rabs b ->
  clear_of_branches eps quad (Rabs b) (Rabs r) ->
  light_curve eps quad u b r = occulted_flux u (Rabs b) (Rabs r) / disk_flux u - 1 +
    bigsum (S (length u)) (fun n => match n with 0%nat | 2%nat => 0 | _ => nth n (greens_basis_transform u) 0 / disk_flux u * edge_error quad (Rabs b) (Rabs r) n end).
Proof. exact occ_quadrature. Qed.
Print Assumptions C75_visible_flux_up_to_quadrature.
Theorem C75_exact_when_quadrature_exact : forall eps quad u b r, 0 < eps -> disk_flux u <> 0 -> Rabs b < 1 + Rabs r -> Rabs r < 1 + Rabs b ->
  clear_of_branches eps quad (Rabs b) (Rabs r) ->
  (forall n, (n <= length u)%nat -> n = 1%nat \/ (3 <= n)%nat -> edge_error quad (Rabs b) (Rabs r) n = 0) ->
  light_curve eps quad u b r = occulted_flux u (Rabs b) (Rabs r) / disk_flux u - 1.
Proof. exact occ_exact. Qed.
Print Assumptions C75_exact_when_quadrature_exact.
Theorem C75_error_bound : forall eps quad u b r delta, 0 < eps -> disk_flux u <> 0 -> Rabs b < 1 + Rabs r -> Rabs r < 1 + Rabs b ->
  clear_of_branches eps quad (Rabs b) (Rabs r) -> 0 <= delta ->
  (forall n, (n <= length u)%nat -> n = 1%nat \/ (3 <= n)%nat -> Rabs (edge_error quad (Rabs b) (Rabs r) n) <= delta) ->
  Rabs (light_curve eps quad u b r - (occulted_flux u (Rabs b) (Rabs r) / disk_flux u - 1)) <=
  bigsum (S (length u)) (fun n => Rabs (nth n (greens_basis_transform u) 0)) / Rabs (disk_flux u) * delta.
Proof. exact occ_error. Qed.
Print Assumptions C75_error_bound.
(** a concentric occultor: exact for every limb-darkening law and every rule whose weights add up to 2 *)
Theorem C75_concentric_exact : forall eps quad u r, 0 < eps -> disk_flux u <> 0 -> Rabs r < 1 -> r = 0 \/ 10 * eps <= r ^ 2 <= 1 - 10 * eps ->
  Rsum (map snd quad) = 2 -> light_curve eps quad u 0 r = occulted_flux u 0 (Rabs r) / disk_flux u - 1.
Proof. exact occ_concentric. Qed.
Print Assumptions C75_concentric_exact.
(** where the intensity is nowhere negative the visible flux is between zero and the whole *)
Theorem C75_visible_flux_bounds : forall u b r, (forall z, 0 <= z <= 1 -> 0 <= intensity u z) -> 0 <= occulted_flux u b r <= disk_flux u.
Proof. exact occulted_bounds. Qed.
Print Assumptions C75_visible_flux_bounds.

(** a quadratic law, a planet on the disk at b = 1/2 *)
Example C75_satisfiable : 0 < / 100 /\ disk_flux [0.4; 0.3] <> 0 /\ Rabs (1/2) < 1 + Rabs (1/4) /\ Rabs (1/4) < 1 + Rabs (1/2) /\
  clear_of_branches (/ 100) [(0, 2)] (Rabs (1/2)) (Rabs (1/4)).
Proof.
  rewrite !Rabs_right by lra. split; [lra|split; [|split; [lra|split; [lra|]]]].
  - rewrite disk_flux_closed. cbn. pose proof PI_RGT_0. apply Rgt_not_eq. apply Rmult_lt_0_compat; [lra|]. lra.
  - right. split; [left; lra|]. intros x w [E|[]]. injection E as <- <-. unfold clear_of_eps, node_at, edge_angle. destruct (Rle_dec _ _); [|lra].
    replace ((PI - 0) / 2 * 0 + (0 + PI) / 2) with (PI / 2) by field. unfold edge_z. rewrite cos_PI2. rewrite <- Rsqr_pow2, Rsqr_sqrt by lra. lra.
Qed.
Example C75_concentric_satisfiable : 0 < / 100 /\ disk_flux [0.4; 0.3] <> 0 /\ Rabs (1/2) < 1 /\ 10 * / 100 <= (1/2) ^ 2 <= 1 - 10 * / 100 /\
  Rsum (map snd [(0, 2)]) = 2 /\ (forall z, 0 <= z <= 1 -> 0 <= intensity [0.4; 0.3] z).
Proof.
  split; [lra|split; [|split; [rewrite Rabs_right; lra|split; [lra|split; [cbn; lra|]]]]].
  - rewrite disk_flux_closed. cbn. pose proof PI_RGT_0. apply Rgt_not_eq. apply Rmult_lt_0_compat; [lra|]. lra.
  - intros z Hz. unfold intensity. cbn. assert (0 <= (1 - z) * ((1 - z) * 1) <= 1) by (split; [apply Rmult_le_pos; lra|assert ((1 - z) * ((1 - z) * 1) <= 1 * 1) by (apply Rmult_le_compat; lra); lra]). lra.
Qed.
