(** Property C65: accuracy of the Kepler solver of core/kepler.py and of what orbits/keplerian.py computes from it. *)
From Coq Require Import Reals Lra List ZArith.
From Verif.Base Require Import RealAux.
From Verif.Model Require Import Kepler Keplerian.
From Verif.Spec Require Import KeplerSpec OrbitSpec.
From Verif.Proof Require Import KeplerExact KeplerStarter KeplerAccuracy KeplerOrbit.
Open Scope R_scope.

(** The starting value is within 0.08 percent of the root, for every mean anomaly in [0, pi] and every eccentricity below 1. *)
Theorem C65_starter : forall M e E, 0 <= M <= PI -> 0 <= e < 1 -> kepler_eq M e E ->
  Rabs (starter M e (1 - e) - E) <= 0.0008 * starter M e (1 - e).
Proof. exact starter_close. Qed.
Print Assumptions C65_starter.

(** The eccentric anomaly returned for M is, for every M and every eccentricity below 1, within a relative error of 1.2e-15
    of the solution of Kepler's equation, relative to its distance from the nearest periapsis. *)
Theorem C65_eccentric_anomaly : forall M e E, 0 <= e < 1 -> kepler_eq (Rmod M (2 * PI)) e E ->
  Rabs (ecc_anomaly M e - E) <= 0.0000000000000012 * Rmin E (2 * PI - E) /\ 0 <= E <= 2 * PI.
Proof. exact ecc_anomaly_close. Qed.
Print Assumptions C65_eccentric_anomaly.

(** [kepler] returns the sine and cosine of the true anomaly to within 4e-15, for every M whose distance from the
    apoapsis (where the half-angle tangent has its pole) is at least 8e-15. *)
Theorem C65_true_anomaly : forall M e E, 0 <= e < 1 -> 0.000000000000008 <= Rabs (Rmod M (2 * PI) - PI) -> kepler_eq M e E ->
  Rabs (fst (kepler M e) - sin_true E e) <= 0.000000000000004 /\ Rabs (snd (kepler M e) - cos_true E e) <= 0.000000000000004.
Proof. exact kepler_close. Qed.
Print Assumptions C65_true_anomaly.
Example C65_true_anomaly_sat : 0 <= 0.99 < 1 /\ 0.000000000000008 <= Rabs (Rmod 1 (2 * PI) - PI) /\ exists E, kepler_eq 1 0.99 E.
Proof. exact kepler_close_sat. Qed.

(** Positions computed with the code's solver are within 4e-15 semimajor axes of those an exact solver gives... *)
Theorem C65_relative_position : forall au kep o t, exact_solver kep -> orbit_ok o -> ob_parallax o = None ->
  (ob_ecc o <> None -> 0.000000000000008 <= Rabs (Rmod (mean_anomaly o t) (2 * PI) - PI)) ->
  dist (vsub (relative_position au kepler o t None) (relative_position au kep o t None)) <= 0.000000000000004 * ob_semimajor o.
Proof. exact position_close. Qed.
Print Assumptions C65_relative_position.
(** ... and radial velocities within 6e-15 semi-amplitudes. *)
Theorem C65_radial_velocity : forall au kep o t K, exact_solver kep -> orbit_ok o ->
  (ob_ecc o <> None -> 0.000000000000008 <= Rabs (Rmod (mean_anomaly o t) (2 * PI) - PI)) ->
  Rabs (radial_velocity au kepler o t (Some K) - radial_velocity au kep o t (Some K)) <= 0.000000000000006 * Rabs K.
Proof. exact rv_close. Qed.
Print Assumptions C65_radial_velocity.
Definition accuracy_orbit : orbital :=
  {| ob_central := {| c_mass := 1; c_radius := 1; c_density := 1 |}; ob_time_ref := 0; ob_time_transit := 0;
     ob_period := 2 * PI; ob_semimajor := 10; ob_sin_incl := 0.6; ob_cos_incl := 0.8; ob_impact := 0; ob_mass := None; ob_radius := None;
     ob_ecc := Some (0.9, 0, 1); ob_node := None; ob_semiamplitude := None; ob_parallax := None |}.
Example C65_orbit_sat : exact_solver exact_kepler /\ orbit_ok accuracy_orbit /\ ob_parallax accuracy_orbit = None /\
  0.000000000000008 <= Rabs (Rmod (mean_anomaly accuracy_orbit 1) (2 * PI) - PI).
Proof.
  split; [exact exact_kepler_exact|]. pose proof PI_RGT_0 as P. split; [|split; [reflexivity|]].
  - unfold orbit_ok, total_mass, total_mass_of, unit_pair. cbn [ob_central ob_semimajor ob_period ob_sin_incl ob_cos_incl ob_ecc ob_node ob_mass c_mass accuracy_orbit].
    split; [lra|]. split; [lra|]. split; [lra|]. split; [lra|]. split; [|discriminate]. intros e sw cw H. injection H as <- <- <-. split; lra.
  - unfold mean_anomaly. cbn [ob_time_transit ob_time_ref ob_period accuracy_orbit]. replace (2 * PI * (1 - 0 - 0) / (2 * PI)) with 1 by (field; lra). exact (proj1 (proj2 kepler_close_sat)).
Qed.
