(** Properties C01-C06: core.kepler.kepler *)
From Coq Require Import Reals Lra.
From Coquelicot Require Import Coquelicot.
From Verif.Base Require Import RealAux.
From Verif.Model Require Import Kepler.
From Verif.Spec Require Import KeplerSpec.
From Verif.Proof Require Import KeplerProof KeplerExact KeplerMore.
Open Scope R_scope.

(** C01 *)
Theorem C01_kepler_unit_circle : forall M e : R,
  let '(sinf, cosf) := kepler M e in sinf ^ 2 + cosf ^ 2 = 1.
Proof. exact kepler_circle_pair. Qed.
Print Assumptions C01_kepler_unit_circle.

(** C02 *)
Theorem C02_kepler_periodic : forall (M e : R) (k : Z),
  kepler (M + 2 * PI * IZR k) e = kepler M e.
Proof. exact kepler_periodic. Qed.
Print Assumptions C02_kepler_periodic.

Theorem C02_kepler_time_reversal : forall M e : R,
  0 <= e < 1 -> (forall k : Z, M <> PI + 2 * PI * IZR k) ->
  kepler (- M) e = (- fst (kepler M e), snd (kepler M e)).
Proof. exact kepler_reversal. Qed.
Print Assumptions C02_kepler_time_reversal.
Example C02_satisfiable : 0 <= 0.3 < 1 /\ (forall k : Z, 0 <> PI + 2 * PI * IZR k).
Proof. exact reversal_satisfiable. Qed.

(** C03 *)
Theorem C03_kepler_circular : forall M : R,
  (forall k : Z, M <> PI + 2 * PI * IZR k) -> kepler M 0 = (sin M, cos M).
Proof. exact kepler_circular. Qed.
Print Assumptions C03_kepler_circular.

Theorem C03_kepler_periapsis : forall (k : Z) (e : R), kepler (2 * PI * IZR k) e = (0, 1).
Proof. exact kepler_periapsis. Qed.
Print Assumptions C03_kepler_periapsis.

(** C04: domains of the operations of the starting value (core/kepler.py:82-92):
    divisors 1+e, pi - 6/pi, d and w^2+wq+q^2 are positive, the square root is of a
    positive number, the result is non-negative. *)
Theorem C04_kepler_start_defined : forall M e : R, 0 <= M <= PI -> 0 <= e < 1 ->
  0 < 1 + e /\ 0 < PI - 6 / PI /\ 0 < st_disc M e (1 - e) /\ 0 < st_den M e (1 - e) /\
  0 < st_d M e (1 - e) /\ 0 <= starter M e (1 - e).
Proof. exact starter_defined. Qed.
Print Assumptions C04_kepler_start_defined.

(** the folded mean anomaly handed to the starting value is always in range *)
Theorem C04_kepler_fold_range : forall M : R, 0 <= fold_M M <= PI.
Proof. exact fold_M_range. Qed.
Print Assumptions C04_kepler_fold_range.

(** C05 *)
Theorem C05_true_anomaly_conversion : forall M e : R, 0 <= e < 1 ->
  kepler_eq (Rmod M (2 * PI)) e (ecc_anomaly M e) -> cos (ecc_anomaly M e / 2) <> 0 ->
  kepler M e = (sin_true (ecc_anomaly M e) e, cos_true (ecc_anomaly M e) e).
Proof. exact kepler_conversion. Qed.
Print Assumptions C05_true_anomaly_conversion.
Example C05_satisfiable : kepler_eq (Rmod 1 (2 * PI)) 0 (ecc_anomaly 1 0) /\ cos (ecc_anomaly 1 0 / 2) <> 0.
Proof. exact conversion_satisfiable. Qed.

Theorem C05_refine_fixes_exactly_roots : forall M e E : R,
  rf_den5 M e (1 - e) E <> 0 -> (refine M e (1 - e) E = E <-> kepler_eq M e E).
Proof. exact refine_fixed_iff. Qed.
Print Assumptions C05_refine_fixes_exactly_roots.
Example C05_refine_satisfiable : rf_den5 1 0 (1 - 0) 2 <> 0.
Proof. exact refine_satisfiable. Qed.

(** Kepler's equation has exactly one solution, so "the" true anomaly is meaningful. *)
Theorem C05_kepler_equation_unique_solution : forall M e : R, 0 <= e < 1 ->
  exists! E, kepler_eq M e E.
Proof. exact kepler_eq_exists_unique. Qed.
Print Assumptions C05_kepler_equation_unique_solution.

(** C06: along any path (M(s), e(s)) differentiable at s0, the tangent produced by the
    JVP rule is the derivative of the exact answer (and exact solvers exist). *)
Theorem C06_kepler_jvp_is_derivative :
  forall (kep : R -> R -> R * R) (M e : R -> R) (s0 Md ed : R),
  exact_solver kep -> is_derive M s0 Md -> is_derive e s0 ed ->
  locally s0 (fun s => 0 <= e s < 1) ->
  let '(_, (dsin, dcos)) := kepler_jvp kep (M s0) (e s0) Md ed in
  is_derive (fun s => fst (kep (M s) (e s))) s0 dsin /\
  is_derive (fun s => snd (kep (M s) (e s))) s0 dcos.
Proof. exact kepler_jvp_correct. Qed.
Print Assumptions C06_kepler_jvp_is_derivative.
Example C06_satisfiable : exact_solver exact_kepler
  /\ is_derive (fun s => 2 * s) 0 2 /\ is_derive (fun s => 0.3 + s / 10) 0 (1/10)
  /\ locally 0 (fun s => 0 <= 0.3 + s / 10 < 1).
Proof. exact jvp_satisfiable. Qed.
