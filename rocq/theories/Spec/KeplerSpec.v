(** Independent specification of the two-body anomaly relations. *)
From Coq Require Import Reals.
Open Scope R_scope.

(** Kepler's equation *)
Definition kepler_eq (M e E : R) : Prop := E - e * sin E = M.

(** sine and cosine of the true anomaly as functions of the eccentric anomaly *)
Definition cos_true (E e : R) : R := (cos E - e) / (1 - e * cos E).
Definition sin_true (E e : R) : R := sqrt (1 - e ^ 2) * sin E / (1 - e * cos E).

(** [kep] solves Kepler's problem exactly *)
Definition exact_solver (kep : R -> R -> R * R) : Prop :=
  forall M e, 0 <= e < 1 ->
  exists E, kepler_eq M e E /\ kep M e = (sin_true E e, cos_true E e).
