(** Spots: the profile of a spot and its best-fitting zonal expansion. *)
From Coq Require Import Reals ZArith List Bool.
From Verif Require Import Base.RealAux Spec.HarmonicSpec Spec.RotationSpec.
Import ListNotations.
Open Scope R_scope.

(** the direction of latitude lat and longitude lon on the map: the north pole is (0, 1, 0), (0, 0) faces (0, 0, 1) *)
Definition direction (lat lon : R) : vec3 := (cos lat * sin lon, sin lat, cos lat * cos lon).
(** zonal function with coefficients c_0 .. c_L in the basis sqrt(2l+1) P_l *)
Definition zonal (L : nat) (c : nat -> R) (t : R) : R := bigsum (S L) (fun l => c l * (sqrt (2 * INR l + 1) * legendre_deriv l 0 t)).
(** squared distance to a profile b sampled at the colatitudes, with a quadratic penalty *)
Definition fit_cost (L n : nat) (eps : R) (theta : nat -> R) (b : nat -> R) (c : nat -> R) : R :=
  bigsum n (fun k => (zonal L c (cos (theta k)) - b k) ^ 2) + eps * bigsum (S L) (fun l => c l ^ 2).
