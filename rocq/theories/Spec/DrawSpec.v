(** Pictures of a map: coordinates of the pixels and of the graticule. *)
From Coq Require Import Reals ZArith List Bool.
From Verif Require Import Base.RealAux Spec.RotationSpec Spec.SpotSpec Spec.SurfaceSpec.
Import ListNotations.
Open Scope R_scope.

(** coordinate of the i-th of n equally spaced points from a to b *)
Definition spaced (a b : R) (n i : nat) : R := a + (b - a) * INR i / INR (n - 1).
(** the point of the visible hemisphere above (x, y) of the sky *)
Definition above (x y : R) : vec3 := (x, y, sqrt (1 - x ^ 2 - y ^ 2)).
(** where the point of the given latitude and longitude of a map of the given radius is drawn on the sky; None when it
    is on the far side *)
Definition drawn_at (inc obl theta radius lat lon : R) : option (R * R) :=
  let '(x, y, z) := sky_point inc obl theta (direction lat lon) in
  if Rlt_dec (radius * z) 0 then None else Some (radius * x, radius * y).
