(** Surfaces: where a point of the sky lies on the map, what the observer sees. *)
From Coq Require Import Reals ZArith List Bool.
From Verif Require Import Base.RealAux Spec.RotationSpec Spec.BasisSpec Spec.DiskSpec Spec.YlmSpec.
Import ListNotations.
Open Scope R_scope.

(** Sky frame: z points to the observer, y is up.  The point of the map that is seen at the sky point p when the map
    has turned by theta about its pole, the pole being inclined by inc to the line of sight and turned by obl from
    the y axis.  Absent angles count as 0. *)
Definition map_point (inc obl theta : option R) (p : vec3) : vec3 :=
  rot_x (- (PI / 2)) (rot_z (- angle0 theta) (rot_x (angle0 inc) (rot_z (- angle0 obl) p))).
(** intensity at the sky point p of the map with coefficients d and limb darkening u; starry's coefficients carry the
    factor 2 / sqrt pi, which makes the constant map 1 have intensity 1/pi *)
Definition sky_intensity (d : list (Z * Z * R)) (u : list R) (inc obl theta : option R) (p : vec3) : R :=
  2 / sqrt PI * coeffs_value d (map_point inc obl theta p) * ld_profile u (snd p).
(** What light curves and radial velocities see: the same, except that the obliquity turns the other way when there is
    no inclination. *)
Definition seen_point (inc obl theta : option R) (p : vec3) : vec3 :=
  match inc, obl with
  | None, Some o => map_point None (Some (- o)) theta p
  | _, _ => map_point inc obl theta p
  end.
Definition seen_intensity (d : list (Z * Z * R)) (u : list R) (inc obl theta : option R) (p : vec3) : R :=
  2 / sqrt PI * coeffs_value d (seen_point inc obl theta p) * ld_profile u (snd p).
(** flux of the visible disk of an intensity on the sky *)
Definition visible_flux (I : vec3 -> R) : R := disk_integral (fun x y => I (x, y, zdisk x y)).
(** * Rotation *)
(** where on (or behind) the sky the point c of the map is when the map has turned by theta *)
Definition sky_point (inc obl theta : R) (c : vec3) : vec3 := rot_z obl (rot_x (- inc) (rot_z theta (rot_x (PI / 2) c))).
(** direction of the north pole *)
Definition pole (inc obl : R) : vec3 := (- sin inc * sin obl, sin inc * cos obl, cos inc).
(** velocity away from the observer at the sky point p of a sphere that rotates about its pole, the speed of its
    equator being veq *)
Definition recession (veq inc obl : R) (p : vec3) : R := - veq * snd (cross3 (pole inc obl) p).
