(** What multiprecision/flux.py sees. *)
From Coq Require Import Reals List.
From Verif Require Import Base.RealAux Spec.RotationSpec.
Open Scope R_scope.

(** the code replaces a rotation angle 0 by tol *)
Definition nudged (tol t : R) : R := if Req_EM_T t 0 then tol else t.
(** the point of the map that is seen at the sky point p (compare map_point): the rotations by the obliquity and by the complement of the
    inclination are done even when their angle is 0, by tol *)
Definition nudged_point (tol inc obl phi : R) (p : vec3) : vec3 :=
  rot_x (- (PI / 2)) (rot_z (- phi) (rot_x (PI / 2) (rot_z (nudged tol (- obl)) (rot_axis (- cos obl, - sin obl, 0) (nudged tol (PI / 2 - inc)) p)))).
(** f, which depends on the last digit prec that the working precision resolves, returns numbers that approach v *)
Definition approaches_value (f : R -> result R) (v : R) : Prop := forall eps, 0 < eps -> exists d, 0 < d /\ forall prec, 0 < prec < d ->
  exists w, f prec = Ok w /\ Rabs (w - v) < eps.
