(** Rotations of three-space, and what it means to rotate a map on the sphere. *)
From Coq Require Import Reals ZArith List Bool.
From Verif Require Import Base.RealAux Spec.PolySpec Spec.HarmonicSpec.
Import ListNotations.
Open Scope R_scope.

Definition vec3 : Type := R * R * R.
(** rotation of a point about the z axis by the angle t *)
Definition rot_z (t : R) (p : vec3) : vec3 := let '(x, y, z) := p in (x * cos t - y * sin t, x * sin t + y * cos t, z).
(** the same about the x and y axes *)
Definition rot_x (t : R) (p : vec3) : vec3 := let '(x, y, z) := p in (x, y * cos t - z * sin t, y * sin t + z * cos t).
Definition rot_y (t : R) (p : vec3) : vec3 := let '(x, y, z) := p in (x * cos t + z * sin t, y, - x * sin t + z * cos t).
Definition dot3 (a b : vec3) : R := let '(a1, a2, a3) := a in let '(b1, b2, b3) := b in a1 * b1 + a2 * b2 + a3 * b3.
Definition cross3 (a b : vec3) : vec3 :=
  let '(a1, a2, a3) := a in let '(b1, b2, b3) := b in (a2 * b3 - a3 * b2, a3 * b1 - a1 * b3, a1 * b2 - a2 * b1).
Definition add3 (a b : vec3) : vec3 := let '(a1, a2, a3) := a in let '(b1, b2, b3) := b in (a1 + b1, a2 + b2, a3 + b3).
Definition scal3 (c : R) (a : vec3) : vec3 := let '(a1, a2, a3) := a in (c * a1, c * a2, c * a3).
(** Rodrigues' formula: rotation by the angle t about the unit axis u *)
Definition rot_axis (u : vec3) (t : R) (p : vec3) : vec3 :=
  add3 (scal3 (cos t) p) (add3 (scal3 (sin t) (cross3 u p)) (scal3 ((1 - cos t) * dot3 u p) u)).
Definition unit3 (u : vec3) : Prop := dot3 u u = 1.
(** value of the map with coefficients y (degree L) at a point *)
Definition map_at (L : nat) (y : list R) (p : vec3) : R :=
  let '(a, b, c) := p in harmonic_eval L (fun n => nth n y 0) a b c.
(** number of coefficients of a map of degree L *)
Definition ncoef (L : nat) : nat := ((L + 1) * (L + 1))%nat.
(** power of the orders +-m in degree l *)
Definition pair_power (y : list R) (l m : nat) : R := nth (l * l + l + m) y 0 ^ 2 + nth (l * l + l - m) y 0 ^ 2.
(** cosine of half the angle of the rotation Rz(obl+theta_z) Rx(pi/2-inc) Ry(theta) *)
Definition cos_half_full (inc obl theta theta_z : R) : R :=
  (sin (inc / 2) * cos ((obl - theta + theta_z) / 2) + cos (inc / 2) * cos ((obl + theta + theta_z) / 2)) / sqrt 2.
(** an absent angle counts as 0 *)
Definition angle0 (a : option R) : R := match a with Some v => v | None => 0 end.

Definition norm3 (v : vec3) : R := sqrt (dot3 v v).
(** the rotation of a rotation vector v: by the angle |v| about the axis v/|v| (none if v = 0) *)
Definition rotvec (v : vec3) (p : vec3) : vec3 :=
  if Reqb (norm3 v) 0 then p else rot_axis (scal3 (/ norm3 v) v) (norm3 v) p.
(** what Rotation.from_rotvec(v).as_euler("zyz") promises: extrinsic angles, the first one applied first *)
Definition zyz_euler (as_euler : vec3 -> vec3) : Prop := forall v alpha beta gamma, as_euler v = (alpha, beta, gamma) ->
  forall p, rot_z gamma (rot_y beta (rot_z alpha p)) = rotvec v p.
(** on the unit sphere *)
Definition sphere3 (p : vec3) : Prop := dot3 p p = 1.
(** power of all the orders of degree l *)
Definition degree_power (y : list R) (l : nat) : R := bigsum (2 * l + 1) (fun nu => nth (l * l + nu) y 0 ^ 2).
(** height of the image of the north pole under the rotation by t about the unit axis u *)
Definition pole_height (u : vec3) (t : R) : R := let '(_, _, h) := rot_axis u t (0, 0, 1) in h.
(** the pole is sent exactly to a pole, or to a point whose height is at least w away from both poles' *)
Definition pole_sent_clear_of_poles (w : R) (u : vec3) (t : R) : Prop :=
  let h := pole_height u t in h = 1 \/ h = -1 \/ (w <= 1 - h /\ w <= 1 + h).
