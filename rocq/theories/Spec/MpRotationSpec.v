(** What the rotation matrices of one degree mean. *)
From Coq Require Import Reals ZArith List Bool.
From Verif Require Import Base.RealAux Base.Dict Spec.HarmonicSpec Spec.RotationSpec.
Import ListNotations.
Open Scope R_scope.

(** the real harmonic (l, m) at a point *)
Definition harmonic_at (l : nat) (m : Z) (p : vec3) : R := let '(x, y, z) := p in real_Y l m x y z.
(** row r of W expands the harmonic of order r - l, taken at the moved point, in the harmonics of degree l *)
Definition rotates_degree (l : nat) (W : nat -> nat -> R) (move : vec3 -> vec3) : Prop := forall r p, (r <= 2 * l)%nat -> sphere3 p ->
  bigsum (2 * l + 1) (fun c => W r c * harmonic_at l (Z.of_nat c - Z.of_nat l) p) = harmonic_at l (Z.of_nat r - Z.of_nat l) (move p).
(** b is W with the entries below prec in absolute value replaced by 0 *)
Definition cut_below (prec : R) (n : nat) (W b : nat -> nat -> R) : Prop := forall r c, (r < n)%nat -> (c < n)%nat ->
  (prec <= Rabs (W r c) /\ b r c = W r c) \/ (Rabs (W r c) < prec /\ b r c = 0).
(** the unit vector along a *)
Definition direction (a : vec3) : vec3 := scal3 (/ norm3 a) a.
(** f, which depends on the last digit prec that the working precision resolves, returns lists of the length of r that approach r *)
Definition approaches (f : R -> result (list R)) (r : list R) : Prop := forall eps, 0 < eps -> exists d, 0 < d /\ forall prec, 0 < prec < d ->
  exists v, f prec = Ok v /\ length v = length r /\ forall n, Rabs (nth n v 0 - nth n r 0) < eps.
(** the rotation can be expressed in the code's Euler angles: about the z axis it is not a full turn, about another one it neither keeps nor reverses the pole *)
Definition expressible (u : vec3) (t : R) : Prop :=
  norm3 u <> 0 /\ ((direction u = (0, 0, 1) \/ direction u = (0, 0, -1)) /\ cos t <> 1 \/
                   rot_axis (direction u) t (0, 0, 1) <> (0, 0, 1) /\ rot_axis (direction u) t (0, 0, 1) <> (0, 0, -1)).
