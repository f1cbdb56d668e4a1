(** The unit disk of a surface partly hidden by an opaque disk of radius r centred at (xo, yo), and Green's line integrals
    around it (Luger et al. 2019). *)
From Coq Require Import Reals List Bool Arith.
From Coquelicot Require Import Coquelicot.
From Verif Require Import Base.RealAux Spec.RotationSpec Spec.BasisSpec Spec.DiskSpec Spec.OccultSpec.
Import ListNotations.
Open Scope R_scope.

(** what remains of a brightness f on the sky *)
Definition unhidden_by (xo yo r : R) (f : R -> R -> R) (x y : R) : R := if Rlt_dec ((x - xo) ^ 2 + (y - yo) ^ 2) (r ^ 2) then 0 else f x y.
(** the flux of the visible part *)
Definition flux_around (xo yo r : R) (f : R -> R -> R) : R := disk_integral (unhidden_by xo yo r f).
(** the component along the edge of an occultor centred at (0, b) of the n-th Green's field, n = l^2 + nu, at the angle
    psi round the occultor from its point nearest to the disk's centre: (r sin psi, b - r cos psi) *)
Definition edge_component (l nu : nat) (b r psi : R) : R :=
  let G := green_field l nu (r * sin psi) (b - r * cos psi) in fst G * (r * cos psi) + snd G * (r * sin psi).
(** both sides of the occultor together *)
Definition edge_pair (l nu : nat) (b r psi : R) : R := edge_component l nu b r psi + edge_component l nu b r (- psi).
(** error of a quadrature rule on the line integral along the part of the edge that is in front of the disk *)
Definition green_error (rule : list (R * R)) (b r : R) (l nu : nat) : R :=
  RInt (edge_pair l nu b r) 0 (edge_angle b r) - quadrature rule 0 (edge_angle b r) (edge_pair l nu b r).
(** the rule used for entry l^2 + nu: the polynomial Green's functions (nu even) get the low-order one *)
Definition green_rule (low high : list (R * R)) (nu : nat) : list (R * R) := if Nat.even nu then low else high.
(** no guard of the code (10 eps) replaces a value: the occultor's radius, the product of radius and distance and the
    distance of the nodes from the centre of the disk are 0 or not tiny *)
Definition clear_of_guards (eps : R) (rule : list (R * R)) (b r : R) : Prop :=
  r = 0 \/ (10 * eps <= r /\ (b = 0 \/ 10 * eps <= 4 * b * r) /\
    forall x w, In (x, w) rule -> -1 <= x <= 1 /\ 10 * eps <= b ^ 2 + r ^ 2 - 2 * b * r * cos (node_at 0 (edge_angle b r) x)).
(** f is the Green's basis function of (l, m = nu - l): the curl of the field G_n *)
Definition green_function (l nu : nat) (f : R -> R -> R) : Prop :=
  forall x y, in_disk x y -> 0 < x ^ 2 + y ^ 2 -> is_curl (green_field l nu) x y (f x y).
(** g are the coefficients of the brightness F in the Green's basis *)
Definition green_coefficients (D : nat) (g : nat -> R) (F : R -> R -> R) : Prop :=
  forall x y, in_disk x y -> 0 < x ^ 2 + y ^ 2 -> is_curl (green_combination D g) x y (F x y).
(** the brightness I on the visible hemisphere, the sky being turned so that an occultor at (xo, yo) comes to lie on
    the positive y axis *)
Definition turned (xo yo : R) (I : vec3 -> R) (x y : R) : R := I (rot_z (- atan2 xo yo) (x, y, zdisk x y)).
(** the flux of the part of the visible hemisphere that an occultor of radius r at (xo, yo) does not hide *)
Definition unhidden_flux (xo yo r : R) (I : vec3 -> R) : R := flux_around xo yo r (fun x y => I (x, y, zdisk x y)).
(** the quadrature errors of all entries, weighted by the Green's coefficients *)
Definition edge_errors (D : nat) (g : nat -> R) (low high : list (R * R)) (b r : R) : R :=
  bigsum (S D) (fun l => bigsum (2 * l + 1) (fun nu => g (l * l + nu)%nat * green_error (green_rule low high nu) b r l nu)).
