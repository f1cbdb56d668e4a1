(** A limb-darkened unit disk partly hidden by an opaque disk of radius r centred at (b, 0). *)
From Coq Require Import Reals List.
From Coquelicot Require Import Coquelicot.
From Verif Require Import Base.RealAux Spec.BasisSpec Spec.DiskSpec Spec.LimbDarkSpec.
Import ListNotations.
Open Scope R_scope.

(** what remains of a brightness f on the sky *)
Definition unhidden (b r : R) (f : R -> R -> R) (x y : R) : R := if Rlt_dec ((x - b) ^ 2 + y ^ 2) (r ^ 2) then 0 else f x y.
(** the flux of the visible part of the star *)
Definition occulted_flux (u : list R) (b r : R) : R := disk_integral (unhidden b r (fun x y => intensity u (zdisk x y))).

(** Green's line integrals of Agol et al. (2020) along the edge of the occultor, parametrised by the angle at its
    centre; z is the height of the star's surface there *)
Definition edge_z (b r psi : R) : R := sqrt (1 - b ^ 2 - r ^ 2 + 2 * b * r * cos psi).
Definition edge_integrand (b r : R) (n : nat) (psi : R) : R :=
  let z := edge_z b r psi in
  2 * r * (r - b * cos psi) * (match n with 0%nat => / 2 | 1%nat => (1 + z + z ^ 2) / (3 * (1 + z)) | _ => z ^ n end).
(** how far round its edge, from the point nearest to the star's centre, the occultor is in front of the star *)
Definition edge_angle (b r : R) : R := if Rle_dec (b + r) 1 then PI else acos ((b ^ 2 + r ^ 2 - 1) / (2 * b * r)).
(** a quadrature rule on [-1,1] (a list of nodes and weights) applied on [lo, hi] *)
Definition node_at (lo hi x : R) : R := (hi - lo) / 2 * x + (lo + hi) / 2.
Definition quadrature (rule : list (R * R)) (lo hi : R) (f : R -> R) : R :=
  (hi - lo) / 2 * Rsum (map (fun xw => f (node_at lo hi (fst xw)) * snd xw) rule).
(** error of the rule on the n-th edge integral *)
Definition edge_error (rule : list (R * R)) (b r : R) (n : nat) : R :=
  RInt (edge_integrand b r n) 0 (edge_angle b r) - quadrature rule 0 (edge_angle b r) (edge_integrand b r n).
(** z^2 at an edge point is farther than 10 eps from 0 and from 1 *)
Definition clear_of_eps (eps b r psi : R) : Prop := 10 * eps <= edge_z b r psi ^ 2 <= 1 - 10 * eps.
(** no node is close enough to a singular point for one of the code's guards (10 eps) to replace a value *)
Definition clear_of_branches (eps : R) (rule : list (R * R)) (b r : R) : Prop :=
  r = 0 \/ ((10 * eps <= 4 * b * r \/ b = 0) /\ forall x w, In (x, w) rule -> clear_of_eps eps b r (node_at 0 (edge_angle b r) x)).
