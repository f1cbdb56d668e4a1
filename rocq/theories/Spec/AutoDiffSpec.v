(** What a traced number (Model/AutoDiff.v) should be. *)
From Coq Require Import Reals List Arith.
From Coquelicot Require Import Hierarchy Derive.
From Verif Require Import Base.RealAux Model.AutoDiff Spec.OccultSpec.
Import ListNotations.
Local Open Scope R_scope.

(** it has the value v, and some (finite) tangent *)
Definition fin (x : D) (v : R) : Prop := exists t, x = Some (v, t).
(** at the parameter s it has the value of f and its tangent is the derivative of f *)
Definition tracks (f : R -> R) (s : R) (x : D) : Prop := exists t, x = Some (f s, t) /\ is_derive f s t.

(** squared distance of a point of the occultor's edge from the centre of the star *)
Definition edge_rho2 (b r psi : R) : R := r ^ 2 + b ^ 2 - 2 * b * r * cos psi.
(** when the edge of an occultor of radius r centred at distance b lies partly or entirely inside the star: none of the code's
    guards (10 eps) is at its threshold, and the contact points are not so close to each other that the guard of the
    square root's derivative replaces a value (16 times the square of the area of the triangle with sides r, b, 1) *)
Definition off_thresholds (eps : R) (rule : list (R * R)) (b r : R) : Prop :=
  4 * b * r <> 10 * eps /\
  (Rabs (1 - r) < b -> 10 * eps <= 4 * b ^ 2 * r ^ 2 - (b ^ 2 + r ^ 2 - 1) ^ 2) /\
  forall x w, In (x, w) rule -> let d := edge_rho2 b r (node_at 0 (edge_angle b r) x) in d <> 10 * eps /\ 1 - d <> 10 * eps.
(** not at a contact *)
Definition off_contacts (b r : R) : Prop := b <> 1 + r /\ r <> 1 + b /\ b + r <> 1.
(** a point where the light curve of the code is differentiable by its own rules *)
Definition regular_point (eps : R) (rule : list (R * R)) (b r : R) : Prop :=
  b <> 0 /\ r <> 0 /\ off_contacts (Rabs b) (Rabs r) /\
  (Rabs b < 1 + Rabs r -> Rabs r < 1 + Rabs b -> off_thresholds eps rule (Rabs b) (Rabs r)).
(** [u] with its entry [k] replaced *)
Definition set_nth (k : nat) (v : R) (u : list R) : list R := map (fun i => if (i =? k)%nat then v else nth i u 0) (seq 0 (length u)).
