(** Gauss-Legendre quadrature rules. *)
From Coq Require Import Reals List Arith.
From Coquelicot Require Import Coquelicot.
From Verif Require Import Base.RealAux Spec.HarmonicSpec Spec.OccultSpec.
Import ListNotations.
Open Scope R_scope.

(** f is a polynomial of degree less than n *)
Definition polynomial (n : nat) (f : R -> R) : Prop := exists c : nat -> R, forall x, f x = bigsum n (fun i => c i * x ^ i).
(** the nodes are the n roots of the Legendre polynomial P_n and the rule integrates every polynomial of degree less
    than 2n over [-1, 1] (scipy.special.roots_legendre) *)
Definition gauss_legendre (n : nat) (rule : list (R * R)) : Prop :=
  length rule = n /\ NoDup (map fst rule) /\
  (forall x w, In (x, w) rule -> -1 < x < 1 /\ legendre_deriv n 0 x = 0) /\
  forall p, polynomial (2 * n) p -> Rsum (map (fun xw => p (fst xw) * snd xw) rule) = RInt p (-1) 1.

(** a bound on the error of an m-point Gauss-Legendre rule on the polynomial Green's functions (nu even) *)
Definition even_bound (m : nat) (b r : R) (l nu : nat) : R :=
  8 * edge_angle b r * r ^ (l - nu / 2 + 2) * (b + r) ^ (nu / 2) * ((INR (l + 2) * edge_angle b r / 4) ^ (2 * m) / INR (fact (2 * m))).
(** the same for all entries of a vector, weighted by the coefficients g *)
Definition even_bounds (m D : nat) (g : nat -> R) (b r : R) : R :=
  bigsum (S D) (fun l => bigsum (2 * l + 1) (fun nu => if Nat.even nu then Rabs (g (l * l + nu)%nat) * even_bound m b r l nu else 0)).
(** an exact numerical integrator: it returns the Riemann integral of every integrable function *)
Definition exact_quad (quad : (R -> R) -> R -> R -> R) : Prop := forall f lo hi v, is_RInt f lo hi v -> quad f lo hi = v.
