(** Real spherical harmonics, from their textbook definition. *)
From Coq Require Import Reals ZArith List Bool.
From Coquelicot Require Import Coquelicot.
From Verif Require Import Base.RealAux.
Open Scope R_scope.

(** (x + i y)^n as a pair (real part, imaginary part) *)
Fixpoint cpow (n : nat) (x y : R) : R * R :=
  match n with
  | O => (1, 0)
  | S n => let '(a, b) := cpow n x y in (a * x - b * y, a * y + b * x)
  end.
(** m-th derivative of the Legendre polynomial P_l, by Rodrigues' formula *)
Definition legendre_deriv (l m : nat) (t : R) : R :=
  Derive_n (fun s => (s ^ 2 - 1) ^ l) (l + m) t / (2 ^ l * INR (fact l)).
Definition harmonic_norm (l m : nat) : R :=
  sqrt ((if Nat.eqb m 0 then 1 else 2) * INR (2 * l + 1) * INR (fact (l - m)) / (4 * PI * INR (fact (l + m)))).
(** the real harmonic Y_{l,m} (no Condon-Shortley phase) at the point (x, y, z) of the unit
    sphere: with x + i y = sin(th) exp(i ph), z = cos(th) it is
    N P_l^{|m|}(cos th) {cos, sin}(|m| ph) *)
Definition real_Y (l : nat) (m : Z) (x y z : R) : R :=
  let a := Z.abs_nat m in
  harmonic_norm l a * legendre_deriv l a z *
  (if (m <? 0)%Z then snd (cpow a x y) else fst (cpow a x y)).
(** the function on the sphere with coefficients d, entry l^2 + nu standing for (l, m = nu - l) *)
Definition harmonic_eval (L : nat) (d : nat -> R) (x y z : R) : R :=
  bigsum (S L) (fun l => bigsum (2 * l + 1) (fun nu =>
    d (l * l + nu)%nat * real_Y l (Z.of_nat nu - Z.of_nat l) x y z)).
