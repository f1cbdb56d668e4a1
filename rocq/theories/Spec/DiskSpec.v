(** Integrals over the unit disk. *)
From Coq Require Import Reals ZArith List Bool.
From Coquelicot Require Import Coquelicot.
From Verif Require Import Base.RealAux.
Open Scope R_scope.

(** integral of f over the unit disk, in polar coordinates *)
Definition disk_integral (f : R -> R -> R) : R :=
  RInt (fun phi => RInt (fun rho => f (rho * cos phi) (rho * sin phi) * rho) 0 1) 0 (2 * PI).
