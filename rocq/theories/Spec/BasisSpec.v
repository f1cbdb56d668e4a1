(** Specifications for starry/core/basis.py. *)
From Coq Require Import Reals ZArith List Bool.
From Coquelicot Require Import Coquelicot.
From Verif Require Import Base.RealAux.
Open Scope R_scope.

(** height of the visible hemisphere *)
Definition zdisk (x y : R) : R := sqrt (1 - x ^ 2 - y ^ 2).
Definition in_disk (x y : R) : Prop := x ^ 2 + y ^ 2 < 1.

(** Luger et al. (2019), eq. (34): the vector fields G_n whose exterior derivative
    dGy/dx - dGx/dy is the n-th Green's basis function; n = l^2 + nu, mu = 2 l - nu. *)
Definition green_field (l nu : nat) (x y : R) : R * R :=
  let mu := (2 * l - nu)%nat in
  let z := zdisk x y in
  if Nat.even nu then (0, x ^ ((mu + 2) / 2) * y ^ (nu / 2))
  else if (Nat.eqb l 1 && Nat.eqb nu 1)%bool then
    let h := (1 - z ^ 3) / (3 * (1 - z ^ 2)) in (- y * h, x * h)
  else if Nat.eqb mu 1 then
    (if Nat.even l then (x ^ (l - 2) * z ^ 3, 0) else (x ^ (l - 3) * y * z ^ 3, 0))
  else (0, x ^ ((mu - 3) / 2) * y ^ ((nu - 1) / 2) * z ^ 3).
(** v = dGy/dx - dGx/dy at (x, y) *)
Definition is_curl (G : R -> R -> R * R) (x y v : R) : Prop :=
  exists a b, is_derive (fun t : R => snd (G t y)) x a /\ is_derive (fun t : R => fst (G x t)) y b /\ v = a - b.
(** linear combination of the fields G_n with coefficients g, degrees up to D *)
Definition green_combination (D : nat) (g : nat -> R) (x y : R) : R * R :=
  (bigsum (S D) (fun l => bigsum (2 * l + 1) (fun nu => g (l * l + nu)%nat * fst (green_field l nu x y))),
   bigsum (S D) (fun l => bigsum (2 * l + 1) (fun nu => g (l * l + nu)%nat * snd (green_field l nu x y)))).
