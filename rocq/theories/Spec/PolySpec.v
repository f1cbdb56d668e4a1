(** Meaning of polynomial vectors, independent of the model's index conversions.
    The documented basis (polynomials.py:24-34, Luger et al. 2019):
    entry n = l^2 + l + m, with mu = l - m and nu = l + m, stands for
    x^(mu/2) y^(nu/2) when nu is even and x^((mu-1)/2) y^((nu-1)/2) z when nu is odd. *)
From Coq Require Import Reals ZArith List Bool.
From Verif Require Import Base.RealAux.
Import ListNotations.
Open Scope R_scope.

(** x^i y^j z^k *)
Definition monomial (i j k : nat) (x y z : R) : R := x ^ i * y ^ j * z ^ k.
(** the monomial with degree l and order m, given l and nu = l + m (0 <= nu <= 2 l) *)
Definition basis_monomial (l nu : nat) (x y z : R) : R :=
  let mu := (2 * l - nu)%nat in
  if Nat.even nu then x ^ (mu / 2) * y ^ (nu / 2)
  else x ^ ((mu - 1) / 2) * y ^ ((nu - 1) / 2) * z.
(** the function represented by a dense vector d of degree L: sum over l <= L, -l <= m <= l *)
Definition dense_eval (L : nat) (d : nat -> R) (x y z : R) : R :=
  bigsum (S L) (fun l => bigsum (2 * l + 1) (fun nu => d (l * l + nu)%nat * basis_monomial l nu x y z)).
(** the function represented by a dictionary {(i,j,k): c} *)
Definition dict_eval (d : list (Z * Z * Z * R)) (x y z : R) : R :=
  Rsum (map (fun e => let '(i, j, k, c) := e in
               c * (x ^ Z.to_nat i * y ^ Z.to_nat j * z ^ Z.to_nat k)) d).
Definition on_sphere (x y z : R) : Prop := x ^ 2 + y ^ 2 + z ^ 2 = 1.
(** admissible exponents *)
Definition valid_ijk (p : Z * Z * Z) : Prop := let '(i, j, k) := p in (0 <= i /\ 0 <= j /\ (k = 0 \/ k = 1))%Z.
(** a dictionary: no repeated key, all keys admissible *)
Definition valid_dict (d : list (Z * Z * Z * R)) : Prop :=
  NoDup (map fst d) /\ forall k, In k (map fst d) -> valid_ijk k.
Definition lm_valid (l m : Z) : Prop := (0 <= l /\ - l <= m <= l)%Z.
