(** Model of starry/core/basis.py [basis], the change of basis from spherical harmonics to Green's basis. *)
From Coq Require Import Reals ZArith List.
From Verif Require Import Base.RealAux Model.Poly Model.Basis.
Local Open Scope R_scope.

(** starry/core/basis.py:19-29 [basis]: scipy.sparse.linalg.spsolve(A2_inv(lmax), A1(lmax)) is any matrix solving the
    system A2_inv(lmax) B = A1(lmax) (scipy's elimination is not modelled); the branch on lmax only restores the
    two-dimensional shape of the 1 x 1 answer. *)
Definition basis_to (lmax : nat) (B : matrix) : Prop :=
  let N := ((lmax + 1) * (lmax + 1))%nat in
  forall r c, (r < N)%nat -> (c < N)%nat ->
    bigsum N (fun n => A2_inv (Z.of_nat lmax) (Z.of_nat r) (Z.of_nat n) * B (Z.of_nat n) (Z.of_nat c)) = A1 (Z.of_nat lmax) (Z.of_nat r) (Z.of_nat c).
