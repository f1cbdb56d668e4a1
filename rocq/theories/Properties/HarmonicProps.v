(** C50: starry/core/basis.py, the spherical-harmonic change of basis *)
From Coq Require Import Reals Lra Lia ZArith List Bool.
From Verif Require Import Base.RealAux Base.Dict Model.Poly Model.Basis Spec.PolySpec Spec.BasisSpec Spec.HarmonicSpec Proof.HarmonicProof Proof.A1Inv.
From Verif Require Import Model.FullBasis Proof.FullBasis.
Import ListNotations.
Open Scope R_scope.

(** the polynomial dictionary Ylm(l, m) evaluates on the sphere to the real harmonic Y_{l,m} *)
Theorem C50_Ylm_is_harmonic : forall (l : nat) (m : Z) x y z, on_sphere x y z -> (Z.abs m <= Z.of_nat l)%Z ->
  dict_eval (Ylm (Z.of_nat l) m) x y z = real_Y l m x y z.
Proof. exact Ylm_eval. Qed.
Print Assumptions C50_Ylm_is_harmonic.
(** its keys are admissible exponents of total degree at most l *)
Theorem C50_Ylm_degree : forall (l : nat) (m : Z) i j k, (Z.abs m <= Z.of_nat l)%Z -> In (i, j, k) (keys (Ylm (Z.of_nat l) m)) ->
  valid_ijk (i, j, k) /\ (i + j + k <= Z.of_nat l)%Z.
Proof. intros l m i j k H Hi. exact (Ylm_keys l m (i, j, k) H Hi). Qed.
Print Assumptions C50_Ylm_degree.
(** the matrix A1(D) applied to harmonic coefficients d is the polynomial vector of 2/sqrt(pi) sum d Y *)
Theorem C50_A1_action : forall D (d : nat -> R) x y z, on_sphere x y z -> let N := ((D + 1) * (D + 1))%nat in
  dense_eval D (fun r => bigsum N (fun n => A1 (Z.of_nat D) (Z.of_nat r) (Z.of_nat n) * d n)) x y z = 2 / sqrt PI * harmonic_eval D d x y z.
Proof. exact A1_eval. Qed.
Print Assumptions C50_A1_action.
(** and A1(D) is invertible: every polynomial vector comes from exactly one vector of harmonic coefficients *)
Theorem C50_A1_invertible : forall D v, let N := ((D + 1) * (D + 1))%nat in
  exists d, (forall r, (r < N)%nat -> bigsum N (fun n => A1 (Z.of_nat D) (Z.of_nat r) (Z.of_nat n) * d n) = v r) /\
   (forall d', (forall r, (r < N)%nat -> bigsum N (fun n => A1 (Z.of_nat D) (Z.of_nat r) (Z.of_nat n) * d' n) = v r) -> forall n, (n < N)%nat -> d' n = d n).
Proof. exact A1_invertible. Qed.
Print Assumptions C50_A1_invertible.
Example C50_sat : on_sphere (1 / 3) (2 / 3) (2 / 3) /\ (Z.abs (-2) <= Z.of_nat 3)%Z.
Proof. split; [unfold on_sphere; field|lia]. Qed.

(** basis(lmax) @ y are the coefficients in Green's basis of the map with harmonic coefficients y *)
Theorem C51_full_change_of_basis : forall D B d x y z, basis_to D B -> on_sphere x y z -> let N := ((D + 1) * (D + 1))%nat in
  bigsum (S D) (fun l => bigsum (2 * l + 1) (fun nu =>
    bigsum N (fun c => B (Z.of_nat (l * l + nu)) (Z.of_nat c) * d c) * dict_eval (gtilde (Z.of_nat (l * l + nu))) x y z)) =
  2 / sqrt PI * harmonic_eval D d x y z.
Proof. exact basis_action. Qed.
Print Assumptions C51_full_change_of_basis.
(** and the system solved by basis(lmax) always has exactly one solution *)
Theorem C51_full_change_of_basis_unique : forall D, exists B, basis_to D B /\
  forall B', basis_to D B' -> forall n c, (n < (D + 1) * (D + 1))%nat -> (c < (D + 1) * (D + 1))%nat -> B' (Z.of_nat n) (Z.of_nat c) = B (Z.of_nat n) (Z.of_nat c).
Proof. exact basis_exists. Qed.
Print Assumptions C51_full_change_of_basis_unique.
