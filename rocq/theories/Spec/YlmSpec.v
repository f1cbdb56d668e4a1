(** Maps given by coefficients {(l, m): c}. *)
From Coq Require Import Reals ZArith List Bool.
From Verif Require Import Base.RealAux Model.Ylm Spec.HarmonicSpec Spec.RotationSpec Spec.BasisSpec Spec.DiskSpec.
Import ListNotations.
Open Scope R_scope.

Definition valid_lm (k : Z * Z) : Prop := (0 <= fst k /\ Z.abs (snd k) <= fst k)%Z.
(** a dictionary of admissible degrees and orders *)
Definition valid_coeffs (d : list (Z * Z * R)) : Prop := NoDup (map fst d) /\ forall k, In k (map fst d) -> valid_lm k.
(** the function on the sphere that the coefficients stand for *)
Definition coeffs_value (d : list (Z * Z * R)) (p : vec3) : R :=
  let '(x, y, z) := p in Rsum (map (fun kc => snd kc * real_Y (Z.to_nat (fst (fst kc))) (snd (fst kc)) x y z) d).
(** the coefficient of (l, m): 0 when absent *)
Definition coeff_is (d : list (Z * Z * R)) (k : Z * Z) (c : R) : Prop := In (k, c) d \/ (~ In k (map fst d) /\ c = 0).
(** position of (l, m) in a dense vector *)
Definition dense_pos (l : nat) (m : Z) : nat := Z.to_nat (Z.of_nat (l * l + l) + m).
(** limb-darkening profile 1 - sum u_n (1-z)^n and its integral over the visible disk *)
Definition ld_profile (u : list R) (z : R) : R := 1 - bigsum (length u) (fun n => nth n u 0 * (1 - z) ^ (S n)).
Definition ld_flux (u : list R) : R := disk_integral (fun x y => ld_profile u (zdisk x y)).
(** B is a right inverse of the N x N matrix A *)
Definition right_inverse (N : nat) (A B : Z -> Z -> R) : Prop := forall r c, (r < N)%nat -> (c < N)%nat ->
  bigsum N (fun k => A (Z.of_nat r) (Z.of_nat k) * B (Z.of_nat k) (Z.of_nat c)) = if Nat.eqb r c then 1 else 0.
(** a Ylm instance as the constructor builds it from admissible coefficients (make_ylm_wf): degrees bounded by, and attaining, y_deg *)
Definition wf_ylm (v : ylm) : Prop := valid_coeffs (y_data v) /\ y_data v <> [] /\ (0 <= y_deg v)%Z /\
  (forall k, In k (map fst (y_data v)) -> (fst k <= y_deg v)%Z) /\ exists k, In k (map fst (y_data v)) /\ fst k = y_deg v.
