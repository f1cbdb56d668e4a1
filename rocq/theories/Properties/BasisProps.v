(** C48, C49, C51: starry/core/basis.py *)
From Coq Require Import Reals Lra Lia ZArith List Bool.
From Verif Require Import Base.RealAux Base.Dict Model.Poly Model.Basis Spec.PolySpec Spec.BasisSpec Proof.PolyProof Proof.PolyUnique Proof.BasisProof Proof.GreenProof Proof.GreenInv.
Import ListNotations.
Open Scope R_scope.

(** C48: the limb-darkening row vector [1, u1, ...] @ U, read in the polynomial basis *)
Theorem C48_limb_darkening_polynomial : forall u x y z, on_sphere x y z ->
  dense_eval (length u) (fun j => limb_dark_vector u (Z.of_nat j)) x y z =
  1 - bigsum (length u) (fun n => nth n u 0 * (1 - z) ^ (S n)).
Proof. exact limb_dark_eval. Qed.
Print Assumptions C48_limb_darkening_polynomial.
(** in particular uniform brightness 1 without coefficients, and the linear/quadratic laws *)
Theorem C48_quadratic_law : forall u1 u2 x y z, on_sphere x y z ->
  dense_eval 2 (fun j => limb_dark_vector [u1; u2] (Z.of_nat j)) x y z = 1 - u1 * (1 - z) - u2 * (1 - z) ^ 2.
Proof. intros u1 u2 x y z H. transitivity (1 - bigsum (length [u1; u2]) (fun n => nth n [u1; u2] 0 * (1 - z) ^ (S n))); [exact (limb_dark_eval [u1; u2] x y z H)|]. cbn -[pow]. ring. Qed.
Print Assumptions C48_quadratic_law.
Example C48_sat : on_sphere (3 / 5) 0 (4 / 5).
Proof. unfold on_sphere. field. Qed.

(** C49 *)
Theorem C49_poly_basis : forall deg x y z, exists v, poly_basis deg x y z = Ok v /\ length v = ((deg + 1) * (deg + 1))%nat /\
  forall l nu, (l <= deg)%nat -> (nu <= 2 * l)%nat -> nth (l * l + nu) v 0 = basis_monomial l nu x y z.
Proof. exact poly_basis_ok. Qed.
Print Assumptions C49_poly_basis.
(** hence evaluating a dense polynomial is the dot product with poly_basis *)
Theorem C49_dot_product : forall deg d x y z, exists v, poly_basis deg x y z = Ok v /\
  bigsum ((deg + 1) * (deg + 1)) (fun n => d n * nth n v 0) = dense_eval deg d x y z.
Proof.
  intros deg d x y z. destruct (poly_basis_ok deg x y z) as (v & Hv & _ & Hn). exists v. split; [exact Hv|].
  rewrite bigsum_square. unfold dense_eval. apply bigsum_ext. intros l Hl. apply bigsum_ext. intros nu Hnu. rewrite Hn by lia. reflexivity.
Qed.
Print Assumptions C49_dot_product.

(** C51 *)
Theorem C51_gtilde_is_curl : forall l nu x y, (nu <= 2 * l)%nat -> in_disk x y -> (l = 1%nat -> nu = 1%nat -> 0 < x ^ 2 + y ^ 2) ->
  is_curl (green_field l nu) x y (dict_eval (gtilde (Z.of_nat (l * l + nu))) x y (zdisk x y)).
Proof. exact green_curl. Qed.
Print Assumptions C51_gtilde_is_curl.
Theorem C51_gtilde_degree : forall l nu i j k, (nu <= 2 * l)%nat -> In (i, j, k) (keys (gtilde (Z.of_nat (l * l + nu)))) ->
  valid_ijk (i, j, k) /\ (i + j + k <= Z.of_nat l)%Z.
Proof. intros l nu i j k H Hi. exact (gtilde_keys l nu (i, j, k) H Hi). Qed.
Print Assumptions C51_gtilde_degree.
(** A2_inv @ g is the polynomial vector of the combination of Green's basis functions *)
Theorem C51_A2_inv_action : forall D g x y z, let N := ((D + 1) * (D + 1))%nat in
  dense_eval D (fun r => bigsum N (fun n => A2_inv (Z.of_nat D) (Z.of_nat r) (Z.of_nat n) * g n)) x y z =
  bigsum (S D) (fun l => bigsum (2 * l + 1) (fun nu => g (l * l + nu)%nat * dict_eval (gtilde (Z.of_nat (l * l + nu))) x y z)).
Proof. exact A2_inv_eval. Qed.
Print Assumptions C51_A2_inv_action.
Theorem C51_A2_inv_invertible : forall D v, let N := ((D + 1) * (D + 1))%nat in
  exists g, (forall r, (r < N)%nat -> bigsum N (fun n => A2_inv (Z.of_nat D) (Z.of_nat r) (Z.of_nat n) * g n) = v r) /\
   (forall g', (forall r, (r < N)%nat -> bigsum N (fun n => A2_inv (Z.of_nat D) (Z.of_nat r) (Z.of_nat n) * g' n) = v r) ->
      forall n, (n < N)%nat -> g' n = g n).
Proof.
  intros D v N. destruct (Sp_all D v) as (g & Hg). exists g. split; [exact Hg|]. intros g' Hg' n Hn.
  assert (E : g' n - g n = 0); [|lra]. apply (A2_inv_injective D (fun n => g' n - g n)); [|exact Hn].
  intros r Hr. rewrite (bigsum_ext _ _ (fun n => A2_inv (Z.of_nat D) (Z.of_nat r) (Z.of_nat n) * g' n - A2_inv (Z.of_nat D) (Z.of_nat r) (Z.of_nat n) * g n)) by (intros; ring).
  rewrite <- bigsum_minus'. fold N. rewrite Hg' by exact Hr. fold N in Hg. rewrite (Hg r Hr). ring.
Qed.
Print Assumptions C51_A2_inv_invertible.
(** hence the intensity of every polynomial map is the curl of the combination of the fields G_n with
    coefficients the (unique) solution g of A2_inv g = p *)
Theorem C51_every_map_is_a_curl : forall D p, exists g, forall x y, in_disk x y -> 0 < x ^ 2 + y ^ 2 ->
  is_curl (green_combination D g) x y (dense_eval D p x y (zdisk x y)).
Proof.
  intros D p. destruct (Sp_all D p) as (g & Hg). exists g. intros x y Hd H0. pose proof (green_combination_curl D g x y Hd H0) as H.
  assert (E : dense_eval D p x y (zdisk x y) = dense_eval D (fun r => bigsum ((D + 1) * (D + 1)) (fun n => A2_inv (Z.of_nat D) (Z.of_nat r) (Z.of_nat n) * g n)) x y (zdisk x y)).
  { rewrite !dense_eval_flat. apply bigsum_ext. intros r Hr. now rewrite (Hg r Hr). }
  rewrite E. exact H.
Qed.
Print Assumptions C51_every_map_is_a_curl.
Example C51_sat : in_disk (1 / 2) (1 / 3) /\ 0 < (1 / 2) ^ 2 + (1 / 3) ^ 2 /\ gtilde 7 = [((0, 1, 1)%Z, 3)].
Proof. split; [unfold in_disk; lra|split; [lra|reflexivity]]. Qed.
