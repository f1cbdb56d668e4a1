(** C55, C56, C71: starry/ylm.py *)
From Coq Require Import Reals Lra Lia ZArith List Bool.
From Verif Require Import Base.RealAux Base.Dict Model.Poly Model.Basis Model.Ylm Spec.PolySpec Spec.BasisSpec Spec.HarmonicSpec Spec.RotationSpec Spec.DiskSpec Spec.YlmSpec
  Proof.HarmonicProof Proof.YlmProof Proof.YlmMore Proof.YlmFacts.
Import ListNotations.
Open Scope R_scope.

(** C55: Ylm.from_dense(y, normalize=False).todense() is y padded with zeros up to the next (L+1)^2 *)
Theorem C55_roundtrip : forall y, y <> [] -> exists v, ylm_from_dense y false = Ok v /\
  let L := Nat.sqrt (length y - 1) in
  y_deg v = Z.of_nat L /\ (length y <= ncoef L)%nat /\ ylm_todense v = y ++ repeat 0 (ncoef L - length y).
Proof. intros y Hy. destruct (from_dense_todense_ylm y Hy) as (v & E & _ & D & T & H). exists v. split; [exact E|]. split; [exact D|]. split; [exact H|exact T]. Qed.
Print Assumptions C55_roundtrip.
Theorem C55_empty : forall b, ylm_from_dense [] b = Err ValueError.
Proof. reflexivity. Qed.
Print Assumptions C55_empty.
(** a dictionary of admissible (l, m): degree, size, position of each coefficient, and the function represented *)
Theorem C55_todense : forall d, valid_coeffs d -> d <> [] -> exists v, make_ylm d = Ok v /\
  (forall l m, In (l, m) (map fst d) -> (l <= y_deg v)%Z) /\ (exists m, In (y_deg v, m) (map fst d)) /\
  length (ylm_todense v) = ncoef (Z.to_nat (y_deg v)) /\
  (forall (l : nat) m c, (Z.of_nat l <= y_deg v)%Z -> (Z.abs m <= Z.of_nat l)%Z -> coeff_is d (Z.of_nat l, m) c ->
     nth (dense_pos l m) (ylm_todense v) 0 = c /\ ylm_getitem v (Z.of_nat l, m) = c) /\
  (forall p, map_at (Z.to_nat (y_deg v)) (ylm_todense v) p = coeffs_value d p).
Proof. exact todense_spec. Qed.
Print Assumptions C55_todense.
(** normalize divides by the (0,0) coefficient, is idempotent, and fails when it is missing or (for floats) zero *)
Theorem C55_normalize : forall d v c, valid_coeffs d -> make_ylm d = Ok v -> In ((0, 0)%Z, c) d -> c <> 0 ->
  exists w, ylm_normalize v = Ok w /\ ylm_normalize w = Ok w /\ y_deg w = y_deg v /\ coeff_is (y_data w) (0, 0)%Z 1 /\
    y_data w = map (fun kv => (fst kv, snd kv / c)) d /\ (forall p, coeffs_value (y_data w) p = coeffs_value d p / c).
Proof. exact normalize_spec. Qed.
Print Assumptions C55_normalize.
Theorem C55_normalize_missing : forall d v, make_ylm d = Ok v -> ~ In (0, 0)%Z (map fst d) -> ylm_normalize v = Err KeyError.
Proof. exact normalize_missing. Qed.
Print Assumptions C55_normalize_missing.
(** the documentation promises ValueError for a zero coefficient *)
Theorem C55_normalize_zero_refuted : forall d v, valid_coeffs d -> make_ylm d = Ok v -> In ((0, 0)%Z, 0) d ->
  ylm_normalize v = Err ZeroDivisionError /\ ylm_normalize v <> Err ValueError.
Proof. exact normalize_zero. Qed.
Print Assumptions C55_normalize_zero_refuted.
(** item access beyond the degree does not fail or give 0: it gives the coefficient (deg, deg) *)
Theorem C55_getitem_beyond_degree_refuted : forall d v l m c, valid_coeffs d -> make_ylm d = Ok v -> (y_deg v < l)%Z -> (Z.abs m <= l)%Z ->
  coeff_is d (y_deg v, y_deg v) c -> ylm_getitem v (l, m) = c.
Proof. exact getitem_beyond. Qed.
Print Assumptions C55_getitem_beyond_degree_refuted.
(** an order beyond the degree is not rejected: (1, -2) is added to the (0, 0) coefficient *)
Theorem C55_invalid_order_refuted : forall a c, exists v, make_ylm [((0, 0), a); ((1, -2), c)]%Z = Ok v /\ ylm_todense v = [a + c; 0; 0; 0].
Proof. exact invalid_order. Qed.
Print Assumptions C55_invalid_order_refuted.
(** multiplication by a number scales the function *)
Theorem C55_scalar : forall v c p, coeffs_value (y_data (ylm_scale v c)) p = c * coeffs_value (y_data v) p /\ y_deg (ylm_scale v c) = y_deg v /\
  map fst (y_data (ylm_scale v c)) = map fst (y_data v).
Proof. intros v c p. split; [apply value_map|]. split; [reflexivity|]. apply (keys_map_val (fun x => x * c)). Qed.
Print Assumptions C55_scalar.
Example C55_sat : valid_coeffs [((0, 0)%Z, 2); ((3, -1)%Z, 1.5)].
Proof. split; [constructor; [intros [H|[]]; discriminate|constructor; [intros []|constructor]]|]. intros k [<-|[<-|[]]]; unfold valid_lm; cbn; lia. Qed.

(** C71: Ylm.from_limb_darkening(u), given that the numerical inverse of A1 is an inverse.  The map (with starry's
    factor 2/sqrt pi) is the limb-darkening profile over its disk integral *)
Theorem C71_from_limb_darkening : forall inv u, right_inverse (ncoef (length u)) (A1 (Z.of_nat (length u))) (inv (length u)) ->
  exists w, ylm_from_limb_darkening inv u = Ok w /\ valid_coeffs (y_data w) /\ y_deg w = Z.of_nat (length u) /\
  forall x y z, on_sphere x y z -> 2 / sqrt PI * coeffs_value (y_data w) (x, y, z) = ld_profile u z / ld_flux u.
Proof. intros inv u H. exact (from_ld_ok inv u H). Qed.
Print Assumptions C71_from_limb_darkening.
(** hence it emits unit flux *)
Theorem C71_unit_flux : forall inv u, right_inverse (ncoef (length u)) (A1 (Z.of_nat (length u))) (inv (length u)) -> ld_flux u <> 0 ->
  exists w, ylm_from_limb_darkening inv u = Ok w /\ disk_integral (fun x y => 2 / sqrt PI * coeffs_value (y_data w) (x, y, zdisk x y)) = 1.
Proof. exact from_ld_unit_flux. Qed.
Print Assumptions C71_unit_flux.
Example C71_sat : (forall u : list R, exists inv, right_inverse (ncoef (length u)) (A1 (Z.of_nat (length u))) (inv (length u))) /\ ld_flux [] <> 0.
Proof. exact ld_sat. Qed.

(** C56: the product of the constant map {(0,0): a} with a map v multiplies the coefficient (l, m) of v by
    (-1)^l sqrt(2l+1) a / sqrt(4 pi), whatever v is *)
Theorem C56_product_with_constant : forall a f d v, make_ylm [((0, 0)%Z, a)] = Ok f -> valid_coeffs d -> make_ylm d = Ok v ->
  exists w, ylm_mul f v = Ok w /\ valid_coeffs (y_data w) /\ y_deg w = y_deg v /\
   forall l m c, coeff_is d (l, m) c -> coeff_is (y_data w) (l, m) ((if Z.even l then 1 else -1) * sqrt (2 * IZR l + 1) * a / sqrt (4 * PI) * c).
Proof. exact mul_constant_spec. Qed.
Print Assumptions C56_product_with_constant.
(** so the product of two expansions is not the product of the functions *)
Theorem C56_product_refuted : exists f g w x y z, make_ylm [((0, 0)%Z, 1)] = Ok f /\ make_ylm [((1, 0)%Z, 1)] = Ok g /\ ylm_mul f g = Ok w /\ on_sphere x y z /\
  coeffs_value (y_data w) (x, y, z) <> coeffs_value (y_data f) (x, y, z) * coeffs_value (y_data g) (x, y, z).
Proof. exact mul_refuted. Qed.
Print Assumptions C56_product_refuted.
(** nor even commutative *)
Theorem C56_commutative_refuted : exists f g w w', make_ylm [((1, 1)%Z, 1)] = Ok f /\ make_ylm [((1, 0)%Z, 1)] = Ok g /\ ylm_mul f g = Ok w /\ ylm_mul g f = Ok w' /\
  exists c, c <> 0 /\ coeff_is (y_data w) (1, 1)%Z c /\ coeff_is (y_data w') (1, 1)%Z (- c).
Proof. exact mul_not_commutative. Qed.
Print Assumptions C56_commutative_refuted.
