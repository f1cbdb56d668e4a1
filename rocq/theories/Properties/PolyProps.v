(** C46, C47, C57: starry/core/polynomials.py *)
From Coq Require Import Reals Lra Lia ZArith List Bool.
From Verif Require Import Base.RealAux Base.Dict Model.Poly Spec.PolySpec Proof.PolyProof Proof.PolyMatrix Proof.PolyUnique.
Import ListNotations.
Open Scope R_scope.

(** C46 *)
Theorem C46_n_lm_bijection :
  (forall n, (0 <= n)%Z -> lm_valid (fst (n2lm n)) (snd (n2lm n)) /\ lm2n (fst (n2lm n)) (snd (n2lm n)) = n) /\
  (forall l m, lm_valid l m -> (0 <= lm2n l m)%Z /\ n2lm (lm2n l m) = (l, m)).
Proof.
  split.
  - intros n Hn. split; [now apply n2lm_valid|apply n2lm_lm2n].
  - intros l m H. split; [destruct H; unfold lm2n; nia|now apply lm2n_n2lm].
Qed.
Print Assumptions C46_n_lm_bijection.
Theorem C46_lm_ijk_bijection :
  (forall l m, lm_valid l m -> valid_ijk (lm2ijk l m) /\ ijk2lm (lm2ijk l m) = Ok (l, m)) /\
  (forall p, valid_ijk p -> exists l m, ijk2lm p = Ok (l, m) /\ lm_valid l m /\ lm2ijk l m = p) /\
  (forall i j k, (k <> 0)%Z -> (k <> 1)%Z -> ijk2lm (i, j, k) = Err AssertionError).
Proof.
  split; [|split].
  - intros l m H. split; [now apply lm2ijk_valid|now apply ijk2lm_lm2ijk].
  - intros p Hp. pose proof (ijk2lm_form p Hp) as H. destruct p as [[i j] k]. exists (i + j + k)%Z, (j - i)%Z. split; [exact H|].
    now apply ijk2lm_valid.
  - exact ijk2lm_assert.
Qed.
Print Assumptions C46_lm_ijk_bijection.
Theorem C46_n_ijk_bijection :
  (forall n, (0 <= n)%Z -> valid_ijk (n2ijk n) /\ index (n2ijk n) = Ok n) /\
  (forall p, valid_ijk p -> exists n, index p = Ok n /\ (0 <= n)%Z /\ n2ijk n = p).
Proof.
  split.
  - intros n Hn. pose proof (n2ijk_valid n Hn) as Hv. split; [exact Hv|]. rewrite index_form by exact Hv. now rewrite idx_n2ijk.
  - intros p Hp. exists (idx p). split; [now apply index_form|]. split; [now apply idx_nonneg|now apply n2ijk_idx].
Qed.
Print Assumptions C46_n_ijk_bijection.
(** entry l^2 + (l + m) is the documented monomial *)
Theorem C46_documented_monomial : forall (l nu : nat) x y z, (nu <= 2 * l)%nat ->
  let '(i, j, k) := n2ijk (Z.of_nat (l * l + nu)) in
  monomial (Z.to_nat i) (Z.to_nat j) (Z.to_nat k) x y z = basis_monomial l nu x y z.
Proof.
  intros l nu x y z H. rewrite (basis_monomial_mono l nu x y z H). unfold mono, monomial.
  now destruct (n2ijk (Z.of_nat (l * l + nu))) as [[i j] k].
Qed.
Print Assumptions C46_documented_monomial.
(** the class docstring lists 1, x, y, z, ...; the code's order is 1, x, z, y, ... *)
Theorem C46_docstring_order_refuted : n2ijk 2 = (0, 0, 1)%Z /\ n2ijk 3 = (0, 1, 0)%Z.
Proof. split; reflexivity. Qed.
Print Assumptions C46_docstring_order_refuted.
Theorem C46_dense_round_trip : forall x, x <> [] ->
  exists p v, from_dense x None = Ok p /\ todense p = Ok v /\
    p_degree p = Z.sqrt (Z.of_nat (length x) - 1) /\
    length v = Z.to_nat ((p_degree p + 1) ^ 2) /\ (length x <= length v)%nat /\
    (forall n, (n < length v)%nat -> nth n v 0 = nth n x 0).
Proof.
  intros x Hx. destruct (from_dense_ok x None (or_introl Hx)) as (p & Hp & _ & _ & Hdeg). specialize (Hdeg eq_refl).
  destruct (from_dense_todense x None p Hx Hp) as (v & Hv & Hl & Hn). exists p, v.
  split; [exact Hp|]. split; [exact Hv|]. split; [exact Hdeg|]. split; [exact Hl|]. split; [|exact Hn].
  rewrite Hl, Hdeg. assert (0 < length x)%nat by (destruct x; [contradiction|cbn; lia]).
  pose proof (Z.sqrt_spec (Z.of_nat (length x) - 1) ltac:(lia)) as Hs. cbv zeta in Hs.
  pose proof (Z.sqrt_nonneg (Z.of_nat (length x) - 1)). generalize dependent (Z.sqrt (Z.of_nat (length x) - 1)). intros s _ Hs ?.
  rewrite Z.pow_2_r. lia.
Qed.
Print Assumptions C46_dense_round_trip.
(** with an explicit degree, entries beyond (degree+1)^2 are dropped *)
Theorem C46_dense_round_trip_degree : forall x D, x <> [] ->
  exists p v, from_dense x (Some D) = Ok p /\ todense p = Ok v /\ length v = Z.to_nat ((D + 1) ^ 2) /\
    (forall n, (n < length v)%nat -> nth n v 0 = nth n x 0).
Proof.
  intros x D Hx. destruct (from_dense_ok x (Some D) (or_introl Hx)) as (p & Hp & _ & Hdeg & _). specialize (Hdeg D eq_refl).
  destruct (from_dense_todense x (Some D) p Hx Hp) as (v & Hv & Hl & Hn). exists p, v. rewrite Hdeg in Hl. auto.
Qed.
Print Assumptions C46_dense_round_trip_degree.
Theorem C46_empty_dense : from_dense [] None = Err ValueError.
Proof. reflexivity. Qed.
Print Assumptions C46_empty_dense.
(** todense represents the same function *)
Theorem C46_todense_same_function : forall d p, valid_dict d -> d <> [] -> make_pijk d None = Ok p ->
  exists v, todense p = Ok v /\ forall x y z,
    dense_eval (Z.to_nat (p_degree p)) (fun n => nth n v 0) x y z = dict_eval d x y z.
Proof.
  intros d p [Hn Hv] Hne Hp. destruct (make_pijk_ok d Hne Hv) as (p' & Hp' & Hd & H0 & Hle & _). rewrite Hp in Hp'. injection Hp' as <-.
  rewrite <- Hd in Hne, Hv, Hle. destruct (todense_eval p Hne Hv Hle) as (v & Ht & _ & He). exists v. split; [exact Ht|].
  intros x y z. rewrite He. now rewrite Hd.
Qed.
Print Assumptions C46_todense_same_function.
Example C46_satisfiable : lm_valid 3 (-2) /\ valid_ijk (2, 1, 1)%Z /\ index (2, 1, 1)%Z = Ok 19%Z /\
  valid_dict [((0, 1, 1)%Z, 2); ((1, 1, 0)%Z, 3)].
Proof.
  split; [unfold lm_valid; lia|]. split; [unfold valid_ijk; lia|]. split; [reflexivity|]. split.
  - repeat constructor; cbn; intuition congruence.
  - intros k [<-|[<-|[]]]; cbn; lia.
Qed.

(** C47 *)
Theorem C47_add : forall u v, valid_dict (p_data u) -> valid_dict (p_data v) -> p_data u <> [] ->
  exists r, pijk_add u v = Ok r /\ valid_dict (p_data r) /\
    forall x y z, dict_eval (p_data r) x y z = dict_eval (p_data u) x y z + dict_eval (p_data v) x y z.
Proof. exact pijk_add_spec. Qed.
Print Assumptions C47_add.
Theorem C47_mul : forall u v, valid_dict (p_data u) -> valid_dict (p_data v) -> p_data u <> [] -> p_data v <> [] ->
  exists r, pijk_mul u v = Ok r /\ valid_dict (p_data r) /\
    (forall Du Dv, max_degree (keys (p_data u)) = Ok Du -> max_degree (keys (p_data v)) = Ok Dv -> p_degree r = (Du + Dv)%Z) /\
    forall x y z, on_sphere x y z -> dict_eval (p_data r) x y z = dict_eval (p_data u) x y z * dict_eval (p_data v) x y z.
Proof. exact pijk_mul_spec. Qed.
Print Assumptions C47_mul.
Theorem C47_scalar_multiplication : forall p c x y z,
  dict_eval (p_data (pijk_mul_scalar p c)) x y z = c * dict_eval (p_data p) x y z /\
  dict_eval (p_data (pijk_rmul_scalar c p)) x y z = c * dict_eval (p_data p) x y z.
Proof. exact pijk_scale_spec. Qed.
Print Assumptions C47_scalar_multiplication.
(** the dense vector of a function on the sphere is unique, so equal functions have equal coefficients *)
Theorem C47_coefficients_unique : forall L d d',
  (forall x y z, on_sphere x y z -> dense_eval L d x y z = dense_eval L d' x y z) ->
  forall n, (n < (L + 1) * (L + 1))%nat -> d n = d' n.
Proof.
  intros L d d' H n Hn. cut (d n - d' n = 0); [lra|]. apply (dense_unique L (fun n => d n - d' n)); [|exact Hn].
  intros x y z Hs. specialize (H x y z Hs). rewrite !dense_eval_flat in *.
  rewrite (bigsum_ext _ _ (fun n => d n * mono (n2ijk (Z.of_nat n)) x y z + (-1) * (d' n * mono (n2ijk (Z.of_nat n)) x y z))) by (intros; ring).
  rewrite bigsum_plus, bigsum_scal, H. lra.
Qed.
Print Assumptions C47_coefficients_unique.
(** p + c adds c to every stored coefficient *)
Theorem C47_add_scalar_actual : forall p c x y z,
  dict_eval (p_data (pijk_add_scalar p c)) x y z = dict_eval (p_data p) x y z +
   c * dict_eval (map (fun kv => (fst kv, 1)) (p_data p)) x y z.
Proof. exact pijk_add_scalar_spec. Qed.
Print Assumptions C47_add_scalar_actual.
Theorem C47_add_scalar_refuted : exists p x y z, on_sphere x y z /\
  make_pijk [((0, 0, 0)%Z, 1); ((1, 0, 0)%Z, 1)] None = Ok p /\
  dict_eval (p_data (pijk_add_scalar p 1)) x y z <> dict_eval (p_data p) x y z + 1.
Proof.
  eexists. exists 1, 0, 0. split; [unfold on_sphere; ring|]. split; [reflexivity|]. unfold dict_eval, Rsum. cbn [p_data pijk_add_scalar pijk_map map fold_right fst snd]. change (Z.to_nat 0) with 0%nat. change (Z.to_nat 1) with 1%nat. rewrite !pow_O, !pow_1. lra.
Qed.
Print Assumptions C47_add_scalar_refuted.
Example C47_satisfiable : exists u v r, make_pijk [((0, 0, 1)%Z, 2); ((1, 1, 0)%Z, 3)] None = Ok u /\
  make_pijk [((0, 0, 1)%Z, 5)] None = Ok v /\ valid_dict (p_data u) /\ valid_dict (p_data v) /\ p_data u <> [] /\ p_data v <> [] /\
  pijk_mul u v = Ok r /\ keys (p_data r) = [(0, 0, 0); (2, 0, 0); (0, 2, 0); (1, 1, 1)]%Z.
Proof.
  eexists. eexists. eexists. split; [reflexivity|]. split; [reflexivity|].
  split; [split; [repeat constructor; cbn; intuition congruence|intros k [<-|[<-|[]]]; cbn; lia]|].
  split; [split; [repeat constructor; cbn; intuition congruence|intros k [<-|[]]; cbn; lia]|].
  split; [discriminate|]. split; [discriminate|]. split; reflexivity.
Qed.

(** C57: what the matrix computes: the product with p padded by copies of its last coefficient *)
Theorem C57_product_matrix_actual : forall p (degree : nat) q x y z, on_sphere x y z ->
  let deg_p := Z.to_nat (Z.sqrt (Z.of_nat (length p))) in
  dense_eval (deg_p + degree)
     (fun r => mat_vec (Z.of_nat ((degree + 1) * (degree + 1))) (product_matrix p (Z.of_nat degree)) q (Z.of_nat r)) x y z =
  dense_eval deg_p (fun n => jax_get p (Z.of_nat n)) x y z * dense_eval degree (fun n => nth n q 0) x y z.
Proof. exact product_matrix_eval. Qed.
Print Assumptions C57_product_matrix_actual.
(** hence, for p with (d+1)^2 coefficients: *)
Theorem C57_product_matrix_square : forall p d (degree : nat) q x y z, on_sphere x y z -> length p = ((d + 1) * (d + 1))%nat ->
  dense_eval (S d + degree)
     (fun r => mat_vec (Z.of_nat ((degree + 1) * (degree + 1))) (product_matrix p (Z.of_nat degree)) q (Z.of_nat r)) x y z =
  (dense_eval d (fun n => nth n p 0) x y z + last p 0 * bigsum (2 * d + 3) (fun nu => basis_monomial (S d) nu x y z))
  * dense_eval degree (fun n => nth n q 0) x y z.
Proof.
  intros p d degree q x y z Hs Hl. pose proof (product_matrix_eval p degree q x y z Hs) as H. cbv zeta in H.
  replace (Z.to_nat (Z.sqrt (Z.of_nat (length p)))) with (S d) in H.
  - rewrite H. now rewrite (dense_eval_pad p d) by exact Hl.
  - rewrite Hl. replace (Z.sqrt (Z.of_nat ((d + 1) * (d + 1)))) with (Z.of_nat (S d)); [lia|]. symmetry. apply Z.sqrt_unique. nia.
Qed.
Print Assumptions C57_product_matrix_square.
Theorem C57_product_matrix_last_zero : forall p d (degree : nat) q x y z, on_sphere x y z ->
  length p = ((d + 1) * (d + 1))%nat -> last p 0 = 0 ->
  dense_eval (S d + degree)
     (fun r => mat_vec (Z.of_nat ((degree + 1) * (degree + 1))) (product_matrix p (Z.of_nat degree)) q (Z.of_nat r)) x y z =
  dense_eval d (fun n => nth n p 0) x y z * dense_eval degree (fun n => nth n q 0) x y z.
Proof. intros p d degree q x y z Hs Hl H0. rewrite (C57_product_matrix_square p d) by assumption. rewrite H0. ring. Qed.
Print Assumptions C57_product_matrix_last_zero.
Theorem C57_product_matrix_refuted : exists x y z, on_sphere x y z /\
  dense_eval 1 (fun r => mat_vec 1 (product_matrix [1] 0) [1] (Z.of_nat r)) x y z <>
  dense_eval 0 (fun n => nth n [1] 0) x y z * dense_eval 0 (fun n => nth n [1] 0) x y z.
Proof.
  exists 1, 0, 0. split; [unfold on_sphere; ring|].
  pose proof (C57_product_matrix_square [1] 0 0 [1] 1 0 0 ltac:(unfold on_sphere; ring) eq_refl) as H.
  change (S 0 + 0)%nat with 1%nat in H. change (Z.of_nat ((0 + 1) * (0 + 1))) with 1%Z in H. change (Z.of_nat 0) with 0%Z in H.
  rewrite H. unfold dense_eval. cbn -[pow Nat.div]. unfold basis_monomial. cbn. lra.
Qed.
Print Assumptions C57_product_matrix_refuted.
Example C57_satisfiable : length [1; 2; 3; 0] = ((1 + 1) * (1 + 1))%nat /\ last [1; 2; 3; 0] 0 = 0.
Proof. split; reflexivity. Qed.
