From Coq Require Import Reals Lra Lia ZArith List Bool FinFun.
From Verif Require Import Base.RealAux Base.Dict Model.Poly Spec.PolySpec Proof.PolyProof.
Import ListNotations.
Open Scope R_scope.

(** * The loops over (l, m) with a running counter *)
Lemma zrange_S a (n : nat) : zrange a (a + Z.of_nat (S n)) = zrange a (a + Z.of_nat n) ++ [(a + Z.of_nat n)%Z].
Proof.
  unfold zrange. replace (Z.to_nat (a + Z.of_nat (S n) - a)) with (S n) by lia.
  replace (Z.to_nat (a + Z.of_nat n - a)) with n by lia. rewrite seq_S, map_app. reflexivity.
Qed.
Lemma lm_list_form D : lm_list (Z.of_nat D) = map (fun n => n2lm (Z.of_nat n)) (seq 0 ((D + 1) * (D + 1))).
Proof.
  unfold lm_list. induction D as [|D IH].
  - reflexivity.
  - replace (Z.of_nat (S D) + 1)%Z with (0 + Z.of_nat (S (S D)))%Z by lia. rewrite zrange_S, flat_map_app.
    replace (0 + Z.of_nat (S D))%Z with (Z.of_nat D + 1)%Z by lia. rewrite IH.
    replace ((S D + 1) * (S D + 1))%nat with ((D + 1) * (D + 1) + (2 * S D + 1))%nat by lia.
    rewrite seq_app, map_app. f_equal. cbn [flat_map]. rewrite app_nil_r. unfold zrange. rewrite map_map.
    replace (Z.to_nat (Z.of_nat D + 1 + 1 - - (Z.of_nat D + 1))) with (2 * S D + 1)%nat by lia.
    rewrite Nat.add_0_l.
    assert (G : forall n, (n <= 2 * S D + 1)%nat -> map (fun x => ((Z.of_nat D + 1)%Z, (- (Z.of_nat D + 1) + Z.of_nat x)%Z)) (seq 0 n) =
      map (fun n0 => n2lm (Z.of_nat n0)) (seq ((D + 1) * (D + 1)) n)).
    { induction n as [|n IHn]; intros Hn; [reflexivity|]. rewrite !seq_S, !map_app, IHn by lia. f_equal. cbn [map plus]. f_equal.
      replace (Z.of_nat ((D + 1) * (D + 1) + n)) with (lm2n (Z.of_nat D + 1) (- (Z.of_nat D + 1) + Z.of_nat n)) by (unfold lm2n; nia).
      symmetry. apply lm2n_n2lm. unfold lm_valid. lia. }
    apply G. lia.
Qed.
Lemma combine_map_seq {A} (f : nat -> A) N : combine (map Z.of_nat (seq 0 N)) (map f (seq 0 N)) = map (fun n => (Z.of_nat n, f n)) (seq 0 N).
Proof. generalize 0%nat. induction N as [|N IH]; intros s; [reflexivity|]. cbn [seq map combine]. now rewrite IH. Qed.
Lemma lm_enum_form D : lm_enum (Z.of_nat D) = map (fun n => (Z.of_nat n, n2lm (Z.of_nat n))) (seq 0 ((D + 1) * (D + 1))).
Proof. unfold lm_enum. rewrite lm_list_form, map_length, seq_length. apply combine_map_seq. Qed.

(** * A linear functional on matrices *)
Section Functional.
Variables (rows cols : nat) (g q : nat -> R).
Definition Fun_ (M : matrix) : R := bigsum rows (fun r => bigsum cols (fun c => M (Z.of_nat r) (Z.of_nat c) * q c * g r)).
Lemma Fun_bump M (r c : nat) v : (r < rows)%nat -> (c < cols)%nat ->
  Fun_ (mat_set (Z.of_nat rows) (Z.of_nat cols) M (Z.of_nat r) (Z.of_nat c) (M (Z.of_nat r) (Z.of_nat c) + v)) = Fun_ M + v * q c * g r.
Proof.
  intros Hr Hc. unfold mat_set.
  replace ((0 <=? Z.of_nat r) && (Z.of_nat r <? Z.of_nat rows) && (0 <=? Z.of_nat c) && (Z.of_nat c <? Z.of_nat cols))%Z with true.
  2:{ symmetry. rewrite !andb_true_iff, !Z.leb_le, !Z.ltb_lt. lia. }
  unfold Fun_.
  rewrite (bigsum_ext rows _ (fun r' => bigsum cols (fun c' => M (Z.of_nat r') (Z.of_nat c') * q c' * g r') + bigsum cols (fun c' => if Nat.eqb r' r then (if Nat.eqb c' c then v * q c * g r else 0) else 0))).
  - rewrite bigsum_plus. f_equal. rewrite (bigsum_single rows r).
    + rewrite Nat.eqb_refl. rewrite (bigsum_single cols c).
      * now rewrite Nat.eqb_refl.
      * assumption.
      * intros i _ Hi. destruct (Nat.eqb_spec i c); [contradiction|reflexivity].
    + assumption.
    + intros i _ Hi. destruct (Nat.eqb_spec i r); [contradiction|apply bigsum_zero].
  - intros r' _. rewrite <- bigsum_plus. apply bigsum_ext. intros c' _.
    destruct (Nat.eqb_spec r' r) as [-> |Hr'], (Nat.eqb_spec c' c) as [-> |Hc'].
    + rewrite !Z.eqb_refl. cbn [andb]. ring.
    + rewrite Z.eqb_refl. destruct (Z.eqb_spec (Z.of_nat c') (Z.of_nat c)); [lia|]. cbn [andb]. ring.
    + destruct (Z.eqb_spec (Z.of_nat r') (Z.of_nat r)); [lia|]. cbn [andb]. ring.
    + destruct (Z.eqb_spec (Z.of_nat r') (Z.of_nat r)); [lia|]. cbn [andb]. ring.
Qed.
Lemma Fun_bumpZ M (r c : Z) v : (0 <= r < Z.of_nat rows)%Z -> (0 <= c < Z.of_nat cols)%Z ->
  Fun_ (mat_set (Z.of_nat rows) (Z.of_nat cols) M r c (M r c + v)) = Fun_ M + v * q (Z.to_nat c) * g (Z.to_nat r).
Proof.
  intros Hr Hc. rewrite <- (Z2Nat.id r), <- (Z2Nat.id c) by lia. rewrite Fun_bump by lia. rewrite !Nat2Z.id. reflexivity.
Qed.
End Functional.

Lemma parity_k i j k : valid_ijk (i, j, k) -> ((i + j + k + (j - i)) mod 2 = k)%Z.
Proof.
  intros (_ & _ & Hk). replace (i + j + k + (j - i))%Z with (k + j * 2)%Z by lia. rewrite Z.mod_add by lia. destruct Hk as [-> | ->]; reflexivity.
Qed.
Definition monon (n : nat) (x y z : R) := mono (n2ijk (Z.of_nat n)) x y z.
Lemma monon_idx p x y z : valid_ijk p -> monon (Z.to_nat (idx p)) x y z = mono p x y z.
Proof. intros H. unfold monon. rewrite Z2Nat.id by now apply idx_nonneg. now rewrite n2ijk_idx. Qed.

Lemma fold_add {A} (F : matrix -> R) (step : matrix -> A -> matrix) (w : A -> R) l M :
  (forall M a, In a l -> F (step M a) = F M + w a) -> F (fold_left step l M) = F M + Rsum (map w l).
Proof.
  revert M. induction l as [|a l IH]; intros M H; [cbn [fold_left map]; unfold Rsum; cbn [fold_right]; ring|].
  cbn [fold_left map]. rewrite IH by (intros; apply H; now right). rewrite H by now left. unfold Rsum. cbn [fold_right]. ring.
Qed.

Lemma product_matrix_eval p (degree : nat) q x y z : on_sphere x y z ->
  let deg_p := Z.to_nat (Z.sqrt (Z.of_nat (length p))) in
  let M := product_matrix p (Z.of_nat degree) in
  dense_eval (deg_p + degree) (fun r => mat_vec (Z.of_nat ((degree + 1) * (degree + 1))) M q (Z.of_nat r)) x y z =
  dense_eval deg_p (fun n => jax_get p (Z.of_nat n)) x y z * dense_eval degree (fun n => nth n q 0) x y z.
Proof.
  intros Hs. cbv zeta. set (dp := Z.to_nat (Z.sqrt (Z.of_nat (length p)))).
  assert (Edp : Z.sqrt (Z.of_nat (length p)) = Z.of_nat dp) by (unfold dp; rewrite Z2Nat.id; [reflexivity|apply Z.sqrt_nonneg]).
  rewrite !dense_eval_flat. set (cols := ((degree + 1) * (degree + 1))%nat). set (rows := ((dp + degree + 1) * (dp + degree + 1))%nat).
  transitivity (Fun_ rows cols (fun n => monon n x y z) (fun n => nth n q 0) (product_matrix p (Z.of_nat degree))).
  { unfold Fun_, mat_vec. apply bigsum_ext. intros r _. rewrite Nat2Z.id. rewrite Rmult_comm, <- bigsum_scal. apply bigsum_ext.
    intros c _. unfold monon. ring. }
  unfold product_matrix. rewrite Edp. cbv zeta.
  replace ((Z.of_nat dp + Z.of_nat degree + 1) * (Z.of_nat dp + Z.of_nat degree + 1))%Z with (Z.of_nat rows) by (unfold rows; lia).
  replace ((Z.of_nat degree + 1) * (Z.of_nat degree + 1))%Z with (Z.of_nat cols) by (unfold cols; lia).
  rewrite !lm_enum_form. fold cols.
  rewrite (fold_add _ _ (fun e1 : Z * (Z * Z) => bigsum ((dp + 1) * (dp + 1)) (fun n2 => jax_get p (Z.of_nat n2) * monon n2 x y z) * (nth (Z.to_nat (fst e1)) q 0 * monon (Z.to_nat (fst e1)) x y z))).
  - assert (E0 : Fun_ rows cols (fun n => monon n x y z) (fun n => nth n q 0) (fun _ _ => 0) = 0).
    { unfold Fun_. apply bigsum_zero_ext. intros. apply bigsum_zero_ext. intros. ring. }
    rewrite E0, map_map, Rsum_map_seq, bigsum_scal. cbn [fst plus]. rewrite Rplus_0_l. f_equal.
    apply bigsum_ext. intros n _. rewrite Nat2Z.id. reflexivity.
  - intros M e1 He1. apply in_map_iff in He1. destruct He1 as (n1 & <- & Hn1). apply in_seq in Hn1.
    pose proof (n2lm_valid (Z.of_nat n1) ltac:(lia)) as Hlm1. pose proof (n2lm_lm2n (Z.of_nat n1)) as En1.
    cbn [fst]. rewrite Nat2Z.id. destruct (n2lm (Z.of_nat n1)) as [l1 m1] eqn:Elm1. cbn [fst snd] in Hlm1, En1.
    destruct (lm2ijk_form l1 m1 Hlm1) as (i1 & j1 & k1 & El1 & Hv1 & -> & ->).
    assert (Em1 : monon n1 x y z = mono (i1, j1, k1) x y z) by (unfold monon, n2ijk; rewrite Elm1, El1; reflexivity).
    rewrite (fold_add _ _ (fun e2 : Z * (Z * Z) => jax_get p (fst e2) * monon (Z.to_nat (fst e2)) x y z * (nth n1 q 0 * monon n1 x y z))).
    + f_equal. rewrite map_map. cbn [fst]. rewrite Rsum_map_seq. cbn [plus].
      rewrite (Rmult_comm (bigsum _ _)), <- bigsum_scal. apply bigsum_ext. intros n2 _. rewrite Nat2Z.id. ring.
    + clear M. intros M e2 He2. apply in_map_iff in He2. destruct He2 as (n2 & <- & Hn2). apply in_seq in Hn2.
      pose proof (n2lm_valid (Z.of_nat n2) ltac:(lia)) as Hlm2. pose proof (n2lm_lm2n (Z.of_nat n2)) as En2.
      cbn [fst]. rewrite Nat2Z.id. destruct (n2lm (Z.of_nat n2)) as [l2 m2] eqn:Elm2. cbn [fst snd] in Hlm2, En2.
      destruct (lm2ijk_form l2 m2 Hlm2) as (i2 & j2 & k2 & El2 & Hv2 & -> & ->).
      assert (Em2 : monon n2 x y z = mono (i2, j2, k2) x y z) by (unfold monon, n2ijk; rewrite Elm2, El2; reflexivity).
      rewrite !parity_k by assumption. rewrite Em1, Em2.
      assert (B1 : (i1 + j1 + k1 <= Z.of_nat degree)%Z) by (unfold lm2n in En1; unfold lm_valid in Hlm1; unfold cols in Hn1; nia).
      assert (B2 : (i2 + j2 + k2 <= Z.of_nat dp)%Z) by (unfold lm2n in En2; unfold lm_valid in Hlm2; nia).
      assert (BR : forall i j k, valid_ijk (i, j, k) -> (i + j + k <= Z.of_nat dp + Z.of_nat degree)%Z -> (0 <= idx (i, j, k) < Z.of_nat rows)%Z).
      { intros i j k Hv Hle. split; [now apply idx_nonneg|]. pose proof (idx_lt_degree (i, j, k) _ Hv Hle). unfold rows. nia. }
      assert (BC : (0 <= Z.of_nat n1 < Z.of_nat cols)%Z) by lia.
      destruct Hv1 as (Hi1 & Hj1 & Hk1), Hv2 as (Hi2 & Hj2 & Hk2).
      destruct (negb (k1 =? 0)%Z && negb (k2 =? 0)%Z)%bool eqn:E.
      * assert (k1 = 1%Z /\ k2 = 1%Z) as [-> ->]. { destruct Hk1 as [-> | ->], Hk2 as [-> | ->]; try discriminate; auto. }
        set (l := (i1 + j1 + 1 + (i2 + j2 + 1))%Z). set (n := (l * l + l + (j1 - i1) + (j2 - i2))%Z).
        assert (R1 : (n - 4 * l + 2)%Z = idx (i1 + i2, j1 + j2, 0)%Z) by (unfold n, l, idx, lm2n; nia).
        assert (R2 : (n - 2)%Z = idx (i1 + i2 + 2, j1 + j2, 0)%Z) by (unfold n, l, idx, lm2n; nia).
        assert (R3 : (n + 2)%Z = idx (i1 + i2, j1 + j2 + 2, 0)%Z) by (unfold n, l, idx, lm2n; nia).
        rewrite R1, R2, R3.
        assert (V1 : valid_ijk (i1 + i2, j1 + j2, 0)%Z) by (unfold valid_ijk; lia).
        assert (V2 : valid_ijk (i1 + i2 + 2, j1 + j2, 0)%Z) by (unfold valid_ijk; lia).
        assert (V3 : valid_ijk (i1 + i2, j1 + j2 + 2, 0)%Z) by (unfold valid_ijk; lia).
        rewrite !Fun_bumpZ by (first [assumption | apply BR; [assumption|lia]]).
        rewrite !monon_idx by assumption. rewrite Nat2Z.id.
        unfold mono. rewrite !Z2Nat.inj_add by lia. rewrite !pow_add.
        change (Z.to_nat 0) with 0%nat. change (Z.to_nat 1) with 1%nat. change (Z.to_nat 2) with 2%nat. rewrite pow_O, pow_1.
        assert (Hz : z ^ 2 = 1 - x ^ 2 - y ^ 2) by (unfold on_sphere in Hs; lra).
        set (a := x ^ Z.to_nat i1). set (b := x ^ Z.to_nat i2). set (c := y ^ Z.to_nat j1). set (e := y ^ Z.to_nat j2).
        set (v := jax_get p (Z.of_nat n2)). set (w := nth n1 q 0).
        replace (v * (b * e * z) * (w * (a * c * z))) with (v * w * a * b * c * e * z ^ 2) by ring. rewrite Hz. ring.
      * assert (Hk : (k1 + k2 = 0 \/ k1 + k2 = 1)%Z). { destruct Hk1 as [-> | ->], Hk2 as [-> | ->]; try discriminate; auto. }
        set (l := (i1 + j1 + k1 + (i2 + j2 + k2))%Z).
        replace (l * l + l + (j1 - i1) + (j2 - i2))%Z with (idx (i1 + i2, j1 + j2, k1 + k2)%Z) by (unfold l, idx, lm2n; nia).
        assert (V : valid_ijk (i1 + i2, j1 + j2, k1 + k2)%Z) by (unfold valid_ijk; lia).
        rewrite Fun_bumpZ by (first [assumption | apply BR; [assumption|lia]]).
        rewrite monon_idx by assumption. rewrite Nat2Z.id. rewrite mono_add_exp by (unfold valid_ijk; auto). ring.
Qed.

Lemma jax_get_in p n : (n < length p)%nat -> jax_get p (Z.of_nat n) = nth n p 0.
Proof.
  intros H. unfold jax_get. destruct (Z.ltb_spec (Z.of_nat n) 0); [lia|]. f_equal. lia.
Qed.
Lemma jax_get_over p n : (length p <= n)%nat -> p <> [] -> jax_get p (Z.of_nat n) = last p 0.
Proof.
  intros H Hp. unfold jax_get. destruct (Z.ltb_spec (Z.of_nat n) 0); [lia|].
  assert (length p <> 0%nat) by (destruct p; [contradiction|discriminate]).
  replace (Z.to_nat _) with (length p - 1)%nat by lia.
  clear n H H0. destruct (exists_last Hp) as (l & a & ->). rewrite app_length, last_last. cbn [length].
  rewrite app_nth2 by lia. now replace (length l + 1 - 1 - length l)%nat with 0%nat by lia.
Qed.
(** a square-length vector: the product is right exactly when the last coefficient does not matter *)
Lemma dense_eval_pad p d x y z : length p = ((d + 1) * (d + 1))%nat ->
  dense_eval (S d) (fun n => jax_get p (Z.of_nat n)) x y z =
  dense_eval d (fun n => nth n p 0) x y z + last p 0 * bigsum (2 * d + 3) (fun nu => basis_monomial (S d) nu x y z).
Proof.
  intros Hl. assert (Hp : p <> []) by (intros ->; cbn in Hl; lia). unfold dense_eval.
  change (bigsum (S (S d)) ?g) with (bigsum (S d) g + g (S d)). cbv beta. f_equal.
  - apply bigsum_ext. intros l Hd. apply bigsum_ext. intros nu Hnu. rewrite jax_get_in by nia. reflexivity.
  - rewrite <- bigsum_scal. replace (2 * S d + 1)%nat with (2 * d + 3)%nat by lia. apply bigsum_ext. intros nu Hnu.
    rewrite jax_get_over by (try assumption; nia). reflexivity.
Qed.
