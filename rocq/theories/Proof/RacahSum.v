(** Recurrences of Racah's sum, each with its telescoping certificate. *)
From Coq Require Import Reals Lra Lia ZArith List Bool.
From Verif Require Import Base.RealAux Spec.Wigner3jSpec.
Open Scope R_scope.

Lemma zfact_pos n : 0 < zfact n.
Proof. apply INR_fact_lt_0. Qed.
Lemma zfact_succ n : (0 < n)%Z -> zfact n = IZR n * zfact (n - 1).
Proof.
  intros H. unfold zfact. replace (Z.to_nat n) with (S (Z.to_nat (n - 1))) by lia. rewrite fact_simpl, mult_INR. f_equal.
  rewrite INR_IZR_INZ. f_equal. lia.
Qed.
Lemma inv_fact_neg n : (n < 0)%Z -> inv_fact n = 0.
Proof. intros H. unfold inv_fact. now rewrite (proj2 (Z.ltb_lt n 0) H). Qed.
Lemma inv_fact_nonneg n : (0 <= n)%Z -> inv_fact n = / zfact n.
Proof. intros H. unfold inv_fact. now rewrite (proj2 (Z.ltb_ge n 0) H). Qed.
Lemma inv_fact_pred n : inv_fact (n - 1) = IZR n * inv_fact n.
Proof.
  destruct (Z.ltb_spec n 0) as [H|H]; [rewrite !inv_fact_neg by lia; ring|].
  destruct (Z.eq_dec n 0) as [->|Hn]; [rewrite inv_fact_neg by lia; ring|].
  rewrite !inv_fact_nonneg by lia. rewrite (zfact_succ n) by lia. pose proof (zfact_pos (n - 1)). assert (IZR n <> 0) by (apply not_0_IZR; lia).
  field. split; [lra|assumption].
Qed.
Lemma inv_fact_step n n' : n' = (n - 1)%Z -> inv_fact n' = IZR n * inv_fact n.
Proof. intros ->. apply inv_fact_pred. Qed.
Lemma parity_succ k : parity_sign (k + 1) = - parity_sign k.
Proof. unfold parity_sign. rewrite Z.even_add. destruct (Z.even k); cbn; ring. Qed.
Lemma bigsum_telescope n (g : nat -> R) : bigsum n (fun k => g (S k) - g k) = g n - g 0%nat.
Proof. induction n as [|n IH]; cbn [bigsum]; [ring|rewrite IH; ring]. Qed.

Ltac izr := repeat rewrite ?plus_IZR, ?minus_IZR, ?mult_IZR, ?opp_IZR.

Section Sums.
Variables j j2 j3 m2 m3 : Z.
Let a := (j2 + j3)%Z. Let b := (j2 - m2)%Z. Let c := (j3 + m3)%Z. Let d := (m2 - j3)%Z. Let e := (- j2 - m3)%Z.
Let m := (m2 + m3)%Z. Let dl := (j2 - j3)%Z.
(** three terms in j *)
Definition sg_N (x : Z) : R := (IZR x ^ 2 - IZR dl ^ 2) * (IZR x ^ 2 - IZR m ^ 2).
Let T k := parity_sign k * (inv_fact k * inv_fact (a - j + 1 - k) * inv_fact (b - k) * inv_fact (c - k) * inv_fact (j + 1 + d + k) * inv_fact (j + 1 + e + k)).
Definition sg_beta : R := - (IZR j + 1) * (IZR a + 1 + IZR j) * (IZR j3 - IZR m3 + 1) + IZR j * (IZR j + 1 - IZR dl) * (IZR j + 1 - IZR m).
Definition sg_q (k : Z) : R := - IZR j * (IZR j + 1 - IZR dl) * (IZR j + 1 - IZR m) * (IZR j2 + IZR m2 + 1) + sg_beta * (IZR k + IZR j + IZR d) - (IZR j + 1) * (IZR a + 1 - IZR j) * (IZR k + IZR j + IZR d) * (IZR k - IZR a + IZR j - 1).
Definition sg_U (k : Z) : R := parity_sign k * (inv_fact (k - 1) * inv_fact (a - j + 1 - k) * inv_fact (b - k) * inv_fact (c - k) * inv_fact (j + d + k) * inv_fact (j + e + k)).
Lemma U_T k : sg_U k = T k * IZR k * IZR (j + 1 + d + k) * IZR (j + 1 + e + k).
Proof.
  unfold sg_U, T. rewrite (inv_fact_step k (k - 1)), (inv_fact_step (j + 1 + d + k) (j + d + k)), (inv_fact_step (j + 1 + e + k) (j + e + k)) by ring. ring.
Qed.
Lemma U_succ k : sg_U (k + 1) = - T k * IZR (a - j + 1 - k) * IZR (b - k) * IZR (c - k).
Proof.
  unfold sg_U, T. rewrite parity_succ. rewrite (inv_fact_step (a - j + 1 - k) (a - j + 1 - (k + 1))), (inv_fact_step (b - k) (b - (k + 1))), (inv_fact_step (c - k) (c - (k + 1))) by ring.
  replace (k + 1 - 1)%Z with k by ring. replace (j + d + (k + 1))%Z with (j + 1 + d + k)%Z by ring. replace (j + e + (k + 1))%Z with (j + 1 + e + k)%Z by ring. ring.
Qed.
Lemma sg_term k :
  IZR j * sg_N (j + 1) * racah_term (j + 1) j2 j3 m2 m3 k
  + sgB (IZR j2) (IZR j3) (IZR m2) (IZR m3) (IZR j) * racah_term j j2 j3 m2 m3 k
  + (IZR j + 1) * ((IZR a + 1) ^ 2 - IZR j ^ 2) * racah_term (j - 1) j2 j3 m2 m3 k = sg_q (k + 1) * sg_U (k + 1) - sg_q k * sg_U k.
Proof.
  assert (E1 : racah_term (j + 1) j2 j3 m2 m3 k = T k * IZR (a - j + 1 - k) * IZR (a - j - k)).
  { unfold racah_term, T. rewrite (inv_fact_step (a - j - k) (j2 + j3 - (j + 1) - k)) by (unfold a; lia). rewrite (inv_fact_step (a - j + 1 - k) (a - j - k)) by ring.
    replace (j + 1 - j3 + m2 + k)%Z with (j + 1 + d + k)%Z by (unfold d; ring). replace (j + 1 - j2 - m3 + k)%Z with (j + 1 + e + k)%Z by (unfold e; ring). unfold b, c. ring. }
  assert (E2 : racah_term j j2 j3 m2 m3 k = T k * IZR (a - j + 1 - k) * IZR (j + 1 + d + k) * IZR (j + 1 + e + k)).
  { unfold racah_term, T. rewrite (inv_fact_step (a - j + 1 - k) (j2 + j3 - j - k)), (inv_fact_step (j + 1 + d + k) (j - j3 + m2 + k)), (inv_fact_step (j + 1 + e + k) (j - j2 - m3 + k)) by (unfold a, d, e; lia).
    unfold b, c. ring. }
  assert (E3 : racah_term (j - 1) j2 j3 m2 m3 k = T k * IZR (j + 1 + d + k) * IZR (j + d + k) * IZR (j + 1 + e + k) * IZR (j + e + k)).
  { unfold racah_term, T. replace (j2 + j3 - (j - 1) - k)%Z with (a - j + 1 - k)%Z by (unfold a; lia).
    rewrite (inv_fact_step (j + d + k) (j - 1 - j3 + m2 + k)), (inv_fact_step (j + e + k) (j - 1 - j2 - m3 + k)) by (unfold d, e; lia).
    rewrite (inv_fact_step (j + 1 + d + k) (j + d + k)), (inv_fact_step (j + 1 + e + k) (j + e + k)) by ring. unfold b, c. ring. }
  rewrite U_succ, U_T, E1, E2, E3. unfold sg_q, sg_beta, sg_N, sgB, a, b, c, d, e, m, dl. izr. ring.
Qed.
End Sums.
(** a factor of a sum of negative arguments vanishes *)
Lemma two_neg x y : (x + y < 0)%Z -> inv_fact x * inv_fact y = 0.
Proof. intros H. destruct (Z.ltb_spec x 0); [rewrite (inv_fact_neg x) by assumption; ring|rewrite (inv_fact_neg y) by lia; ring]. Qed.
Lemma term_zero j j2 j3 m2 m3 k : (j2 + j3 < j \/ j2 < m2 \/ j3 < - m3 \/ j2 < - m2 \/ j3 < m3 \/ j < Z.abs (j2 - j3) \/ j < Z.abs (m2 + m3))%Z -> racah_term j j2 j3 m2 m3 k = 0.
Proof.
  intros H. unfold racah_term. set (A := inv_fact k). set (B := inv_fact (j2 + j3 - j - k)). set (C := inv_fact (j2 - m2 - k)). set (D := inv_fact (j3 + m3 - k)).
  set (E := inv_fact (j - j3 + m2 + k)). set (F := inv_fact (j - j2 - m3 + k)).
  assert (H' : (j2 + j3 < j \/ j2 < m2 \/ j3 < - m3 \/ j2 < - m2 \/ j3 < m3 \/ j < j2 - j3 \/ j < - (j2 - j3) \/ j < m2 + m3 \/ j < - (m2 + m3))%Z) by lia. clear H.
  destruct H' as [H|[H|[H|[H|[H|[H|[H|[H|H]]]]]]]].
  - assert (Z0 : A * B = 0) by (apply two_neg; lia). replace (A * B * C * D * E * F) with (A * B * (C * D * E * F)) by ring. rewrite Z0. ring.
  - assert (Z0 : A * C = 0) by (apply two_neg; lia). replace (A * B * C * D * E * F) with (A * C * (B * D * E * F)) by ring. rewrite Z0. ring.
  - assert (Z0 : A * D = 0) by (apply two_neg; lia). replace (A * B * C * D * E * F) with (A * D * (C * B * E * F)) by ring. rewrite Z0. ring.
  - assert (Z0 : B * E = 0) by (apply two_neg; lia). replace (A * B * C * D * E * F) with (B * E * (A * C * D * F)) by ring. rewrite Z0. ring.
  - assert (Z0 : B * F = 0) by (apply two_neg; lia). replace (A * B * C * D * E * F) with (B * F * (A * C * D * E)) by ring. rewrite Z0. ring.
  - assert (Z0 : D * F = 0) by (apply two_neg; lia). replace (A * B * C * D * E * F) with (D * F * (A * B * C * E)) by ring. rewrite Z0. ring.
  - assert (Z0 : C * E = 0) by (apply two_neg; lia). replace (A * B * C * D * E * F) with (C * E * (A * B * D * F)) by ring. rewrite Z0. ring.
  - assert (Z0 : C * F = 0) by (apply two_neg; lia). replace (A * B * C * D * E * F) with (C * F * (A * B * D * E)) by ring. rewrite Z0. ring.
  - assert (Z0 : D * E = 0) by (apply two_neg; lia). replace (A * B * C * D * E * F) with (D * E * (A * B * C * F)) by ring. rewrite Z0. ring.
Qed.
Lemma sum_zero j j2 j3 m2 m3 : (j2 + j3 < j \/ j2 < m2 \/ j3 < - m3 \/ j2 < - m2 \/ j3 < m3 \/ j < Z.abs (j2 - j3) \/ j < Z.abs (m2 + m3))%Z -> racah_sum j j2 j3 m2 m3 = 0.
Proof. intros H. unfold racah_sum. rewrite (bigsum_ext _ _ (fun _ => 0)) by (intros; now apply term_zero). apply bigsum_zero. Qed.
(** the Schulten-Gordon recurrence for the sums *)
Lemma sum_linear (n : nat) (g : nat -> R) x f1 y f2 z f3 : (forall k, (k < n)%nat -> x * f1 k + y * f2 k + z * f3 k = g (S k) - g k) -> g 0%nat = 0 -> g n = 0 ->
  x * bigsum n f1 + y * bigsum n f2 + z * bigsum n f3 = 0.
Proof.
  intros H H0 Hn. rewrite <- !bigsum_scal, <- !bigsum_plus. rewrite (bigsum_ext _ _ (fun k => g (S k) - g k)) by (intros; cbn beta; now apply H). rewrite bigsum_telescope, H0, Hn. ring.
Qed.
Theorem sg_sum j j2 j3 m2 m3 : (- j2 <= m2)%Z -> (0 <= j2)%Z ->
  IZR j * sg_N j2 j3 m2 m3 (j + 1) * racah_sum (j + 1) j2 j3 m2 m3
  + sgB (IZR j2) (IZR j3) (IZR m2) (IZR m3) (IZR j) * racah_sum j j2 j3 m2 m3
  + (IZR j + 1) * ((IZR (j2 + j3) + 1) ^ 2 - IZR j ^ 2) * racah_sum (j - 1) j2 j3 m2 m3 = 0.
Proof.
  intros H H2. unfold racah_sum. apply (sum_linear _ (fun k => sg_q j j2 j3 m2 m3 (Z.of_nat k) * sg_U j j2 j3 m2 m3 (Z.of_nat k))).
  - intros k _. rewrite (sg_term j j2 j3 m2 m3 (Z.of_nat k)). replace (Z.of_nat k + 1)%Z with (Z.of_nat (S k)) by lia. reflexivity.
  - unfold sg_U. rewrite (inv_fact_neg (Z.of_nat 0 - 1)) by lia. ring.
  - unfold sg_U. rewrite (inv_fact_neg (j2 - m2 - _)) by lia. ring.
Qed.
(** the ladder operators *)
Section Ladder.
Variables j j2 j3 m2 m3 : Z.
Let a := (j2 + j3)%Z. Let b := (j2 - m2)%Z. Let c := (j3 + m3)%Z. Let d := (m2 - j3)%Z. Let e := (- j2 - m3)%Z.
Definition dn_U (k : Z) : R := parity_sign k * (inv_fact (k - 1) * inv_fact (a - j - k) * inv_fact (b - k) * inv_fact (c + 1 - k) * inv_fact (j + d + k) * inv_fact (j + e + k - 1)).
Let T k := parity_sign k * (inv_fact k * inv_fact (a - j - k) * inv_fact (b - k) * inv_fact (c + 1 - k) * inv_fact (j + d + 1 + k) * inv_fact (j + e + k)).
Lemma dn_term k : IZR (j - (m2 + m3)) * racah_term j j2 j3 m2 m3 k + - IZR (j2 + m2 + 1) * racah_term j j2 j3 (m2 + 1) m3 k + - IZR (j3 + m3 + 1) * racah_term j j2 j3 m2 (m3 + 1) k = dn_U (k + 1) - dn_U k.
Proof.
  assert (E1 : racah_term j j2 j3 m2 m3 k = T k * IZR (c + 1 - k) * IZR (j + d + 1 + k)).
  { unfold racah_term, T. rewrite (inv_fact_step (c + 1 - k) (j3 + m3 - k)), (inv_fact_step (j + d + 1 + k) (j - j3 + m2 + k)) by (unfold c, d; lia).
    replace (j - j2 - m3 + k)%Z with (j + e + k)%Z by (unfold e; ring). unfold a, b. ring. }
  assert (E2 : racah_term j j2 j3 (m2 + 1) m3 k = T k * IZR (b - k) * IZR (c + 1 - k)).
  { unfold racah_term, T. rewrite (inv_fact_step (c + 1 - k) (j3 + m3 - k)), (inv_fact_step (b - k) (j2 - (m2 + 1) - k)) by (unfold b, c; lia).
    replace (j - j2 - m3 + k)%Z with (j + e + k)%Z by (unfold e; ring). replace (j - j3 + (m2 + 1) + k)%Z with (j + d + 1 + k)%Z by (unfold d; ring). unfold a. ring. }
  assert (E3 : racah_term j j2 j3 m2 (m3 + 1) k = T k * IZR (j + d + 1 + k) * IZR (j + e + k)).
  { unfold racah_term, T. rewrite (inv_fact_step (j + d + 1 + k) (j - j3 + m2 + k)), (inv_fact_step (j + e + k) (j - j2 - (m3 + 1) + k)) by (unfold d, e; lia).
    replace (j3 + (m3 + 1) - k)%Z with (c + 1 - k)%Z by (unfold c; ring). unfold a, b. ring. }
  assert (E4 : dn_U (k + 1) = - T k * IZR (a - j - k) * IZR (b - k) * IZR (c + 1 - k)).
  { unfold dn_U, T. rewrite parity_succ. rewrite (inv_fact_step (a - j - k) (a - j - (k + 1))), (inv_fact_step (b - k) (b - (k + 1))), (inv_fact_step (c + 1 - k) (c + 1 - (k + 1))) by ring.
    replace (k + 1 - 1)%Z with k by ring. replace (j + d + (k + 1))%Z with (j + d + 1 + k)%Z by ring. replace (j + e + (k + 1) - 1)%Z with (j + e + k)%Z by ring. ring. }
  assert (E5 : dn_U k = T k * IZR k * IZR (j + d + 1 + k) * IZR (j + e + k)).
  { unfold dn_U, T. rewrite (inv_fact_step k (k - 1)), (inv_fact_step (j + d + 1 + k) (j + d + k)), (inv_fact_step (j + e + k) (j + e + k - 1)) by ring. ring. }
  rewrite E1, E2, E3, E4, E5. unfold a, b, c, d, e. izr. ring.
Qed.
Definition up_U (k : Z) : R := parity_sign k * (inv_fact (k - 1) * inv_fact (a - j - k) * inv_fact (b + 1 - k) * inv_fact (c - k) * inv_fact (j + d + k - 1) * inv_fact (j + e + k)).
Let V k := parity_sign k * (inv_fact k * inv_fact (a - j - k) * inv_fact (b + 1 - k) * inv_fact (c - k) * inv_fact (j + d + k) * inv_fact (j + e + 1 + k)).
Lemma up_term k : IZR (j + (m2 + m3)) * racah_term j j2 j3 m2 m3 k + - IZR (j2 - m2 + 1) * racah_term j j2 j3 (m2 - 1) m3 k + - IZR (j3 - m3 + 1) * racah_term j j2 j3 m2 (m3 - 1) k = up_U (k + 1) - up_U k.
Proof.
  assert (E1 : racah_term j j2 j3 m2 m3 k = V k * IZR (b + 1 - k) * IZR (j + e + 1 + k)).
  { unfold racah_term, V. rewrite (inv_fact_step (b + 1 - k) (j2 - m2 - k)), (inv_fact_step (j + e + 1 + k) (j - j2 - m3 + k)) by (unfold b, e; lia).
    replace (j - j3 + m2 + k)%Z with (j + d + k)%Z by (unfold d; ring). unfold a, c. ring. }
  assert (E2 : racah_term j j2 j3 (m2 - 1) m3 k = V k * IZR (j + d + k) * IZR (j + e + 1 + k)).
  { unfold racah_term, V. rewrite (inv_fact_step (j + d + k) (j - j3 + (m2 - 1) + k)), (inv_fact_step (j + e + 1 + k) (j - j2 - m3 + k)) by (unfold d, e; lia).
    replace (j2 - (m2 - 1) - k)%Z with (b + 1 - k)%Z by (unfold b; ring). unfold a, c. ring. }
  assert (E3 : racah_term j j2 j3 m2 (m3 - 1) k = V k * IZR (c - k) * IZR (b + 1 - k)).
  { unfold racah_term, V. rewrite (inv_fact_step (c - k) (j3 + (m3 - 1) - k)), (inv_fact_step (b + 1 - k) (j2 - m2 - k)) by (unfold b, c; lia).
    replace (j - j3 + m2 + k)%Z with (j + d + k)%Z by (unfold d; ring). replace (j - j2 - (m3 - 1) + k)%Z with (j + e + 1 + k)%Z by (unfold e; ring). unfold a. ring. }
  assert (E4 : up_U (k + 1) = - V k * IZR (a - j - k) * IZR (b + 1 - k) * IZR (c - k)).
  { unfold up_U, V. rewrite parity_succ. rewrite (inv_fact_step (a - j - k) (a - j - (k + 1))), (inv_fact_step (b + 1 - k) (b + 1 - (k + 1))), (inv_fact_step (c - k) (c - (k + 1))) by ring.
    replace (k + 1 - 1)%Z with k by ring. replace (j + d + (k + 1) - 1)%Z with (j + d + k)%Z by ring. replace (j + e + (k + 1))%Z with (j + e + 1 + k)%Z by ring. ring. }
  assert (E5 : up_U k = V k * IZR k * IZR (j + d + k) * IZR (j + e + 1 + k)).
  { unfold up_U, V. rewrite (inv_fact_step k (k - 1)), (inv_fact_step (j + d + k) (j + d + k - 1)), (inv_fact_step (j + e + 1 + k) (j + e + k)) by ring. ring. }
  rewrite E1, E2, E3, E4, E5. unfold a, b, c, d, e. izr. ring.
Qed.
Hypothesis H2 : (0 <= j2)%Z.
Hypothesis Hm : (- j2 <= m2)%Z.
Theorem dn_sum : IZR (j - (m2 + m3)) * racah_sum j j2 j3 m2 m3 = IZR (j2 + m2 + 1) * racah_sum j j2 j3 (m2 + 1) m3 + IZR (j3 + m3 + 1) * racah_sum j j2 j3 m2 (m3 + 1).
Proof.
  assert (H : IZR (j - (m2 + m3)) * racah_sum j j2 j3 m2 m3 + - IZR (j2 + m2 + 1) * racah_sum j j2 j3 (m2 + 1) m3 + - IZR (j3 + m3 + 1) * racah_sum j j2 j3 m2 (m3 + 1) = 0); [|lra].
  unfold racah_sum. apply (sum_linear _ (fun k => dn_U (Z.of_nat k))).
  - intros k _. rewrite dn_term. replace (Z.of_nat k + 1)%Z with (Z.of_nat (S k)) by lia. reflexivity.
  - unfold dn_U. rewrite (inv_fact_neg (Z.of_nat 0 - 1)) by lia. ring.
  - unfold dn_U. rewrite (inv_fact_neg (b - _)) by (unfold b; lia). ring.
Qed.
Theorem up_sum : IZR (j + (m2 + m3)) * racah_sum j j2 j3 m2 m3 = IZR (j2 - m2 + 1) * racah_sum j j2 j3 (m2 - 1) m3 + IZR (j3 - m3 + 1) * racah_sum j j2 j3 m2 (m3 - 1).
Proof.
  assert (H : IZR (j + (m2 + m3)) * racah_sum j j2 j3 m2 m3 + - IZR (j2 - m2 + 1) * racah_sum j j2 j3 (m2 - 1) m3 + - IZR (j3 - m3 + 1) * racah_sum j j2 j3 m2 (m3 - 1) = 0); [|lra].
  unfold racah_sum. apply (sum_linear _ (fun k => up_U (Z.of_nat k))).
  - intros k _. rewrite up_term. replace (Z.of_nat k + 1)%Z with (Z.of_nat (S k)) by lia. reflexivity.
  - unfold up_U. rewrite (inv_fact_neg (Z.of_nat 0 - 1)) by lia. ring.
  - unfold up_U. set (k := Z.of_nat _). destruct (Z.eq_dec m2 (- j2)) as [E|E].
    + pose proof (two_neg (a - j - k) (j + d + k - 1) ltac:(unfold a, d; lia)) as Z0.
      replace (inv_fact (k - 1) * inv_fact (a - j - k) * inv_fact (b + 1 - k) * inv_fact (c - k) * inv_fact (j + d + k - 1) * inv_fact (j + e + k)) with
        (inv_fact (a - j - k) * inv_fact (j + d + k - 1) * (inv_fact (k - 1) * inv_fact (b + 1 - k) * inv_fact (c - k) * inv_fact (j + e + k))) by ring. rewrite Z0. ring.
    + rewrite (inv_fact_neg (b + 1 - k)) by (unfold b, k; lia). ring.
Qed.
End Ladder.
