(** Racah's formula: its recurrences, with the square roots. *)
From Coq Require Import Reals Lra Lia ZArith List Bool.
From Verif Require Import Base.RealAux Spec.Wigner3jSpec Proof.RacahSum.
Open Scope R_scope.

Lemma IZR_nn n : (0 <= n)%Z -> 0 <= IZR n. Proof. apply IZR_le. Qed.
Lemma IZR_ps n : (0 < n)%Z -> 0 < IZR n. Proof. apply IZR_lt. Qed.
Lemma zfact_up n n' : n' = (n + 1)%Z -> (0 <= n)%Z -> zfact n' = IZR (n + 1) * zfact n.
Proof. intros -> H. rewrite (zfact_succ (n + 1)) by lia. now replace (n + 1 - 1)%Z with n by ring. Qed.
(** the weight as a product of a part that depends on j and m and one that depends on the projections *)
Definition jpart (j2 j3 m j : Z) : R := zfact (j2 + j3 - j) * zfact (j + j2 - j3) * zfact (j - j2 + j3) / zfact (j + j2 + j3 + 1) * (zfact (j + m) * zfact (j - m)).
Definition mpart (j2 j3 m2 m3 : Z) : R := zfact (j2 + m2) * zfact (j2 - m2) * zfact (j3 + m3) * zfact (j3 - m3).
Lemma weight_parts j j2 j3 m2 m3 : racah_weight j j2 j3 m2 m3 = jpart j2 j3 (m2 + m3) j * mpart j2 j3 m2 m3.
Proof. unfold racah_weight, jpart, mpart. pose proof (zfact_pos (j + j2 + j3 + 1)). field. lra. Qed.
Ltac zpos := unfold Rdiv; repeat apply Rmult_lt_0_compat; try apply Rinv_0_lt_compat; apply zfact_pos.
Lemma jpart_pos j2 j3 m j : 0 < jpart j2 j3 m j. Proof. unfold jpart. zpos. Qed.
Lemma mpart_pos j2 j3 m2 m3 : 0 < mpart j2 j3 m2 m3. Proof. unfold mpart. zpos. Qed.
Lemma weight_pos j j2 j3 m2 m3 : 0 < racah_weight j j2 j3 m2 m3.
Proof. rewrite weight_parts. apply Rmult_lt_0_compat; [apply jpart_pos|apply mpart_pos]. Qed.
(** the amplitude without the sign *)
Definition amp (j2 j3 m2 m3 j : Z) : R := sqrt (racah_weight j j2 j3 m2 m3) * racah_sum j j2 j3 m2 m3.
Lemma amp_zero j2 j3 m2 m3 j : (j2 + j3 < j \/ j2 < m2 \/ j3 < - m3 \/ j2 < - m2 \/ j3 < m3 \/ j < Z.abs (j2 - j3) \/ j < Z.abs (m2 + m3))%Z -> amp j2 j3 m2 m3 j = 0.
Proof. intros H. unfold amp. rewrite sum_zero by exact H. ring. Qed.
Lemma racah_amp j2 j3 m2 m3 j : racah_3j j2 j3 m2 m3 j = parity_sign (j2 - j3 + m2 + m3) * amp j2 j3 m2 m3 j.
Proof.
  unfold racah_3j. destruct ((Z.abs (j2 - j3) <=? j) && (j <=? j2 + j3) && (Z.abs (m2 + m3) <=? j))%Z%bool eqn:E.
  - unfold amp. ring.
  - rewrite amp_zero; [ring|]. rewrite !andb_false_iff, !Z.leb_gt in E. lia.
Qed.
Section SG.
Variables j2 j3 m2 m3 : Z.
Hypothesis Hm2 : (Z.abs m2 <= j2)%Z.
Hypothesis Hm3 : (Z.abs m3 <= j3)%Z.
Local Notation m := (m2 + m3)%Z.
Local Notation W j := (racah_weight j j2 j3 m2 m3).
Local Notation A j := (sgA (IZR j2) (IZR j3) (IZR (m2 + m3)) j).
Lemma W_succ j : (Z.abs (j2 - j3) <= j)%Z -> (Z.abs m <= j)%Z -> (j < j2 + j3)%Z ->
  W (j + 1) * (IZR (j2 + j3 - j) * IZR (j + j2 + j3 + 2)) = W j * sg_N j2 j3 m2 m3 (j + 1).
Proof.
  intros H1 H2 H3. rewrite !weight_parts. unfold jpart.
  rewrite (zfact_up (j2 + j3 - (j + 1)) (j2 + j3 - j)), (zfact_up (j + j2 - j3) (j + 1 + j2 - j3)), (zfact_up (j - j2 + j3) (j + 1 - j2 + j3)), (zfact_up (j + j2 + j3 + 1) (j + 1 + j2 + j3 + 1)),
    (zfact_up (j + m) (j + 1 + m)), (zfact_up (j - m) (j + 1 - m)) by lia.
  unfold sg_N. pose proof (zfact_pos (j + j2 + j3 + 1)). pose proof (IZR_ps (j + j2 + j3 + 1 + 1) ltac:(lia)) as P.
  revert P. izr. intros P. field. split; lra.
Qed.
Lemma N_nonneg j : (Z.abs (j2 - j3) <= j)%Z -> (Z.abs m <= j)%Z -> 0 <= sg_N j2 j3 m2 m3 j.
Proof.
  intros H1 H2. unfold sg_N. pose proof (IZR_nn (j + (j2 - j3)) ltac:(lia)) as A1. pose proof (IZR_nn (j - (j2 - j3)) ltac:(lia)) as A2. pose proof (IZR_nn (j + m) ltac:(lia)) as A3. pose proof (IZR_nn (j - m) ltac:(lia)) as A4.
  replace ((IZR j ^ 2 - IZR (j2 - j3) ^ 2) * (IZR j ^ 2 - IZR m ^ 2)) with (IZR (j + (j2 - j3)) * IZR (j - (j2 - j3)) * (IZR (j + m) * IZR (j - m))) by (izr; ring).
  repeat apply Rmult_le_pos; assumption.
Qed.
Lemma A_square j : (Z.abs (j2 - j3) <= j)%Z -> (Z.abs m <= j)%Z -> (j <= j2 + j3 + 1)%Z ->
  A (IZR j) = sqrt (sg_N j2 j3 m2 m3 j * ((IZR (j2 + j3) + 1) ^ 2 - IZR j ^ 2)).
Proof. intros. unfold sgA, sg_N. f_equal. izr. ring. Qed.
Lemma A_up j : (Z.abs (j2 - j3) <= j)%Z -> (Z.abs m <= j)%Z -> (j < j2 + j3)%Z -> A (IZR j + 1) * sqrt (W (j + 1)) = sqrt (W j) * sg_N j2 j3 m2 m3 (j + 1).
Proof.
  intros H1 H2 H3. replace (IZR j + 1) with (IZR (j + 1)) by (izr; reflexivity). rewrite A_square by lia. pose proof (N_nonneg (j + 1) ltac:(lia) ltac:(lia)) as HN. pose proof (weight_pos (j + 1) j2 j3 m2 m3). pose proof (weight_pos j j2 j3 m2 m3).
  rewrite <- sqrt_mult_alt.
  2:{ apply Rmult_le_pos; [exact HN|]. pose proof (IZR_nn (j2 + j3 - j) ltac:(lia)). pose proof (IZR_nn (j + j2 + j3 + 2) ltac:(lia)). replace ((IZR (j2 + j3) + 1) ^ 2 - IZR (j + 1) ^ 2) with (IZR (j2 + j3 - j) * IZR (j + j2 + j3 + 2)) by (izr; ring). now apply Rmult_le_pos. }
  replace (_ * W (j + 1)) with (W j * (sg_N j2 j3 m2 m3 (j + 1) * sg_N j2 j3 m2 m3 (j + 1))).
  2:{ replace (W j * (_ * _)) with (W j * sg_N j2 j3 m2 m3 (j + 1) * sg_N j2 j3 m2 m3 (j + 1)) by ring. rewrite <- W_succ by assumption. izr. ring. }
  rewrite sqrt_mult_alt by lra. now rewrite sqrt_square.
Qed.
Lemma A_down j : (Z.abs (j2 - j3) < j)%Z -> (Z.abs m < j)%Z -> (j <= j2 + j3)%Z -> A (IZR j) * sqrt (W (j - 1)) = sqrt (W j) * ((IZR (j2 + j3) + 1) ^ 2 - IZR j ^ 2).
Proof.
  intros H1 H2 H3. rewrite A_square by lia. pose proof (N_nonneg j ltac:(lia) ltac:(lia)) as HN. pose proof (weight_pos (j - 1) j2 j3 m2 m3). pose proof (weight_pos j j2 j3 m2 m3).
  assert (HD : 0 <= (IZR (j2 + j3) + 1) ^ 2 - IZR j ^ 2). { replace ((IZR (j2 + j3) + 1) ^ 2 - IZR j ^ 2) with (IZR (j2 + j3 + 1 - j) * IZR (j + j2 + j3 + 1)) by (izr; ring). apply Rmult_le_pos; apply IZR_nn; lia. }
  rewrite <- sqrt_mult_alt by (now apply Rmult_le_pos).
  pose proof (W_succ (j - 1) ltac:(lia) ltac:(lia) ltac:(lia)) as E. replace (j - 1 + 1)%Z with j in E by ring.
  replace (sg_N j2 j3 m2 m3 j * ((IZR (j2 + j3) + 1) ^ 2 - IZR j ^ 2) * W (j - 1)) with (W j * (((IZR (j2 + j3) + 1) ^ 2 - IZR j ^ 2) * ((IZR (j2 + j3) + 1) ^ 2 - IZR j ^ 2))).
  2:{ replace (sg_N j2 j3 m2 m3 j * _ * W (j - 1)) with (W (j - 1) * sg_N j2 j3 m2 m3 j * ((IZR (j2 + j3) + 1) ^ 2 - IZR j ^ 2)) by ring. rewrite <- E. izr. ring. }
  rewrite sqrt_mult_alt by lra. now rewrite sqrt_square.
Qed.
Theorem amp_recurrence j : allowed_j j2 j3 m2 m3 j ->
  IZR j * A (IZR j + 1) * amp j2 j3 m2 m3 (j + 1) + sgB (IZR j2) (IZR j3) (IZR m2) (IZR m3) (IZR j) * amp j2 j3 m2 m3 j + (IZR j + 1) * A (IZR j) * amp j2 j3 m2 m3 (j - 1) = 0.
Proof.
  intros [[H1 H2] H3].
  assert (E1 : A (IZR j + 1) * amp j2 j3 m2 m3 (j + 1) = sqrt (W j) * sg_N j2 j3 m2 m3 (j + 1) * racah_sum (j + 1) j2 j3 m2 m3).
  { destruct (Z.eq_dec j (j2 + j3)) as [E|E]; [rewrite amp_zero, sum_zero by lia; ring|]. unfold amp. rewrite <- A_up by lia. ring. }
  assert (E2 : A (IZR j) * amp j2 j3 m2 m3 (j - 1) = sqrt (W j) * ((IZR (j2 + j3) + 1) ^ 2 - IZR j ^ 2) * racah_sum (j - 1) j2 j3 m2 m3).
  { destruct (Z.eq_dec j (Z.max (Z.abs (j2 - j3)) (Z.abs m))) as [E|E]; [rewrite amp_zero, sum_zero by lia; ring|]. unfold amp. rewrite <- A_down by lia. ring. }
  replace (IZR j * A (IZR j + 1) * amp j2 j3 m2 m3 (j + 1)) with (IZR j * (A (IZR j + 1) * amp j2 j3 m2 m3 (j + 1))) by ring.
  replace ((IZR j + 1) * A (IZR j) * amp j2 j3 m2 m3 (j - 1)) with ((IZR j + 1) * (A (IZR j) * amp j2 j3 m2 m3 (j - 1))) by ring.
  rewrite E1, E2. unfold amp at 1. pose proof (sg_sum j j2 j3 m2 m3 ltac:(lia) ltac:(lia)) as S0.
  transitivity (sqrt (W j) * 0); [rewrite <- S0; ring|ring].
Qed.
(** at j = 0 the recurrence is empty; the relation it should have *)
Theorem amp_zero_one : j2 = j3 -> m = 0%Z -> A 1 * amp j2 j3 m2 m3 1 = IZR (m2 - m3) * amp j2 j3 m2 m3 0.
Proof.
  intros E Em. destruct (Z.eq_dec j2 0) as [Z0|Z0].
  { rewrite amp_zero by lia. replace m2 with 0%Z by lia. replace m3 with 0%Z by lia. rewrite Rmult_0_r. change (IZR (0 - 0)) with 0. ring. }
  pose proof (A_up 0 ltac:(lia) ltac:(lia) ltac:(lia)) as EA. change (0 + 1)%Z with 1%Z in EA. change (IZR 0) with 0 in EA. rewrite Rplus_0_l in EA.
  assert (EN : sg_N j2 j3 m2 m3 1 = 1). { unfold sg_N. replace (j2 - j3)%Z with 0%Z by lia. rewrite Em. change (IZR 0) with 0. change (IZR 1) with 1. ring. }
  assert (ES : racah_sum 1 j2 j3 m2 m3 = IZR (m2 - m3) * racah_sum 0 j2 j3 m2 m3).
  { assert (S0 : 1 * racah_sum 1 j2 j3 m2 m3 + - IZR (m2 - m3) * racah_sum 0 j2 j3 m2 m3 + 0 * racah_sum 0 j2 j3 m2 m3 = 0); [|lra].
    set (b := (j2 - m2)%Z). set (g := fun k : nat => if Z.eqb (Z.of_nat k) b then - (parity_sign b * (inv_fact (b - 1) * inv_fact (j2 + j3 - b))) else 0).
    unfold racah_sum. apply (sum_linear _ g).
    - intros k _. unfold racah_term, g. set (kz := Z.of_nat k). replace (Z.of_nat (S k)) with (kz + 1)%Z by lia.
      replace (j3 + m3 - kz)%Z with (b - kz)%Z by lia. replace (1 - j3 + m2 + kz)%Z with (1 - b + kz)%Z by lia. replace (1 - j2 - m3 + kz)%Z with (1 - b + kz)%Z by lia.
      replace (0 - j3 + m2 + kz)%Z with (kz - b)%Z by lia. replace (0 - j2 - m3 + kz)%Z with (kz - b)%Z by lia. replace (j2 - m2 - kz)%Z with (b - kz)%Z by lia.
      replace (j2 + j3 - 0 - kz)%Z with (j2 + j3 - kz)%Z by ring.
      assert (I0 : inv_fact 0 = 1) by (rewrite inv_fact_nonneg by lia; unfold zfact; cbn; apply Rinv_1). assert (I1 : inv_fact 1 = 1) by (rewrite inv_fact_nonneg by lia; unfold zfact; cbn; apply Rinv_1).
      destruct (Z.eqb_spec (kz + 1) b) as [E1|E1].
      + destruct (Z.eqb_spec kz b); [lia|]. rewrite (inv_fact_neg (kz - b)) by lia. replace (b - kz)%Z with 1%Z by lia. replace (1 - b + kz)%Z with 0%Z by lia. rewrite I0, I1.
        replace (j2 + j3 - 1 - kz)%Z with (j2 + j3 - b)%Z by lia. replace (b - 1)%Z with kz by lia. rewrite <- E1, parity_succ. ring.
      + destruct (Z.eqb_spec kz b) as [E2|E2].
        * rewrite E2. replace (b - b)%Z with 0%Z by ring. replace (1 - b + b)%Z with 1%Z by ring. rewrite I0, I1. rewrite (inv_fact_pred b).
          rewrite (inv_fact_step (j2 + j3 - b) (j2 + j3 - 1 - b)) by ring. replace (IZR (j2 + j3 - b)) with (IZR (m2 - m3) + IZR b) by (rewrite <- plus_IZR; f_equal; unfold b; lia). ring.
        * destruct (Z.ltb_spec b kz).
          { rewrite (inv_fact_neg (b - kz)) by lia. ring. }
          { rewrite (inv_fact_neg (1 - b + kz)), (inv_fact_neg (kz - b)) by lia. ring. }
    - unfold g. destruct (Z.eqb_spec (Z.of_nat 0) b) as [E1|E1]; [|reflexivity]. rewrite (inv_fact_neg (b - 1)) by lia. ring.
    - unfold g. destruct (Z.eqb_spec (Z.of_nat (Z.to_nat (2 * j2 + 1))) b) as [E1|E1]; [|reflexivity]. unfold b in E1. lia. }
  unfold amp. rewrite <- Rmult_assoc, EA, EN, ES. ring.
Qed.
End SG.
