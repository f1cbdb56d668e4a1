(** Racah's formula: ladder relations, orthogonality, normalisation. *)
From Coq Require Import Reals Lra Lia ZArith List Bool.
From Verif Require Import Base.RealAux Spec.Wigner3jSpec Proof.RacahSum Proof.Racah.
Open Scope R_scope.

(** sqrt ((j - m) (j + m + 1)) *)
Definition cup (j m : Z) : R := sqrt (IZR (j - m) * IZR (j + m + 1)).
Lemma cup_sym j m : cup j (- m) = cup j (m - 1).
Proof. unfold cup. f_equal. izr. ring. Qed.
Lemma cup_pos j m : (Z.abs m <= j)%Z -> (m < j)%Z -> 0 < cup j m.
Proof. intros H1 H2. apply sqrt_lt_R0. apply Rmult_lt_0_compat; apply IZR_ps; lia. Qed.
(** sqrt (x y) sqrt p = x sqrt q when y p = x q *)
Lemma sqrt_shift x y p q : 0 < x -> 0 <= y -> 0 <= p -> y * p = x * q -> sqrt (x * y) * sqrt p = x * sqrt q.
Proof.
  intros Hx Hy Hp H. rewrite <- sqrt_mult_alt by (apply Rmult_le_pos; lra). replace (x * y * p) with (x * x * q) by (transitivity (x * (x * q)); [ring|rewrite <- H; ring]).
  rewrite sqrt_mult_alt by nra. rewrite sqrt_square by lra. reflexivity.
Qed.
Section Ladder.
Variables j2 j3 m2 m3 : Z.
Hypothesis Hm2 : (Z.abs m2 <= j2)%Z.
Hypothesis Hm3 : (Z.abs m3 <= j3)%Z.
Variable j : Z.
Let m := (m2 + m3)%Z.
Let Kp := jpart j2 j3 (m + 1) j * mpart j2 j3 m2 m3.
Let Km := jpart j2 j3 (m - 1) j * mpart j2 j3 m2 m3.
Lemma raise_2 : cup j2 m2 * amp j2 j3 (m2 + 1) m3 j = sqrt Kp * (IZR (j2 + m2 + 1) * racah_sum j j2 j3 (m2 + 1) m3).
Proof.
  destruct (Z.eq_dec m2 j2) as [E|E]; [rewrite amp_zero, sum_zero by lia; ring|].
  unfold amp. rewrite <- Rmult_assoc. unfold cup. rewrite (Rmult_comm (IZR (j2 - m2))). rewrite (sqrt_shift _ _ _ Kp); [ring|apply IZR_ps; lia|apply IZR_nn; lia|apply Rlt_le, weight_pos|].
  rewrite weight_parts. unfold Kp, mpart. replace (m2 + 1 + m3)%Z with (m + 1)%Z by (unfold m; ring).
  rewrite (zfact_up (j2 + m2) (j2 + (m2 + 1))), (zfact_up (j2 - (m2 + 1)) (j2 - m2)) by lia. replace (j2 - (m2 + 1) + 1)%Z with (j2 - m2)%Z by ring. ring.
Qed.
Lemma raise_3 : cup j3 m3 * amp j2 j3 m2 (m3 + 1) j = sqrt Kp * (IZR (j3 + m3 + 1) * racah_sum j j2 j3 m2 (m3 + 1)).
Proof.
  destruct (Z.eq_dec m3 j3) as [E|E]; [rewrite amp_zero, sum_zero by lia; ring|].
  unfold amp. rewrite <- Rmult_assoc. unfold cup. rewrite (Rmult_comm (IZR (j3 - m3))). rewrite (sqrt_shift _ _ _ Kp); [ring|apply IZR_ps; lia|apply IZR_nn; lia|apply Rlt_le, weight_pos|].
  rewrite weight_parts. unfold Kp, mpart. replace (m2 + (m3 + 1))%Z with (m + 1)%Z by (unfold m; ring).
  rewrite (zfact_up (j3 + m3) (j3 + (m3 + 1))), (zfact_up (j3 - (m3 + 1)) (j3 - m3)) by lia. replace (j3 - (m3 + 1) + 1)%Z with (j3 - m3)%Z by ring. ring.
Qed.
Lemma raise_j : cup j m * amp j2 j3 m2 m3 j = sqrt Kp * (IZR (j - m) * racah_sum j j2 j3 m2 m3).
Proof.
  destruct (Z.ltb_spec j (Z.abs m)) as [H|H]; [rewrite amp_zero, sum_zero by (unfold m in H; lia); ring|].
  destruct (Z.eq_dec m j) as [E|E]; [unfold cup; rewrite E, Z.sub_diag, Rmult_0_l, sqrt_0; ring|].
  unfold amp. rewrite <- Rmult_assoc. unfold cup. rewrite (sqrt_shift _ _ _ Kp); [ring|apply IZR_ps; lia|apply IZR_nn; lia|apply Rlt_le, weight_pos|].
  rewrite weight_parts. unfold Kp, jpart. fold m. 
  rewrite (zfact_up (j + m) (j + (m + 1))), (zfact_up (j - (m + 1)) (j - m)) by lia. replace (j - (m + 1) + 1)%Z with (j - m)%Z by ring. pose proof (zfact_pos (j + j2 + j3 + 1)). field. lra.
Qed.
Lemma lower_2 : cup j2 (- m2) * amp j2 j3 (m2 - 1) m3 j = sqrt Km * (IZR (j2 - m2 + 1) * racah_sum j j2 j3 (m2 - 1) m3).
Proof.
  destruct (Z.eq_dec m2 (- j2)) as [E|E]; [rewrite amp_zero, sum_zero by lia; ring|].
  unfold amp. rewrite <- Rmult_assoc. unfold cup. rewrite (Rmult_comm (IZR (j2 - - m2))). replace (j2 + - m2 + 1)%Z with (j2 - m2 + 1)%Z by ring. rewrite (sqrt_shift _ _ _ Km); [ring|apply IZR_ps; lia|apply IZR_nn; lia|apply Rlt_le, weight_pos|].
  rewrite weight_parts. unfold Km, mpart. replace (m2 - 1 + m3)%Z with (m - 1)%Z by (unfold m; ring).
  rewrite (zfact_up (j2 - m2) (j2 - (m2 - 1))), (zfact_up (j2 + (m2 - 1)) (j2 + m2)) by lia. replace (j2 + (m2 - 1) + 1)%Z with (j2 - - m2)%Z by ring. ring.
Qed.
Lemma lower_3 : cup j3 (- m3) * amp j2 j3 m2 (m3 - 1) j = sqrt Km * (IZR (j3 - m3 + 1) * racah_sum j j2 j3 m2 (m3 - 1)).
Proof.
  destruct (Z.eq_dec m3 (- j3)) as [E|E]; [rewrite amp_zero, sum_zero by lia; ring|].
  unfold amp. rewrite <- Rmult_assoc. unfold cup. rewrite (Rmult_comm (IZR (j3 - - m3))). replace (j3 + - m3 + 1)%Z with (j3 - m3 + 1)%Z by ring. rewrite (sqrt_shift _ _ _ Km); [ring|apply IZR_ps; lia|apply IZR_nn; lia|apply Rlt_le, weight_pos|].
  rewrite weight_parts. unfold Km, mpart. replace (m2 + (m3 - 1))%Z with (m - 1)%Z by (unfold m; ring).
  rewrite (zfact_up (j3 - m3) (j3 - (m3 - 1))), (zfact_up (j3 + (m3 - 1)) (j3 + m3)) by lia. replace (j3 + (m3 - 1) + 1)%Z with (j3 - - m3)%Z by ring. ring.
Qed.
Lemma lower_j : cup j (- m) * amp j2 j3 m2 m3 j = sqrt Km * (IZR (j + m) * racah_sum j j2 j3 m2 m3).
Proof.
  destruct (Z.ltb_spec j (Z.abs m)) as [H|H]; [rewrite amp_zero, sum_zero by (unfold m in H; lia); ring|].
  destruct (Z.eq_dec (- m) j) as [E|E]; [unfold cup; replace (j + m)%Z with 0%Z by lia; rewrite E, Z.sub_diag, Rmult_0_l, sqrt_0; ring|].
  unfold amp. rewrite <- Rmult_assoc. unfold cup. replace (j - - m)%Z with (j + m)%Z by ring. replace (j + - m + 1)%Z with (j - m + 1)%Z by ring. rewrite (sqrt_shift _ _ _ Km); [ring|apply IZR_ps; lia|apply IZR_nn; lia|apply Rlt_le, weight_pos|].
  rewrite weight_parts. unfold Km, jpart. fold m. 
  rewrite (zfact_up (j - m) (j - (m - 1))), (zfact_up (j + (m - 1)) (j + m)) by lia. replace (j + (m - 1) + 1)%Z with (j + m)%Z by ring. pose proof (zfact_pos (j + j2 + j3 + 1)). field. lra.
Qed.
Theorem ladder_up : cup j (m2 + m3) * amp j2 j3 m2 m3 j = cup j2 m2 * amp j2 j3 (m2 + 1) m3 j + cup j3 m3 * amp j2 j3 m2 (m3 + 1) j.
Proof. fold m. rewrite raise_2, raise_3, raise_j. unfold m. rewrite dn_sum by lia. ring. Qed.
Theorem ladder_down : cup j (- (m2 + m3)) * amp j2 j3 m2 m3 j = cup j2 (- m2) * amp j2 j3 (m2 - 1) m3 j + cup j3 (- m3) * amp j2 j3 m2 (m3 - 1) j.
Proof. fold m. rewrite lower_2, lower_3, lower_j. unfold m. rewrite up_sum by lia. ring. Qed.
End Ladder.

(** * Orthogonality *)
Definition inner (j2 j3 : Z) (f g : Z -> R) : R := bigsum (Z.to_nat (j2 + j3 + 1)) (fun n => (2 * INR n + 1) * (f (Z.of_nat n) * g (Z.of_nat n))).
Section Ortho.
Variables j2 j3 m2 m3 n2 n3 : Z.
Hypothesis Hm2 : (Z.abs m2 <= j2)%Z.
Hypothesis Hm3 : (Z.abs m3 <= j3)%Z.
Hypothesis Hn2 : (Z.abs n2 <= j2)%Z.
Hypothesis Hn3 : (Z.abs n3 <= j3)%Z.
Hypothesis Hs : (n2 + n3 = m2 + m3)%Z.
Let m := (m2 + m3)%Z.
Let f := amp j2 j3 m2 m3.
Let g := amp j2 j3 n2 n3.
Let A j := sgA (IZR j2) (IZR j3) (IZR m) j.
Let Wr (j : Z) : R := A (IZR j) / IZR j * (f j * g (j - 1)%Z - g j * f (j - 1)%Z).
Let D := IZR (m2 - m3) - IZR (n2 - n3).
Lemma f_out j : ~ allowed_j j2 j3 m2 m3 j -> f j = 0.
Proof. intros H. unfold f. apply amp_zero. unfold allowed_j in H. lia. Qed.
Lemma g_out j : ~ allowed_j j2 j3 m2 m3 j -> g j = 0.
Proof. intros H. unfold g. apply amp_zero. unfold allowed_j in H. lia. Qed.
Lemma wr_step j : (1 <= j)%Z -> Wr (j + 1) - Wr j = (2 * IZR j + 1) * D * (f j * g j).
Proof.
  intros Hj. assert (Jp : 0 < IZR j) by (apply IZR_lt; lia).
  assert (Dec : allowed_j j2 j3 m2 m3 j \/ ~ allowed_j j2 j3 m2 m3 j) by (unfold allowed_j; lia).
  destruct Dec as [Ha|Hn].
  2:{ unfold Wr. replace (j + 1 - 1)%Z with j by ring. rewrite (f_out j), (g_out j) by exact Hn. ring. }
  pose proof (amp_recurrence j2 j3 m2 m3 Hm2 Hm3 j Ha) as R1.
  assert (Ha' : allowed_j j2 j3 n2 n3 j) by (unfold allowed_j in *; lia).
  pose proof (amp_recurrence j2 j3 n2 n3 Hn2 Hn3 j Ha') as R2. rewrite Hs in R2. fold m f in R1. fold m g in R2. fold (A (IZR j)) (A (IZR j + 1)) in R1, R2.
  unfold Wr. replace (j + 1 - 1)%Z with j by ring. rewrite (plus_IZR j 1).
  assert (ED : sgB (IZR j2) (IZR j3) (IZR m2) (IZR m3) (IZR j) - sgB (IZR j2) (IZR j3) (IZR n2) (IZR n3) (IZR j) = - (2 * IZR j + 1) * D * (IZR j * (IZR j + 1))).
  { unfold sgB, D. rewrite <- !plus_IZR. rewrite Hs. izr. ring. }
  set (B := sgB (IZR j2) (IZR j3) (IZR m2) (IZR m3) (IZR j)) in *. set (B' := sgB (IZR j2) (IZR j3) (IZR n2) (IZR n3) (IZR j)) in *.
  apply Rmult_eq_reg_r with (IZR j * (IZR j + 1)); [|nra].
  transitivity (IZR j * A (IZR j + 1) * (f (j + 1)%Z * g j - g (j + 1)%Z * f j) - (IZR j + 1) * A (IZR j) * (f j * g (j - 1)%Z - g j * f (j - 1)%Z)); [field; split; lra|].
  transitivity (- (B - B') * (f j * g j)); [|rewrite ED; ring].
  transitivity (g j * (IZR j * A (IZR j + 1) * f (j + 1)%Z + B * f j + (IZR j + 1) * A (IZR j) * f (j - 1)%Z) - f j * (IZR j * A (IZR j + 1) * g (j + 1)%Z + B' * g j + (IZR j + 1) * A (IZR j) * g (j - 1)%Z) - (B - B') * (f j * g j)); [ring|].
  rewrite R1, R2. ring.
Qed.
Lemma wr_one : Wr 1 = D * (f 0%Z * g 0%Z).
Proof.
  unfold Wr. change (1 - 1)%Z with 0%Z. change (IZR 1) with 1. unfold Rdiv. rewrite Rinv_1, Rmult_1_r.
  assert (Dec : (j2 = j3 /\ m = 0)%Z \/ ~ (j2 = j3 /\ m = 0)%Z) by lia. destruct Dec as [[E1 E2]|Hn].
  2:{ rewrite (f_out 0), (g_out 0) by (unfold allowed_j, m in *; lia). ring. }
  pose proof (amp_zero_one j2 j3 m2 m3 Hm2 Hm3 E1 E2) as R1. pose proof (amp_zero_one j2 j3 n2 n3 Hn2 Hn3 E1 ltac:(unfold m in *; lia)) as R2.
  rewrite Hs in R2. fold m f in R1. fold m g in R2. fold (A 1) in R1, R2. transitivity (A 1 * f 1%Z * g 0%Z - A 1 * g 1%Z * f 0%Z); [ring|]. rewrite R1, R2. unfold D. ring.
Qed.
Theorem orthogonal : m2 <> n2 -> inner j2 j3 f g = 0.
Proof.
  intros Hne. assert (HD : D <> 0). { unfold D. rewrite <- minus_IZR. apply not_0_IZR. lia. }
  apply Rmult_eq_reg_l with D; [|exact HD]. rewrite Rmult_0_r. unfold inner. rewrite <- bigsum_scal.
  set (G := fun n : nat => match n with O => 0 | _ => Wr (Z.of_nat n) end).
  rewrite (bigsum_ext _ _ (fun n => G (S n) - G n)).
  2:{ intros n _. cbn beta. unfold G. destruct n as [|n].
      - change (Z.of_nat 1) with 1%Z. change (Z.of_nat 0) with 0%Z. rewrite wr_one. cbn [INR]. ring.
      - replace (Z.of_nat (S (S n))) with (Z.of_nat (S n) + 1)%Z by lia. rewrite wr_step by lia. rewrite INR_IZR_INZ. ring. }
  rewrite bigsum_telescope. unfold G at 2. unfold G. destruct (Z.to_nat (j2 + j3 + 1)) as [|k] eqn:E; [ring|]. unfold Wr. rewrite (f_out (Z.of_nat (S k))), (g_out (Z.of_nat (S k))) by (unfold allowed_j; lia). ring.
Qed.
End Ortho.

(** * Normalisation *)
Lemma inner_ext j2 j3 f g f' g' : (forall j, f j = f' j) -> (forall j, g j = g' j) -> inner j2 j3 f g = inner j2 j3 f' g'.
Proof. intros H1 H2. unfold inner. apply bigsum_ext. intros n _. now rewrite H1, H2. Qed.
Lemma inner_sym j2 j3 f g : inner j2 j3 f g = inner j2 j3 g f.
Proof. unfold inner. apply bigsum_ext. intros n _. ring. Qed.
Lemma inner_lin j2 j3 f a g b h : inner j2 j3 f (fun j => a * g j + b * h j) = a * inner j2 j3 f g + b * inner j2 j3 f h.
Proof. unfold inner. rewrite <- !bigsum_scal, <- bigsum_plus. apply bigsum_ext. intros n _. ring. Qed.
Lemma inner_move j2 j3 f g (c : Z -> R) : inner j2 j3 f (fun j => c j * g j) = inner j2 j3 (fun j => c j * f j) g.
Proof. unfold inner. apply bigsum_ext. intros n _. ring. Qed.
Lemma inner_zero j2 j3 f g : (forall j, g j = 0) -> inner j2 j3 f g = 0.
Proof. intros H. unfold inner. rewrite (bigsum_ext _ _ (fun _ => 0)) by (intros; rewrite H; ring). apply bigsum_zero. Qed.
Definition sqnorm j2 j3 m2 m3 : R := inner j2 j3 (amp j2 j3 m2 m3) (amp j2 j3 m2 m3).
Lemma ortho_any j2 j3 m2 m3 n2 n3 : (Z.abs m2 <= j2)%Z -> (Z.abs m3 <= j3)%Z -> (n2 + n3 = m2 + m3)%Z -> m2 <> n2 -> inner j2 j3 (amp j2 j3 m2 m3) (amp j2 j3 n2 n3) = 0.
Proof.
  intros H1 H2 H3 H4. destruct (Z.leb_spec (Z.abs n2) j2); [destruct (Z.leb_spec (Z.abs n3) j3)|].
  - now apply orthogonal.
  - apply inner_zero. intros j. apply amp_zero. lia.
  - apply inner_zero. intros j. apply amp_zero. lia.
Qed.
Lemma norm_step_2 j2 j3 m2 m3 : (Z.abs m2 <= j2)%Z -> (Z.abs m3 <= j3)%Z -> (m2 < j2)%Z -> sqnorm j2 j3 (m2 + 1) m3 = sqnorm j2 j3 m2 m3.
Proof.
  intros H1 H2 H3. pose proof (cup_pos j2 m2 H1 H3) as C. apply Rmult_eq_reg_l with (cup j2 m2); [|lra].
  set (I := inner j2 j3 (amp j2 j3 (m2 + 1) m3) (fun j => cup j (m2 + m3) * amp j2 j3 m2 m3 j)).
  transitivity I.
  - unfold I. rewrite (inner_ext _ _ _ _ (amp j2 j3 (m2 + 1) m3) (fun j => cup j2 m2 * amp j2 j3 (m2 + 1) m3 j + cup j3 m3 * amp j2 j3 m2 (m3 + 1) j)) by (intros; try reflexivity; now apply ladder_up).
    rewrite inner_lin. rewrite (ortho_any j2 j3 (m2 + 1) m3 m2 (m3 + 1)) by lia. unfold sqnorm. ring.
  - unfold I. rewrite inner_move, inner_sym.
    rewrite (inner_ext _ _ _ _ (amp j2 j3 m2 m3) (fun j => cup j2 m2 * amp j2 j3 m2 m3 j + cup j3 (- m3) * amp j2 j3 (m2 + 1) (m3 - 1) j)).
    + rewrite inner_lin. rewrite (ortho_any j2 j3 m2 m3 (m2 + 1) (m3 - 1)) by lia. unfold sqnorm. ring.
    + reflexivity.
    + intros j. pose proof (ladder_down j2 j3 (m2 + 1) m3 ltac:(lia) H2 j) as L. rewrite !cup_sym in L. replace (m2 + 1 + m3 - 1)%Z with (m2 + m3)%Z in L by ring. replace (m2 + 1 - 1)%Z with m2 in L by ring. rewrite L, cup_sym. reflexivity.
Qed.
Lemma norm_step_3 j2 j3 m2 m3 : (Z.abs m2 <= j2)%Z -> (Z.abs m3 <= j3)%Z -> (m3 < j3)%Z -> sqnorm j2 j3 m2 (m3 + 1) = sqnorm j2 j3 m2 m3.
Proof.
  intros H1 H2 H3. pose proof (cup_pos j3 m3 H2 H3) as C. apply Rmult_eq_reg_l with (cup j3 m3); [|lra].
  set (I := inner j2 j3 (amp j2 j3 m2 (m3 + 1)) (fun j => cup j (m2 + m3) * amp j2 j3 m2 m3 j)).
  transitivity I.
  - unfold I. rewrite (inner_ext _ _ _ _ (amp j2 j3 m2 (m3 + 1)) (fun j => cup j2 m2 * amp j2 j3 (m2 + 1) m3 j + cup j3 m3 * amp j2 j3 m2 (m3 + 1) j)) by (intros; try reflexivity; now apply ladder_up).
    rewrite inner_lin. rewrite (ortho_any j2 j3 m2 (m3 + 1) (m2 + 1) m3) by lia. unfold sqnorm. ring.
  - unfold I. rewrite inner_move, inner_sym.
    rewrite (inner_ext _ _ _ _ (amp j2 j3 m2 m3) (fun j => cup j2 (- m2) * amp j2 j3 (m2 - 1) (m3 + 1) j + cup j3 m3 * amp j2 j3 m2 m3 j)).
    + rewrite inner_lin. rewrite (ortho_any j2 j3 m2 m3 (m2 - 1) (m3 + 1)) by lia. unfold sqnorm. ring.
    + reflexivity.
    + intros j. pose proof (ladder_down j2 j3 m2 (m3 + 1) H1 ltac:(lia) j) as L. rewrite !cup_sym in L. replace (m2 + (m3 + 1) - 1)%Z with (m2 + m3)%Z in L by ring. replace (m3 + 1 - 1)%Z with m3 in L by ring. rewrite L, cup_sym. reflexivity.
Qed.
(** sums with a single term *)
Lemma inv_fact_0 : inv_fact 0 = 1.
Proof. rewrite inv_fact_nonneg by lia. unfold zfact. cbn. apply Rinv_1. Qed.
Lemma inv_fact_pos n : (0 <= n)%Z -> 0 < inv_fact n.
Proof. intros H. rewrite inv_fact_nonneg by exact H. apply Rinv_0_lt_compat, zfact_pos. Qed.
Lemma sum_first j j2 j3 m2 m3 : (0 <= j2)%Z -> (j = j2 + j3 \/ m2 = j2 \/ m3 = - j3)%Z ->
  racah_sum j j2 j3 m2 m3 = inv_fact (j2 + j3 - j) * inv_fact (j2 - m2) * inv_fact (j3 + m3) * inv_fact (j - j3 + m2) * inv_fact (j - j2 - m3).
Proof.
  intros H2 H. unfold racah_sum. rewrite (bigsum_single _ 0).
  - unfold racah_term. change (Z.of_nat 0) with 0%Z. rewrite !Z.sub_0_r, !Z.add_0_r, inv_fact_0. unfold parity_sign. cbn [Z.even]. ring.
  - lia.
  - intros k _ Hk. unfold racah_term. destruct H as [H|[H|H]].
    + rewrite (inv_fact_neg (j2 + j3 - j - _)) by lia. ring.
    + rewrite (inv_fact_neg (j2 - m2 - _)) by lia. ring.
    + rewrite (inv_fact_neg (j3 + m3 - _)) by lia. ring.
Qed.
Lemma amp_last_pos j2 j3 m2 m3 : (Z.abs m2 <= j2)%Z -> (Z.abs m3 <= j3)%Z -> 0 < amp j2 j3 m2 m3 (j2 + j3).
Proof.
  intros H2 H3. unfold amp. apply Rmult_lt_0_compat; [apply sqrt_lt_R0, weight_pos|]. rewrite sum_first by lia.
  repeat apply Rmult_lt_0_compat; apply inv_fact_pos; lia.
Qed.
Lemma norm_top j2 j3 : (0 <= j2)%Z -> (0 <= j3)%Z -> sqnorm j2 j3 j2 j3 = 1.
Proof.
  intros H2 H3. unfold sqnorm, inner. rewrite (bigsum_single _ (Z.to_nat (j2 + j3))).
  - rewrite Z2Nat.id by lia. rewrite INR_IZR_INZ, Z2Nat.id by lia. unfold amp.
    set (w := racah_weight _ _ _ _ _). set (s := racah_sum _ _ _ _ _). transitivity ((2 * IZR (j2 + j3) + 1) * (sqrt w * sqrt w * (s * s))); [ring|].
    rewrite sqrt_sqrt by (apply Rlt_le, weight_pos). unfold w, s, racah_weight. rewrite sum_first by lia.
    replace (j2 + j3 - (j2 + j3))%Z with 0%Z by ring. replace (j2 - j2)%Z with 0%Z by ring. replace (j2 + j3 - j2 - j3)%Z with 0%Z by ring. replace (j3 - j3)%Z with 0%Z by ring. rewrite !inv_fact_0.
    replace (j2 + j3 + j2 - j3)%Z with (2 * j2)%Z by ring. replace (j2 + j3 - j2 + j3)%Z with (2 * j3)%Z by ring. replace (j2 + j3 - j3 + j2)%Z with (2 * j2)%Z by ring. replace (j2 + j3 + (j2 + j3))%Z with (2 * (j2 + j3))%Z by ring.
    replace (j2 + j2)%Z with (2 * j2)%Z by ring. replace (j3 + j3)%Z with (2 * j3)%Z by ring.
    rewrite (zfact_up (2 * (j2 + j3)) (j2 + j3 + j2 + j3 + 1)) by lia. rewrite !inv_fact_nonneg by lia.
    assert (Z0 : zfact 0 = 1) by reflexivity. rewrite Z0.
    pose proof (zfact_pos (2 * j2)). pose proof (zfact_pos (2 * j3)). pose proof (zfact_pos (2 * (j2 + j3))).
    pose proof (IZR_ps (2 * (j2 + j3) + 1) ltac:(lia)) as P. replace (2 * IZR (j2 + j3) + 1) with (IZR (2 * (j2 + j3) + 1)) by (rewrite plus_IZR, mult_IZR; reflexivity).
    field. repeat split; lra.
  - lia.
  - intros n Hn Hne. rewrite amp_zero by lia. ring.
Qed.
Lemma norm_one_aux j2 j3 (H2 : (0 <= j2)%Z) (H3 : (0 <= j3)%Z) (n : nat) : forall m2 m3, (Z.abs m2 <= j2)%Z -> (Z.abs m3 <= j3)%Z -> (j2 - m2 + (j3 - m3) = Z.of_nat n)%Z -> sqnorm j2 j3 m2 m3 = 1.
Proof.
  induction n as [|n IH]; intros m2 m3 A2 A3 E.
  - replace m2 with j2 by lia. replace m3 with j3 by lia. now apply norm_top.
  - destruct (Z.eq_dec m2 j2) as [E2|E2].
    + rewrite <- norm_step_3 by lia. apply IH; lia.
    + rewrite <- norm_step_2 by lia. apply IH; lia.
Qed.
Theorem norm_one j2 j3 m2 m3 : (Z.abs m2 <= j2)%Z -> (Z.abs m3 <= j3)%Z -> sqnorm j2 j3 m2 m3 = 1.
Proof. intros A2 A3. apply (norm_one_aux j2 j3 ltac:(lia) ltac:(lia) (Z.to_nat (j2 - m2 + (j3 - m3)))); lia. Qed.

(** Racah's formula is the 3j symbol. *)
Lemma sign_square n : parity_sign n * parity_sign n = 1.
Proof. unfold parity_sign. destruct (Z.even n); ring. Qed.
Theorem racah_is_3j j2 j3 m2 m3 : (Z.abs m2 <= j2)%Z -> (Z.abs m3 <= j3)%Z -> is_3j j2 j3 m2 m3 (racah_3j j2 j3 m2 m3).
Proof.
  intros A2 A3. set (s := parity_sign (j2 - j3 + m2 + m3)). pose proof (sign_square (j2 - j3 + m2 + m3)) as S2. fold s in S2. split; [split; [|split]|].
  - intros j H. rewrite racah_amp, amp_zero; [ring|]. unfold allowed_j in H. lia.
  - rewrite <- (norm_one j2 j3 m2 m3 A2 A3). unfold total_weight, sqnorm, inner. apply bigsum_ext. intros n _. rewrite racah_amp. fold s.
    set (x := amp _ _ _ _ _). transitivity ((2 * INR n + 1) * (s * s * (x * x))); [ring|rewrite S2; ring].
  - rewrite racah_amp. fold s. rewrite <- Rmult_assoc, S2, Rmult_1_l. now apply amp_last_pos.
  - intros j H. rewrite !racah_amp. fold s. pose proof (amp_recurrence j2 j3 m2 m3 A2 A3 j H) as R1.
    transitivity (s * 0); [rewrite <- R1; ring|ring].
Qed.
