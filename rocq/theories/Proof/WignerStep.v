(** Risbo's recursion computes the symmetric powers of a planar rotation. *)
From Coq Require Import Reals Lra Lia ZArith List Bool Arith.
From Verif Require Import Base.RealAux Model.Poly Model.S2fft Proof.HarmonicProof Proof.WignerGen.
Import ListNotations.
Open Scope R_scope.
Local Notation C := Binomial.C.

Definition bz (J : nat) (k : Z) : R := if ((0 <=? k) && (k <=? Z.of_nat J))%Z%bool then sqrt (C J (Z.to_nat k)) else 0.
Lemma C_pos n k : 0 < C n k.
Proof. unfold C. apply Rdiv_lt_0_compat; [apply fact_pos|]. apply Rmult_lt_0_compat; apply fact_pos. Qed.
Lemma bz_in J k : (0 <= k <= Z.of_nat J)%Z -> bz J k = sqrt (C J (Z.to_nat k)).
Proof. intros H. unfold bz. destruct (Z.leb_spec 0 k), (Z.leb_spec k (Z.of_nat J)); try lia. reflexivity. Qed.
Lemma bz_out J k : ~ (0 <= k <= Z.of_nat J)%Z -> bz J k = 0.
Proof. intros H. unfold bz. destruct (Z.leb_spec 0 k), (Z.leb_spec k (Z.of_nat J)); try lia; reflexivity. Qed.
Lemma bz_pos J k : (0 <= k <= Z.of_nat J)%Z -> 0 < bz J k.
Proof. intros H. rewrite bz_in by exact H. apply sqrt_lt_R0, C_pos. Qed.
Lemma sqrt_neg_0 x : x <= 0 -> sqrt x = 0.
Proof. apply sqrt_neg_0. Qed.
Lemma bz_down1 J k : sqrt (IZR (Z.of_nat (S J) - k)) * bz (S J) k = sqrt (INR (S J)) * bz J k.
Proof.
  destruct (Z_lt_dec k 0) as [H|H]; [rewrite !bz_out by lia; ring|].
  destruct (Z_lt_dec (Z.of_nat J) k) as [H'|H'].
  - rewrite (bz_out J) by lia. rewrite sqrt_neg_0; [ring|]. apply IZR_le. lia.
  - rewrite !bz_in by lia. rewrite <- !sqrt_mult_alt by (try apply pos_INR; apply IZR_le; lia). f_equal.
    assert (E : exists n, k = Z.of_nat n /\ (n <= J)%nat) by (exists (Z.to_nat k); lia). destruct E as (n & -> & Hn). rewrite Nat2Z.id.
    rewrite <- Nat2Z.inj_sub by lia. rewrite <- INR_IZR_INZ. unfold C. replace (S J - n)%nat with (S (J - n)) by lia.
    rewrite !fact_simpl, !mult_INR. pose proof (fact_nz n). pose proof (fact_nz (J - n)). assert (INR (S (J - n)) <> 0) by (apply not_0_INR; lia). field. repeat split; assumption.
Qed.
Lemma bz_down2 J k : sqrt (IZR k) * bz (S J) k = sqrt (INR (S J)) * bz J (k - 1).
Proof.
  destruct (Z_le_dec k 0) as [H|H]; [rewrite sqrt_neg_0 by (now apply IZR_le); rewrite (bz_out J) by lia; ring|].
  destruct (Z_lt_dec (Z.of_nat (S J)) k) as [H'|H']; [rewrite !bz_out by lia; ring|].
  rewrite !bz_in by lia. rewrite <- !sqrt_mult_alt by (try apply pos_INR; apply IZR_le; lia). f_equal.
  assert (E : exists n, k = Z.of_nat (S n) /\ (n <= J)%nat) by (exists (Z.to_nat (k - 1)); lia). destruct E as (n & -> & Hn).
  replace (Z.to_nat (Z.of_nat (S n) - 1)) with n by lia. rewrite Nat2Z.id.
  rewrite <- INR_IZR_INZ. unfold C. replace (S J - S n)%nat with (J - n)%nat by lia.
  rewrite !fact_simpl, !mult_INR. pose proof (fact_nz n). pose proof (fact_nz (J - n)). assert (INR (S n) <> 0) by (apply not_0_INR; lia). field. repeat split; assumption.
Qed.

(** D is the matrix, in the normalised basis, of the J-th symmetric power of (s,t) -> (c s + d t, -d s + c t) *)
Definition sym_power (J : nat) (c d : R) (D : Z -> Z -> R) : Prop :=
  (forall k i, ~ ((0 <= k <= Z.of_nat J) /\ (0 <= i <= Z.of_nat J))%Z -> D k i = 0) /\
  forall i, (0 <= i <= Z.of_nat J)%Z -> forall s t,
    hsum J (fun k => D k i * bz J k) s t = bz J i * ((c * s + d * t) ^ (J - Z.to_nat i) * (- d * s + c * t) ^ Z.to_nat i).
Definition risbo_sum (j : Z) (c d : R) (D : Z -> Z -> R) (k i : Z) : R :=
  sqrt (IZR (j - i)) * sqrt (IZR (j - k)) * D k i * c +
  - sqrt (IZR i) * sqrt (IZR (j - k)) * D k (i - 1)%Z * d +
  sqrt (IZR (j - i)) * sqrt (IZR k) * D (k - 1)%Z i * d +
  sqrt (IZR i) * sqrt (IZR k) * D (k - 1)%Z (i - 1)%Z * c.
Lemma sym_power_step J c d D : sym_power J c d D -> sym_power (S J) c d (fun k i => risbo_sum (Z.of_nat (S J)) c d D k i / INR (S J)).
Proof.
  intros [Ho Hg]. split.
  - intros k i H. unfold risbo_sum. rewrite !Ho by lia. unfold Rdiv. ring.
  - intros i Hi s t. set (j := INR (S J)). assert (Hj : 0 < j) by (apply lt_0_INR; lia).
    assert (Hsj : sqrt j * sqrt j = j) by (apply sqrt_sqrt; lra).
    set (X := c * s + d * t). set (Y := - d * s + c * t).
    assert (HH : forall i', hsum J (fun k => D k i' * bz J k) s t = if ((0 <=? i') && (i' <=? Z.of_nat J))%Z%bool then bz J i' * (X ^ (J - Z.to_nat i') * Y ^ Z.to_nat i') else 0).
    { intros i'. destruct (Z.leb_spec 0 i'), (Z.leb_spec i' (Z.of_nat J)); cbn [andb]; try (apply Hg; lia);
      unfold hsum; apply bigsum_zero_ext; intros k Hk; rewrite Ho by lia; ring. }
    assert (E : hsum (S J) (fun k => risbo_sum (Z.of_nat (S J)) c d D k i / j * bz (S J) k) s t =
      sqrt j / j * (sqrt (IZR (Z.of_nat (S J) - i)) * X * hsum J (fun k => D k i * bz J k) s t + sqrt (IZR i) * Y * hsum J (fun k => D k (i - 1)%Z * bz J k) s t)).
    { transitivity (sqrt j / j * (sqrt (IZR (Z.of_nat (S J) - i)) * c * hsum (S J) (fun k => D k i * bz J k) s t +
        - sqrt (IZR i) * d * hsum (S J) (fun k => D k (i - 1)%Z * bz J k) s t +
        sqrt (IZR (Z.of_nat (S J) - i)) * d * hsum (S J) (fun k => D (k - 1)%Z i * bz J (k - 1)) s t +
        sqrt (IZR i) * c * hsum (S J) (fun k => D (k - 1)%Z (i - 1)%Z * bz J (k - 1)) s t)).
      - rewrite <- !hsum_scal, <- !hsum_plus, <- hsum_scal. apply hsum_ext. intros k Hk.
        transitivity (/ j * (sqrt (IZR (Z.of_nat (S J) - i)) * c * D k i * (sqrt (IZR (Z.of_nat (S J) - k)) * bz (S J) k) +
          - sqrt (IZR i) * d * D k (i - 1)%Z * (sqrt (IZR (Z.of_nat (S J) - k)) * bz (S J) k) +
          sqrt (IZR (Z.of_nat (S J) - i)) * d * D (k - 1)%Z i * (sqrt (IZR k) * bz (S J) k) +
          sqrt (IZR i) * c * D (k - 1)%Z (i - 1)%Z * (sqrt (IZR k) * bz (S J) k))).
        + unfold risbo_sum. fold j. unfold Rdiv. ring.
        + rewrite bz_down1, bz_down2. fold j. unfold Rdiv. ring.
      - rewrite (hsum_s J (fun k => D k i * bz J k)) by (rewrite bz_out by lia; ring).
        rewrite (hsum_s J (fun k => D k (i - 1)%Z * bz J k)) by (rewrite bz_out by lia; ring).
        rewrite (hsum_t J (fun k => D k i * bz J k)) by (rewrite bz_out by lia; ring).
        rewrite (hsum_t J (fun k => D k (i - 1)%Z * bz J k)) by (rewrite bz_out by lia; ring).
        unfold X, Y. ring. }
    rewrite E. clear E. rewrite !HH.
    assert (P1 : (if ((0 <=? i) && (i <=? Z.of_nat J))%Z%bool then bz J i * (X ^ (J - Z.to_nat i) * Y ^ Z.to_nat i) else 0) * X = bz J i * (X ^ (S J - Z.to_nat i) * Y ^ Z.to_nat i)).
    { destruct (Z.leb_spec 0 i), (Z.leb_spec i (Z.of_nat J)); cbn [andb]; try lia.
      - replace (S J - Z.to_nat i)%nat with (S (J - Z.to_nat i)) by lia. cbn [pow]. ring.
      - rewrite bz_out by lia. ring. }
    assert (P2 : (if ((0 <=? i - 1) && (i - 1 <=? Z.of_nat J))%Z%bool then bz J (i - 1) * (X ^ (J - Z.to_nat (i - 1)) * Y ^ Z.to_nat (i - 1)) else 0) * Y = bz J (i - 1) * (X ^ (S J - Z.to_nat i) * Y ^ Z.to_nat i)).
    { destruct (Z.leb_spec 0 (i - 1)), (Z.leb_spec (i - 1) (Z.of_nat J)); cbn [andb]; try lia.
      - replace (S J - Z.to_nat i)%nat with (J - Z.to_nat (i - 1))%nat by lia. replace (Z.to_nat i) with (S (Z.to_nat (i - 1))) by lia. cbn [pow]. ring.
      - rewrite bz_out by lia. ring. }
    set (P := X ^ (S J - Z.to_nat i) * Y ^ Z.to_nat i) in *.
    match goal with |- _ * (?a * X * ?A + ?b * Y * ?B) = _ => transitivity (sqrt j / j * (a * (A * X) + b * (B * Y))); [ring|] end.
    rewrite P1, P2.
    transitivity (/ j * P * (sqrt (IZR (Z.of_nat (S J) - i)) * (sqrt j * bz J i) + sqrt (IZR i) * (sqrt j * bz J (i - 1)))); [unfold Rdiv; ring|].
    unfold j. rewrite <- bz_down1, <- bz_down2. fold j.
    assert (Q1 : sqrt (IZR (Z.of_nat (S J) - i)) * sqrt (IZR (Z.of_nat (S J) - i)) = IZR (Z.of_nat (S J) - i)) by (apply sqrt_sqrt, IZR_le; lia).
    assert (Q2 : sqrt (IZR i) * sqrt (IZR i) = IZR i) by (apply sqrt_sqrt, IZR_le; lia).
    transitivity (/ j * P * bz (S J) i * (sqrt (IZR (Z.of_nat (S J) - i)) * sqrt (IZR (Z.of_nat (S J) - i)) + sqrt (IZR i) * sqrt (IZR i))); [ring|].
    rewrite Q1, Q2, minus_IZR, <- INR_IZR_INZ. fold j. field. lra.
Qed.
Lemma sym_power_ext J c d D D' : (forall k i, D k i = D' k i) -> sym_power J c d D -> sym_power J c d D'.
Proof.
  intros E [Ho Hg]. split; [intros; rewrite <- E; now apply Ho|]. intros i Hi s t. rewrite <- Hg by exact Hi. apply hsum_ext. intros. now rewrite E.
Qed.
(** one half-step of the code *)
Lemma risbo_step_ok out o src j c d : (forall k i, ~ ((0 <= k < j) /\ (0 <= i < j))%Z -> src k i = 0) ->
  forall k i, risbo_step out o src j c d (o + k)%Z (o + i)%Z = out (o + k)%Z (o + i)%Z + risbo_sum j c d src k i.
Proof.
  intros Ho k i. unfold risbo_step, madd. cbv zeta.
  assert (B : forall r0 c0 (f : Z -> Z -> R) (v : R), (~ ((0 <= r0 < j) /\ (0 <= c0 < j))%Z -> f r0 c0 = 0) ->
     (if ((o <=? o + r0) && (o + r0 <? o + j) && (o <=? o + c0) && (o + c0 <? o + j))%Z%bool then v + f r0 c0 else v) = v + f r0 c0).
  { intros r0 c0 f v Hf. destruct (Z.leb_spec o (o + r0)), (Z.ltb_spec (o + r0) (o + j)), (Z.leb_spec o (o + c0)), (Z.ltb_spec (o + c0) (o + j)); cbn [andb]; try reflexivity; rewrite Hf by lia; ring. }
  replace (o + k - o)%Z with k by ring. replace (o + i - o)%Z with i by ring.
  replace (o + k - (o + 1))%Z with (k - 1)%Z by ring. replace (o + i - (o + 1))%Z with (i - 1)%Z by ring.
  replace (o + 1 <=? o + k)%Z with (o <=? o + (k - 1))%Z by (destruct (Z.leb_spec o (o + (k - 1))), (Z.leb_spec (o + 1) (o + k)); lia || reflexivity).
  replace (o + 1 <=? o + i)%Z with (o <=? o + (i - 1))%Z by (destruct (Z.leb_spec o (o + (i - 1))), (Z.leb_spec (o + 1) (o + i)); lia || reflexivity).
  replace (o + k <? o + 1 + j)%Z with (o + (k - 1) <? o + j)%Z by (destruct (Z.ltb_spec (o + (k - 1)) (o + j)), (Z.ltb_spec (o + k) (o + 1 + j)); lia || reflexivity).
  replace (o + i <? o + 1 + j)%Z with (o + (i - 1) <? o + j)%Z by (destruct (Z.ltb_spec (o + (i - 1)) (o + j)), (Z.ltb_spec (o + i) (o + 1 + j)); lia || reflexivity).
  rewrite (B k i (fun k i => sqrt (IZR (j - i)) * sqrt (IZR (j - k)) * src k i * c)) by (intros H; rewrite Ho by exact H; ring).
  rewrite (B k (i - 1)%Z (fun k i => - sqrt (IZR (i + 1)) * sqrt (IZR (j - k)) * src k i * d)) by (intros H; rewrite Ho by exact H; ring).
  rewrite (B (k - 1)%Z i (fun k i => sqrt (IZR (j - i)) * sqrt (IZR (k + 1)) * src k i * d)) by (intros H; rewrite Ho by exact H; ring).
  rewrite (B (k - 1)%Z (i - 1)%Z (fun k i => sqrt (IZR (i + 1)) * sqrt (IZR (k + 1)) * src k i * c)) by (intros H; rewrite Ho by exact H; ring).
  unfold risbo_sum. replace (k - 1 + 1)%Z with k by ring. replace (i - 1 + 1)%Z with i by ring. ring.
Qed.
Lemma risbo_sum_scal j c d D a k i : risbo_sum j c d (fun k i => a * D k i) k i = a * risbo_sum j c d D k i.
Proof. unfold risbo_sum. ring. Qed.
Lemma risbo_sum_ext j c d D D' k i : (forall k i, D k i = D' k i) -> risbo_sum j c d D k i = risbo_sum j c d D' k i.
Proof. intros H. unfold risbo_sum. now rewrite !H. Qed.

(** the matrices of the code, read from the corner of their band *)
Definition wigner_d (L : nat) (beta : R) (el : nat) (k i : Z) : R :=
  dl_iter (Z.of_nat L) beta el (Z.of_nat L - 1 - Z.of_nat el + k)%Z (Z.of_nat L - 1 - Z.of_nat el + i)%Z.
Lemma half_trig b : cos b = cos (b / 2) ^ 2 - sin (b / 2) ^ 2 /\ sin b = 2 * sin (b / 2) * cos (b / 2).
Proof. split; [replace b with (2 * (b / 2)) at 1 by field; rewrite cos_2a; ring|replace b with (2 * (b / 2)) at 1 by field; rewrite sin_2a; ring]. Qed.
Lemma mset_at M r c v r' c' : mset M r c v r' c' = if ((r' =? r) && (c' =? c))%Z%bool then v else M r' c'.
Proof. reflexivity. Qed.
Ltac zeqbs := repeat match goal with |- context [Z.eqb ?a ?b] =>
  first [replace (Z.eqb a b) with true by (symmetry; apply Z.eqb_eq; lia) | replace (Z.eqb a b) with false by (symmetry; apply Z.eqb_neq; lia)] end.
Lemma wigner_d_1 L beta k i : wigner_d L beta 1 k i =
  if ((0 <=? k) && (k <=? 2) && (0 <=? i) && (i <=? 2))%Z%bool then
    (let co := cos (beta / 2) in let si := sin (beta / 2) in
     match k, i with
     | 0%Z, 0%Z => co ^ 2 | 0%Z, 1%Z => sin beta / sqrt 2 | 0%Z, _ => si ^ 2
     | 1%Z, 0%Z => - sin beta / sqrt 2 | 1%Z, 1%Z => cos beta | 1%Z, _ => sin beta / sqrt 2
     | _, 0%Z => si ^ 2 | _, 1%Z => - sin beta / sqrt 2 | _, _ => co ^ 2
     end) else 0.
Proof.
  unfold wigner_d. cbn [dl_iter]. unfold compute_full. cbn [Z.of_nat Pos.of_succ_nat Pos.succ Z.eqb Pos.eqb]. cbv zeta. rewrite !mset_at.
  set (M := Z.of_nat L). clearbody M.
  destruct (Z.leb_spec 0 k); [|zeqbs; reflexivity].
  destruct (Z.leb_spec k 2); [|zeqbs; reflexivity].
  destruct (Z.leb_spec 0 i); [|zeqbs; rewrite !andb_false_r; reflexivity].
  destruct (Z.leb_spec i 2); [|zeqbs; rewrite !andb_false_r; reflexivity].
  assert (Hk : k = 0%Z \/ k = 1%Z \/ k = 2%Z) by lia. assert (Hi : i = 0%Z \/ i = 1%Z \/ i = 2%Z) by lia.
  destruct Hk as [-> | [-> | ->]]; destruct Hi as [-> | [-> | ->]]; zeqbs; reflexivity.
Qed.
Lemma bz_2 : bz 2 0 = 1 /\ bz 2 1 = sqrt 2 /\ bz 2 2 = 1.
Proof.
  assert (E : forall k r, (0 <= k <= 2)%Z -> C 2 (Z.to_nat k) = r -> bz 2 k = sqrt r) by (intros k r Hk <-; now apply bz_in).
  split; [|split].
  - rewrite (E 0%Z 1) by (try lia; change (Z.to_nat 0) with 0%nat; change (Z.to_nat 1) with 1%nat; change (Z.to_nat 2) with 2%nat; unfold C; cbn [Z.to_nat Pos.to_nat Pos.iter_op Nat.add Nat.sub Init.Nat.add Init.Nat.sub fact Nat.mul Init.Nat.mul INR]; field). apply sqrt_1.
  - apply E; [lia|]. change (Z.to_nat 0) with 0%nat; change (Z.to_nat 1) with 1%nat; change (Z.to_nat 2) with 2%nat; unfold C; cbn [Z.to_nat Pos.to_nat Pos.iter_op Nat.add Nat.sub Init.Nat.add Init.Nat.sub fact Nat.mul Init.Nat.mul INR]. field.
  - rewrite (E 2%Z 1) by (try lia; change (Z.to_nat 0) with 0%nat; change (Z.to_nat 1) with 1%nat; change (Z.to_nat 2) with 2%nat; unfold C; cbn [Z.to_nat Pos.to_nat Pos.iter_op Nat.add Nat.sub Init.Nat.add Init.Nat.sub fact Nat.mul Init.Nat.mul INR]; field). apply sqrt_1.
Qed.
Lemma wigner_d_sym L beta el : sym_power (2 * el) (- cos (beta / 2)) (sin (beta / 2)) (wigner_d L beta el).
Proof.
  induction el as [|el IH].
  - change (2 * 0)%nat with 0%nat. unfold wigner_d. cbn [dl_iter]. unfold compute_full. cbn [Z.of_nat Z.eqb]. split.
    + intros k i H. rewrite mset_at. destruct (Z.eqb_spec (Z.of_nat L - 1 - 0 + k) (0 + Z.of_nat L - 1)), (Z.eqb_spec (Z.of_nat L - 1 - 0 + i) (0 + Z.of_nat L - 1)); cbn [andb]; lia || reflexivity.
    + intros i Hi s t. replace i with 0%Z by lia. unfold hsum. cbn [bigsum]. rewrite mset_at. zeqbs. cbn [andb].
      rewrite !bz_in by lia. cbn [Z.to_nat Nat.sub pow Z.of_nat]. ring.
  - destruct el as [|el].
    + change (2 * 1)%nat with 2%nat. destruct bz_2 as (B0 & B1 & B2). assert (Hq : sqrt 2 * sqrt 2 = 2) by (apply sqrt_sqrt; lra).
      assert (Hn : sqrt 2 <> 0) by (apply Rgt_not_eq, sqrt_lt_R0; lra).
      destruct (half_trig beta) as [Hc Hs]. split.
      * intros k i H. rewrite wigner_d_1. destruct (Z.leb_spec 0 k), (Z.leb_spec k 2), (Z.leb_spec 0 i), (Z.leb_spec i 2); try reflexivity. exfalso. apply H. lia.
      * intros i Hi s t. unfold hsum. cbn [bigsum Nat.sub]. rewrite !wigner_d_1. cbv zeta. set (co := cos (beta / 2)) in *. set (si := sin (beta / 2)) in *.
        change (Z.of_nat 0) with 0%Z. change (Z.of_nat 1) with 1%Z. change (Z.of_nat 2) with 2%Z in *. rewrite B0, B1, B2.
        assert (E : sin beta / sqrt 2 * sqrt 2 = 2 * si * co) by (rewrite Hs; field; exact Hn).
        assert (E' : sin beta / sqrt 2 = sqrt 2 * si * co) by (rewrite Hs; rewrite <- Hq at 1; field; exact Hn).
        assert (E'' : - sin beta / sqrt 2 = - (sqrt 2 * si * co)) by (rewrite <- E'; unfold Rdiv; ring).
        assert (Hi' : i = 0%Z \/ i = 1%Z \/ i = 2%Z) by lia.
        destruct Hi' as [-> | [-> | ->]]; change (Z.to_nat 0) with 0%nat; change (Z.to_nat 1) with 1%nat; change (Z.to_nat 2) with 2%nat; cbn [Z.leb Z.compare Pos.compare Pos.compare_cont andb Z.to_nat Pos.to_nat Pos.iter_op Nat.add Nat.sub pow]; rewrite ?B0, ?B1, ?B2, ?E'', ?E', ?Hc.
        -- transitivity (co ^ 2 * s ^ 2 - (sqrt 2 * sqrt 2) * si * co * s * t + si ^ 2 * t ^ 2); [ring|]. rewrite Hq. ring.
        -- ring.
        -- transitivity (si ^ 2 * s ^ 2 + (sqrt 2 * sqrt 2) * si * co * s * t + co ^ 2 * t ^ 2); [ring|]. rewrite Hq. ring.
    + set (n := S el) in *. set (c := - cos (beta / 2)) in *. set (d := sin (beta / 2)) in *.
      replace (2 * S n)%nat with (S (S (2 * n))) by lia.
      apply (sym_power_ext _ _ _ (fun k i => risbo_sum (Z.of_nat (S (S (2 * n)))) c d (fun k i => risbo_sum (Z.of_nat (S (2 * n))) c d (wigner_d L beta n) k i / INR (S (2 * n))) k i / INR (S (S (2 * n))))).
      2:{ apply sym_power_step, sym_power_step, IH. }
      destruct IH as [Ho _]. intros k i. unfold wigner_d at 2. cbn [dl_iter].
      change (match n with O => fun _ _ : Z => 0 | S k0 => dl_iter (Z.of_nat L) beta k0 end) with (dl_iter (Z.of_nat L) beta n).
      unfold compute_full. destruct (Z.eqb_spec (Z.of_nat (S n)) 0); [lia|]. destruct (Z.eqb_spec (Z.of_nat (S n)) 1); [unfold n in *; lia|]. cbv zeta. fold c d.
      assert (Hdd : forall k i, risbo_step (fun _ _ => 0) 0 (fun k0 i0 => dl_iter (Z.of_nat L) beta n (k0 - (Z.of_nat (S n) - 1) + Z.of_nat L - 1)%Z (i0 - (Z.of_nat (S n) - 1) + Z.of_nat L - 1)%Z)
          (2 * Z.of_nat (S n) - 1) c d k i = risbo_sum (Z.of_nat (S (2 * n))) c d (wigner_d L beta n) k i).
      { intros k' i'. assert (Es : forall k0 i0, dl_iter (Z.of_nat L) beta n (k0 - (Z.of_nat (S n) - 1) + Z.of_nat L - 1)%Z (i0 - (Z.of_nat (S n) - 1) + Z.of_nat L - 1)%Z = wigner_d L beta n k0 i0).
        { intros k0 i0. unfold wigner_d. f_equal; lia. }
        change k' with (0 + k')%Z at 1. change i' with (0 + i')%Z at 1.
        rewrite risbo_step_ok by (intros k0 i0 H; rewrite Es; apply Ho; lia). rewrite Rplus_0_l.
        replace (2 * Z.of_nat (S n) - 1)%Z with (Z.of_nat (S (2 * n))) by lia. now apply risbo_sum_ext. }
      replace (- Z.of_nat (S n) + Z.of_nat L - 1)%Z with (Z.of_nat L - 1 - Z.of_nat (S n))%Z by ring.
      rewrite risbo_step_ok.
      2:{ intros k0 i0 H. rewrite Hdd. unfold risbo_sum. rewrite !Ho by lia. ring. }
      rewrite (risbo_sum_ext _ _ _ _ _ _ _ Hdd). unfold mmul.
      match goal with |- _ = ((if ?b then ?u else ?v) + _) / _ => assert (Z0 : (if b then u else v) = 0) end.
      { match goal with |- (if ?b then _ else _) = _ => destruct b eqn:Eb end; [ring|].
          replace (Z.of_nat L - 1 - Z.of_nat (S n) + k)%Z with (Z.of_nat L - 1 - Z.of_nat n + (k - 1))%Z by lia.
          replace (Z.of_nat L - 1 - Z.of_nat (S n) + i)%Z with (Z.of_nat L - 1 - Z.of_nat n + (i - 1))%Z by lia. apply Ho. intros [Hk Hi].
          revert Eb. repeat match goal with |- context [Z.leb ?a ?b] => destruct (Z.leb_spec a b); [|lia] | |- context [Z.ltb ?a ?b] => destruct (Z.ltb_spec a b); [|lia] end. discriminate. }
      rewrite Z0. clear Z0.
      replace (2 * Z.of_nat (S n))%Z with (Z.of_nat (S (S (2 * n)))) by lia.
      replace (Z.of_nat (S (S (2 * n))) * (Z.of_nat (S (S (2 * n))) - 1))%Z with (Z.of_nat (S (S (2 * n))) * Z.of_nat (S (2 * n)))%Z by lia.
      rewrite mult_IZR, <- !INR_IZR_INZ, Rplus_0_l.
      rewrite (risbo_sum_ext _ _ _ _ (fun k i => / INR (S (2 * n)) * risbo_sum (Z.of_nat (S (2 * n))) c d (wigner_d L beta n) k i)) by (intros; unfold Rdiv; ring).
      rewrite risbo_sum_scal.
      assert (INR (S (2 * n)) <> 0) by (apply not_0_INR; lia). assert (INR (S (S (2 * n))) <> 0) by (apply not_0_INR; lia).
      field. split; assumption.
Qed.
