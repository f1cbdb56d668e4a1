(** Normalisation and sign of the result, and the main statements. *)
From Coq Require Import Reals Lra Lia ZArith List Bool Psatz.
From Verif Require Import Base.RealAux Model.Poly Model.Wigner3j Spec.Wigner3jSpec Proof.PolyMatrix Proof.Euler Proof.Wigner3jProof.
Import ListNotations.
Open Scope R_scope.

Lemma Rsum_seq (h : nat -> R) n a : Rsum (map h (seq a n)) = bigsum n (fun k => h (a + k)%nat).
Proof.
  revert a. induction n as [|n IH]; intros a; [reflexivity|].
  rewrite seq_S, map_app. unfold Rsum in *. rewrite fold_right_app. cbn [map fold_right bigsum].
  rewrite <- IH, Rplus_0_r. clear. induction (map h (seq a n)) as [|x l IH]; cbn; [lra|]. rewrite IH. lra.
Qed.
Lemma bigsum_tail (h : nat -> R) a n : (forall k, (k < a)%nat -> h k = 0) -> bigsum (a + n) h = bigsum n (fun k => h (a + k)%nat).
Proof.
  intros H. induction n as [|n IH].
  - rewrite Nat.add_0_r. cbn [bigsum]. induction a as [|a IH]; [reflexivity|]. cbn [bigsum]. rewrite IH, H by (intros; try apply H; lia). lra.
  - rewrite Nat.add_succ_r. cbn [bigsum]. rewrite IH. reflexivity.
Qed.
Section Fin.
Variables j2 j3 m2 m3 : Z.
Notation jmin := (w_jmin j2 j3 m2 m3).
Notation jmax := (w_jmax j2 j3).
Hypothesis Hm2 : (Z.abs m2 <= j2)%Z.
Hypothesis Hm3 : (Z.abs m3 <= j3)%Z.
Lemma allowed_iff j : allowed_j j2 j3 m2 m3 j <-> (jmin <= j <= jmax)%Z.
Proof using. clear. unfold allowed_j, w_jmin, w_jmax. lia. Qed.
Lemma jmin_le : (jmin <= jmax)%Z. Proof using Hm2 Hm3. unfold w_jmin, w_jmax. lia. Qed.
Lemma w_norm_total f : vanishes_outside j2 j3 m2 m3 f -> w_norm f jmin jmax = total_weight j2 j3 f.
Proof using Hm2 Hm3.
  intros H. unfold w_norm, total_weight, zrange. pose proof jmin_le as J. assert (J0 : (0 <= jmin)%Z) by (unfold w_jmin; lia).
  rewrite map_map, Rsum_seq. replace (Z.to_nat (j2 + j3 + 1)) with (Z.to_nat jmin + Z.to_nat (jmax + 1 - jmin))%nat by (unfold w_jmax in *; lia).
  rewrite bigsum_tail.
  - apply bigsum_ext. intros k Hk. replace (jmin + Z.of_nat (0 + k))%Z with (Z.of_nat (Z.to_nat jmin + k)) by lia.
    rewrite plus_IZR, mult_IZR, <- INR_IZR_INZ. reflexivity.
  - intros k Hk. rewrite (H (Z.of_nat k)); [ring|]. rewrite allowed_iff. lia.
Qed.
Lemma total_scal c f : total_weight j2 j3 (fun j => c * f j) = c ^ 2 * total_weight j2 j3 f.
Proof using. clear. unfold total_weight. rewrite <- bigsum_scal. apply bigsum_ext. intros k _. ring. Qed.
Lemma total_ext f h : (forall j, f j = h j) -> total_weight j2 j3 f = total_weight j2 j3 h.
Proof using. clear. intros H. unfold total_weight. apply bigsum_ext. intros k _. rewrite H. reflexivity. Qed.
Lemma total_pos f : f jmax <> 0 -> 0 < total_weight j2 j3 f.
Proof using Hm2 Hm3.
  intros H. unfold total_weight. replace (Z.to_nat (j2 + j3 + 1)) with (S (Z.to_nat (j2 + j3))) by lia. cbn [bigsum].
  apply Rplus_le_lt_0_compat.
  - apply bigsum_nonneg. intros k _. apply Rmult_le_pos; [pose proof (pos_INR k); lra|apply pow2_ge_0].
  - replace (Z.of_nat (Z.to_nat (j2 + j3))) with jmax by (unfold w_jmax; lia).
    apply Rmult_lt_0_compat; [pose proof (pos_INR (Z.to_nat (j2 + j3))); lra|]. assert (0 < f jmax ^ 2) by (rewrite <- Rsqr_pow2; apply Rsqr_pos_lt, H); assumption.
Qed.
Lemma parity_even n : parity_sign n = if even_pow n then 1 else -1. Proof. reflexivity. Qed.
Lemma finish_shape f : f jmax <> 0 -> vanishes_outside j2 j3 m2 m3 f ->
  exists c, c <> 0 /\ (forall j, w_finish f jmin jmax j2 j3 m2 m3 j = c * f j) /\ c ^ 2 * total_weight j2 j3 f = 1 /\
            0 < parity_sign (j2 - j3 + m2 + m3) * (c * f jmax).
Proof using Hm2 Hm3.
  intros H H0. pose proof jmin_le as J. set (N := total_weight j2 j3 f).
  assert (HN : 0 < N) by (apply total_pos, H). assert (HS : 0 < / sqrt N) by (apply Rinv_0_lt_compat, sqrt_lt_R0, HN).
  assert (S2 : (/ sqrt N) ^ 2 * N = 1).
  { rewrite <- (sqrt_sqrt N) at 2 by lra. field. apply Rgt_not_eq, sqrt_lt_R0, HN. }
  assert (E1 : forall j, w_normalize f jmin jmax j = / sqrt N * f j).
  { intros j. unfold w_normalize. rewrite w_norm_total by exact H0. fold N.
    unfold ascale. destruct (in_range jmin jmax j) eqn:E; [ring|]. rewrite (H0 j); [ring|]. rewrite allowed_iff. intros C. apply in_range_iff in C. congruence. }
  unfold w_finish, w_signs. rewrite E1, parity_even. set (pos := even_pow _).
  assert (FX : 0 < / sqrt N * f jmax \/ / sqrt N * f jmax < 0).
  { assert (f jmax < 0 \/ 0 < f jmax) by lra. destruct H1; [right|left; apply Rmult_lt_0_compat; assumption].
    rewrite <- (Ropp_involutive (f jmax)), Ropp_mult_distr_r_reverse. apply Ropp_lt_gt_0_contravar, Rmult_lt_0_compat; lra. }
  assert (Eneg : forall j, ascale (w_normalize f jmin jmax) jmin jmax (-1) j = - / sqrt N * f j).
  { intros j. unfold ascale. rewrite E1. destruct (in_range jmin jmax j) eqn:E; [ring|]. rewrite (H0 j); [ring|]. rewrite allowed_iff. intros C. apply in_range_iff in C. congruence. }
  destruct (Rltb (/ sqrt N * f jmax) 0 && pos || Rgtb (/ sqrt N * f jmax) 0 && negb pos)%bool eqn:C.
  - exists (- / sqrt N). split; [lra|]. split; [exact Eneg|]. split; [rewrite <- S2; ring|].
    apply orb_true_iff in C. destruct C as [C|C]; apply andb_true_iff in C; destruct C as [C1 C2].
    + rewrite C2. apply Rltb_true in C1. lra.
    + apply negb_true_iff in C2. rewrite C2. apply Rgtb_true' in C1. lra.
  - exists (/ sqrt N). split; [lra|]. split; [exact E1|]. split; [exact S2|].
    apply orb_false_iff in C. destruct C as [C1 C2]. destruct pos; cbn [negb] in *.
    + rewrite andb_true_r in C1. unfold Rltb in C1. destruct (Rlt_dec _ 0); [discriminate|]. lra.
    + rewrite andb_true_r in C2. apply Rgtb_false in C2. lra.
Qed.
Lemma finish_normalised f : f jmax <> 0 -> vanishes_outside j2 j3 m2 m3 f ->
  normalised_3j j2 j3 m2 m3 (w_finish f jmin jmax j2 j3 m2 m3).
Proof using Hm2 Hm3.
  intros H H0. destruct (finish_shape f H H0) as (c & C0 & C1 & C2 & C3). split; [|split].
  - intros j Hj. rewrite C1, (H0 j Hj). ring.
  - rewrite (total_ext _ _ C1), total_scal. exact C2.
  - rewrite C1. exact C3.
Qed.
Lemma single_term : jmax = jmin -> exists f, w3j_calculate j2 j3 m2 m3 = Ok f /\ normalised_3j j2 j3 m2 m3 f /\
  (forall j, f j = if (j =? jmin)%Z then parity_sign (j2 - j3 + m2 + m3) / sqrt (2 * IZR jmin + 1) else 0).
Proof using Hm2 Hm3.
  intros E. assert (J0 : (0 <= jmin)%Z) by (unfold w_jmin; lia). unfold w3j_calculate.
  replace ((Z.abs m2 >? j2) || (Z.abs m3 >? j3))%Z with false by (symmetry; apply orb_false_iff; split; rewrite Z.gtb_ltb; apply Z.ltb_ge; lia).
  destruct (Z.ltb_spec jmax jmin); [lia|]. rewrite (proj2 (Z.eqb_eq jmax jmin) E).
  assert (P : 0 < 2 * IZR jmin + 1) by (apply IZR_le in J0; lra).
  assert (V : 0 < 1 / sqrt (2 * IZR jmin + 1)) by (apply Rdiv_lt_0_compat; [lra|apply sqrt_lt_R0, P]).
  assert (V2 : (1 / sqrt (2 * IZR jmin + 1)) ^ 2 * (2 * IZR jmin + 1) = 1).
  { rewrite <- (sqrt_sqrt (2 * IZR jmin + 1)) at 2 by lra. field. apply Rgt_not_eq, sqrt_lt_R0, P. }
  assert (VD : forall s, s / sqrt (2 * IZR jmin + 1) = s * (1 / sqrt (2 * IZR jmin + 1))) by (intros; unfold Rdiv; ring).
  set (v := 1 / sqrt (2 * IZR jmin + 1)) in *.
  replace (if (Rltb v 0 && even_pow (j2 - j3 + m2 + m3) || Rgtb v 0 && negb (even_pow (j2 - j3 + m2 + m3)))%bool then v * -1 else v)
    with (parity_sign (j2 - j3 + m2 + m3) * v).
  2:{ rewrite parity_even. replace (Rltb v 0) with false by (unfold Rltb; destruct (Rlt_dec v 0); [lra|reflexivity]).
      rewrite (proj2 (Rgtb_true' v 0) V). destruct (even_pow _); cbn [negb andb orb]; ring. }
  set (s := parity_sign (j2 - j3 + m2 + m3)). assert (Hs : s * s = 1) by (unfold s, parity_sign; destruct (Z.even _); lra).
  eexists. split; [reflexivity|]. assert (F : forall j, aset zarr jmin (s * v) j = if (j =? jmin)%Z then s / sqrt (2 * IZR jmin + 1) else 0).
  { intros j. unfold aset. rewrite VD. destruct (Z.eqb j jmin); reflexivity. }
  split; [|exact F]. split; [|split].
  - intros j Hj. rewrite F. destruct (Z.eqb_spec j jmin); [|reflexivity]. exfalso. apply Hj. rewrite allowed_iff. lia.
  - rewrite <- w_norm_total.
    + unfold w_norm. rewrite E. rewrite zrange_cons by lia. rewrite zrange_nil by lia. cbn [map Rsum fold_right].
      unfold Rsum; cbn [fold_right]. rewrite F, Z.eqb_refl, VD, plus_IZR, mult_IZR.
      transitivity (s * s * (v ^ 2 * (2 * IZR jmin + 1))); [ring|]. rewrite Hs, V2. ring.
    + intros j Hj. rewrite F. destruct (Z.eqb_spec j jmin); [|reflexivity]. exfalso. apply Hj. rewrite allowed_iff. lia.
  - change (j2 + j3)%Z with jmax. rewrite F, E, Z.eqb_refl, VD. rewrite <- Rmult_assoc. fold s. rewrite Hs. lra.
Qed.
Theorem calculate_normalised : exists f, w3j_calculate j2 j3 m2 m3 = Ok f /\ normalised_3j j2 j3 m2 m3 f.
Proof using Hm2 Hm3.
  pose proof jmin_le as J. destruct (Z.eq_dec jmax jmin) as [E|E].
  - destruct (single_term E) as (f & H1 & H2 & _). exists f. auto.
  - destruct (w_calc_shape j2 j3 m2 m3 Hm2 Hm3 ltac:(lia)) as (f & H1 & H2 & H3). eexists. split; [exact H1|].
    apply finish_normalised; [exact H2|]. intros j Hj. apply H3. rewrite <- allowed_iff. exact Hj.
Qed.
Lemma recurrence_w g : schulten_gordon j2 j3 m2 m3 g -> forall j, (jmin <= j <= jmax)%Z ->
  w_Xj j2 j3 m2 m3 j * g (j + 1)%Z + w_Yj j2 j3 m2 m3 j * g j + w_Zj j2 j3 m2 m3 j * g (j - 1)%Z = 0.
Proof using.
  clear. intros H j Hj. rewrite <- allowed_iff in Hj. specialize (H j Hj). rewrite <- H.
  assert (EA : forall i, w_A i j2 j3 (w_m1 m2 m3) = sgA (IZR j2) (IZR j3) (IZR (m2 + m3)) (IZR i)).
  { intros i. unfold w_A, sgA, w_m1. f_equal. rewrite !Z.pow_2_r. repeat rewrite ?mult_IZR, ?minus_IZR, ?plus_IZR, ?opp_IZR. ring. }
  assert (EY : w_Yj j2 j3 m2 m3 j = sgB (IZR j2) (IZR j3) (IZR m2) (IZR m3) (IZR j)).
  { unfold w_Yj, w_Y, sgB. repeat rewrite ?mult_IZR, ?minus_IZR, ?plus_IZR. ring. }
  unfold w_Xj, w_X, w_Zj, w_Z. rewrite EY, !EA, (plus_IZR j 1). ring.
Qed.
Theorem calculate_unique g : is_3j j2 j3 m2 m3 g ->
  (forall c j, (forall i, (jmin <= i <= jmax)%Z -> 0 < c * g i) -> (jmin < j < jmax)%Z -> g (j - 1)%Z = g j -> g j = g (j + 1)%Z -> False) ->
  exists f, w3j_calculate j2 j3 m2 m3 = Ok f /\ forall j, f j = g j.
Proof using Hm2 Hm3.
  intros ((G1 & G2 & G3) & G4) G5. pose proof jmin_le as J. change (j2 + j3)%Z with jmax in G3.
  assert (Gn : g jmax <> 0) by (intros E; rewrite E in G3; lra).
  assert (Pp : forall f c, vanishes_outside j2 j3 m2 m3 f -> total_weight j2 j3 f = 1 -> 0 < parity_sign (j2 - j3 + m2 + m3) * f jmax ->
     (forall j, g j = c * f j) -> forall j, f j = g j).
  { intros f c F1 F2 F3 Hc. assert (C2 : c ^ 2 = 1).
    { rewrite (total_ext _ _ Hc), total_scal, F2 in G2. lra. }
    assert (Cp : 0 < c). { rewrite (Hc jmax) in G3. replace (_ * (c * f jmax)) with (c * (parity_sign (j2 - j3 + m2 + m3) * f jmax)) in G3 by ring.
      set (t := parity_sign _ * f jmax) in *. clearbody t. nra. }
    assert (c = 1) by nra. intros j. rewrite Hc. subst c. ring. }
  destruct (Z.eq_dec jmax jmin) as [E|E].
  - destruct (single_term E) as (f & H1 & (N1 & N2 & N3) & _). exists f. split; [exact H1|].
    change (j2 + j3)%Z with jmax in N3. assert (Fn : f jmax <> 0) by (intros Z; rewrite Z in N3; lra).
    apply (Pp f (g jmax / f jmax) N1 N2 N3). intros j. destruct (Z.eq_dec j jmax) as [->|NE]; [field; exact Fn|].
    rewrite (G1 j), (N1 j) by (rewrite allowed_iff; lia). ring.
  - destruct (w_calc_prop j2 j3 m2 m3 Hm2 Hm3 ltac:(lia) g (recurrence_w g G4) Gn G5) as (f & H1 & [c Hc] & H3).
    eexists. split; [exact H1|].
    assert (Fn : f jmax <> 0) by (intros Z; apply Gn; rewrite Hc, Z by lia; ring).
    assert (F0 : vanishes_outside j2 j3 m2 m3 f) by (intros j Hj; apply H3; rewrite <- allowed_iff; exact Hj).
    destruct (finish_normalised f Fn F0) as (N1 & N2 & N3). destruct (finish_shape f Fn F0) as (d & D0 & D1 & _).
    apply (Pp _ (c / d) N1 N2 N3). intros j. rewrite D1. destruct (Z_le_gt_dec jmin j) as [Hl|Hl]; [destruct (Z_le_gt_dec j jmax) as [Hh|Hh]|].
    + rewrite Hc by lia. field. exact D0.
    + rewrite (G1 j), (F0 j) by (rewrite allowed_iff; lia). ring.
    + rewrite (G1 j), (F0 j) by (rewrite allowed_iff; lia). ring.
Qed.
End Fin.

Lemma Wigner3j_selection j1 j2 j3 m1 m2 m3 : ~ allowed_3j j1 j2 j3 m1 m2 m3 -> Wigner3j j1 j2 j3 m1 m2 m3 = Ok 0.
Proof.
  unfold allowed_3j. intros H. unfold Wigner3j. destruct (Z.eqb_spec (m1 + m2 + m3) 0) as [E|E]; [|reflexivity]. cbn [negb].
  destruct (Z.abs m1 >? j1)%Z eqn:H1; [reflexivity|]. destruct (Z.abs m2 >? j2)%Z eqn:H2; [reflexivity|]. destruct (Z.abs m3 >? j3)%Z eqn:H3; [reflexivity|].
  rewrite Z.gtb_ltb in H1, H2, H3. apply Z.ltb_ge in H1, H2, H3. cbn [orb].
  destruct (Z.eqb_spec j1 (Z.max j1 (Z.max j2 j3))); [|destruct (Z.eqb_spec j2 (Z.max j1 (Z.max j2 j3)))].
  - replace (j1 >? j2 + j3)%Z with true by (rewrite Z.gtb_ltb; symmetry; apply Z.ltb_lt; lia). reflexivity.
  - replace (j2 >? j3 + j1)%Z with true by (rewrite Z.gtb_ltb; symmetry; apply Z.ltb_lt; lia). reflexivity.
  - replace (j3 >? j1 + j2)%Z with true by (rewrite Z.gtb_ltb; symmetry; apply Z.ltb_lt; lia). reflexivity.
Qed.
Lemma Wigner3j_value j1 j2 j3 m1 m2 m3 : allowed_3j j1 j2 j3 m1 m2 m3 -> (j2 <= j1)%Z -> (j3 <= j1)%Z ->
  Wigner3j j1 j2 j3 m1 m2 m3 = rbind (w3j_calculate j2 j3 m2 m3) (fun f => Ok (f j1)).
Proof.
  unfold allowed_3j. intros (E & H1 & H2 & H3 & H4 & _) L1 L2. unfold Wigner3j. rewrite (proj2 (Z.eqb_eq _ _) E). cbn [negb].
  replace ((Z.abs m1 >? j1) || (Z.abs m2 >? j2) || (Z.abs m3 >? j3))%Z with false
    by (symmetry; rewrite !Z.gtb_ltb; apply orb_false_iff; split; [apply orb_false_iff; split|]; apply Z.ltb_ge; lia).
  destruct (Z.eqb_spec j1 (Z.max j1 (Z.max j2 j3))); [|lia].
  replace (j1 >? j2 + j3)%Z with false by (rewrite Z.gtb_ltb; symmetry; apply Z.ltb_ge; lia). reflexivity.
Qed.
Lemma Wigner3j_cyclic j1 j2 j3 m1 m2 m3 : (j2 < j1)%Z -> (j3 < j1)%Z ->
  Wigner3j j2 j3 j1 m2 m3 m1 = Wigner3j j1 j2 j3 m1 m2 m3 /\ Wigner3j j3 j1 j2 m3 m1 m2 = Wigner3j j1 j2 j3 m1 m2 m3.
Proof.
  intros L1 L2. unfold Wigner3j. replace (m2 + m3 + m1)%Z with (m1 + m2 + m3)%Z by lia. replace (m3 + m1 + m2)%Z with (m1 + m2 + m3)%Z by lia.
  destruct (negb _); [split; reflexivity|].
  destruct (Z.abs m1 >? j1)%Z, (Z.abs m2 >? j2)%Z, (Z.abs m3 >? j3)%Z; cbn [orb]; try (split; reflexivity).
  replace (Z.max j2 (Z.max j3 j1)) with j1 by lia. replace (Z.max j3 (Z.max j1 j2)) with j1 by lia. replace (Z.max j1 (Z.max j2 j3)) with j1 by lia.
  rewrite Z.eqb_refl. rewrite (proj2 (Z.eqb_neq j2 j1)), (proj2 (Z.eqb_neq j3 j1)) by lia. split; reflexivity.
Qed.
