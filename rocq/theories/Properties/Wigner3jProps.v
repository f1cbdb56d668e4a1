(** Properties of starry/core/wigner3j.py. *)
From Coq Require Import Reals Lra Lia ZArith List Bool Psatz.
From Verif Require Import Base.RealAux Model.Wigner3j Spec.Wigner3jSpec Proof.Wigner3jMain Proof.RacahNorm Proof.RacahMain Proof.RacahCyclic.
Import ListNotations.
Open Scope R_scope.

(** C63: outside of the selection rules the symbol is 0. *)
Theorem C63_selection_rules j1 j2 j3 m1 m2 m3 :
  ~ (m1 + m2 + m3 = 0 /\ Z.abs m1 <= j1 /\ Z.abs m2 <= j2 /\ Z.abs m3 <= j3 /\ j1 <= j2 + j3 /\ j2 <= j1 + j3 /\ j3 <= j1 + j2)%Z ->
  Wigner3j j1 j2 j3 m1 m2 m3 = Ok 0.
Proof. exact (Wigner3j_selection j1 j2 j3 m1 m2 m3). Qed.
Print Assumptions C63_selection_rules.
(** The family for given j2, j3, m2, m3: no exception, 0 at the forbidden j, sum of (2j+1) f(j)^2 = 1, and the
    sign of the last one is (-1)^(j2-j3+m2+m3). *)
Theorem C63_normalised j2 j3 m2 m3 : allowed_m j2 j3 m2 m3 ->
  exists f, w3j_calculate j2 j3 m2 m3 = Ok f /\ vanishes_outside j2 j3 m2 m3 f /\ total_weight j2 j3 f = 1 /\
            0 < parity_sign (j2 - j3 + m2 + m3) * f (j2 + j3)%Z.
Proof. intros [H1 H2]. exact (calculate_normalised j2 j3 m2 m3 H1 H2). Qed.
Print Assumptions C63_normalised.
(** Racah's formula is a normalised solution of the recurrence that defines the 3j symbols, and the only one. *)
Theorem C63_definition j2 j3 m2 m3 : allowed_m j2 j3 m2 m3 ->
  is_3j j2 j3 m2 m3 (racah_3j j2 j3 m2 m3) /\ forall g, is_3j j2 j3 m2 m3 g -> forall j, g j = racah_3j j2 j3 m2 m3 j.
Proof. intros [H1 H2]. split; [exact (racah_is_3j j2 j3 m2 m3 H1 H2)|intros g Hg; exact (racah_unique j2 j3 m2 m3 g H1 H2 Hg)]. Qed.
Print Assumptions C63_definition.
(** The family the calculator returns is that solution. *)
Theorem C63_solves_recurrence j2 j3 m2 m3 g : allowed_m j2 j3 m2 m3 -> is_3j j2 j3 m2 m3 g ->
  exists f, w3j_calculate j2 j3 m2 m3 = Ok f /\ forall j, f j = g j.
Proof.
  intros [H1 H2] Hg. destruct (calculate_racah j2 j3 m2 m3 H1 H2) as (f & E & F). exists f. split; [exact E|].
  intros j. rewrite F. symmetry. exact (racah_unique j2 j3 m2 m3 g H1 H2 Hg j).
Qed.
Print Assumptions C63_solves_recurrence.
Theorem C63_family j2 j3 m2 m3 : allowed_m j2 j3 m2 m3 ->
  exists f, w3j_calculate j2 j3 m2 m3 = Ok f /\ forall j, f j = racah_3j j2 j3 m2 m3 j.
Proof. intros [H1 H2]. exact (calculate_racah j2 j3 m2 m3 H1 H2). Qed.
Print Assumptions C63_family.
(** The single symbol, for all arguments in any order: Racah's formula within the selection rules, 0 outside. *)
Theorem C63_symbol j1 j2 j3 m1 m2 m3 :
  Wigner3j j1 j2 j3 m1 m2 m3 =
  Ok (if ((m1 + m2 + m3 =? 0) && (Z.abs m1 <=? j1) && (Z.abs m2 <=? j2) && (Z.abs m3 <=? j3))%Z%bool then racah_3j j2 j3 m2 m3 j1 else 0).
Proof. exact (Wigner3j_total j1 j2 j3 m1 m2 m3). Qed.
Print Assumptions C63_symbol.
(** The Clebsch-Gordan coefficients of given j1, j2: orthonormal over the total angular momentum j3. *)
Theorem C63_clebsch_gordan j1 m1 j2 m2 m1' m2' :
  (Z.abs m1 <= j1)%Z -> (Z.abs m2 <= j2)%Z -> (Z.abs m1' <= j1)%Z -> (Z.abs m2' <= j2)%Z -> (m1 + m2 = m1' + m2')%Z ->
  exists c c', (forall j3, clebsch_gordan j1 m1 j2 m2 j3 (m1 + m2) = Ok (c j3)) /\ (forall j3, clebsch_gordan j1 m1' j2 m2' j3 (m1' + m2') = Ok (c' j3)) /\
  bigsum (Z.to_nat (j1 + j2 + 1)) (fun j3 => c (Z.of_nat j3) * c' (Z.of_nat j3)) = if (m1 =? m1')%Z then 1 else 0.
Proof. exact (cg_orthonormal j1 m1 j2 m2 m1' m2'). Qed.
Print Assumptions C63_clebsch_gordan.
Theorem C63_invalid_m j2 j3 m2 m3 : (j2 < Z.abs m2)%Z \/ (j3 < Z.abs m3)%Z -> w3j_calculate j2 j3 m2 m3 = Ok (fun _ => 0).
Proof.
  intros H. unfold w3j_calculate. replace ((Z.abs m2 >? j2) || (Z.abs m3 >? j3))%Z with true; [reflexivity|].
  symmetry. apply orb_true_iff. rewrite !Z.gtb_lt. exact H.
Qed.
Print Assumptions C63_invalid_m.
(** The single symbol is read off the family with the largest j in front. *)
Theorem C63_symbol_of_family j1 j2 j3 m1 m2 m3 : allowed_3j j1 j2 j3 m1 m2 m3 -> (j2 <= j1)%Z -> (j3 <= j1)%Z ->
  exists f, w3j_calculate j2 j3 m2 m3 = Ok f /\ Wigner3j j1 j2 j3 m1 m2 m3 = Ok (f j1).
Proof.
  intros A H1 H2. destruct A as (A1 & A2 & A3 & A4 & A5). destruct (calculate_normalised j2 j3 m2 m3 A3 A4) as (f & E & _).
  exists f. split; [exact E|]. rewrite Wigner3j_value by (try assumption; repeat split; tauto). rewrite E. reflexivity.
Qed.
Print Assumptions C63_symbol_of_family.
Theorem C63_cyclic j1 j2 j3 m1 m2 m3 : (j2 < j1)%Z -> (j3 < j1)%Z ->
  Wigner3j j2 j3 j1 m2 m3 m1 = Wigner3j j1 j2 j3 m1 m2 m3 /\ Wigner3j j3 j1 j2 m3 m1 m2 = Wigner3j j1 j2 j3 m1 m2 m3.
Proof. exact (Wigner3j_cyclic j1 j2 j3 m1 m2 m3). Qed.
Print Assumptions C63_cyclic.
(** hypotheses met: the symbols (j 0; 1 1; 1 -1) are 1/sqrt 3, 1/sqrt 6, 1/sqrt 30 *)
Example C63_sat : let g := fun j : Z => if (j =? 0)%Z then / sqrt 3 else if (j =? 1)%Z then / sqrt 6 else if (j =? 2)%Z then / sqrt 30 else 0 in
  allowed_m 1 1 1 (-1) /\ is_3j 1 1 1 (-1) g.
Proof.
  intros g. assert (S3 : 0 < sqrt 3) by (apply sqrt_lt_R0; lra). assert (S6 : 0 < sqrt 6) by (apply sqrt_lt_R0; lra). assert (S30 : 0 < sqrt 30) by (apply sqrt_lt_R0; lra).
  assert (Q3 := sqrt_sqrt 3 ltac:(lra)). assert (Q6 := sqrt_sqrt 6 ltac:(lra)). assert (Q30 := sqrt_sqrt 30 ltac:(lra)).
  split; [split; cbn; lia|]. split; [split; [|split]|].
  - intros j Hj. unfold allowed_j in Hj. assert (H : (j < 0 \/ 2 < j)%Z) by lia. unfold g.
    destruct (Z.eqb_spec j 0), (Z.eqb_spec j 1), (Z.eqb_spec j 2); try reflexivity; lia.
  - unfold total_weight. change (Z.to_nat (1 + 1 + 1)) with 3%nat. cbn -[sqrt pow].
    replace ((/ sqrt 3) ^ 2) with (/ 3) by (rewrite <- Q3 at 1; field; lra). replace ((/ sqrt 6) ^ 2) with (/ 6) by (rewrite <- Q6 at 1; field; lra).
    replace ((/ sqrt 30) ^ 2) with (/ 30) by (rewrite <- Q30 at 1; field; lra). lra.
  - cbn. rewrite Rmult_1_l. apply Rinv_0_lt_compat, S30.
  - intros j Hj. unfold allowed_j in Hj. cbn in Hj. assert (H : (j = 0 \/ j = 1 \/ j = 2)%Z) by lia. unfold sgA, sgB.
    destruct H as [->|[->| ->]]; cbn -[sqrt pow].
    + replace ((0 ^ 2 - (1 - 1) ^ 2) * ((1 + 1 + 1) ^ 2 - 0 ^ 2) * (0 ^ 2 - 0 ^ 2)) with 0 by ring. rewrite sqrt_0. ring.
    + replace (((1 + 1) ^ 2 - (1 - 1) ^ 2) * ((1 + 1 + 1) ^ 2 - (1 + 1) ^ 2) * ((1 + 1) ^ 2 - 0 ^ 2)) with (30 * (8 / 3)) by field.
      replace ((1 ^ 2 - (1 - 1) ^ 2) * ((1 + 1 + 1) ^ 2 - 1 ^ 2) * (1 ^ 2 - 0 ^ 2)) with (3 * (8 / 3)) by field.
      rewrite !sqrt_mult by lra. assert (E : sqrt (8 / 3) = 4 / sqrt 6).
      { apply sqrt_lem_1; [lra|apply Rlt_le, Rdiv_lt_0_compat; lra|]. transitivity (16 / (sqrt 6 * sqrt 6)); [field; lra|]. rewrite Q6. lra. }
      rewrite E. field. split; lra.
    + replace (((2 + 1) ^ 2 - (1 - 1) ^ 2) * ((1 + 1 + 1) ^ 2 - (2 + 1) ^ 2) * ((2 + 1) ^ 2 - 0 ^ 2)) with 0 by ring. rewrite sqrt_0.
      replace ((2 ^ 2 - (1 - 1) ^ 2) * ((1 + 1 + 1) ^ 2 - 2 ^ 2) * (2 ^ 2 - 0 ^ 2)) with (6 * (40 / 3)) by field.
      rewrite !sqrt_mult by lra. assert (E : sqrt (40 / 3) = 20 / sqrt 30).
      { apply sqrt_lem_1; [lra|apply Rlt_le, Rdiv_lt_0_compat; lra|]. transitivity (400 / (sqrt 30 * sqrt 30)); [field; lra|]. rewrite Q30. lra. }
      rewrite E. field. split; lra.
Qed.
(** two different pairs of projections with the same sum *)
Example C63_cg_sat : (Z.abs 1 <= 2)%Z /\ (Z.abs 0 <= 1)%Z /\ (Z.abs 0 <= 2)%Z /\ (Z.abs 1 <= 1)%Z /\ (1 + 0 = 0 + 1)%Z.
Proof. repeat split; cbn; lia. Qed.
(** a symbol whose largest j is not in front *)
Example C63_symbol_example : exists v, Wigner3j 1 2 1 0 0 0 = Ok v /\ v ^ 2 = 2 / 15 /\ 0 < v.
Proof.
  eexists. split; [apply C63_symbol|]. replace ((0 + 0 + 0 =? 0) && (Z.abs 0 <=? 1) && (Z.abs 0 <=? 2) && (Z.abs 0 <=? 1))%Z%bool with true by reflexivity.
  unfold racah_3j. replace ((Z.abs (2 - 1) <=? 1) && (1 <=? 2 + 1) && (Z.abs (0 + 0) <=? 1))%Z%bool with true by reflexivity.
  replace (parity_sign (2 - 1 + 0 + 0)) with (-1) by reflexivity.
  assert (F0 : zfact 0 = 1) by reflexivity. assert (F1 : zfact 1 = 1) by reflexivity.
  assert (F2 : zfact 2 = 2) by (unfold zfact; rewrite INR_IZR_INZ; reflexivity). assert (F5 : zfact 5 = 120) by (unfold zfact; rewrite INR_IZR_INZ; reflexivity).
  assert (W : racah_weight 1 2 1 0 0 = 2 / 15). { unfold racah_weight. cbn [Z.add Z.sub Z.opp Pos.add Pos.succ Z.pos_sub Pos.sub Pos.pred_double]. change (2 + 1 - 1)%Z with 2%Z. rewrite ?F0, ?F1, ?F2, ?F5. lra. }
  assert (S : racah_sum 1 2 1 0 0 = -1).
  { unfold racah_sum. change (Z.to_nat (2 * 2 + 1)) with 5%nat. cbn [bigsum Z.of_nat Pos.of_succ_nat Pos.succ]. unfold racah_term, inv_fact, parity_sign.
    cbn [Z.add Z.sub Z.opp Pos.add Pos.succ Z.pos_sub Pos.sub Pos.pred_double Z.ltb Z.compare Pos.compare Pos.compare_cont Z.even]. rewrite ?F0, ?F1, ?F2, ?Rmult_0_r, ?Rmult_0_l, ?Rinv_1. ring. }
  rewrite W, S. pose proof (sqrt_sqrt (2 / 15) ltac:(lra)) as Q. pose proof (sqrt_lt_R0 (2 / 15) ltac:(lra)). split; [|lra].
  transitivity (sqrt (2 / 15) * sqrt (2 / 15)); [ring|exact Q].
Qed.
