(** A family of 3j symbols of constant sign has extreme projections, and is not equal at three consecutive j. *)
From Coq Require Import Reals Lra Lia ZArith List Bool.
From Verif Require Import Base.RealAux Spec.Wigner3jSpec Proof.RacahSum Proof.Racah Proof.RacahNorm.
Open Scope R_scope.

Lemma amp_extreme_pos j2 j3 m2 m3 j : (Z.abs m2 <= j2)%Z -> (Z.abs m3 <= j3)%Z -> (m2 = j2 \/ m3 = - j3)%Z -> allowed_j j2 j3 m2 m3 j -> 0 < amp j2 j3 m2 m3 j.
Proof.
  intros H2 H3 H [Ha Hb]. unfold amp. apply Rmult_lt_0_compat; [apply sqrt_lt_R0, weight_pos|]. rewrite sum_first by lia.
  repeat apply Rmult_lt_0_compat; apply inv_fact_pos; lia.
Qed.
Lemma bigsum_pos_some n (f : nat -> R) k : (forall i, (i < n)%nat -> 0 <= f i) -> (k < n)%nat -> 0 < f k -> 0 < bigsum n f.
Proof.
  induction n as [|n IH]; intros H1 Hk H2; [lia|]. cbn [bigsum].
  assert (P : forall p, (p <= n)%nat -> 0 <= bigsum p f).
  { induction p as [|p IHp]; intros Hp; cbn [bigsum]; [lra|]. specialize (IHp ltac:(lia)). specialize (H1 p ltac:(lia)). lra. }
  destruct (Nat.eq_dec k n) as [->|Hne].
  - specialize (P n ltac:(lia)). lra.
  - specialize (IH (fun i Hi => H1 i ltac:(lia)) ltac:(lia) H2). specialize (H1 n ltac:(lia)). lra.
Qed.
Lemma constant_sign_extreme j2 j3 m2 m3 c : (Z.abs m2 <= j2)%Z -> (Z.abs m3 <= j3)%Z ->
  (forall j, allowed_j j2 j3 m2 m3 j -> 0 < c * amp j2 j3 m2 m3 j) -> (m2 = j2 \/ m3 = - j3)%Z.
Proof.
  intros H2 H3 Hc. set (n2 := Z.min j2 (m2 + m3 + j3)). set (n3 := (m2 + m3 - n2)%Z).
  destruct (Z.eq_dec m2 n2) as [E|E]; [unfold n2 in E; lia|exfalso].
  assert (O : inner j2 j3 (amp j2 j3 m2 m3) (amp j2 j3 n2 n3) = 0) by (apply ortho_any; unfold n3; lia).
  assert (P : 0 < c * inner j2 j3 (amp j2 j3 m2 m3) (amp j2 j3 n2 n3)); [|rewrite O in P; lra].
  assert (Pj : forall j, allowed_j j2 j3 m2 m3 j -> 0 < amp j2 j3 n2 n3 j).
  { intros j Hj. apply amp_extreme_pos; [unfold n2; lia|unfold n3, n2; lia|unfold n3, n2; lia|]. unfold allowed_j in *. unfold n3. lia. }
  unfold inner. rewrite <- bigsum_scal. apply bigsum_pos_some with (k := Z.to_nat (j2 + j3)); [|lia|].
  - intros i Hi. set (j := Z.of_nat i). pose proof (pos_INR i).
    assert (Dec : allowed_j j2 j3 m2 m3 j \/ ~ allowed_j j2 j3 m2 m3 j) by (unfold allowed_j; lia). destruct Dec as [Ha|Hn].
    + specialize (Hc j Ha). specialize (Pj j Ha). replace (c * ((2 * INR i + 1) * (amp j2 j3 m2 m3 j * amp j2 j3 n2 n3 j))) with ((2 * INR i + 1) * ((c * amp j2 j3 m2 m3 j) * amp j2 j3 n2 n3 j)) by ring.
      apply Rlt_le, Rmult_lt_0_compat; [lra|now apply Rmult_lt_0_compat].
    + rewrite amp_zero by (unfold allowed_j in Hn; lia). right. ring.
  - rewrite Z2Nat.id by lia. assert (Ha : allowed_j j2 j3 m2 m3 (j2 + j3)) by (unfold allowed_j; lia). specialize (Hc _ Ha). specialize (Pj _ Ha).
    set (x := amp j2 j3 m2 m3 (j2 + j3)) in *. set (y := amp j2 j3 n2 n3 (j2 + j3)) in *. pose proof (pos_INR (Z.to_nat (j2 + j3))) as P. set (w := INR _) in *.
    replace (c * ((2 * w + 1) * (x * y))) with ((2 * w + 1) * ((c * x) * y)) by ring. apply Rmult_lt_0_compat; [lra|now apply Rmult_lt_0_compat].
Qed.
(** equal neighbours of an extreme family *)
Lemma extreme_equal j2 j3 m2 m3 (e : R) x : (Z.abs m2 <= j2)%Z -> (Z.abs m3 <= j3)%Z -> (m2 = j2 /\ e = 1 \/ m3 = (- j3)%Z /\ e = -1) ->
  allowed_j j2 j3 m2 m3 x -> allowed_j j2 j3 m2 m3 (x - 1) -> amp j2 j3 m2 m3 (x - 1) = amp j2 j3 m2 m3 x ->
  IZR x ^ 2 = IZR (j2 - j3) * IZR (m2 + m3) + (IZR (j2 + j3) + 1) * (e * (IZR (m2 + m3) - IZR (j2 - j3))).
Proof.
  intros H2 H3 H Ha Hb E.
  assert (Sp : forall i, allowed_j j2 j3 m2 m3 i -> 0 < racah_sum i j2 j3 m2 m3).
  { intros i [Hi1 Hi2]. rewrite sum_first by lia. repeat apply Rmult_lt_0_compat; apply inv_fact_pos; lia. }
  pose proof (Sp x Ha) as S1p. pose proof (Sp _ Hb) as S0p. clear Sp. destruct Ha as [Ha1 Ha2]. destruct Hb as [Hb1 Hb2].
  pose proof (W_succ j2 j3 m2 m3 H2 (x - 1) ltac:(lia) ltac:(lia) ltac:(lia)) as EW. replace (x - 1 + 1)%Z with x in EW by ring.
  set (W0 := racah_weight (x - 1) j2 j3 m2 m3) in *. set (W1 := racah_weight x j2 j3 m2 m3) in *.
  pose proof (weight_pos (x - 1) j2 j3 m2 m3) as W0p. pose proof (weight_pos x j2 j3 m2 m3) as W1p. fold W0 in W0p. fold W1 in W1p.
  set (p1 := IZR x + IZR (j2 - j3)). set (p2 := IZR x - IZR (m2 + m3)). set (q1 := IZR x - IZR (j2 - j3)). set (q2 := IZR x + IZR (m2 + m3)).
  assert (P1 : 0 < p1) by (unfold p1; rewrite <- plus_IZR; apply IZR_ps; lia). assert (P2 : 0 < p2) by (unfold p2; rewrite <- minus_IZR; apply IZR_ps; lia).
  assert (Q1 : 0 < q1) by (unfold q1; rewrite <- minus_IZR; apply IZR_ps; lia). assert (Q2 : 0 < q2) by (unfold q2; rewrite <- plus_IZR; apply IZR_ps; lia).
  set (t := IZR (j2 + j3) + 1 - IZR x). set (u := IZR (j2 + j3) + 1 + IZR x).
  assert (Tp : 0 < t) by (unfold t; rewrite <- plus_IZR, <- minus_IZR; apply IZR_ps; lia).
  assert (Up : 0 < u) by (unfold u; rewrite <- !plus_IZR; apply IZR_ps; lia).
  assert (EW' : W1 * (t * u) = W0 * (p1 * p2 * (q1 * q2))).
  { transitivity (W1 * (IZR (j2 + j3 - (x - 1)) * IZR (x - 1 + j2 + j3 + 2))); [unfold t, u; izr; ring|]. rewrite EW. unfold sg_N, p1, p2, q1, q2. izr. ring. }
  set (S0 := racah_sum (x - 1) j2 j3 m2 m3) in *. set (S1 := racah_sum x j2 j3 m2 m3) in *.
  assert (ES : W0 * (S0 * S0) = W1 * (S1 * S1)).
  { unfold amp in E. fold W0 W1 S0 S1 in E. apply (f_equal (fun y => y * y)) in E. cbn beta in E.
    transitivity (sqrt W0 * sqrt W0 * (S0 * S0)); [rewrite sqrt_sqrt by lra; reflexivity|]. transitivity (sqrt W1 * sqrt W1 * (S1 * S1)); [|rewrite sqrt_sqrt by lra; reflexivity].
    transitivity (sqrt W0 * S0 * (sqrt W0 * S0)); [ring|rewrite E; ring]. }
  assert (Fin : forall P P', 0 < P -> P * P' = p1 * p2 * (q1 * q2) -> S1 * P = t * S0 -> u * P = t * P').
  { intros P P' HP EP EP'. apply Rmult_eq_reg_r with (P * W0 * t * (S0 * S0)).
    2:{ assert (0 < P * W0 * t * (S0 * S0)) by (apply Rmult_lt_0_compat; [apply Rmult_lt_0_compat; [apply Rmult_lt_0_compat; assumption|assumption]|apply Rmult_lt_0_compat; assumption]). lra. }
    transitivity (W0 * (S0 * S0) * (t * u) * (P * P)); [ring|]. rewrite ES. transitivity (W1 * (t * u) * (S1 * P) * (S1 * P)); [ring|].
    rewrite EW', EP', <- EP. ring. }
  assert (Xp : 0 < IZR x) by (apply IZR_ps; lia).
  destruct H as [[Hx ->]|[Hx ->]].
  - assert (F : u * (p1 * p2) = t * (q1 * q2)).
    { apply Fin; [now apply Rmult_lt_0_compat|ring|]. unfold S0, S1. rewrite !sum_first by lia.
      rewrite (inv_fact_step (j2 + j3 - (x - 1)) (j2 + j3 - x)), (inv_fact_step (x - j3 + m2) (x - 1 - j3 + m2)), (inv_fact_step (x - j2 - m3) (x - 1 - j2 - m3)) by ring.
      replace (IZR (j2 + j3 - (x - 1))) with t by (unfold t; izr; ring). replace (IZR (x - j3 + m2)) with p1 by (unfold p1; rewrite Hx; izr; ring). replace (IZR (x - j2 - m3)) with p2 by (unfold p2; rewrite Hx; izr; ring). ring. }
    apply Rmult_eq_reg_l with (2 * IZR x); [|lra]. unfold u, t, p1, p2, q1, q2 in F. set (X := IZR x) in *. clear - F. set (D := IZR (j2 - j3)) in *. set (M := IZR (m2 + m3)) in *. set (a := IZR (j2 + j3)) in *. clearbody X D M a. lra.
  - assert (F : u * (q1 * q2) = t * (p1 * p2)).
    { apply Fin; [now apply Rmult_lt_0_compat|ring|]. unfold S0, S1. rewrite !sum_first by lia.
      rewrite (inv_fact_step (j2 + j3 - (x - 1)) (j2 + j3 - x)), (inv_fact_step (x - j3 + m2) (x - 1 - j3 + m2)), (inv_fact_step (x - j2 - m3) (x - 1 - j2 - m3)) by ring.
      replace (IZR (j2 + j3 - (x - 1))) with t by (unfold t; izr; ring). replace (IZR (x - j3 + m2)) with q2 by (unfold q2; rewrite Hx; izr; ring). replace (IZR (x - j2 - m3)) with q1 by (unfold q1; rewrite Hx; izr; ring). ring. }
    apply Rmult_eq_reg_l with (2 * IZR x); [|lra]. unfold u, t, p1, p2, q1, q2 in F. set (X := IZR x) in *. clear - F. set (D := IZR (j2 - j3)) in *. set (M := IZR (m2 + m3)) in *. set (a := IZR (j2 + j3)) in *. clearbody X D M a. lra.
Qed.
Theorem no_constant_sign_plateau j2 j3 m2 m3 c j : (Z.abs m2 <= j2)%Z -> (Z.abs m3 <= j3)%Z ->
  (forall i, allowed_j j2 j3 m2 m3 i -> 0 < c * amp j2 j3 m2 m3 i) ->
  allowed_j j2 j3 m2 m3 (j - 1) -> allowed_j j2 j3 m2 m3 (j + 1) ->
  amp j2 j3 m2 m3 (j - 1) = amp j2 j3 m2 m3 j -> amp j2 j3 m2 m3 j = amp j2 j3 m2 m3 (j + 1) -> False.
Proof.
  intros H2 H3 Hc Ha Hb E1 E2. pose proof (constant_sign_extreme j2 j3 m2 m3 c H2 H3 Hc) as X.
  assert (Hj : allowed_j j2 j3 m2 m3 j) by (unfold allowed_j in *; lia). assert (Hp : (0 < j)%Z) by (unfold allowed_j in *; lia).
  assert (K : exists e, m2 = j2 /\ e = 1 \/ m3 = (- j3)%Z /\ e = -1) by (destruct X; [exists 1|exists (-1)]; tauto).
  destruct K as [e K]. pose proof (extreme_equal j2 j3 m2 m3 e j H2 H3 K Hj Ha E1) as F1.
  pose proof (extreme_equal j2 j3 m2 m3 e (j + 1) H2 H3 K Hb) as F2. replace (j + 1 - 1)%Z with j in F2 by ring. specialize (F2 Hj E2).
  rewrite <- F1 in F2. rewrite plus_IZR in F2. apply IZR_lt in Hp. cbn in F2. nra.
Qed.
