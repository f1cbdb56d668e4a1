(** The algorithm computes Racah's formula. *)
From Coq Require Import Reals Lra Lia ZArith List Bool.
From Verif Require Import Base.RealAux Model.Wigner3j Spec.Wigner3jSpec Proof.RacahSum Proof.Racah Proof.RacahNorm Proof.RacahPlateau Proof.Wigner3jProof Proof.Wigner3jMain.
Open Scope R_scope.

Theorem calculate_racah j2 j3 m2 m3 : (Z.abs m2 <= j2)%Z -> (Z.abs m3 <= j3)%Z ->
  exists f, w3j_calculate j2 j3 m2 m3 = Ok f /\ forall j, f j = racah_3j j2 j3 m2 m3 j.
Proof.
  intros H2 H3. apply (calculate_unique j2 j3 m2 m3 H2 H3 _ (racah_is_3j j2 j3 m2 m3 H2 H3)).
  intros c j Hc Hj E1 E2. rewrite !racah_amp in E1, E2. set (s := parity_sign (j2 - j3 + m2 + m3)) in *.
  assert (Hs : s <> 0) by (unfold s, parity_sign; destruct (Z.even _); lra).
  apply Rmult_eq_reg_l in E1; [|exact Hs]. apply Rmult_eq_reg_l in E2; [|exact Hs].
  apply (no_constant_sign_plateau j2 j3 m2 m3 (c * s) j H2 H3); [|apply allowed_iff; lia|apply allowed_iff; lia|exact E1|exact E2].
  intros i Hi. apply allowed_iff in Hi. specialize (Hc i Hi). rewrite racah_amp in Hc. fold s in Hc. rewrite Rmult_assoc. exact Hc.
Qed.
Theorem racah_unique j2 j3 m2 m3 g : (Z.abs m2 <= j2)%Z -> (Z.abs m3 <= j3)%Z -> is_3j j2 j3 m2 m3 g -> forall j, g j = racah_3j j2 j3 m2 m3 j.
Proof.
  intros H2 H3 ((G1 & G2 & G3) & G4). destruct (racah_is_3j j2 j3 m2 m3 H2 H3) as ((R1 & R2 & R3) & R4). set (r := racah_3j j2 j3 m2 m3) in *.
  pose proof (jmin_le j2 j3 m2 m3 H2 H3) as J.
  set (jmax := (j2 + j3)%Z) in *. assert (Rn : r jmax <> 0) by (intros E; rewrite E in R3; lra).
  set (c := g jmax / r jmax).
  assert (P : forall n : nat, (w_jmin j2 j3 m2 m3 <= jmax - Z.of_nat n)%Z -> g (jmax - Z.of_nat n)%Z = c * r (jmax - Z.of_nat n)%Z /\ g (jmax - Z.of_nat n + 1)%Z = c * r (jmax - Z.of_nat n + 1)%Z).
  { induction n as [|n IH]; intros Hn.
    - replace (jmax - Z.of_nat 0)%Z with jmax by lia. split; [unfold c; field; exact Rn|]. rewrite G1, R1 by (unfold allowed_j, jmax; lia). ring.
    - destruct (IH ltac:(lia)) as [I1 I2]. set (j := (jmax - Z.of_nat n)%Z) in *. replace (jmax - Z.of_nat (S n))%Z with (j - 1)%Z in * by (unfold j; lia). replace (j - 1 + 1)%Z with j by ring. split; [|exact I1].
      pose proof (recurrence_w j2 j3 m2 m3 g G4 j ltac:(unfold w_jmax, j, jmax in *; lia)) as E1. pose proof (recurrence_w j2 j3 m2 m3 r R4 j ltac:(unfold w_jmax, j, jmax in *; lia)) as E2.
      assert (HZ : 0 < w_Zj j2 j3 m2 m3 j) by (apply Z_pos; try assumption; unfold w_jmax, j, jmax in *; lia).
      rewrite I1, I2 in E1. apply Rmult_eq_reg_l with (w_Zj j2 j3 m2 m3 j); [|lra].
      set (X := w_Xj j2 j3 m2 m3 j) in *. set (Y := w_Yj j2 j3 m2 m3 j) in *. set (Zc := w_Zj j2 j3 m2 m3 j) in *.
      transitivity (- c * (X * r (j + 1)%Z + Y * r j)); [lra|]. transitivity (- c * (- (Zc * r (j - 1)%Z))); [f_equal; lra|ring]. }
  assert (Pc : forall j, g j = c * r j).
  { intros j. destruct (Z_le_gt_dec (w_jmin j2 j3 m2 m3) j) as [Hl|Hl]; [destruct (Z_le_gt_dec j jmax) as [Hh|Hh]|].
    - replace j with (jmax - Z.of_nat (Z.to_nat (jmax - j)))%Z by lia. apply P. lia.
    - rewrite G1, R1 by (unfold allowed_j, jmax in *; lia). ring.
    - rewrite G1, R1 by (rewrite allowed_iff; lia). ring. }
  assert (C2 : c ^ 2 = 1). { rewrite (total_ext _ _ _ _ Pc), total_scal, R2 in G2. lra. }
  assert (Cp : 0 < c). { rewrite (Pc jmax) in G3. replace (_ * (c * r jmax)) with (c * (parity_sign (j2 - j3 + m2 + m3) * r jmax)) in G3 by ring. set (t := parity_sign _ * r jmax) in *. clearbody t. nra. }
  assert (E : c = 1) by nra. intros j. rewrite Pc, E. ring.
Qed.
Theorem calculate_is j2 j3 m2 m3 g : (Z.abs m2 <= j2)%Z -> (Z.abs m3 <= j3)%Z -> is_3j j2 j3 m2 m3 g ->
  exists f, w3j_calculate j2 j3 m2 m3 = Ok f /\ forall j, f j = g j.
Proof.
  intros H1 H2 Hg. destruct (calculate_racah j2 j3 m2 m3 H1 H2) as (f & E & F). exists f. split; [exact E|].
  intros j. rewrite F. symmetry. exact (racah_unique j2 j3 m2 m3 g H1 H2 Hg j).
Qed.
