(** Accuracy of the starting value of the Kepler solver. *)
From Coq Require Import Reals Lra Lia ZArith QArith Qreals List Bool Psatz.
From Coquelicot Require Import Coquelicot.
From Verif Require Import Base.RealAux Base.PolyBounds Model.Kepler Spec.KeplerSpec Proof.KeplerProof.
Import ListNotations.
Open Scope R_scope.

(** * Pi *)
Lemma pi_lo : 3.1415926 < PI.
Proof.
  assert (C : 0 < cos 1.5707963).
  { destruct (taylor_lower 3 1.5707963 ltac:(lra)) as [H _]. eapply Rlt_le_trans; [|exact H].
    replace 1.5707963 with (Q2R (15707963 # 10000000)) by (unfold Q2R; cbn; lra). rewrite <- qeval_ok. rewrite <- RMicromega.Q2R_0. apply Qlt_Rlt. vm_compute. reflexivity. }
  destruct (Rlt_le_dec 1.5707963 (PI / 2)) as [H|H]; [lra|]. exfalso. pose proof PI2_3_2 as P. unfold PI2 in P. assert (cos 1.5707963 <= 0) by (apply cos_le_0; lra). lra.
Qed.
Lemma pi_hi : PI < 3.1415927.
Proof.
  assert (C : cos 1.57079635 < 0).
  { destruct (taylor_upper 4 1.57079635 ltac:(lra)) as [H _]. eapply Rle_lt_trans; [exact H|].
    replace 1.57079635 with (Q2R (157079635 # 100000000)) by (unfold Q2R; cbn; lra). rewrite <- qeval_ok. rewrite <- RMicromega.Q2R_0. apply Qlt_Rlt. vm_compute. reflexivity. }
  destruct (Rlt_le_dec (PI / 2) 1.57079635) as [H|H]; [lra|]. exfalso. assert (0 <= cos 1.57079635) by (apply cos_ge_0; lra). lra.
Qed.
Definition al0 : R := 3 * PI / (PI - 6 / PI).
Definition kap : R := 1.6 / (PI - 6 / PI).
Lemma al0_bounds : 7.651637 <= al0 <= 7.651639.
Proof.
  pose proof pi_lo as L. pose proof pi_hi as H. assert (D : 0 < PI * PI - 6) by nra. replace al0 with (3 * (PI * PI) / (PI * PI - 6)) by (unfold al0; field; nra).
  assert (S1 : 9.86960406 <= PI * PI) by nra. assert (S2 : PI * PI <= 9.86960470) by nra. split.
  - apply (Rmult_le_reg_r (PI * PI - 6)); [exact D|]. unfold Rdiv. rewrite Rmult_assoc, Rinv_l by lra. lra.
  - apply (Rmult_le_reg_r (PI * PI - 6)); [exact D|]. unfold Rdiv. rewrite Rmult_assoc, Rinv_l by lra. lra.
Qed.
Lemma kap_bounds : 1.298982 <= kap <= 1.298983.
Proof.
  pose proof pi_lo as L. pose proof pi_hi as H. assert (D : 0 < PI * PI - 6) by nra. replace kap with (1.6 * PI / (PI * PI - 6)) by (unfold kap; field; nra).
  assert (S1 : 9.86960406 <= PI * PI) by nra. assert (S2 : PI * PI <= 9.86960470) by nra. split.
  - apply (Rmult_le_reg_r (PI * PI - 6)); [exact D|]. unfold Rdiv. rewrite Rmult_assoc, Rinv_l by lra. lra.
  - apply (Rmult_le_reg_r (PI * PI - 6)); [exact D|]. unfold Rdiv. rewrite Rmult_assoc, Rinv_l by lra. lra.
Qed.
Lemma st_alpha_form M e : st_alpha M e = al0 + kap * (PI - M) / (1 + e).
Proof. reflexivity. Qed.

(** * The cubic *)
Lemma cbrt_cube x : 0 < x -> 0 < cbrt x /\ cbrt x * cbrt x * cbrt x = x.
Proof.
  intros H. unfold cbrt. destruct (Rlt_dec 0 x); [|lra]. split; [apply exp_pos|]. rewrite <- !Rpower_plus. replace (/ 3 + / 3 + / 3) with 1 by field. now apply Rpower_1.
Qed.
Lemma starter_cubic M e : 0 <= M <= PI -> 0 <= e < 1 -> let E := starter M e (1 - e) in let a := st_alpha M e in
  (6 * a + 3 * E ^ 2) * (E - M) = e * E * (6 * a - (a - 3) * E ^ 2).
Proof.
  intros HM He E a. pose proof (st_disc_pos M e HM He) as HD. pose proof (st_den_pos M e HM He) as Hn. pose proof (st_d_pos M e (proj2 HM) He) as Hd.
  assert (Hr : 0 <= st_r M e (1 - e)). { eapply Rle_trans; [|apply st_r_ge; assumption]. apply pow_le. lra. }
  assert (Fd : st_d M e (1 - e) = 3 * (1 - e) + a * e) by reflexivity.
  assert (Fr : st_r M e (1 - e) = (3 * (a * st_d M e (1 - e)) * (st_d M e (1 - e) - (1 - e)) + M * M) * M) by reflexivity.
  assert (Fq : st_q M e (1 - e) = 2 * (a * st_d M e (1 - e)) * (1 - e) - M * M) by reflexivity.
  assert (FE : E = (2 * st_r M e (1 - e) * st_w M e (1 - e) / st_den M e (1 - e) + M) / st_d M e (1 - e)) by reflexivity. clearbody E a.
  set (d := st_d M e (1 - e)) in *. set (r := st_r M e (1 - e)) in *. set (q := st_q M e (1 - e)) in *.
  assert (Q : sqrt (st_disc M e (1 - e)) * sqrt (st_disc M e (1 - e)) = q * q * q + r * r). { rewrite sqrt_sqrt by lra. reflexivity. }
  assert (P : 0 < sqrt (st_disc M e (1 - e))) by (apply sqrt_lt_R0, HD).
  destruct (cbrt_cube (Rabs r + sqrt (st_disc M e (1 - e)))) as (Hu & Eu). { rewrite Rabs_right by lra. lra. }
  assert (Fw : st_w M e (1 - e) = cbrt (Rabs r + sqrt (st_disc M e (1 - e))) * cbrt (Rabs r + sqrt (st_disc M e (1 - e)))) by reflexivity.
  assert (Fn : st_den M e (1 - e) = st_w M e (1 - e) * st_w M e (1 - e) + st_w M e (1 - e) * q + q * q) by reflexivity.
  rewrite Rabs_right in Hu, Eu, Fw by lra. set (u := cbrt _) in *. set (sd := sqrt _) in *. rewrite Fn in FE, Hn. rewrite Fw in FE, Hn. clear Fn Fw. clearbody u sd d r q.
  set (v := q / u). assert (Ev : q = u * v) by (unfold v; field; lra). clearbody v.
  assert (V3 : v * v * v = sd - r). { apply (Rmult_eq_reg_l (u * u * u)); [|nra]. transitivity ((u * v) * (u * v) * (u * v)); [ring|]. rewrite <- Ev. rewrite Eu. nra. }
  assert (R2 : 2 * r = u * u * u - v * v * v) by lra.
  assert (Y : 2 * r * (u * u) / (u * u * (u * u) + u * u * q + q * q) = u - v).
  { apply (Rmult_eq_reg_r (u * u * (u * u) + u * u * q + q * q)); [|lra]. unfold Rdiv. rewrite Rmult_assoc, Rinv_l, Rmult_1_r by lra. rewrite R2, Ev. ring. }
  rewrite Y in FE. assert (Yd : u - v = d * E - M) by (rewrite FE; field; lra).
  assert (C3 : (u - v) * (u - v) * (u - v) + 3 * (u * v) * (u - v) = 2 * r) by (rewrite R2; ring).
  rewrite <- Ev, Yd in C3. rewrite Fr, Fq in C3.
  assert (K : d * d * (d * E ^ 3 - 3 * M * E ^ 2 + 6 * a * (1 - e) * E - 6 * a * M) = 0) by (ring_simplify; ring_simplify in C3; lra).
  assert (K2 : d * E ^ 3 - 3 * M * E ^ 2 + 6 * a * (1 - e) * E - 6 * a * M = 0). { apply Rmult_integral in K. destruct K as [K|K]; [|exact K]. nra. }
  rewrite Fd in K2. lra.
Qed.
Lemma st_alpha_ge M e : M <= PI -> 0 <= e < 1 -> al0 <= st_alpha M e.
Proof.
  intros HM He. rewrite st_alpha_form. pose proof kap_bounds. assert (0 <= kap * (PI - M) / (1 + e)); [|lra]. apply Rle_mult_inv_pos; [|lra]. nra.
Qed.
Lemma starter_range M e : 0 <= M <= PI -> 0 <= e < 1 -> 0 <= starter M e (1 - e) <= PI.
Proof.
  intros HM He. split; [now apply starter_nonneg|]. pose proof (starter_cubic M e HM He) as C. cbv zeta in C. set (E := starter M e (1 - e)) in *. set (a := st_alpha M e) in *.
  assert (A : al0 <= a) by (apply st_alpha_ge; lra). pose proof al0_bounds. destruct (Rle_lt_dec E PI) as [|H1]; [assumption|]. exfalso.
  pose proof pi_lo as L. pose proof pi_hi as H2. assert (S : al0 * (PI * PI - 6) = 3 * (PI * PI)) by (unfold al0; field; nra).
  assert (0 < (6 * a + 3 * E ^ 2) * (E - M)). { apply Rmult_lt_0_compat; [|lra]. pose proof (pow2_ge_0 E). lra. }
  assert (N : 6 * a - (a - 3) * E ^ 2 <= 0).
  { assert (PI * PI <= E ^ 2) by nra. assert (D : 0 < PI * PI - 6) by nra. assert (3 * (PI * PI) <= a * (PI * PI - 6)) by nra. nra. }
  assert (e * E * (6 * a - (a - 3) * E ^ 2) <= 0); [|lra]. assert (0 <= e * E) by nra. nra.
Qed.
