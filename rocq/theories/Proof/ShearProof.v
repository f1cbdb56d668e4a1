(** Proofs about starry/doppler.py: the velocity field with differential rotation. *)
From Coq Require Import Reals Lra Lia ZArith List Bool Arith Psatz.
From Coquelicot Require Import Coquelicot.
From Verif Require Import Base.RealAux Model.RvMap Spec.PolySpec Spec.HarmonicSpec Spec.RotationSpec Spec.SurfaceSpec Proof.YlmMore Proof.DopplerProof.
Import ListNotations.
Open Scope R_scope.

Lemma derive_chain (f : nat -> R -> R) : (forall k (x : R), is_derive (f k) x (f (S k) x)) -> forall k x, Derive_n (f 0%nat) k x = f k x.
Proof.
  intros H k. induction k as [|k IH]; intros x; [reflexivity|]. cbn [Derive_n]. rewrite (Derive_ext _ (f k)) by exact IH. apply is_derive_unique, H.
Qed.
Definition chain3 (k : nat) (s : R) : R :=
  match k with
  | 0%nat => (s ^ 2 - 1) ^ 3 | 1%nat => 6 * s ^ 5 - 12 * s ^ 3 + 6 * s | 2%nat => 30 * s ^ 4 - 36 * s ^ 2 + 6 | 3%nat => 120 * s ^ 3 - 72 * s
  | 4%nat => 360 * s ^ 2 - 72 | 5%nat => 720 * s | 6%nat => 720 | _ => 0
  end.
Lemma chain3_ok k (x : R) : is_derive (chain3 k) x (chain3 (S k) x).
Proof.
  destruct k as [|[|[|[|[|[|[|k]]]]]]]; unfold chain3; auto_derive; try exact I; try ring.
Qed.
Lemma leg3 m t : legendre_deriv 3 m t = chain3 (3 + m) t / 48.
Proof. unfold legendre_deriv. change (fun s : R => (s ^ 2 - 1) ^ 3) with (chain3 0). rewrite (derive_chain chain3 chain3_ok). f_equal. cbn. ring. Qed.
Lemma sqrt_pi_form a b c k : 0 < b -> 0 < c -> 0 <= k -> a * c = k * k * b -> sqrt (a / (b * PI)) = k / (sqrt c * sqrt PI).
Proof.
  intros Hb Hc Hk E. assert (P := PI_RGT_0). assert (S : 0 < sqrt PI) by (apply sqrt_lt_R0; lra). assert (S' : 0 < sqrt c) by (apply sqrt_lt_R0; lra).
  assert (Q : sqrt PI * sqrt PI = PI) by (apply sqrt_sqrt; lra). assert (Q' : sqrt c * sqrt c = c) by (apply sqrt_sqrt; lra).
  assert (A : a = k * k * b / c) by (rewrite <- E; field; lra).
  apply sqrt_lem_1.
  - rewrite A. apply Rle_mult_inv_pos; [|nra]. apply Rle_mult_inv_pos; [nra|exact Hc].
  - apply Rle_mult_inv_pos; [exact Hk|nra].
  - transitivity (k * k / ((sqrt c * sqrt c) * (sqrt PI * sqrt PI))); [field; lra|]. rewrite Q, Q', A. field. lra.
Qed.
Lemma norm31 : harmonic_norm 3 1 = 7 / 2 / (sqrt 42 * sqrt PI).
Proof. rewrite <- (sqrt_pi_form 7 24 42 (7 / 2)) by lra. unfold harmonic_norm. f_equal. pose proof PI_RGT_0. cbn. field. lra. Qed.
Lemma norm32 : harmonic_norm 3 2 = 7 / 4 / (sqrt 105 * sqrt PI).
Proof. rewrite <- (sqrt_pi_form 7 240 105 (7 / 4)) by lra. unfold harmonic_norm. f_equal. pose proof PI_RGT_0. cbn. field. lra. Qed.
Lemma norm33 : harmonic_norm 3 3 = 7 / 12 / (sqrt 70 * sqrt PI).
Proof. rewrite <- (sqrt_pi_form 7 1440 70 (7 / 12)) by lra. unfold harmonic_norm. f_equal. pose proof PI_RGT_0. cbn. field. lra. Qed.
Lemma shear_poly A B C a x y z : A * A + B * B + C * C = 1 -> x * x + y * y + z * z = 1 ->
  (A * x + B * y) * (5 - a * (A * A + B * B + C * C)) / 5 +
  a * (/ 4 * (B * (3 * (A * A) - B * B)) * (y * (3 * (x * x) - y * y)) + 2 * C * (B * B - A * A) * (x * y * z) + / 20 * B * (A * A + B * B - 4 * (C * C)) * (y * (5 * (z * z) - 1))
       + / 20 * A * (A * A + B * B - 4 * (C * C)) * (x * (5 * (z * z) - 1)) + 2 * (A * B * C) * ((x * x - y * y) * z) + / 4 * (A * (A * A - 3 * (B * B))) * (x * (x * x - 3 * (y * y)))) =
  (A * x + B * y) * (1 - a * ((- B * x + A * y + C * z) * (- B * x + A * y + C * z))).
Proof.
  intros H1 H2. set (N := x * x + y * y + z * z) in *.
  transitivity ((A * x + B * y) * (5 - a * ((A * A + B * B + C * C) * N)) / 5 +
  a * (/ 4 * (B * (3 * (A * A) - B * B)) * (y * (3 * (x * x) - y * y)) + 2 * C * (B * B - A * A) * (x * y * z) + / 20 * B * (A * A + B * B - 4 * (C * C)) * (y * (5 * (z * z) - N))
       + / 20 * A * (A * A + B * B - 4 * (C * C)) * (x * (5 * (z * z) - N)) + 2 * (A * B * C) * ((x * x - y * y) * z) + / 4 * (A * (A * A - 3 * (B * B))) * (x * (x * x - 3 * (y * y))))).
  - rewrite H2, Rmult_1_r. reflexivity.
  - unfold N. field.
Qed.
Lemma map_at_3_sparse y x b c : nth 0 y 0 = 0 -> nth 2 y 0 = 0 -> nth 4 y 0 = 0 -> nth 5 y 0 = 0 -> nth 6 y 0 = 0 -> nth 7 y 0 = 0 -> nth 8 y 0 = 0 -> nth 12 y 0 = 0 ->
  map_at 3 y (x, b, c) = sqrt 3 / sqrt (4 * PI) * (nth 1 y 0 * b + nth 3 y 0 * x) +
  nth 9 y 0 * real_Y 3 (-3) x b c + nth 10 y 0 * real_Y 3 (-2) x b c + nth 11 y 0 * real_Y 3 (-1) x b c +
  nth 13 y 0 * real_Y 3 1 x b c + nth 14 y 0 * real_Y 3 2 x b c + nth 15 y 0 * real_Y 3 3 x b c.
Proof.
  intros H0 H2 H4 H5 H6 H7 H8 H12. unfold map_at, harmonic_eval. cbn [bigsum Nat.mul Nat.add]. rewrite H0, H2, H4, H5, H6, H7, H8, H12.
  change (Z.of_nat 0 - Z.of_nat 1)%Z with (-1)%Z. change (Z.of_nat 2 - Z.of_nat 1)%Z with 1%Z. rewrite (Y1pm (-1)), (Y1pm 1) by lia. cbn [Z.ltb Z.compare].
  change (Z.of_nat 0 - Z.of_nat 3)%Z with (-3)%Z. change (Z.of_nat 1 - Z.of_nat 3)%Z with (-2)%Z. change (Z.of_nat 2 - Z.of_nat 3)%Z with (-1)%Z.
  change (Z.of_nat 4 - Z.of_nat 3)%Z with 1%Z. change (Z.of_nat 5 - Z.of_nat 3)%Z with 2%Z. change (Z.of_nat 6 - Z.of_nat 3)%Z with 3%Z. ring.
Qed.
Lemma Y3 m x b c : real_Y 3 m x b c = harmonic_norm 3 (Z.abs_nat m) * (chain3 (3 + Z.abs_nat m) c / 48) * (if (m <? 0)%Z then snd (cpow (Z.abs_nat m) x b) else fst (cpow (Z.abs_nat m) x b)).
Proof. unfold real_Y. cbv zeta. now rewrite leg3. Qed.
Lemma shear_field veq inc obl alpha x y z : on_sphere x y z ->
  2 / sqrt PI * map_at 3 (rv_map_expansion (Some veq) (Some inc) (Some obl) (Some alpha)) (x, y, z) =
  recession veq inc obl (x, y, z) * (1 - alpha * dot3 (pole inc obl) (x, y, z) ^ 2).
Proof.
  intros Hs. rewrite map_at_3_sparse by (unfold rv_map_expansion; cbn [map nth]; ring). rewrite !Y3.
  change (Z.abs_nat (-3)) with 3%nat. change (Z.abs_nat (-2)) with 2%nat. change (Z.abs_nat (-1)) with 1%nat. change (Z.abs_nat 1) with 1%nat. change (Z.abs_nat 2) with 2%nat. change (Z.abs_nat 3) with 3%nat.
  rewrite norm31, norm32, norm33, sq4pi. cbn [Z.ltb Z.compare cpow fst snd chain3 Nat.add].
  unfold recession, pole, cross3, dot3, rv_map_expansion. cbn [map nth snd].
  assert (P := PI_RGT_0). assert (S : 0 < sqrt PI) by (apply sqrt_lt_R0; lra). assert (Q : sqrt PI * sqrt PI = PI) by (apply sqrt_sqrt; lra).
  assert (S3 : 0 < sqrt 3) by (apply sqrt_lt_R0; lra). assert (Q3 : sqrt 3 * sqrt 3 = 3) by (apply sqrt_sqrt; lra).
  assert (S42 : 0 < sqrt 42) by (apply sqrt_lt_R0; lra). assert (S70 : 0 < sqrt 70) by (apply sqrt_lt_R0; lra). assert (S105 : 0 < sqrt 105) by (apply sqrt_lt_R0; lra).
  set (A := sin inc * cos obl). set (B := sin inc * sin obl). set (C := cos inc).
  assert (U : A * A + B * B + C * C = 1).
  { unfold A, B, C. pose proof (sin2_cos2 inc) as T1. pose proof (sin2_cos2 obl) as T2. unfold Rsqr in T1, T2.
    transitivity (sin inc * sin inc * (sin obl * sin obl + cos obl * cos obl) + cos inc * cos inc); [ring|]. rewrite T2. lra. }
  assert (V : x * x + y * y + z * z = 1) by (unfold on_sphere in Hs; lra).
  transitivity (veq * ((A * x + B * y) * (1 - alpha * ((- B * x + A * y + C * z) * (- B * x + A * y + C * z))))).
  2:{ unfold A, B. ring. }
  rewrite <- (shear_poly A B C alpha x y z U V). clearbody A B C. clear Hs U V.
  set (p := sqrt PI) in *. rewrite <- Q. set (t := sqrt 3) in *. 
  transitivity (veq * (t * t / 3 * (A * x + B * y) * (5 - alpha * (A * A + B * B + C * C)) / 5 +
  alpha * (/ 4 * (B * (3 * (A * A) - B * B)) * (y * (3 * (x * x) - y * y)) + 2 * C * (B * B - A * A) * (x * y * z) + / 20 * B * (A * A + B * B - 4 * (C * C)) * (y * (5 * (z * z) - 1))
       + / 20 * A * (A * A + B * B - 4 * (C * C)) * (x * (5 * (z * z) - 1)) + 2 * (A * B * C) * ((x * x - y * y) * z) + / 4 * (A * (A * A - 3 * (B * B))) * (x * (x * x - 3 * (y * y)))))).
  - field. lra.
  - rewrite Q3. field.
Qed.
