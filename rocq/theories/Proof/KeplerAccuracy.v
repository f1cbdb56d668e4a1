(** Accuracy of the eccentric anomaly computed by the Kepler solver. *)
From Coq Require Import Reals Lra Lia ZArith QArith Qreals List Bool Psatz.
From Coquelicot Require Import Coquelicot.
From Verif Require Import Base.RealAux Base.PolyBounds Model.Kepler Spec.KeplerSpec Proof.KeplerProof Proof.KeplerExact Proof.KeplerMore Proof.KeplerianProof Proof.KeplerStarter Proof.KeplerResidual.
Import ListNotations.
Open Scope R_scope.

Lemma from_deriv_on (f f' : R -> R) b : (forall x : R, 0 <= x <= b -> is_derive f x (f' x)) -> (forall x, 0 <= x <= b -> 0 <= f' x) -> 0 <= f 0 -> forall x, 0 <= x <= b -> 0 <= f x.
Proof.
  intros D P H0 x Hx. destruct (MVT_gen f 0 x f') as (c & Hc & E).
  - intros t Ht. rewrite Rmin_left, Rmax_right in Ht by lra. apply D. lra.
  - intros t Ht. rewrite Rmin_left, Rmax_right in Ht by lra. apply continuity_pt_filterlim. apply (ex_derive_continuous f). eexists. apply D. lra.
  - rewrite Rmin_left, Rmax_right in Hc by lra. assert (0 <= f' c) by (apply P; lra). nra.
Qed.
Lemma sin_concave l x : 0 <= l <= 1 -> 0 <= x <= PI -> l * sin x <= sin (l * x).
Proof.
  intros Hl Hx. assert (0 <= sin (l * x) - l * sin x); [|lra]. revert x Hx. apply (from_deriv_on _ (fun x => l * cos (l * x) - l * cos x)).
  - intros x _. auto_derive; [exact I|ring].
  - intros x Hx. assert (cos x <= cos (l * x)); [|nra]. apply cos_decr_1; try nra; pose proof PI_RGT_0; nra.
  - rewrite Rmult_0_r, sin_0. lra.
Qed.
Lemma t_cos_le t : 0 <= t <= PI / 2 -> t * cos t <= sin t.
Proof.
  intros Ht. assert (0 <= sin t - t * cos t); [|lra]. revert t Ht. apply (from_deriv_on _ (fun t => t * sin t)).
  - intros t _. auto_derive; [exact I|ring].
  - intros t Ht. apply Rmult_le_pos; [lra|]. apply sin_ge_0; lra.
  - rewrite sin_0. lra.
Qed.
Lemma E_sin_le E : 0 <= E <= PI -> E * sin E <= 2 * (1 - cos E).
Proof.
  intros HE. pose proof (t_cos_le (0.5 * E) ltac:(lra)) as H. pose proof (sin_ge_0 (0.5 * E) ltac:(lra) ltac:(lra)) as P. pose proof (sin2_cos2 (0.5 * E)) as U. unfold Rsqr in U.
  rewrite (cos_half E), (sin_half E). apply (Rmult_le_compat_l _ _ _ P) in H. lra.
Qed.
Lemma E2_le E : 0 <= E <= PI -> E ^ 2 <= 5 * (1 - cos E).
Proof.
  intros HE. pose proof pi_lo. pose proof pi_hi. pose proof (sin_concave (E / PI) (PI / 2)) as H1.
  replace (E / PI * (PI / 2)) with (0.5 * E) in H1 by (transitivity (E / 2); [lra|field; lra]). rewrite sin_PI2 in H1.
  assert (H2 : E / PI * 1 <= sin (0.5 * E)). { apply H1; [|lra]. split; [apply Rle_mult_inv_pos; lra|]. apply (Rmult_le_reg_r PI); [lra|]. unfold Rdiv. rewrite Rmult_assoc, Rinv_l by lra. lra. }
  assert (H3 : E <= PI * sin (0.5 * E)). { apply (Rmult_le_compat_r PI) in H2; [|lra]. replace (E / PI * 1 * PI) with E in H2 by (field; lra). lra. }
  pose proof (sin2_cos2 (0.5 * E)) as U. unfold Rsqr in U. rewrite (cos_half E). set (s := sin (0.5 * E)) in *. set (c := cos (0.5 * E)) in *.
  replace (5 * (1 - (2 * (c * c) - 1))) with (10 * (s * s)) by lra. assert (E ^ 2 <= (PI * s) ^ 2) by (apply pow_incr; lra). replace ((PI * s) ^ 2) with (PI * PI * (s * s)) in H4 by ring.
  assert (PI * PI <= 10) by nra. assert (0 <= s * s) by apply Rle_0_sqr. nra.
Qed.
Lemma f1_scale l E e : 0 <= e < 1 -> 0 <= l <= 1 -> 0 <= E <= PI -> l ^ 2 * (1 - e * cos E) <= 1 - e * cos (l * E).
Proof.
  intros He Hl HE. pose proof (sin_concave l (0.5 * E) Hl ltac:(lra)) as H. pose proof (sin_ge_0 (0.5 * E) ltac:(lra) ltac:(lra)) as P.
  pose proof (sin2_cos2 (0.5 * E)) as U. unfold Rsqr in U. pose proof (sin2_cos2 (0.5 * (l * E))) as U2. unfold Rsqr in U2. rewrite (cos_half E), (cos_half (l * E)).
  replace (l * (0.5 * E)) with (0.5 * (l * E)) in H by ring. set (s := sin (0.5 * E)) in *. set (c := cos (0.5 * E)) in *. set (s2 := sin (0.5 * (l * E))) in *. set (c2 := cos (0.5 * (l * E))) in *.
  replace (1 - e * (2 * (c2 * c2) - 1)) with (1 - e + 2 * e * (s2 * s2)) by (replace (s2 * s2) with (1 - c2 * c2) by lra; ring).
  replace (1 - e * (2 * (c * c) - 1)) with (1 - e + 2 * e * (s * s)) by (replace (s * s) with (1 - c * c) by lra; ring).
  assert (K : (l * s) * (l * s) <= s2 * s2) by (apply Rmult_le_compat; nra). assert (L2 : l * l <= 1) by nra. assert (X1 := Rmult_le_compat_r (1 - e) _ _ ltac:(lra) L2). assert (X2 := Rmult_le_compat_l (2 * e) _ _ ltac:(lra) K). lra.
Qed.
(** The root of Kepler's equation and the starting value. *)
Lemma kep_mvt e a b : a < b -> exists c, a < c < b /\ (b - e * sin b) - (a - e * sin a) = (1 - e * cos c) * (b - a).
Proof.
  intros H. destruct (MVT_cor2 (fun x => x - e * sin x) (fun x => 1 - e * cos x) a b H) as (c & Hc & R).
  - intros c _. apply is_derive_Reals. auto_derive; [exact I|ring].
  - exists c. split; [exact R|exact Hc].
Qed.
Lemma kep_incr e a b : 0 <= e < 1 -> a < b -> a - e * sin a < b - e * sin b.
Proof. intros He H. destruct (kep_mvt e a b H) as (c & _ & E). pose proof (one_minus_ecos_pos c e He). nra. Qed.
Lemma root_location M e E1 Es : 0 <= e < 1 -> 0 < E1 <= PI -> 0 <= Es <= PI -> Es - e * sin Es = M ->
  Rabs (E1 - e * sin E1 - M) <= 0.00078 * E1 * (1 - e * cos E1) -> Rabs (Es - E1) <= 0.0008 * E1.
Proof.
  intros He H1 Hs HR HB. pose proof (one_minus_ecos_pos E1 e He) as P1. apply Rabs_le_between in HB. apply Rabs_le. destruct (Rtotal_order Es E1) as [H|[H|H]].
  - destruct (Rle_lt_dec ((1 - 0.0008) * E1) Es) as [L|L]; [lra|]. exfalso.
    destruct (kep_mvt e ((1 - 0.0008) * E1) E1 ltac:(lra)) as (c & Hc & Em). pose proof (kep_incr e Es _ He L) as I.
    assert (F : (1 - 0.0008) ^ 2 * (1 - e * cos E1) <= 1 - e * cos c).
    { pose proof (f1_scale (c / E1) E1 e He) as F. replace (c / E1 * E1) with c in F by (field; lra).
      assert (Q1 : (1 - 0.0008) <= c / E1). { apply (Rmult_le_reg_r E1); [lra|]. unfold Rdiv. rewrite Rmult_assoc, Rinv_l by lra. lra. }
      assert (Q2 : c / E1 <= 1). { apply (Rmult_le_reg_r E1); [lra|]. unfold Rdiv. rewrite Rmult_assoc, Rinv_l by lra. lra. }
      eapply Rle_trans; [|apply F; lra]. apply Rmult_le_compat_r; [lra|]. apply pow_incr. lra. }
    assert ((1 - 0.0008) ^ 2 * (1 - e * cos E1) * (0.0008 * E1) <= (1 - e * cos c) * (E1 - (1 - 0.0008) * E1)). { replace (E1 - (1 - 0.0008) * E1) with (0.0008 * E1) by lra. apply Rmult_le_compat_r; lra. }
    assert (0 < E1 * (1 - e * cos E1)) by (apply Rmult_lt_0_compat; lra). lra.
  - lra.
  - destruct (kep_mvt e E1 Es H) as (c & Hc & Em). assert (F : 1 - e * cos E1 <= 1 - e * cos c). { assert (cos c <= cos E1) by (apply cos_decr_1; lra). nra. }
    assert ((1 - e * cos E1) * (Es - E1) <= 0.00078 * E1 * (1 - e * cos E1)). { apply Rle_trans with ((1 - e * cos c) * (Es - E1)); [apply Rmult_le_compat_r; lra|lra]. }
    assert (Es - E1 <= 0.00078 * E1). { apply (Rmult_le_reg_l (1 - e * cos E1)); lra. } lra.
Qed.
(** The refinement. *)
Definition within (A a : R) : Prop := - A <= a <= A.
Ltac wl := unfold within in *; lra.
Lemma prodb a b A B : within A a -> within B b -> within (A * B) (a * b).
Proof. unfold within. intros H1 H2. split; nra. Qed.
Lemma divb n d b : 0 < d -> within (b * d) n -> within b (n / d).
Proof. unfold within. intros Hd H. split; (apply (Rmult_le_reg_r d); [exact Hd|]; unfold Rdiv; rewrite Rmult_assoc, Rinv_l by lra; lra). Qed.
Lemma refine_alg x y w r : within 0.0008 (x) -> within 0.00000064 (y) -> within 0.000000000512 (w) -> within 0.000000000000205 (r) ->
  let S := x + y + w + r in let e3 := (1 + S) / (1 + x * (1 + S)) in let e4 := (1 + S) / (1 + x * e3 + y * (e3 * e3)) in
  let e5 := (1 + S) / (1 + x * e4 + y * (e4 * e4) + w * (e4 * e4 * e4)) in
  0 < 1 + x * (1 + S) /\ 0 < 1 + x * e3 + y * (e3 * e3) /\ 0 < 1 + x * e4 + y * (e4 * e4) + w * (e4 * e4 * e4) /\ within 0.00000000000147 (e5 - 1).
Proof.
  intros Hx Hy Hw Hr S e3 e4 e5.
  assert (F3 : e3 = (1 + S) / (1 + x * (1 + S))) by reflexivity. assert (F4 : e4 = (1 + S) / (1 + x * e3 + y * (e3 * e3))) by reflexivity.
  assert (F5 : e5 = (1 + S) / (1 + x * e4 + y * (e4 * e4) + w * (e4 * e4 * e4))) by reflexivity. clearbody e5 e4 e3.
  assert (HS : within 0.00081 (S)) by (unfold S; wl). assert (PxS := prodb x S _ _ Hx HS).
  assert (D3 : 0 < 1 + x * (1 + S)) by wl.
  assert (B3 : within 0.0000013 (e3 - 1)).
  { replace (e3 - 1) with ((y + w + r - x * S) / (1 + x * (1 + S))) by (rewrite F3; unfold S; field; unfold S in *; wl). apply divb; [exact D3|]. 
    wl. }
  set (t3 := e3 - 1) in *. replace e3 with (1 + t3) in F4 |- * by (unfold t3; ring). clearbody t3.
  assert (Q3 := prodb x t3 _ _ Hx B3). assert (T3 := prodb t3 t3 _ _ B3 B3). assert (T3' : within 0.0000027 (2 * t3 + t3 * t3)) by wl. assert (Y3 := prodb y _ _ _ Hy T3').
  assert (D4 : 0 < 1 + x * (1 + t3) + y * ((1 + t3) * (1 + t3))) by wl.
  assert (B4 : within 0.00000000156 (e4 - 1)).
  { replace (e4 - 1) with ((w + r - x * t3 - y * (2 * t3 + t3 * t3)) / (1 + x * (1 + t3) + y * ((1 + t3) * (1 + t3)))) by (rewrite F4; unfold S; field; wl). apply divb; [exact D4|]. wl. }
  set (t4 := e4 - 1) in *. replace e4 with (1 + t4) in F5 |- * by (unfold t4; ring). clearbody t4.
  assert (Q4 := prodb x t4 _ _ Hx B4). assert (T4 := prodb t4 t4 _ _ B4 B4). assert (T4' : within 0.0000000032 (2 * t4 + t4 * t4)) by wl. assert (Y4 := prodb y _ _ _ Hy T4').
  assert (U4 := prodb _ _ _ _ T4 B4). assert (U4' : within 0.000000005 (3 * t4 + 3 * (t4 * t4) + t4 * t4 * t4)) by wl. assert (V4 := prodb w _ _ _ Hw U4').
  assert (D5 : 0 < 1 + x * (1 + t4) + y * ((1 + t4) * (1 + t4)) + w * ((1 + t4) * (1 + t4) * (1 + t4))) by wl.
  split; [exact D3|]. split; [exact D4|]. split; [exact D5|].
  replace (e5 - 1) with ((r - x * t4 - y * (2 * t4 + t4 * t4) - w * (3 * t4 + 3 * (t4 * t4) + t4 * t4 * t4)) / (1 + x * (1 + t4) + y * ((1 + t4) * (1 + t4)) + w * ((1 + t4) * (1 + t4) * (1 + t4)))) by (rewrite F5; unfold S; field; wl).
  apply divb; [exact D5|]. wl.
Qed.
Lemma trig_rem_pos D : 0 < D -> exists m5 m6, sin D = D - D ^ 3 / 6 + D ^ 3 * m5 /\ cos D = 1 - D ^ 2 / 2 + D ^ 4 / 24 - D ^ 2 * m6 /\ 0 <= m5 <= D ^ 2 / 120 /\ 0 <= m6 <= D ^ 4 / 720.
Proof.
  intros HD. assert (P2 : 0 < D ^ 2) by (apply pow_lt; lra). assert (P3 : 0 < D ^ 3) by (apply pow_lt; lra).
  exists ((sin D - D + D ^ 3 / 6) / D ^ 3), ((1 - D ^ 2 / 2 + D ^ 4 / 24 - cos D) / D ^ 2).
  destruct (taylor_lower 0 D ltac:(lra)) as [_ S1]. destruct (taylor_upper 1 D ltac:(lra)) as [C1 S2]. destruct (taylor_lower 1 D ltac:(lra)) as [C2 _]. cbn [Nat.mul Nat.add] in *.
  replace (taylor_sin 1) with [0; 1; 0; -1#6]%Q in S1 by (vm_compute; reflexivity). replace (taylor_sin 2) with [0; 1; 0; -1#6; 0; 1#120]%Q in S2 by (vm_compute; reflexivity).
  replace (taylor_cos 2) with [1; 0; -1#2; 0; 1#24]%Q in C1 by (vm_compute; reflexivity). replace (taylor_cos 3) with [1; 0; -1#2; 0; 1#24; 0; -1#720]%Q in C2 by (vm_compute; reflexivity).
  cbn [peval] in *. unfold Q2R in *. cbn [Qnum Qden] in *.
  split; [field; lra|]. split; [field; lra|]. split; split.
  - apply Rle_mult_inv_pos; [|lra]. lra.
  - apply (Rmult_le_reg_r (D ^ 3)); [lra|]. unfold Rdiv at 1. rewrite Rmult_assoc, Rinv_l by lra. lra.
  - apply Rle_mult_inv_pos; [|lra]. lra.
  - apply (Rmult_le_reg_r (D ^ 2)); [lra|]. unfold Rdiv at 1. rewrite Rmult_assoc, Rinv_l by lra. lra.
Qed.
Lemma trig_rem D : D <> 0 -> exists m5 m6, sin D = D - D ^ 3 / 6 + D ^ 3 * m5 /\ cos D = 1 - D ^ 2 / 2 + D ^ 4 / 24 - D ^ 2 * m6 /\ 0 <= m5 <= D ^ 2 / 120 /\ 0 <= m6 <= D ^ 4 / 720.
Proof.
  intros H. destruct (Rlt_le_dec 0 D) as [P|P]; [now apply trig_rem_pos|]. destruct (trig_rem_pos (- D) ltac:(lra)) as (m5 & m6 & S & C & B5 & B6).
  rewrite sin_neg in S. rewrite cos_neg in C. replace ((- D) ^ 2) with (D ^ 2) in * by ring. replace ((- D) ^ 3) with (- D ^ 3) in * by ring. replace ((- D) ^ 4) with (D ^ 4) in * by ring.
  exists m5, m6. split; [lra|]. split; [exact C|]. split; assumption.
Qed.
Lemma refine_close M e E D : 0 <= e < 1 -> 0 < E <= PI -> D <> 0 -> Rabs D <= 0.0008 * E -> (E + D) - e * sin (E + D) = M ->
  Rabs (refine M e (1 - e) E - (E + D)) <= 0.00000000000147 * Rabs D.
Proof.
  intros He HE HD HB HR. pose proof (one_minus_ecos_pos E e He) as HF. destruct (trig_rem D HD) as (m5 & m6 & S5 & C6 & B5 & B6). rewrite sin_plus, S5, C6 in HR.
  pose proof (E_sin_le E ltac:(lra)) as HX. pose proof (E2_le E ltac:(lra)) as HY. pose proof (sin_ge_0 E ltac:(lra) ltac:(lra)) as Hs. pose proof (COS_bound E) as Hc. pose proof pi_hi as PH.
  apply Rabs_le_between in HB.
  set (F := 1 - e * cos E) in *. set (q := D / E). set (X := e * sin E * E / F). set (Y := e * cos E * E ^ 2 / F).
  assert (Hq : within 0.0008 q). { apply divb; [lra|]. unfold within. lra. }
  assert (BX : 0 <= X <= 2). { split; [apply Rle_mult_inv_pos; [apply Rmult_le_pos; [apply Rmult_le_pos|]; lra|exact HF]|]. apply (Rmult_le_reg_r F); [exact HF|]. unfold X, Rdiv. rewrite Rmult_assoc, Rinv_l by lra. unfold F. nra. }
  assert (BY : within 5 Y). { apply divb; [exact HF|]. unfold within, F. pose proof (pow2_ge_0 E). assert (e * E ^ 2 <= 5 * (e * (1 - cos E))) by nra. assert (0 <= e * E ^ 2) by nra. assert (- (e * E ^ 2) <= cos E * (e * E ^ 2) <= e * E ^ 2) by nra. lra. }
  assert (HD2 : 0 <= D ^ 2 <= 0.00000633). { pose proof (pow2_ge_0 D). split; [assumption|]. assert (Rabs D <= 0.0025134) by (apply Rabs_le; lra). replace (D ^ 2) with (Rabs D * Rabs D) by (rewrite <- Rabs_mult, Rabs_right; [ring|nra]). pose proof (Rabs_pos D). nra. }
  assert (Hq2 : 0 <= q * q <= 0.00000064). { split; [nra|]. pose proof (prodb _ _ _ _ Hq Hq). wl. }
  assert (Em5 : 0 <= m5 <= 0.0000001) by lra. assert (Em6 : 0 <= m6 <= 0.0000000000001). { assert (D ^ 4 <= 0.0000000000401). { replace (D ^ 4) with (D ^ 2 * D ^ 2) by ring. nra. } lra. }
  set (x := q * (X / 2)). set (y := q * q * (Y / 6)). set (w := - (x * (D ^ 2 / 12))). set (r := q * X * m6 - q * q * Y * m5).
  assert (Bx : within 0.0008 x). { assert (T : within 1 (X / 2)) by (unfold within; lra). pose proof (prodb _ _ _ _ Hq T). unfold x. wl. }
  assert (By : within 0.00000064 y). { assert (T : within 1 (Y / 6)) by wl. assert (T2 : within 0.00000064 (q * q)) by wl. pose proof (prodb _ _ _ _ T2 T). unfold y. wl. }
  assert (Bw : within 0.000000000512 w). { assert (T : within 0.00000064 (D ^ 2 / 12)) by wl. pose proof (prodb _ _ _ _ Bx T). unfold w. wl. }
  assert (Br : within 0.000000000000205 r).
  { assert (T1 : within 2 X) by wl. pose proof (prodb _ _ _ _ Hq T1) as T2. assert (T3 : within 0.0000000000001 m6) by wl. pose proof (prodb _ _ _ _ T2 T3) as T4.
    assert (T5 : within 0.00000064 (q * q)) by wl. pose proof (prodb _ _ _ _ T5 BY) as T6. assert (T7 : within (0.00000633 / 120) m5) by wl. pose proof (prodb _ _ _ _ T6 T7) as T8. unfold r. wl. }
  pose proof (refine_alg x y w r Bx By Bw Br) as A. cbv zeta in A.
  assert (F1 : rf_f1 e (1 - e) E = F) by (unfold rf_f1, F; ring). assert (F2 : rf_f2 e E = X * F / E) by (unfold rf_f2, X; field; lra).
  assert (F3 : rf_f3 e (1 - e) E = Y * F / (E * E)) by (unfold rf_f3; rewrite F1; unfold Y; transitivity (e * cos E); [unfold F; ring|field; lra]).
  assert (ED : D = q * E) by (unfold q; field; lra).
  assert (F0 : rf_f0 M e (1 - e) E = - (F * D * (1 + (x + y + w + r)))).
  { unfold rf_f0. rewrite <- HR. unfold w, x, y, r. replace (F * D * (1 + (q * (X / 2) + q * q * (Y / 6) + - (q * (X / 2) * (D ^ 2 / 12)) + (q * X * m6 - q * q * Y * m5))))
      with (F * D + (X * F / E) * (q * E) * D * (/ 2 - D ^ 2 / 24 + m6) + Y * F / (E * E) * (q * E) * (q * E) * D * (/ 6 - m5)) by (field; lra).
    rewrite <- ED. replace (X * F / E) with (e * sin E) by (unfold X; field; lra). replace (Y * F / (E * E)) with (e * cos E) by (unfold Y; field; lra). unfold F. field. }
  set (S := x + y + w + r) in *.
  assert (Lx : F * x = D * rf_f2 e E / 2) by (rewrite F2; unfold x; rewrite ED at 1; field; lra).
  assert (Ly : F * y = D * D * rf_f3 e (1 - e) E / 6) by (rewrite F3; unfold y; rewrite ED at 1 2; field; lra).
  assert (Lw : F * w = - (D * D * D * rf_f2 e E / 24)). { transitivity (- (D * rf_f2 e E / 2 * (D ^ 2 / 12))); [rewrite <- Lx; unfold w; ring|field]. }
  destruct A as (D3 & D4 & D5 & A). set (e3 := (1 + S) / (1 + x * (1 + S))) in *. set (e4 := (1 + S) / (1 + x * e3 + y * (e3 * e3))) in *.
  assert (N3 : rf_den3 M e (1 - e) E = F * (1 + x * (1 + S))). { unfold rf_den3. rewrite F0, F1. replace (0.5 * - (F * D * (1 + S)) * rf_f2 e E / F) with (- (D * rf_f2 e E / 2) * (1 + S)) by (transitivity ((/ 2) * - (F * D * (1 + S)) * rf_f2 e E / F); [field; lra|f_equal; f_equal; lra]). rewrite <- Lx. ring. }
  assert (K3 : rf_d3 M e (1 - e) E = D * e3). { unfold rf_d3. rewrite N3, F0. unfold e3. field. lra. }
  assert (N4 : rf_den4 M e (1 - e) E = F * (1 + x * e3 + y * (e3 * e3))). { unfold rf_den4. rewrite K3, F1. transitivity (F + F * x * e3 + F * y * (e3 * e3)); [|ring]. rewrite Lx, Ly. lra. }
  assert (K4 : rf_d4 M e (1 - e) E = D * e4). { unfold rf_d4. rewrite N4, F0. unfold e4. field. lra. }
  assert (N5 : rf_den5 M e (1 - e) E = F * (1 + x * e4 + y * (e4 * e4) + w * (e4 * e4 * e4))). { unfold rf_den5. rewrite K4, F1. transitivity (F + F * x * e4 + F * y * (e4 * e4) + F * w * (e4 * e4 * e4)); [|ring]. rewrite Lx, Ly, Lw. lra. }
  set (e5 := (1 + S) / (1 + x * e4 + y * (e4 * e4) + w * (e4 * e4 * e4))) in *.
  assert (K5 : rf_dE M e (1 - e) E = D * e5). { unfold rf_dE. rewrite N5, F0. unfold e5. field. lra. }
  unfold refine. rewrite K5. replace (E + D * e5 - (E + D)) with ((e5 - 1) * D) by ring. rewrite Rabs_mult. apply Rmult_le_compat_r; [apply Rabs_pos|]. apply Rabs_le. wl.
Qed.
Lemma kepler_root_range M e E : 0 <= M <= PI -> 0 <= e < 1 -> kepler_eq M e E -> 0 <= E <= PI.
Proof.
  unfold kepler_eq. intros HM He HE. split; apply Rnot_lt_le; intros H; [pose proof (kep_incr e E 0 He H) as I; rewrite sin_0 in I; lra|pose proof (kep_incr e PI E He H) as I; rewrite sin_PI in I; lra].
Qed.
Lemma root_zero e E : 0 <= e < 1 -> 0 <= E -> kepler_eq 0 e E -> E = 0.
Proof. unfold kepler_eq. intros He HE H. destruct (Req_dec E 0) as [|N]; [assumption|]. pose proof (kep_incr e 0 E He ltac:(lra)) as I. rewrite sin_0 in I. lra. Qed.
Lemma starter_close M e E : 0 <= M <= PI -> 0 <= e < 1 -> kepler_eq M e E -> Rabs (starter M e (1 - e) - E) <= 0.0008 * starter M e (1 - e).
Proof.
  intros HM He HE. pose proof (kepler_root_range M e E HM He HE) as R. destruct (Req_dec M 0) as [Z|Z].
  { subst M. rewrite starter_0, (root_zero e E He (proj1 R) HE), Rminus_0_r, Rabs_R0. lra. }
  unfold kepler_eq in HE. pose proof (starter_residual M e ltac:(lra) He) as SR. cbv zeta in SR. pose proof (starter_range M e ltac:(lra) He) as RR. set (E1 := starter M e (1 - e)) in *.
  assert (P1 : 0 < E1). { destruct (Req_dec E1 0) as [N|N]; [|lra]. exfalso. rewrite N, sin_0 in SR. replace (0.00078 * 0 * (1 - e * cos 0)) with 0 in SR by ring. apply Rabs_le_between in SR. lra. }
  rewrite Rabs_minus_sym. apply (root_location M e E1 E He ltac:(lra) R HE SR).
Qed.
Lemma solve_close M e E : 0 <= M <= PI -> 0 <= e < 1 -> kepler_eq M e E -> Rabs (refine M e (1 - e) (starter M e (1 - e)) - E) <= 0.0000000000000012 * E /\ 0 <= E <= PI.
Proof.
  unfold kepler_eq. intros HM He HE.
  assert (R : 0 <= E <= PI). { split; apply Rnot_lt_le; intros H; [pose proof (kep_incr e E 0 He H) as I; rewrite sin_0 in I; lra|pose proof (kep_incr e PI E He H) as I; rewrite sin_PI in I; lra]. }
  split; [|exact R]. destruct (Req_dec M 0) as [Z|Z].
  { rewrite Z, starter_0, refine_0. assert (E = 0). { destruct (Req_dec E 0) as [|N]; [assumption|]. pose proof (kep_incr e 0 E He ltac:(lra)) as I. rewrite sin_0 in I. lra. } subst E. rewrite Rminus_0_r, Rabs_R0. lra. }
  pose proof (starter_residual M e ltac:(lra) He) as SR. cbv zeta in SR. pose proof (starter_range M e ltac:(lra) He) as RR. set (E1 := starter M e (1 - e)) in *.
  assert (P1 : 0 < E1). { destruct (Req_dec E1 0) as [N|N]; [|lra]. exfalso. rewrite N, sin_0 in SR. replace (0.00078 * 0 * (1 - e * cos 0)) with 0 in SR by ring. apply Rabs_le_between in SR. lra. }
  pose proof (root_location M e E1 E He ltac:(lra) R HE SR) as L.
  destruct (Req_dec (E - E1) 0) as [N|N].
  { replace E1 with E by lra. rewrite refine_root by exact HE. rewrite Rminus_diag_eq, Rabs_R0 by reflexivity. lra. }
  pose proof (refine_close M e E1 (E - E1) He ltac:(lra) N L) as C. replace (E1 + (E - E1)) with E in C by ring. specialize (C HE). assert (L' := L). apply Rabs_le_between in L'. lra.
Qed.

(** The true anomaly. *)
Lemma speed_bound e m : 0 <= e < 1 -> 0 <= m <= PI -> m * sqrt (1 - e ^ 2) <= 3.17 * (1 - e * cos m).
Proof.
  intros He Hm. pose proof (one_minus_ecos_pos m e He) as HF. pose proof (E2_le m Hm) as H. pose proof (COS_bound m) as Hc. assert (HE : 0 <= 1 - e ^ 2) by nra.
  apply pow_incr_inv with 2%nat || (apply Rsqr_incr_0; [|apply Rmult_le_pos; [lra|apply sqrt_pos]|lra]).
  unfold Rsqr. pose proof (sqrt_sqrt _ HE) as Q. replace (m * sqrt (1 - e ^ 2) * (m * sqrt (1 - e ^ 2))) with (m ^ 2 * (sqrt (1 - e ^ 2) * sqrt (1 - e ^ 2))) by ring. rewrite Q.
  apply Rle_trans with (5 * (1 - cos m) * (1 - e ^ 2)); [apply Rmult_le_compat_r; lra|]. set (b := 1 - cos m) in *. replace (1 - e * cos m) with (1 - e + e * b) by (unfold b; ring). assert (0 <= b <= 2) by (unfold b; lra).
  assert (T1 : 0 <= (2 - b) * ((1 - e) * (1 - e))) by (apply Rmult_le_pos; nra). assert (T2 : 0 <= b * (e * (1 - e))) by (apply Rmult_le_pos; nra). assert (T3 : 0 <= e * b * (e * b)) by apply Rle_0_sqr. assert (T4 : 0 <= (1 - e) * (1 - e)) by apply Rle_0_sqr. lra.
Qed.
Lemma true_derive e (x : R) : 0 <= e < 1 -> is_derive (fun E => sin_true E e) x (sqrt (1 - e ^ 2) * (cos x - e) / (1 - e * cos x) ^ 2)
  /\ is_derive (fun E => cos_true E e) x (- (1 - e ^ 2) * sin x / (1 - e * cos x) ^ 2).
Proof.
  intros He. pose proof (one_minus_ecos_pos x e He) as HF. pose proof (sin2_cos2 x) as U. unfold Rsqr in U. unfold sin_true, cos_true. split; (auto_derive; [lra|]).
  - set (k := sqrt _) in *. clearbody k. replace (cos x - e) with (cos x - e * (sin x * sin x + cos x * cos x)) by (rewrite U; ring). field. lra.
  - field. lra.
Qed.
Lemma true_lip e E E' : 0 <= e < 1 -> 0 <= E <= PI -> E' <= PI -> Rabs (E' - E) <= 0.0000000000000012 * E ->
  Rabs (sin_true E' e - sin_true E e) <= 0.000000000000004 /\ Rabs (cos_true E' e - cos_true E e) <= 0.000000000000004.
Proof.
  intros He HE HE' HB. destruct (Req_dec E 0) as [Z|Z]. { subst E. rewrite Rmult_0_r in HB. apply Rabs_le_between in HB. replace E' with 0 by lra. rewrite !Rminus_diag_eq, Rabs_R0 by reflexivity. lra. }
  assert (HI := HB). apply Rabs_le_between in HI.
  assert (K : forall f f' : R -> R, (forall x : R, is_derive f x (f' x)) -> (forall x, Rabs (f' x) * (1 - e * cos x) <= sqrt (1 - e ^ 2)) -> Rabs (f E' - f E) <= 0.000000000000004).
  { intros f f' D B. destruct (MVT_gen f E E' f') as (m & Hm & Em). { intros t _. apply D. } { intros t _. apply continuity_pt_filterlim, (ex_derive_continuous f). eexists. apply D. }
    assert (Bm : (1 - 0.0000000000000012) * E <= m <= PI). { unfold Rmin, Rmax in Hm. destruct (Rle_dec E E'); lra. }
    rewrite Em, Rabs_mult. specialize (B m). pose proof (speed_bound e m He ltac:(lra)) as SB. pose proof (one_minus_ecos_pos m e He) as HF. set (F := 1 - e * cos m) in *.
    assert (Rabs (f' m) * m <= 3.17). { apply (Rmult_le_reg_r F); [exact HF|]. eapply Rle_trans; [|exact SB]. apply (Rmult_le_compat_l m) in B; [|lra]. lra. }
    pose proof (Rabs_pos (f' m)). apply Rle_trans with (Rabs (f' m) * (0.0000000000000012 * (m / (1 - 0.0000000000000012)))); [|lra]. apply Rmult_le_compat_l; [lra|]. lra. }
  assert (CA : forall x, (1 - e ^ 2) * (sin x * sin x) + (cos x - e) * (cos x - e) = (1 - e * cos x) * (1 - e * cos x)). { intros x. pose proof (sin2_cos2 x) as U. unfold Rsqr in U. replace (sin x * sin x) with (1 - cos x * cos x) by lra. ring. }
  assert (HE2 : 0 <= 1 - e ^ 2) by nra. pose proof (sqrt_sqrt _ HE2) as Q. pose proof (sqrt_pos (1 - e ^ 2)) as Q0. set (k := sqrt (1 - e ^ 2)) in *.
  split.
  - apply (K (fun E => sin_true E e) (fun x => k * (cos x - e) / (1 - e * cos x) ^ 2)). { intros x. apply (true_derive e x He). }
    intros x. pose proof (one_minus_ecos_pos x e He) as HF. specialize (CA x). set (F := 1 - e * cos x) in *.
    assert (A : Rabs (cos x - e) <= F). { apply Rsqr_incr_0; [|apply Rabs_pos|lra]. rewrite <- Rsqr_abs. unfold Rsqr. assert (0 <= sin x * sin x) by apply Rle_0_sqr. nra. }
    replace (k * (cos x - e) / F ^ 2) with (k * ((cos x - e) * / (F * F))) by (field; lra). rewrite !Rabs_mult, (Rabs_right k) by lra. rewrite (Rabs_right (/ (F * F))) by (apply Rle_ge, Rlt_le, Rinv_0_lt_compat; nra).
    replace (k * (Rabs (cos x - e) * / (F * F)) * F) with (k * (Rabs (cos x - e) / F)) by (field; lra). apply Rle_trans with (k * 1); [|lra]. apply Rmult_le_compat_l; [lra|]. apply (Rmult_le_reg_r F); [exact HF|]. unfold Rdiv. rewrite Rmult_assoc, Rinv_l by lra. lra.
  - apply (K (fun E => cos_true E e) (fun x => - (1 - e ^ 2) * sin x / (1 - e * cos x) ^ 2)). { intros x. apply (true_derive e x He). }
    intros x. pose proof (one_minus_ecos_pos x e He) as HF. specialize (CA x). set (F := 1 - e * cos x) in *.
    assert (A : Rabs (k * sin x) <= F). { apply Rsqr_incr_0; [|apply Rabs_pos|lra]. rewrite <- Rsqr_abs. unfold Rsqr. assert (0 <= (cos x - e) * (cos x - e)) by apply Rle_0_sqr. rewrite <- Q in CA. nra. }
    replace (- (1 - e ^ 2) * sin x / F ^ 2) with (- k * ((k * sin x) * / (F * F))) by (rewrite <- Q; field; lra). rewrite Rabs_mult, Rabs_Ropp, Rabs_mult, (Rabs_right k) by lra. rewrite (Rabs_right (/ (F * F))) by (apply Rle_ge, Rlt_le, Rinv_0_lt_compat; nra).
    replace (k * (Rabs (k * sin x) * / (F * F)) * F) with (k * (Rabs (k * sin x) / F)) by (field; lra). apply Rle_trans with (k * 1); [|lra]. apply Rmult_le_compat_l; [lra|]. apply (Rmult_le_reg_r F); [exact HF|]. unfold Rdiv. rewrite Rmult_assoc, Rinv_l by lra. lra.
Qed.
Lemma kepler_eq_reflect M e E : kepler_eq (2 * PI - M) e (2 * PI - E) <-> kepler_eq M e E.
Proof.
  unfold kepler_eq. replace (sin (2 * PI - E)) with (- sin E). 2:{ replace (2 * PI - E) with (- (E - 2 * PI)) by ring. rewrite sin_neg. f_equal. rewrite <- (sin_period (E - 2 * PI) 1). f_equal. cbn. ring. } lra.
Qed.
Lemma true_reflect E e : sin_true (2 * PI - E) e = - sin_true E e /\ cos_true (2 * PI - E) e = cos_true E e.
Proof.
  assert (S : sin (2 * PI - E) = - sin E). { replace (2 * PI - E) with (- (E - 2 * PI)) by ring. rewrite sin_neg. f_equal. rewrite <- (sin_period (E - 2 * PI) 1). f_equal. cbn. ring. }
  assert (C : cos (2 * PI - E) = cos E). { replace (2 * PI - E) with (- (E - 2 * PI)) by ring. rewrite cos_neg. rewrite <- (cos_period (E - 2 * PI) 1). f_equal. cbn. ring. }
  unfold sin_true, cos_true. rewrite S, C. split; [|reflexivity]. unfold Rdiv. ring.
Qed.
(** the folded problem *)
Lemma fold_root M e E : 0 <= e < 1 -> kepler_eq (wrap_M M) e E -> kepler_eq (fold_M M) e (if high M then 2 * PI - E else E).
Proof. intros He H. unfold fold_M. destruct (high M); [|exact H]. now apply kepler_eq_reflect. Qed.
Lemma ecc_anomaly_close M e E : 0 <= e < 1 -> kepler_eq (Rmod M (2 * PI)) e E -> Rabs (ecc_anomaly M e - E) <= 0.0000000000000012 * Rmin E (2 * PI - E) /\ 0 <= E <= 2 * PI.
Proof.
  intros He H. change (kepler_eq (wrap_M M) e E) in H. pose proof (fold_M_range M) as FR. pose proof (fold_root M e E He H) as F. destruct (solve_close (fold_M M) e _ FR He F) as [C R].
  unfold ecc_anomaly. cbv zeta. set (X := refine _ _ _ _) in *. clearbody X. destruct (high M).
  - split; [|lra]. rewrite Rmin_right by lra. rewrite <- Rabs_Ropp. replace (- (2 * PI - X - E)) with (X - (2 * PI - E)) by ring. exact C.
  - split; [|lra]. rewrite Rmin_left by lra. exact C.
Qed.
Lemma away_from_pi M e E : 0 <= e < 1 -> 0 <= E <= PI -> kepler_eq M e E -> PI - M <= 2 * (PI - E).
Proof.
  unfold kepler_eq. intros He HE HK. assert (sin E <= PI - E). { rewrite <- sin_PI_x. destruct (Rle_lt_or_eq_dec E PI ltac:(lra)) as [H|H]; [pose proof (sin_lt_x (PI - E) ltac:(lra)); lra|]. rewrite H. replace (PI - PI) with 0 by ring. rewrite sin_0. lra. }
  pose proof (sin_ge_0 E ltac:(lra) ltac:(lra)). nra.
Qed.
Lemma kepler_close M e E : 0 <= e < 1 -> 0.000000000000008 <= Rabs (Rmod M (2 * PI) - PI) -> kepler_eq M e E ->
  Rabs (fst (kepler M e) - sin_true E e) <= 0.000000000000004 /\ Rabs (snd (kepler M e) - cos_true E e) <= 0.000000000000004.
Proof.
  intros He HP HK. destruct (Rmod_decomp M (2 * PI)) as [k Hk]. set (E0 := E - 2 * PI * IZR k).
  assert (HE0 : E = E0 + 2 * PI * IZR k) by (unfold E0; ring).
  assert (TS : sin_true E e = sin_true E0 e /\ cos_true E e = cos_true E0 e). { unfold sin_true, cos_true. rewrite HE0, sin_shift, cos_shift. split; reflexivity. }
  destruct TS as [-> ->].
  assert (K0 : kepler_eq (wrap_M M) e E0). { unfold kepler_eq, wrap_M in *. rewrite HE0, sin_shift in HK. lra. }
  clearbody E0. clear E HE0 HK Hk. rename E0 into E. pose proof (fold_M_range M) as FR. pose proof (fold_root M e E He K0) as F.
  destruct (solve_close (fold_M M) e _ FR He F) as [C R]. pose proof (away_from_pi _ e _ He R F) as AW. change (Rmod M (2 * PI)) with (wrap_M M) in HP.
  assert (HA : 0.000000000000008 <= PI - fold_M M). { unfold fold_M, high, Rgtb in *. destruct (Rltb PI (wrap_M M)) eqn:Hh; [apply Rltb_true in Hh; rewrite Rabs_right in HP; lra|apply Rltb_false in Hh; rewrite Rabs_left1 in HP; lra]. }
  unfold kepler, ecc_anomaly. cbv zeta. set (X := refine _ _ _ _) in *. set (Ef := if high M then 2 * PI - E else E) in *. clearbody X. pose proof pi_hi as PH.
  assert (HX : X < PI). { apply Rabs_le_between in C. nra. }
  assert (HX0 : 0 <= X). { apply Rabs_le_between in C. nra. }
  assert (CN : cos (0.5 * X) <> 0). { assert (0 < cos (0.5 * X)); [|lra]. apply cos_gt_0; lra. }
  destruct (true_lip e Ef X He R ltac:(lra) C) as [L1 L2]. unfold Ef in *. destruct (high M).
  - destruct (true_reflect E e) as [T1 T2]. rewrite T1, T2 in *. rewrite true_anomaly_reflect, (true_anomaly_spec X e He CN). cbn [fst snd]. split; [|exact L2].
    rewrite <- Rabs_Ropp. replace (- (- sin_true X e - sin_true E e)) with (sin_true X e - - sin_true E e) by ring. exact L1.
  - rewrite (true_anomaly_spec X e He CN). cbn [fst snd]. split; assumption.
Qed.
Lemma kepler_close_sat : 0 <= 0.99 < 1 /\ 0.000000000000008 <= Rabs (Rmod 1 (2 * PI) - PI) /\ exists E, kepler_eq 1 0.99 E.
Proof.
  split; [lra|]. split.
  - pose proof pi_lo. rewrite Rmod_small by lra. rewrite Rabs_left1; lra.
  - destruct (kepler_eq_exists 1 0.99) as [E HE]; [lra|]. now exists E.
Qed.
