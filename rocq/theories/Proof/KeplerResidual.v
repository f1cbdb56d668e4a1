(** The residual of the starting value of the Kepler solver. *)
From Coq Require Import Reals Lra Lia ZArith QArith Qreals List Bool Psatz.
From Coquelicot Require Import Coquelicot.
From Verif Require Import Base.RealAux Base.PolyBounds Model.Kepler Spec.KeplerSpec Proof.KeplerProof Proof.KeplerStarter.
Import ListNotations.
Open Scope Q_scope.
Definition Slo := Eval vm_compute in skipn 5 (taylor_sin 7).
Definition Shi := Eval vm_compute in skipn 5 (taylor_sin 6).
Definition sn : list Q := [1;0;-(1#24);0;1#1920;0;-(1#322560)].
Definition Clo := Eval vm_compute in pscale (1#2) (pmul sn sn).
Definition al := 7651637#1000000. Definition ah := 7651639#1000000.
Definition kl := 1298982#1000000. Definition kh := 1298983#1000000.
Definition pl := 31415926#10000000. Definition ph := 31415927#10000000.
Definition z5 (p : list Q) : list Q := 0::0::0::0::0::p.
Definition Alo := Eval vm_compute in padd [al] (pscale (kl/2) (padd [pl;0;0;-(1#6)] (z5 Slo))).
Definition Ahi := Eval vm_compute in padd [ah] (pscale (kh/2) (padd [ph;0;0;-(1#6)] (z5 Shi))).
Definition W := Eval vm_compute in [6*al;0;3].
Definition pt : list Q := [0;0;1].
Definition br A S := psub (psub [1#2] (pmul [0;0;3] S)) (pscale 6 (pmul A S)).
Definition upA (rho:Q) := psub (pscale rho (pmul Clo W)) (pmul pt (br Alo Slo)).
Definition loA (rho:Q) := padd (pscale rho (pmul Clo W)) (pmul pt (br Ahi Shi)).
Definition ra : Q := 36#100000.
Definition rb : Q := 42#100000.
Definition ta : Q := 172#1000.
Definition cosu := Eval vm_compute in taylor_cos 4.
Definition Ghi := Eval vm_compute in padd [ph;-(2#1);0;1#6] (pscale (-1) (z5 Slo)).
Definition pB1 (rho:Q) := psub (pscale rho W) (pscale (3*kh) (pmul (pmul [0;0;0;0;1] (pmul Ghi Shi)) (padd [ta] (pscale ((1#2)-ta) cosu)))).
Definition pB2 (rho:Q) := psub (pscale rho W) (pscale (3*kh*ta) (pmul [0;0;0;0;1] (pmul Ghi Shi))).
Lemma ck1 : check 100 6 (upA ra) 0 202 = true. Proof. vm_compute. reflexivity. Qed.
Lemma ck2 : check 100 6 (loA ra) 0 202 = true. Proof. vm_compute. reflexivity. Qed.
Lemma ck3 : check 100 6 Alo 0 202 = true. Proof. vm_compute. reflexivity. Qed.
Lemma ck4 : check 100 6 Slo 0 202 = true. Proof. vm_compute. reflexivity. Qed.
Lemma ck5 : check 100 6 (pB1 rb) 0 101 = true. Proof. vm_compute. reflexivity. Qed.
Lemma ck6 : check 100 6 (pB2 rb) 100 202 = true. Proof. vm_compute. reflexivity. Qed.
Lemma ck7 : check 100 6 sn 0 202 = true. Proof. vm_compute. reflexivity. Qed.
Open Scope R_scope.
Ltac qr := unfold Q2R; cbn; lra.
Lemma range202 x : 0 <= x <= PI -> IZR 0 <= IZR (2 ^ Zpos 6) * x < IZR 202.
Proof. intros H. pose proof pi_hi. cbn. lra. Qed.

Lemma sin_form E : 0 < E <= PI -> exists S, sin E = E - E ^ 3 / 6 + E ^ 5 * S /\ 0 <= peval Slo E <= S /\ S <= peval Shi E.
Proof.
  intros HE. exists ((sin E - E + E ^ 3 / 6) / E ^ 5). assert (P5 : 0 < E ^ 5) by (apply pow_lt; lra).
  assert (F7 : taylor_sin 7 = 0%Q :: 1%Q :: 0%Q :: (-1#6)%Q :: 0%Q :: Slo) by (vm_compute; reflexivity).
  assert (F6 : taylor_sin 6 = 0%Q :: 1%Q :: 0%Q :: (-1#6)%Q :: 0%Q :: Shi) by (vm_compute; reflexivity).
  destruct (taylor_lower 3 E ltac:(lra)) as [_ L]. destruct (taylor_upper 3 E ltac:(lra)) as [_ U]. cbn [Nat.mul Nat.add] in L, U. rewrite F7 in L. rewrite F6 in U.
  cbn [peval] in L, U. rewrite !Q2R_0, !Q2R_1 in L, U. replace (Q2R (-1 # 6)) with (-1/6) in L, U by qr.
  split; [|split; [split|]].
  - field. lra.
  - apply (check_sound 100 6 Slo 0 202 ltac:(lia) ck4). apply range202. lra.
  - apply (Rmult_le_reg_r (E ^ 5)); [exact P5|]. unfold Rdiv. rewrite Rmult_assoc, Rinv_l by lra. cbn [pow]. nra.
  - apply (Rmult_le_reg_r (E ^ 5)); [exact P5|]. unfold Rdiv at 1. rewrite Rmult_assoc, Rinv_l by lra. cbn [pow]. nra.
Qed.
Lemma cos_form E : 0 <= E <= PI -> E ^ 2 * peval Clo E <= 1 - cos E.
Proof.
  intros HE. assert (F : taylor_sin 3 = [0; 1; 0; -1#6; 0; 1#120; 0; -1#5040]%Q) by (vm_compute; reflexivity).
  destruct (taylor_lower 1 (E / 2) ltac:(lra)) as [_ L]. cbn [Nat.mul Nat.add] in L. rewrite F in L.
  assert (P : 0 <= peval sn E). { apply (check_sound 100 6 sn 0 202 ltac:(lia) ck7). now apply range202. }
  assert (Q : peval [0; 1; 0; -1#6; 0; 1#120; 0; -1#5040]%Q (E/2) = E / 2 * peval sn E).
  { cbn [peval sn]. rewrite ?Q2R_0, ?Q2R_1. unfold Q2R. cbn [Qnum Qden Qopp Z.opp]. field. }
  rewrite Q in L. replace (cos E) with (1 - 2 * sin (E / 2) * sin (E / 2)) by (rewrite <- cos_2a_sin; f_equal; field).
  change Clo with (pscale (1#2) (pmul sn sn)). rewrite peval_scale, peval_mul. replace (Q2R (1#2)) with (1/2) by qr.
  assert (H0 : 0 <= E / 2 * peval sn E) by (apply Rmult_le_pos; lra). assert (H := Rmult_le_compat _ _ _ _ H0 H0 L L).
  replace (E ^ 2 * (1 / 2 * (peval sn E * peval sn E))) with (2 * (E / 2 * peval sn E * (E / 2 * peval sn E))) by field. lra.
Qed.
(** The part of the cubic that does not depend on the eccentricity. *)
Definition stA (E : R) : R := al0 + kap * (PI - E + sin E) / 2.
Lemma claim_A E : 0 < E <= PI ->
  Rabs (3 * E ^ 2 * (E - sin E) - stA E * (E ^ 3 - 6 * E + 6 * sin E)) <= 0.00036 * E * (1 - cos E) * (6 * Q2R al + 3 * E ^ 2).
Proof.
  intros HE. destruct (sin_form E HE) as (S & ES & (HS0 & HS1) & HS2). pose proof (cos_form E ltac:(lra)) as HC.
  pose proof (check_sound 100 6 _ 0 202 ltac:(lia) ck1 E (range202 E ltac:(lra))) as K1.
  pose proof (check_sound 100 6 _ 0 202 ltac:(lia) ck2 E (range202 E ltac:(lra))) as K2.
  pose proof (check_sound 100 6 _ 0 202 ltac:(lia) ck3 E (range202 E ltac:(lra))) as K3.
  pose proof al0_bounds as HA. pose proof kap_bounds as HK. pose proof pi_lo as PL. pose proof pi_hi as PH.
  assert (X0 : 0 <= PI - E + sin E). { pose proof (sin_ge_0 E ltac:(lra) ltac:(lra)). lra. }
  assert (EA : Q2R al = 7.651637) by qr.
  assert (E5 : 0 < E ^ 5) by (apply pow_lt; lra).
  assert (A1 : peval Alo E <= stA E).
  { change Alo with (padd [al] (pscale (kl/2) (padd [pl;0;0;-(1#6)]%Q (z5 Slo)))). rewrite peval_add, peval_scale, peval_add. unfold z5. cbn [peval].
    rewrite !Q2R_0. replace (Q2R (kl / 2)) with (1.298982 / 2) by qr. replace (Q2R pl) with 3.1415926 by qr. replace (Q2R (-(1#6))) with (-1/6) by qr. rewrite EA.
    unfold stA. assert (3.1415926 - E ^ 3 / 6 + E ^ 5 * peval Slo E <= PI - E + sin E) by nra.
    assert (1.298982 * (3.1415926 - E ^ 3 / 6 + E ^ 5 * peval Slo E) <= kap * (PI - E + sin E)) by nra. lra. }
  assert (A2 : stA E <= peval Ahi E).
  { change Ahi with (padd [ah] (pscale (kh/2) (padd [ph;0;0;-(1#6)]%Q (z5 Shi)))). rewrite peval_add, peval_scale, peval_add. unfold z5. cbn [peval].
    rewrite !Q2R_0. replace (Q2R (kh / 2)) with (1.298983 / 2) by qr. replace (Q2R ph) with 3.1415927 by qr. replace (Q2R (-(1#6))) with (-1/6) by qr. replace (Q2R ah) with 7.651639 by qr.
    unfold stA. assert (PI - E + sin E <= 3.1415927 - E ^ 3 / 6 + E ^ 5 * peval Shi E) by nra.
    assert (kap * (PI - E + sin E) <= 1.298983 * (3.1415927 - E ^ 3 / 6 + E ^ 5 * peval Shi E)) by nra. lra. }
  unfold upA in K1. unfold loA in K2. unfold br in K1, K2. rewrite peval_sub, peval_scale, !peval_mul, !peval_sub, peval_scale, !peval_mul in K1. rewrite peval_add, peval_scale, !peval_mul, !peval_sub, peval_scale, !peval_mul in K2.
  assert (EW : peval W E = 6 * Q2R al + 3 * E ^ 2). { unfold W. cbn [peval]. rewrite EA. qr. }
  rewrite EW in K1, K2. unfold pt in K1, K2. cbn [peval] in K1, K2. rewrite !Q2R_0, ?Q2R_1 in K1, K2.
  replace (Q2R (1#2)) with (1/2) in K1, K2 by qr. replace (Q2R 3) with 3 in K1, K2 by qr. replace (Q2R 6) with 6 in K1, K2 by qr. replace (Q2R ra) with 0.00036 in K1, K2 by qr. rewrite EA in *.
  set (A := stA E) in *. set (sl := peval Slo E) in *. set (sh := peval Shi E) in *. set (a1 := peval Alo E) in *. set (a2 := peval Ahi E) in *. set (C := peval Clo E) in *.
  replace (3 * E ^ 2 * (E - sin E) - A * (E ^ 3 - 6 * E + 6 * sin E)) with (E ^ 5 * (1/2 - 3 * E ^ 2 * S - 6 * (A * S))) by (rewrite ES; field).
  assert (P1 : a1 * sl <= A * S) by (apply Rmult_le_compat; lra).
  assert (P2 : A * S <= a2 * sh) by (apply Rmult_le_compat; lra).
  assert (E2 : 0 < E ^ 2) by (apply pow_lt; lra). assert (E3 : 0 < E ^ 3) by (apply pow_lt; lra).
  assert (B : 0.00036 * (E ^ 3 * C) * (6 * 7.651637 + 3 * E ^ 2) <= 0.00036 * E * (1 - cos E) * (6 * 7.651637 + 3 * E ^ 2)).
  { apply Rmult_le_compat_r; [lra|]. replace (E ^ 3 * C) with (E * (E ^ 2 * C)) by ring. assert (E * (E ^ 2 * C) <= E * (1 - cos E)) by (apply Rmult_le_compat_l; lra). lra. }
  assert (Q1 : 3 * E ^ 2 * sl <= 3 * E ^ 2 * S) by nra. assert (Q2 : 3 * E ^ 2 * S <= 3 * E ^ 2 * sh) by nra.
  assert (U : E ^ 2 * (1/2 - 3 * E ^ 2 * S - 6 * (A * S)) <= 0.00036 * C * (6 * 7.651637 + 3 * E ^ 2)).
  { apply Rle_trans with (E ^ 2 * (1/2 - 3 * E ^ 2 * sl - 6 * (a1 * sl))); [apply Rmult_le_compat_l; lra|]. nra. }
  assert (L : - (0.00036 * C * (6 * 7.651637 + 3 * E ^ 2)) <= E ^ 2 * (1/2 - 3 * E ^ 2 * S - 6 * (A * S))).
  { apply Rle_trans with (E ^ 2 * (1/2 - 3 * E ^ 2 * sh - 6 * (a2 * sh))); [|apply Rmult_le_compat_l; lra]. nra. }
  replace (E ^ 5 * (1/2 - 3 * E ^ 2 * S - 6 * (A * S))) with (E ^ 3 * (E ^ 2 * (1/2 - 3 * E ^ 2 * S - 6 * (A * S)))) by ring. 
  eapply Rle_trans; [|exact B]. replace (0.00036 * (E ^ 3 * C) * (6 * 7.651637 + 3 * E ^ 2)) with (E ^ 3 * (0.00036 * C * (6 * 7.651637 + 3 * E ^ 2))) by ring.
  set (X := E ^ 2 * (1/2 - 3 * E ^ 2 * S - 6 * (A * S))) in *. rewrite Rabs_mult, (Rabs_right (E ^ 3)) by lra. apply Rmult_le_compat_l; [lra|]. apply Rabs_le. lra.
Qed.
Lemma ecc_factor e c : 0 <= e < 1 -> 0 <= c <= 1 -> e * (1 - e) <= (0.172 + 0.328 * c) * ((1 + e) * (1 - e * c)).
Proof.
  intros He Hc. assert (F0 : 0 <= 0.172 * (1 + e) - e * (1 - e)). { assert (Y := Rle_0_sqr (e - 0.414)). unfold Rsqr in Y. lra. } assert (F1 : 0 <= 0.5 * ((1 + e) * (1 - e)) - e * (1 - e)). { assert (Y := Rle_0_sqr (1 - e)). unfold Rsqr in Y. lra. }
  assert (G : 0 <= 0.328 * e * (1 + e) * (c * (1 - c))). { apply Rmult_le_pos; nra. }
  assert (0 <= (1 - c) * (0.172 * (1 + e) - e * (1 - e))) by (apply Rmult_le_pos; lra). assert (0 <= c * (0.5 * ((1 + e) * (1 - e)) - e * (1 - e))) by (apply Rmult_le_pos; lra).
  nra.
Qed.
Lemma ecc_factor_neg e c : 0 <= e < 1 -> c <= 0 -> e * (1 - e) <= 0.172 * ((1 + e) * (1 - e * c)).
Proof. intros He Hc. assert (F0 : 0 <= 0.172 * (1 + e) - e * (1 - e)). { assert (Y := Rle_0_sqr (e - 0.414)). unfold Rsqr in Y. lra. } assert (0 <= - c * (e * (1 + e))) by (apply Rmult_le_pos; nra). nra. Qed.
Lemma claim_B E e : 0 < E <= PI -> 0 <= e < 1 ->
  0 <= kap * (PI - E - sin E) * (E ^ 3 - 6 * E + 6 * sin E) * (e * (1 - e)) / (2 * (1 + e)) <= 0.00042 * E * (1 - e * cos E) * (6 * Q2R al + 3 * E ^ 2).
Proof.
  intros HE He. destruct (sin_form E HE) as (S & ES & (HS0 & HS1) & HS2). pose proof kap_bounds as HK. pose proof pi_lo as PL. pose proof pi_hi as PH.
  assert (EV : E ^ 3 - 6 * E + 6 * sin E = 6 * (E ^ 5 * S)) by (rewrite ES; field). rewrite EV.
  assert (G0 : 0 <= PI - E - sin E). { rewrite <- sin_PI_x. destruct (Rle_lt_or_eq_dec E PI ltac:(lra)) as [H|H]; [pose proof (sin_lt_x (PI - E) ltac:(lra)); lra|]. rewrite H. replace (PI - PI) with 0 by ring. rewrite sin_0. lra. }
  assert (EA : Q2R al = 7.651637) by qr. assert (E5 : 0 < E ^ 5) by (apply pow_lt; lra). assert (E4 : 0 < E ^ 4) by (apply pow_lt; lra).
  assert (G1 : PI - E - sin E <= peval Ghi E).
  { change Ghi with (padd [ph;-(2#1);0;1#6]%Q (pscale (-1) (z5 Slo))). rewrite peval_add, peval_scale. unfold z5. cbn [peval]. rewrite !Q2R_0.
    replace (Q2R (-1)) with (-1) by qr. replace (Q2R ph) with 3.1415927 by qr. replace (Q2R (-(2#1))) with (-2) by qr. replace (Q2R (1#6)) with (1/6) by qr. rewrite ES. nra. }
  assert (D : 0 < 1 - e * cos E) by (apply one_minus_ecos_pos; lra).
  assert (Core : forall k, 0 <= k -> e * (1 - e) <= k * ((1 + e) * (1 - e * cos E)) -> 3 * 1.298983 * (E ^ 4 * (peval Ghi E * peval Shi E)) * k <= 0.00042 * (6 * Q2R al + 3 * E ^ 2) ->
    0 <= kap * (PI - E - sin E) * (6 * (E ^ 5 * S)) * (e * (1 - e)) / (2 * (1 + e)) <= 0.00042 * E * (1 - e * cos E) * (6 * Q2R al + 3 * E ^ 2)).
  { intros k Hk Hf Hb. assert (P0 : 0 <= kap * (PI - E - sin E) * (6 * (E ^ 5 * S))). { apply Rmult_le_pos; [apply Rmult_le_pos; lra|]. apply Rmult_le_pos; [lra|]. apply Rmult_le_pos; lra. }
    assert (e * (1 - e) / (2 * (1 + e)) <= k * (1 - e * cos E) / 2).
    { apply (Rmult_le_reg_r (2 * (1 + e))); [lra|]. unfold Rdiv at 1. rewrite Rmult_assoc, Rinv_l by lra. lra. }
    assert (0 <= e * (1 - e) / (2 * (1 + e))). { apply Rle_mult_inv_pos; nra. }
    unfold Rdiv. rewrite Rmult_assoc. fold (Rdiv (e * (1 - e)) (2 * (1 + e))). split; [apply Rmult_le_pos; lra|].
    apply Rle_trans with (kap * (PI - E - sin E) * (6 * (E ^ 5 * S)) * (k * (1 - e * cos E) / 2)); [apply Rmult_le_compat_l; lra|].
    assert (B1 : kap * ((PI - E - sin E) * S) <= 1.298983 * (peval Ghi E * peval Shi E)). { apply Rmult_le_compat; [lra| |lra|]. { apply Rmult_le_pos; lra. } apply Rmult_le_compat; lra. }
    assert (B2 : 3 * (kap * ((PI - E - sin E) * S)) * E ^ 4 * k <= 0.00042 * (6 * Q2R al + 3 * E ^ 2)).
    { eapply Rle_trans; [|exact Hb]. apply Rmult_le_compat_r; [exact Hk|]. replace (3 * 1.298983 * (E ^ 4 * (peval Ghi E * peval Shi E))) with (3 * (1.298983 * (peval Ghi E * peval Shi E)) * E ^ 4) by ring. apply Rmult_le_compat_r; lra. }
    replace (kap * (PI - E - sin E) * (6 * (E ^ 5 * S)) * (k * (1 - e * cos E) / 2)) with (3 * (kap * ((PI - E - sin E) * S)) * E ^ 4 * k * (E * (1 - e * cos E))) by field.
    replace (0.00042 * E * (1 - e * cos E) * (6 * Q2R al + 3 * E ^ 2)) with (0.00042 * (6 * Q2R al + 3 * E ^ 2) * (E * (1 - e * cos E))) by ring. apply Rmult_le_compat_r; [|exact B2]. apply Rmult_le_pos; lra. }
  assert (EW : peval W E = 6 * Q2R al + 3 * E ^ 2). { unfold W. cbn [peval]. rewrite EA. qr. }
  destruct (Rle_lt_dec E (PI / 2)) as [H|H].
  - assert (C0 : 0 <= cos E) by (apply cos_ge_0; lra). pose proof (COS_bound E) as CB.
    destruct (taylor_upper 2 E ltac:(lra)) as [CU _]. cbn [Nat.mul Nat.add] in CU. change (taylor_cos 4) with cosu in CU.
    assert (K : 0 <= peval (pB1 rb) E) by (apply (check_sound 100 6 _ 0 101 ltac:(lia) ck5); cbn; lra).
    unfold pB1 in K. rewrite peval_sub, !peval_scale, !peval_mul, peval_add, peval_scale, EW in K.
    apply (Core (0.172 + 0.328 * cos E)); [lra|apply ecc_factor; lra|].
    replace (peval [0; 0; 0; 0; 1]%Q E) with (E ^ 4) in K by (cbn [peval]; rewrite !Q2R_0, Q2R_1; ring). replace (peval [ta] E) with 0.172 in K by (cbn [peval]; qr).
    replace (Q2R ((1#2) - ta)) with 0.328 in K by qr. replace (Q2R (3 * kh)) with (3 * 1.298983) in K by qr. replace (Q2R rb) with 0.00042 in K by qr.
    eapply Rle_trans; [apply Rmult_le_compat_l; [|apply Rplus_le_compat_l, Rmult_le_compat_l; [|exact CU]]; [|lra]|lra].
    apply Rmult_le_pos; [lra|]. apply Rmult_le_pos; [lra|]. apply Rmult_le_pos; lra.
  - assert (C0 : cos E <= 0) by (apply cos_le_0; lra).
    assert (K : 0 <= peval (pB2 rb) E) by (apply (check_sound 100 6 _ 100 202 ltac:(lia) ck6); cbn; lra).
    unfold pB2 in K. rewrite peval_sub, !peval_scale, !peval_mul, EW in K.
    apply (Core 0.172); [lra|apply ecc_factor_neg; lra|].
    replace (peval [0; 0; 0; 0; 1]%Q E) with (E ^ 4) in K by (cbn [peval]; rewrite !Q2R_0, Q2R_1; ring).
    replace (Q2R (3 * kh * ta)) with (3 * 1.298983 * 0.172) in K by qr. replace (Q2R rb) with 0.00042 in K by qr. lra.
Qed.
Lemma starter_residual M e : 0 < M <= PI -> 0 <= e < 1 -> let E := starter M e (1 - e) in
  Rabs (E - e * sin E - M) <= 0.00078 * E * (1 - e * cos E).
Proof.
  intros HM He E. pose proof (starter_range M e ltac:(lra) He) as HR. pose proof (starter_cubic M e ltac:(lra) He) as C. cbv zeta in C. fold E in HR, C.
  pose proof (st_alpha_form M e) as HA. pose proof (st_alpha_ge M e ltac:(lra) He) as HG. set (a := st_alpha M e) in *. clearbody E a.
  assert (E0 : 0 < E). { destruct (Req_dec E 0) as [Z|Z]; [|lra]. exfalso. rewrite Z in C. pose proof al0_bounds. nra. }
  pose proof (claim_A E ltac:(lra)) as A. pose proof (claim_B E e ltac:(lra) He) as B. pose proof al0_bounds as B0. pose proof kap_bounds as BK. assert (EA : Q2R al = 7.651637) by qr. rewrite EA in A, B.
  assert (D : 0 < 1 - e * cos E) by (apply one_minus_ecos_pos; lra). destruct (sin_form E ltac:(lra)) as (S & ES & (HS0 & HS1) & _). assert (E5 : 0 < E ^ 5) by (apply pow_lt; lra).
  assert (V : 0 <= E ^ 3 - 6 * E + 6 * sin E) by (rewrite ES; nra).
  set (v := E ^ 3 - 6 * E + 6 * sin E) in *. set (d := E - e * sin E - M). set (g := PI - E - sin E) in *. set (NA := 3 * E ^ 2 * (E - sin E) - stA E * v) in *. set (T := kap * g * v * (e * (1 - e)) / (2 * (1 + e))) in *.
  assert (Ha : a = stA E + kap * g * (1 - e) / (2 * (1 + e)) + kap * d / (1 + e)). { rewrite HA. unfold stA, g, d. field. lra. }
  assert (H1 : (6 * a + 3 * E ^ 2) * d = e * (3 * E ^ 2 * (E - sin E) - a * v)). { unfold d, v. replace (E - e * sin E - M) with ((E - M) - e * sin E) by ring. rewrite Rmult_minus_distr_l, C. ring. }
  assert (H2 : d * (6 * a + 3 * E ^ 2 + kap * e * v / (1 + e)) = e * NA - T). { rewrite Rmult_plus_distr_l, (Rmult_comm d), H1. unfold NA, T. rewrite Ha at 1. field. lra. }
  assert (P : 0 <= kap * e * v / (1 + e)). { apply Rle_mult_inv_pos; [|lra]. apply Rmult_le_pos; [nra|exact V]. }
  pose proof (pow2_ge_0 E) as E2. pose proof (COS_bound E) as CB.
  assert (U : Rabs (e * NA - T) <= 0.00078 * E * (1 - e * cos E) * (6 * 7.651637 + 3 * E ^ 2)).
  { eapply Rle_trans; [apply Rabs_triang|]. rewrite Rabs_Ropp, Rabs_mult, (Rabs_right e), (Rabs_right T) by lra.
    assert (e * Rabs NA <= 0.00036 * E * (1 - e * cos E) * (6 * 7.651637 + 3 * E ^ 2)).
    { apply Rle_trans with (e * (0.00036 * E * (1 - cos E) * (6 * 7.651637 + 3 * E ^ 2))); [apply Rmult_le_compat_l; lra|].
      replace (e * (0.00036 * E * (1 - cos E) * (6 * 7.651637 + 3 * E ^ 2))) with (0.00036 * E * (e * (1 - cos E)) * (6 * 7.651637 + 3 * E ^ 2)) by ring. apply Rmult_le_compat_r; [lra|]. apply Rmult_le_compat_l; lra. }
    lra. }
  rewrite <- H2, Rabs_mult, (Rabs_right (6 * a + _ + _)) in U by lra.
  apply (Rmult_le_reg_r (6 * 7.651637 + 3 * E ^ 2)); [lra|]. eapply Rle_trans; [|exact U]. apply Rmult_le_compat_l; [apply Rabs_pos|]. lra.
Qed.
