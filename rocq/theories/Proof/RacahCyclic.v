(** Racah's formula is invariant under cyclic permutations; the single symbols and the Clebsch-Gordan coefficients. *)
From Coq Require Import Reals Lra Lia ZArith List Bool.
From Verif Require Import Base.RealAux Model.Wigner3j Spec.Wigner3jSpec Proof.RacahSum Proof.Racah Proof.RacahNorm Proof.RacahMain Proof.Wigner3jMain.
Open Scope R_scope.

(** sums over all integers of a function with finite support *)
Lemma bigsum_app n d (f : nat -> R) : bigsum (d + n) f = bigsum d f + bigsum n (fun k => f (d + k)%nat).
Proof. induction n as [|n IH]; [rewrite Nat.add_0_r; cbn [bigsum]; ring|]. rewrite Nat.add_succ_r. cbn [bigsum]. rewrite IH. ring. Qed.
Lemma bigsum_window (F : Z -> R) lo hi a (n : nat) : (forall z, ~ (lo <= z < hi)%Z -> F z = 0) -> (a <= lo)%Z -> (hi <= a + Z.of_nat n)%Z -> (lo <= hi)%Z ->
  bigsum n (fun k => F (a + Z.of_nat k)%Z) = bigsum (Z.to_nat (hi - lo)) (fun k => F (lo + Z.of_nat k)%Z).
Proof.
  intros H H1 H2 H3. set (d := Z.to_nat (lo - a)). set (l := Z.to_nat (hi - lo)). set (r := Z.to_nat (a + Z.of_nat n - hi)).
  replace n with (d + (l + r))%nat by (unfold d, l, r; lia). rewrite bigsum_app, bigsum_app.
  rewrite (bigsum_ext d _ (fun _ => 0)) by (intros k Hk; apply H; unfold d in Hk; lia). rewrite bigsum_zero.
  rewrite (bigsum_ext r _ (fun _ => 0)) by (intros k Hk; apply H; unfold d, l in *; lia). rewrite bigsum_zero.
  rewrite Rplus_0_l, Rplus_0_r. apply bigsum_ext. intros k _. f_equal. unfold d. lia.
Qed.
Lemma term_support j j2 j3 m2 m3 k : ~ (0 <= k <= j2 - m2)%Z -> racah_term j j2 j3 m2 m3 k = 0.
Proof.
  intros H. unfold racah_term. destruct (Z.ltb_spec k 0); [rewrite (inv_fact_neg k) by lia; ring|]. rewrite (inv_fact_neg (j2 - m2 - k)) by lia. ring.
Qed.
Lemma parity_add a b : parity_sign (a + b) = parity_sign a * parity_sign b.
Proof. unfold parity_sign. rewrite Z.even_add. destruct (Z.even a), (Z.even b); cbn; ring. Qed.
Lemma parity_eq a b c : (a - b = 2 * c)%Z -> parity_sign a = parity_sign b.
Proof. intros H. unfold parity_sign. replace a with (b + 2 * c)%Z by lia. now rewrite Z.even_add_mul_2. Qed.
Lemma term_cyclic j1 j2 j3 m1 m2 m3 k : (m1 + m2 + m3 = 0)%Z ->
  racah_term j3 j1 j2 m1 m2 (k + (j1 - j3 + m2)) = parity_sign (j1 - j3 + m2) * racah_term j1 j2 j3 m2 m3 k.
Proof.
  intros H. unfold racah_term. rewrite parity_add.
  replace (k + (j1 - j3 + m2))%Z with (j1 - j3 + m2 + k)%Z by ring.
  replace (j1 + j2 - j3 - (j1 - j3 + m2 + k))%Z with (j2 - m2 - k)%Z by ring. replace (j1 - m1 - (j1 - j3 + m2 + k))%Z with (j3 + m3 - k)%Z by lia.
  replace (j2 + m2 - (j1 - j3 + m2 + k))%Z with (j2 + j3 - j1 - k)%Z by ring. replace (j3 - j2 + m1 + (j1 - j3 + m2 + k))%Z with (j1 - j2 - m3 + k)%Z by lia.
  replace (j3 - j1 - m2 + (j1 - j3 + m2 + k))%Z with k by ring. ring.
Qed.
Lemma sum_cyclic j1 j2 j3 m1 m2 m3 : (m1 + m2 + m3 = 0)%Z -> (Z.abs m1 <= j1)%Z -> (Z.abs m2 <= j2)%Z ->
  racah_sum j3 j1 j2 m1 m2 = parity_sign (j1 - j3 + m2) * racah_sum j1 j2 j3 m2 m3.
Proof.
  intros H H1 H2. set (s := (j1 - j3 + m2)%Z). unfold racah_sum. rewrite <- bigsum_scal.
  set (F := fun z => racah_term j3 j1 j2 m1 m2 z).
  assert (FA : forall z, ~ (0 <= z < j1 - m1 + 1)%Z -> F z = 0) by (intros z Hz; apply term_support; lia).
  assert (FB : forall z, ~ (s <= z < s + (j2 - m2 + 1))%Z -> F z = 0).
  { intros z Hz. unfold F. replace z with ((z - s) + s)%Z by ring. unfold s. rewrite (term_cyclic j1 j2 j3 m1 m2 m3) by exact H. rewrite term_support by (fold s; lia). ring. }
  set (a := Z.min 0 s). set (n := Z.to_nat (Z.max (2 * j1 + 1) (s + 2 * j2 + 1) - a)).
  transitivity (bigsum n (fun k => F (a + Z.of_nat k)%Z)).
  - rewrite (bigsum_window F 0 (j1 - m1 + 1) a n FA) by (unfold n, a; lia). symmetry.
    rewrite <- (bigsum_window F 0 (j1 - m1 + 1) 0 (Z.to_nat (2 * j1 + 1)) FA) by lia. apply bigsum_ext. intros k _. reflexivity.
  - rewrite (bigsum_window F s (s + (j2 - m2 + 1)) a n FB) by (unfold n, a; lia).
    rewrite <- (bigsum_window F s (s + (j2 - m2 + 1)) s (Z.to_nat (2 * j2 + 1)) FB) by lia.
    apply bigsum_ext. intros k _. unfold F. rewrite (Z.add_comm s). apply term_cyclic, H.
Qed.
Lemma weight_cyclic j1 j2 j3 m1 m2 m3 : (m1 + m2 + m3 = 0)%Z -> racah_weight j3 j1 j2 m1 m2 = racah_weight j1 j2 j3 m2 m3.
Proof.
  intros H. unfold racah_weight. replace (m1 + m2)%Z with (- m3)%Z by lia. replace (m2 + m3)%Z with (- m1)%Z by lia.
  replace (j3 + j1 - j2)%Z with (j1 - j2 + j3)%Z by ring. replace (j3 - j1 + j2)%Z with (j2 + j3 - j1)%Z by ring. replace (j1 + j2 - j3)%Z with (j1 + j2 - j3)%Z by ring.
  replace (j3 + j1 + j2 + 1)%Z with (j1 + j2 + j3 + 1)%Z by ring. rewrite !Z.add_opp_r, !Z.sub_opp_r. pose proof (zfact_pos (j1 + j2 + j3 + 1)). field. lra.
Qed.
Theorem racah_cyclic j1 j2 j3 m1 m2 m3 : (m1 + m2 + m3 = 0)%Z -> (Z.abs m1 <= j1)%Z -> (Z.abs m2 <= j2)%Z ->
  racah_3j j1 j2 m1 m2 j3 = racah_3j j2 j3 m2 m3 j1.
Proof.
  intros H H1 H2. rewrite !racah_amp. unfold amp. rewrite (weight_cyclic j1 j2 j3 m1 m2 m3 H), (sum_cyclic j1 j2 j3 m1 m2 m3 H H1 H2).
  rewrite (parity_eq (j2 - j3 + m2 + m3) ((j1 - j2 + m1 + m2) + (j1 - j3 + m2)) (j2 - j1 + m3)) by lia.
  rewrite (parity_add (j1 - j2 + m1 + m2) (j1 - j3 + m2)). ring.
Qed.
(** the single symbols *)
Theorem Wigner3j_racah j1 j2 j3 m1 m2 m3 : (m1 + m2 + m3 = 0)%Z -> (Z.abs m1 <= j1)%Z -> (Z.abs m2 <= j2)%Z -> (Z.abs m3 <= j3)%Z ->
  Wigner3j j1 j2 j3 m1 m2 m3 = Ok (racah_3j j2 j3 m2 m3 j1).
Proof.
  intros H H1 H2 H3.
  assert (C1 : racah_3j j1 j2 m1 m2 j3 = racah_3j j2 j3 m2 m3 j1) by (now apply racah_cyclic).
  assert (C2 : racah_3j j3 j1 m3 m1 j2 = racah_3j j1 j2 m1 m2 j3) by (apply racah_cyclic; lia).
  unfold Wigner3j. rewrite (proj2 (Z.eqb_eq _ _) H). cbn [negb].
  replace ((Z.abs m1 >? j1) || (Z.abs m2 >? j2) || (Z.abs m3 >? j3))%Z with false
    by (symmetry; rewrite !Z.gtb_ltb; apply orb_false_iff; split; [apply orb_false_iff; split|]; apply Z.ltb_ge; lia).
  assert (K : forall a b c p q, (Z.abs p <= b)%Z -> (Z.abs q <= c)%Z -> (if (a >? b + c)%Z then Ok 0 else rbind (w3j_calculate b c p q) (fun w => Ok (w a))) = Ok (racah_3j b c p q a)).
  { intros a b c p q Hp Hq. rewrite Z.gtb_ltb. destruct (Z.ltb_spec (b + c) a).
    - rewrite racah_amp, amp_zero by lia. now rewrite Rmult_0_r.
    - destruct (calculate_racah b c p q Hp Hq) as (f & -> & E). cbn [rbind]. now rewrite E. }
  destruct (Z.eqb_spec j1 (Z.max j1 (Z.max j2 j3))); [now apply K|].
  destruct (Z.eqb_spec j2 (Z.max j1 (Z.max j2 j3))); rewrite K by assumption; [now rewrite C2, C1|now rewrite C1].
Qed.
Theorem Wigner3j_total j1 j2 j3 m1 m2 m3 :
  Wigner3j j1 j2 j3 m1 m2 m3 = Ok (if ((m1 + m2 + m3 =? 0) && (Z.abs m1 <=? j1) && (Z.abs m2 <=? j2) && (Z.abs m3 <=? j3))%Z%bool then racah_3j j2 j3 m2 m3 j1 else 0).
Proof.
  destruct ((m1 + m2 + m3 =? 0) && (Z.abs m1 <=? j1) && (Z.abs m2 <=? j2) && (Z.abs m3 <=? j3))%Z%bool eqn:E.
  - rewrite !andb_true_iff, !Z.leb_le, Z.eqb_eq in E. apply Wigner3j_racah; tauto.
  - apply Wigner3j_selection. rewrite !andb_false_iff, !Z.leb_gt, Z.eqb_neq in E. unfold allowed_3j. lia.
Qed.
(** the Clebsch-Gordan coefficients are orthonormal *)
Theorem cg_value j1 m1 j2 m2 j3 m3 : (Z.abs m1 <= j1)%Z -> (Z.abs m2 <= j2)%Z -> (m1 + m2 = m3)%Z ->
  clebsch_gordan j1 m1 j2 m2 j3 m3 = Ok (parity_sign (j1 - j2 + m3) * sqrt (IZR (2 * j3 + 1)) * racah_3j j1 j2 m1 m2 j3).
Proof.
  intros H1 H2 H. unfold clebsch_gordan. destruct (Z.leb_spec (Z.abs m3) j3) as [H3|H3].
  - rewrite Wigner3j_racah by lia. cbn [rbind]. rewrite (racah_cyclic j1 j2 j3 m1 m2 (- m3)) by lia. reflexivity.
  - rewrite Wigner3j_selection by (unfold allowed_3j; lia). cbn [rbind]. rewrite racah_amp, amp_zero by lia. do 2 f_equal. ring.
Qed.
Theorem cg_value_sqrt j1 m1 j2 m2 j3 : (Z.abs m1 <= j1)%Z -> (Z.abs m2 <= j2)%Z -> 
  clebsch_gordan j1 m1 j2 m2 j3 (m1 + m2) = Ok (sqrt (IZR (2 * j3 + 1)) * amp j1 j2 m1 m2 j3).
Proof.
  intros H1 H2. rewrite cg_value by lia. f_equal. rewrite racah_amp. replace (j1 - j2 + m1 + m2)%Z with (j1 - j2 + (m1 + m2))%Z by ring.
  pose proof (sign_square (j1 - j2 + (m1 + m2))) as S. set (s := parity_sign _) in *. set (q := sqrt _). set (x := amp _ _ _ _ _).
  transitivity (s * s * (q * x)); [ring|]. rewrite S. ring.
Qed.
Theorem cg_orthonormal j1 m1 j2 m2 m1' m2' : (Z.abs m1 <= j1)%Z -> (Z.abs m2 <= j2)%Z -> (Z.abs m1' <= j1)%Z -> (Z.abs m2' <= j2)%Z -> (m1 + m2 = m1' + m2')%Z ->
  exists c c', (forall j3, clebsch_gordan j1 m1 j2 m2 j3 (m1 + m2) = Ok (c j3)) /\ (forall j3, clebsch_gordan j1 m1' j2 m2' j3 (m1' + m2') = Ok (c' j3)) /\
  bigsum (Z.to_nat (j1 + j2 + 1)) (fun j3 => c (Z.of_nat j3) * c' (Z.of_nat j3)) = if (m1 =? m1')%Z then 1 else 0.
Proof.
  intros H1 H2 H1' H2' H. eexists. eexists. split; [intros j3; rewrite cg_value_sqrt by assumption; reflexivity|]. split; [intros j3; rewrite cg_value_sqrt by assumption; reflexivity|].
  transitivity (inner j1 j2 (amp j1 j2 m1 m2) (amp j1 j2 m1' m2')).
  - unfold inner. apply bigsum_ext. intros n _. cbn beta. set (x := amp _ _ _ _ _). set (y := amp _ _ _ _ _).
    pose proof (sqrt_sqrt (IZR (2 * Z.of_nat n + 1)) ltac:(apply IZR_nn; lia)) as S. set (q := sqrt _) in *. transitivity (q * q * (x * y)); [ring|]. rewrite S, plus_IZR, mult_IZR, <- INR_IZR_INZ. ring.
  - destruct (Z.eqb_spec m1 m1') as [->|Hn].
    + replace m2' with m2 by lia. now apply norm_one.
    + apply ortho_any; lia.
Qed.
