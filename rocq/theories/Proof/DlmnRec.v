(** The recursions of Alvarez Collado et al. for the Wigner d-matrices. *)
From Coq Require Import Reals Lra Lia ZArith List Bool Arith.
From Coquelicot Require Import Coquelicot.
From Verif Require Import Base.RealAux Model.Poly Model.S2fft Proof.HarmonicProof Proof.WignerGen Proof.WignerStep Proof.GreenInv Proof.RotationMore.
Import ListNotations.
Open Scope R_scope.
Local Notation C := Binomial.C.

(** * symmetries *)
Definition psign (z : Z) : R := if Z.even z then 1 else -1.
Lemma psign_succ z : psign (z + 1) = - psign z.
Proof. unfold psign. rewrite Z.even_add. cbn [Z.even]. destruct (Z.even z); cbn [Bool.eqb]; ring. Qed.
Lemma psign_opp z : psign (- z) = psign z.
Proof. unfold psign. now rewrite Z.even_opp. Qed.
Lemma psign_sq z : psign z * psign z = 1.
Proof. unfold psign. destruct (Z.even z); ring. Qed.
Lemma psign_even z : psign (2 * z) = 1.
Proof. unfold psign. rewrite Z.even_mul. reflexivity. Qed.
Lemma psign_pred z : psign (z - 1) = - psign z.
Proof. replace z with (z - 1 + 1)%Z at 2 by ring. rewrite psign_succ. ring. Qed.
Lemma spow_neg J c d : forall k i, spow J c (- d) k i = psign (k - i) * spow J c d k i.
Proof.
  induction J as [|J IH]; intros k i.
  - cbn [spow]. destruct (Z.eqb_spec k 0) as [-> |], (Z.eqb_spec i 0) as [-> |]; cbn [andb]; try ring. unfold psign. cbn. ring.
  - cbn [spow]. unfold risbo_sum. rewrite !IH.
    replace (k - (i - 1))%Z with (k - i + 1)%Z by ring. replace (k - 1 - i)%Z with (k - i - 1)%Z by ring. replace (k - 1 - (i - 1))%Z with (k - i)%Z by ring.
    rewrite psign_succ, psign_pred. unfold Rdiv. ring.
Qed.
Lemma spow_reflect J c d k i : spow J c d k i = psign (k - i) * spow J c d i k.
Proof. rewrite spow_transpose, spow_neg. replace (i - k)%Z with (- (k - i))%Z by ring. now rewrite psign_opp. Qed.
Lemma spow_invert J c d : forall k i, spow J c d (Z.of_nat J - k) (Z.of_nat J - i) = psign (k - i) * spow J c d k i.
Proof.
  induction J as [|J IH]; intros k i.
  - cbn [spow Z.of_nat]. destruct (Z.eqb_spec (0 - k) 0), (Z.eqb_spec k 0); try lia; destruct (Z.eqb_spec (0 - i) 0), (Z.eqb_spec i 0); try lia; cbn [andb]; try ring.
    subst. unfold psign. cbn. ring.
  - cbn [spow]. unfold risbo_sum.
    replace (Z.of_nat (S J) - (Z.of_nat (S J) - i))%Z with i by ring. replace (Z.of_nat (S J) - (Z.of_nat (S J) - k))%Z with k by ring.
    replace (Z.of_nat (S J) - i - 1)%Z with (Z.of_nat J - i)%Z by lia. replace (Z.of_nat (S J) - k - 1)%Z with (Z.of_nat J - k)%Z by lia.
    replace (spow J c d (Z.of_nat (S J) - k) (Z.of_nat (S J) - i)) with (spow J c d (Z.of_nat J - (k - 1)) (Z.of_nat J - (i - 1))) by (f_equal; lia).
    replace (spow J c d (Z.of_nat (S J) - k) (Z.of_nat J - i)) with (spow J c d (Z.of_nat J - (k - 1)) (Z.of_nat J - i)) by (f_equal; lia).
    replace (spow J c d (Z.of_nat J - k) (Z.of_nat (S J) - i)) with (spow J c d (Z.of_nat J - k) (Z.of_nat J - (i - 1))) by (f_equal; lia).
    rewrite !IH. replace (k - (i - 1))%Z with (k - i + 1)%Z by ring. replace (k - 1 - i)%Z with (k - i - 1)%Z by ring. replace (k - 1 - (i - 1))%Z with (k - i)%Z by ring.
    rewrite psign_succ, psign_pred. unfold Rdiv. ring.
Qed.

(** * the last row *)
Lemma C_n_n n : C n n = 1.
Proof. rewrite pascal_step1 by lia. rewrite Nat.sub_diag. apply C_n_0. Qed.
Lemma spow_last J c d i : (0 <= i <= Z.of_nat J)%Z -> spow J c d (Z.of_nat J) i = bz J i * (d ^ (J - Z.to_nat i) * c ^ Z.to_nat i).
Proof.
  intros Hi. pose proof (proj2 (spow_sym J c d) i Hi 0 1) as H. unfold hsum in H.
  rewrite (bigsum_single (S J) J) in H.
  - rewrite Nat.sub_diag, pow_O, pow1 in H. rewrite (bz_in J (Z.of_nat J)) in H by lia. rewrite Nat2Z.id in H.
    rewrite C_n_n, sqrt_1 in H.
    replace (c * 0 + d * 1) with d in H by ring. replace (- d * 0 + c * 1) with c in H by ring. lra.
  - lia.
  - intros k Hk Hne. replace (J - k)%nat with (S (J - k - 1)) by lia. cbn [pow]. ring.
Qed.
Lemma spow_last_corner J c d : spow (S (S J)) c d (Z.of_nat (S (S J))) (Z.of_nat (S (S J))) = c ^ 2 * spow J c d (Z.of_nat J) (Z.of_nat J).
Proof.
  rewrite !spow_last by lia. rewrite !bz_in by lia. rewrite !Nat2Z.id, !Nat.sub_diag, !C_n_n. cbn [pow]. ring.
Qed.
Lemma spow_last_first J c d : spow (S (S J)) c d (Z.of_nat (S (S J))) 0 = d ^ 2 * spow J c d (Z.of_nat J) 0.
Proof. rewrite !spow_last by lia. rewrite !bz_in by lia. change (Z.to_nat 0) with 0%nat. rewrite !C_n_0, !Nat.sub_0_r. cbn [pow]. ring. Qed.
Lemma spow_last_step J c d i : (0 <= i < Z.of_nat J)%Z -> c <> 0 ->
  spow J c d (Z.of_nat J) i = d / c * sqrt (IZR (i + 1) / IZR (Z.of_nat J - i)) * spow J c d (Z.of_nat J) (i + 1).
Proof.
  intros Hi Hc. rewrite !spow_last by lia. rewrite !bz_in by lia. replace (Z.to_nat (i + 1)) with (S (Z.to_nat i)) by lia.
  assert (E : exists n, i = Z.of_nat n /\ (n < J)%nat) by (exists (Z.to_nat i); lia). destruct E as (n & -> & Hn). rewrite Nat2Z.id.
  replace (J - n)%nat with (S (J - S n)) by lia.
  transitivity (d / c * (sqrt (IZR (Z.of_nat n + 1) / IZR (Z.of_nat J - Z.of_nat n)) * sqrt (C J (S n))) * (d ^ (J - S n) * c ^ S n)); [|ring].
  rewrite <- sqrt_mult_alt.
  2:{ apply Rdiv_le_0_compat; [apply IZR_le|apply IZR_lt]; lia. }
  replace (IZR (Z.of_nat n + 1) / IZR (Z.of_nat J - Z.of_nat n) * C J (S n)) with (C J n).
  2:{ replace (Z.of_nat n + 1)%Z with (Z.of_nat (S n)) by lia. rewrite <- Nat2Z.inj_sub by lia. rewrite <- !INR_IZR_INZ. unfold C.
      replace (J - n)%nat with (S (J - S n)) by lia. rewrite !fact_simpl, !mult_INR.
      pose proof (fact_nz n). pose proof (fact_nz (J - S n)). assert (INR (S n) <> 0) by (apply not_0_INR; lia). assert (INR (S (J - S n)) <> 0) by (apply not_0_INR; lia).
      field. repeat split; assumption. }
  cbn [pow]. field. exact Hc.
Qed.
Lemma spow_last_zero J c d i : (0 < i <= Z.of_nat J)%Z -> c = 0 -> spow J c d (Z.of_nat J) i = 0.
Proof. intros Hi ->. rewrite spow_last by lia. replace (Z.to_nat i) with (S (Z.to_nat i - 1)) by lia. cbn [pow]. ring. Qed.
Lemma spow_last_zero' J c d i : (0 <= i < Z.of_nat J)%Z -> d = 0 -> spow J c d (Z.of_nat J) i = 0.
Proof. intros Hi ->. rewrite spow_last by lia. replace (J - Z.to_nat i)%nat with (S (J - Z.to_nat i - 1)) by lia. cbn [pow]. ring. Qed.

(** * the three-term recursion *)
Lemma hsum_dt n a s t : is_derive (fun t : R => hsum (S n) a s t) t (hsum n (fun k => IZR (k + 1) * a (k + 1)%Z) s t).
Proof.
  unfold hsum. evar_last.
  - apply (is_derive_bigsum (S (S n)) (fun k t => a (Z.of_nat k) * (s ^ (S n - k) * t ^ k)) (fun k => a (Z.of_nat k) * (s ^ (S n - k) * (INR k * t ^ pred k)))).
    intros k _. apply is_derive_Reals. apply derivable_pt_lim_scal. apply derivable_pt_lim_scal. apply derivable_pt_lim_pow.
  - rewrite bigsum_split_first. change (INR 0) with 0. rewrite Rmult_0_l, !Rmult_0_r, Rplus_0_l. apply bigsum_ext. intros k Hk.
    replace (Z.of_nat k + 1)%Z with (Z.of_nat (S k)) by lia. rewrite <- INR_IZR_INZ. cbn [pred Nat.sub]. ring.
Qed.
Lemma hsum_ds n a s t : is_derive (fun s : R => hsum (S n) a s t) s (hsum n (fun k => IZR (Z.of_nat (S n) - k) * a k) s t).
Proof.
  unfold hsum. evar_last.
  - apply (is_derive_bigsum (S (S n)) (fun k s => a (Z.of_nat k) * (s ^ (S n - k) * t ^ k)) (fun k => a (Z.of_nat k) * t ^ k * (INR (S n - k) * s ^ pred (S n - k)))).
    intros k _. apply (is_derive_ext (fun s : R => a (Z.of_nat k) * t ^ k * s ^ (S n - k))); [intros; match goal with |- ?a = ?b => change (@eq R a b) end; ring|].
    apply is_derive_Reals. apply derivable_pt_lim_scal. apply derivable_pt_lim_pow.
  - match goal with |- bigsum (S (S n)) ?f = _ => change (bigsum (S n) f + f (S n) = bigsum (S n) (fun k => IZR (Z.of_nat (S n) - Z.of_nat k) * a (Z.of_nat k) * (s ^ (n - k) * t ^ k))) end.
    cbv beta. rewrite Nat.sub_diag. change (INR 0) with 0. rewrite Rmult_0_l, Rmult_0_r, Rplus_0_r. apply bigsum_ext. intros k Hk.
    rewrite <- Nat2Z.inj_sub by lia. rewrite <- INR_IZR_INZ. replace (pred (S n - k)) with (n - k)%nat by lia. ring.
Qed.
Lemma hsum_tdt n a s t : t * hsum n (fun k => IZR (k + 1) * a (k + 1)%Z) s t = hsum (S n) (fun k => IZR k * a k) s t.
Proof.
  rewrite <- (hsum_t n (fun k => IZR (k + 1) * a (k + 1)%Z)) by (cbn; ring). apply hsum_ext. intros k _. now replace (k - 1 + 1)%Z with k by ring.
Qed.
Section Three.
Variables c d : R.
Hypothesis Hcd : c ^ 2 + d ^ 2 = 1.
Notation X s t := (c * s + d * t).
Notation Y s t := (- d * s + c * t).
Definition XY (a b : nat) (s t : R) : R := X s t ^ a * Y s t ^ b.
Lemma XY_dt a b s t : is_derive (fun t : R => XY a b s t) t (INR a * X s t ^ (a - 1) * d * Y s t ^ b + X s t ^ a * (INR b * Y s t ^ (b - 1) * c)).
Proof. unfold XY. auto_derive; [exact I|]. replace (pred a) with (a - 1)%nat by lia. replace (pred b) with (b - 1)%nat by lia. ring. Qed.
Lemma XY_ds a b s t : is_derive (fun s : R => XY a b s t) s (INR a * X s t ^ (a - 1) * c * Y s t ^ b - X s t ^ a * (INR b * Y s t ^ (b - 1) * d)).
Proof. unfold XY. auto_derive; [exact I|]. replace (pred a) with (a - 1)%nat by lia. replace (pred b) with (b - 1)%nat by lia. ring. Qed.
(** second derivative of X^(a+1) Y^(b+1) *)
Definition XYst (a b : nat) (s t : R) : R :=
  (INR a + 1) * d * (INR a * X s t ^ (a - 1) * c * Y s t ^ (S b) - X s t ^ a * ((INR b + 1) * Y s t ^ b * d)) +
  (INR b + 1) * c * ((INR a + 1) * X s t ^ a * c * Y s t ^ b - X s t ^ (S a) * (INR b * Y s t ^ (b - 1) * d)).
Lemma XY_dsdt a b s t : is_derive (fun s : R => Derive (fun t : R => XY (S a) (S b) s t) t) s (XYst a b s t).
Proof.
  apply (is_derive_ext (fun s : R => (INR a + 1) * d * XY a (S b) s t + (INR b + 1) * c * XY (S a) b s t)).
  - intros s'. symmetry. apply is_derive_unique. evar_last; [apply XY_dt|]. unfold XY. rewrite !S_INR. replace (S a - 1)%nat with a by lia. replace (S b - 1)%nat with b by lia. ring.
  - evar_last.
    + apply (is_derive_plus (fun s : R => (INR a + 1) * d * XY a (S b) s t) (fun s : R => (INR b + 1) * c * XY (S a) b s t)); apply is_derive_scal; apply XY_ds.
    + match goal with |- plus ?u ?v = _ => change (u + v = XYst a b s t) end.
      unfold XYst. rewrite !S_INR. replace (S a - 1)%nat with a by lia. replace (S b - 1)%nat with b by lia. ring.
Qed.
Lemma XY_identity (a b l : nat) s t : (a + b = 2 * l)%nat ->
  INR l * XYst a b s t = (2 * INR l + 1) * (INR l * (INR l + 1) * (c ^ 2 - d ^ 2) * XY a b s t -
      (INR b - INR l) * (t * (INR a * X s t ^ (a - 1) * d * Y s t ^ b + X s t ^ a * (INR b * Y s t ^ (b - 1) * c)) - INR l * XY a b s t)) -
    (INR l + 1) * (INR a * INR b * (s * t * XY (a - 1) (b - 1) s t)).
Proof.
  intros H. assert (Hl : INR l = (INR a + INR b) / 2) by (rewrite <- plus_INR, H, mult_INR; cbn [INR]; field).
  set (x := X s t). set (y := Y s t).
  assert (Es : s = c * x - d * y) by (unfold x, y; transitivity ((c ^ 2 + d ^ 2) * s); [rewrite Hcd; ring|ring]).
  assert (Et : t = d * x + c * y) by (unfold x, y; transitivity ((c ^ 2 + d ^ 2) * t); [rewrite Hcd; ring|ring]).
  unfold XYst, XY. fold x y. rewrite Es at 1. rewrite Et. clearbody x y. clear Es Et s t.
  transitivity ((2 * INR l + 1) * (INR l * (INR l + 1) * (c ^ 2 - d ^ 2) * (x ^ a * y ^ b) -
      (INR b - INR l) * ((d * x + c * y) * (INR a * x ^ (a - 1) * d * y ^ b + x ^ a * (INR b * y ^ (b - 1) * c)) - INR l * ((c ^ 2 + d ^ 2) * (x ^ a * y ^ b)))) -
    (INR l + 1) * (INR a * INR b * ((c * x - d * y) * (d * x + c * y) * (x ^ (a - 1) * y ^ (b - 1))))); [|rewrite Hcd; ring].
  rewrite Hl. clear Hl Hcd H.
  assert (E : forall n, (S n - 1)%nat = n) by (intros; lia).
  destruct a as [|a], b as [|b]; rewrite ?S_INR, ?E; change (INR 0) with 0; cbn [pow]; field.
Qed.
Lemma spow_three (l : nat) k i : (1 <= l)%nat -> let J := (2 * l)%nat in (0 <= k <= Z.of_nat J)%Z -> (0 <= i <= Z.of_nat J)%Z ->
  INR l * (sqrt (IZR ((k + 1) * (Z.of_nat J + 1 - k))) * sqrt (IZR ((i + 1) * (Z.of_nat J + 1 - i)))) * spow (S (S J)) c d (k + 1) (i + 1) =
  (2 * INR l + 1) * (INR l * (INR l + 1) * (c ^ 2 - d ^ 2) - IZR ((i - Z.of_nat l) * (k - Z.of_nat l))) * spow J c d k i -
  (INR l + 1) * (sqrt (IZR (k * (Z.of_nat J - k))) * sqrt (IZR (i * (Z.of_nat J - i)))) * spow (J - 2) c d (k - 1) (i - 1).
Proof.
  intros Hl J Hk Hi.
  set (w := fun k => sqrt (IZR ((k + 1) * (Z.of_nat J + 1 - k)))). set (w' := fun k => sqrt (IZR (k * (Z.of_nat J - k)))).
  assert (EJ : J = S (S (J - 2))) by (unfold J; lia).
  set (q := sqrt (INR (S (S J))) * sqrt (INR (S J))). set (q' := sqrt (INR J) * sqrt (INR (J - 1))).
  assert (Hq : q <> 0) by (apply Rgt_not_eq, Rmult_lt_0_compat; apply sqrt_lt_R0, lt_0_INR; lia).
  assert (Bw : forall k, (0 <= k <= Z.of_nat J)%Z -> w k * bz (S (S J)) (k + 1) = q * bz J k).
  { intros k0 Hk0. unfold w, q. rewrite mult_IZR, sqrt_mult_alt by (apply IZR_le; lia).
    transitivity (sqrt (IZR (Z.of_nat J + 1 - k0)) * (sqrt (IZR (k0 + 1)) * bz (S (S J)) (k0 + 1))); [ring|]. rewrite bz_down2. replace (k0 + 1 - 1)%Z with k0 by ring.
    transitivity (sqrt (INR (S (S J))) * (sqrt (IZR (Z.of_nat (S J) - k0)) * bz (S J) k0)); [replace (Z.of_nat (S J) - k0)%Z with (Z.of_nat J + 1 - k0)%Z by lia; ring|]. rewrite bz_down1. ring. }
  assert (Bw' : forall k, (0 <= k <= Z.of_nat J)%Z -> w' k * bz J k = q' * bz (J - 2) (k - 1)).
  { intros k0 Hk0. unfold w', q'. rewrite mult_IZR, sqrt_mult_alt by (apply IZR_le; lia).
    assert (E2 : sqrt (IZR k0) * bz J k0 = sqrt (INR J) * bz (J - 1) (k0 - 1)) by (rewrite EJ at 1 2; rewrite bz_down2; f_equal; f_equal; lia).
    assert (E1 : sqrt (IZR (Z.of_nat (J - 1) - (k0 - 1))) * bz (J - 1) (k0 - 1) = sqrt (INR (J - 1)) * bz (J - 2) (k0 - 1)).
    { pose proof (bz_down1 (J - 2) (k0 - 1)) as E. replace (S (J - 2)) with (J - 1)%nat in E by lia. exact E. }
    transitivity (sqrt (IZR (Z.of_nat J - k0)) * (sqrt (IZR k0) * bz J k0)); [ring|]. rewrite E2.
    transitivity (sqrt (INR J) * (sqrt (IZR (Z.of_nat (J - 1) - (k0 - 1))) * bz (J - 1) (k0 - 1))); [replace (Z.of_nat (J - 1) - (k0 - 1))%Z with (Z.of_nat J - k0)%Z by lia; ring|]. rewrite E1. ring. }
  assert (W2 : forall k, (0 <= k <= Z.of_nat J)%Z -> w k * w k = IZR (k + 1) * IZR (Z.of_nat J + 1 - k)).
  { intros k0 Hk0. unfold w. rewrite sqrt_sqrt, mult_IZR by (apply IZR_le; nia). reflexivity. }
  assert (W2' : forall k, (0 <= k <= Z.of_nat J)%Z -> w' k * w' k = IZR k * IZR (Z.of_nat J - k)).
  { intros k0 Hk0. unfold w'. rewrite sqrt_sqrt, mult_IZR by (apply IZR_le; nia). reflexivity. }
  set (a := (J - Z.to_nat i)%nat). set (b := Z.to_nat i).
  (* the three generating functions *)
  assert (G1 : forall s t, hsum J (fun k => w k * w i * spow (S (S J)) c d (k + 1) (i + 1) * bz J k) s t = bz J i * XYst a b s t).
  { intros s t. pose proof (proj2 (spow_sym (S (S J)) c d) (i + 1)%Z ltac:(lia)) as H.
    set (f := fun k => spow (S (S J)) c d k (i + 1) * bz (S (S J)) k) in H.
    assert (E : hsum J (fun k => IZR (Z.of_nat (S J) - k) * (IZR (k + 1) * f (k + 1)%Z)) s t = bz (S (S J)) (i + 1) * XYst a b s t).
    { assert (A1 : is_derive (fun s : R => Derive (fun t : R => hsum (S (S J)) f s t) t) s (hsum J (fun k => IZR (Z.of_nat (S J) - k) * (IZR (k + 1) * f (k + 1)%Z)) s t)).
      { apply (is_derive_ext (fun s : R => hsum (S J) (fun k => IZR (k + 1) * f (k + 1)%Z) s t)); [|apply hsum_ds].
        intros s'. symmetry. apply is_derive_unique. apply hsum_dt. }
      assert (A2 : is_derive (fun s : R => Derive (fun t : R => hsum (S (S J)) f s t) t) s (bz (S (S J)) (i + 1) * XYst a b s t)).
      { apply (is_derive_ext (fun s : R => bz (S (S J)) (i + 1) * Derive (fun t : R => XY (S a) (S b) s t) t)); [|apply is_derive_scal, XY_dsdt].
        intros s'. rewrite <- Derive_scal. apply Derive_ext. intros t'. rewrite H. unfold XY, a, b. replace (S (S J) - Z.to_nat (i + 1))%nat with (S (J - Z.to_nat i)) by lia. replace (Z.to_nat (i + 1)) with (S (Z.to_nat i)) by lia. reflexivity. }
      rewrite <- (is_derive_unique _ _ _ A1). apply (is_derive_unique _ _ _ A2). }
    apply (Rmult_eq_reg_l q); [|exact Hq]. rewrite <- hsum_scal. rewrite <- Rmult_assoc, <- Bw by exact Hi.
    rewrite Rmult_assoc, <- E, <- hsum_scal. apply hsum_ext. intros k0 Hk0. unfold f.
    transitivity (w i * spow (S (S J)) c d (k0 + 1) (i + 1) * w k0 * (q * bz J k0)); [ring|]. rewrite <- Bw by exact Hk0.
    transitivity (w i * spow (S (S J)) c d (k0 + 1) (i + 1) * (w k0 * w k0) * bz (S (S J)) (k0 + 1)); [ring|]. rewrite W2 by exact Hk0.
    replace (Z.of_nat (S J) - k0)%Z with (Z.of_nat J + 1 - k0)%Z by lia. ring. }
  set (f := fun k => spow J c d k i * bz J k).
  assert (G0 : forall s t, hsum J f s t = bz J i * XY a b s t) by (intros s t; apply (proj2 (spow_sym J c d) i Hi)).
  assert (G2 : forall s t, hsum J (fun k => IZR k * f k) s t = bz J i * (t * (INR a * X s t ^ (a - 1) * d * Y s t ^ b + X s t ^ a * (INR b * Y s t ^ (b - 1) * c)))).
  { intros s t. rewrite EJ at 1. rewrite <- hsum_tdt. transitivity (t * Derive (fun t : R => hsum J f s t) t).
    - f_equal. symmetry. apply is_derive_unique. pose proof (hsum_dt (S (J - 2)) f s t) as H. rewrite <- EJ in H. exact H.
    - rewrite (Derive_ext _ (fun t : R => bz J i * XY a b s t)) by (intros; apply G0). rewrite Derive_scal. rewrite (is_derive_unique (XY a b s) t _ (XY_dt a b s t)). ring. }
  assert (G3 : forall s t, hsum J (fun k => w' k * w' i * spow (J - 2) c d (k - 1) (i - 1) * bz J k) s t = bz J i * (INR a * INR b * (s * t * XY (a - 1) (b - 1) s t))).
  { intros s t. assert (Hab : INR a * INR b = w' i * w' i).
    { rewrite W2' by exact Hi. unfold a, b. rewrite !INR_IZR_INZ. rewrite Rmult_comm. f_equal; f_equal; lia. }
    rewrite (hsum_ext _ _ (fun k => w' i * q' * (spow (J - 2) c d (k - 1) (i - 1) * bz (J - 2) (k - 1)))).
    2:{ intros k0 Hk0. transitivity (w' i * spow (J - 2) c d (k0 - 1) (i - 1) * (w' k0 * bz J k0)); [ring|]. rewrite Bw' by exact Hk0. ring. }
    rewrite hsum_scal. set (g := fun k => spow (J - 2) c d k (i - 1) * bz (J - 2) k). rewrite EJ at 1.
    rewrite (hsum_t (S (J - 2)) g) by (unfold g; rewrite bz_out by lia; ring). rewrite (hsum_s (J - 2) g) by (unfold g; rewrite bz_out by lia; ring).
    destruct (Z_le_dec 1 i) as [Hi1|Hi1]; [destruct (Z_le_dec i (Z.of_nat J - 1)) as [Hi2|Hi2]|].
    - unfold g. rewrite (proj2 (spow_sym (J - 2) c d)) by lia. rewrite Hab. replace (J - 2 - Z.to_nat (i - 1))%nat with (a - 1)%nat by (unfold a; lia). replace (Z.to_nat (i - 1)) with (b - 1)%nat by (unfold b; lia).
      transitivity (w' i * (q' * bz (J - 2) (i - 1)) * (s * t * XY (a - 1) (b - 1) s t)); [unfold XY; ring|]. rewrite <- Bw' by exact Hi. ring.
    - assert (E0 : w' i = 0) by (unfold w'; replace (Z.of_nat J - i)%Z with 0%Z by lia; rewrite Z.mul_0_r; apply sqrt_0). rewrite Hab, E0. ring.
    - assert (E0 : w' i = 0) by (unfold w'; replace i with 0%Z by lia; rewrite Z.mul_0_l; apply sqrt_0). rewrite Hab, E0. ring. }
  apply (Rmult_eq_reg_r (bz J k)); [|apply Rgt_not_eq, bz_pos; lia]. fold (w k) (w i) (w' k) (w' i).
  apply (hsum_inj J (fun k => INR l * (w k * w i) * spow (S (S J)) c d (k + 1) (i + 1) * bz J k)
    (fun k => ((2 * INR l + 1) * (INR l * (INR l + 1) * (c ^ 2 - d ^ 2) - IZR ((i - Z.of_nat l) * (k - Z.of_nat l))) * spow J c d k i -
      (INR l + 1) * (w' k * w' i) * spow (J - 2) c d (k - 1) (i - 1)) * bz J k)); [|exact Hk].
  intros s t.
  rewrite (hsum_ext _ _ (fun k => INR l * (w k * w i * spow (S (S J)) c d (k + 1) (i + 1) * bz J k))) by (intros; ring).
  rewrite hsum_scal, G1.
  set (m := IZR (i - Z.of_nat l)).
  rewrite (hsum_ext _ _ (fun k => ((2 * INR l + 1) * (INR l * (INR l + 1) * (c ^ 2 - d ^ 2) + m * INR l) * f k + (- ((2 * INR l + 1) * m)) * (IZR k * f k)) +
     (- (INR l + 1)) * (w' k * w' i * spow (J - 2) c d (k - 1) (i - 1) * bz J k))).
  2:{ intros k0 _. rewrite mult_IZR. fold m. rewrite (minus_IZR k0), <- INR_IZR_INZ. unfold f. ring. }
  rewrite !hsum_plus, !hsum_scal, G0, G2, G3.
  assert (Hm : m = INR b - INR l) by (unfold m, b; rewrite minus_IZR, <- INR_IZR_INZ, (INR_IZR_INZ (Z.to_nat i)), Z2Nat.id by lia; reflexivity).
  transitivity (bz J i * (INR l * XYst a b s t)); [ring|]. rewrite (XY_identity a b l) by (unfold a, b, J in *; lia). rewrite Hm. ring.
Qed.
End Three.
