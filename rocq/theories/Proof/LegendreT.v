(** Coefficients of (u^2 + 2 z u - rho)^l and derivatives of (u^2 - 1)^l. *)
From Coq Require Import Reals Lra Lia ZArith List Bool Arith.
From Coquelicot Require Import Coquelicot.
From Verif Require Import Base.RealAux Spec.HarmonicSpec Proof.BasisProof Proof.GreenProof Proof.GreenInv Proof.HarmonicProof.
Import ListNotations.
Open Scope R_scope.
Local Notation C := Binomial.C.

Fixpoint Tc (z rho : R) (l : nat) (k : Z) : R :=
  match l with
  | O => if (k =? 0)%Z then 1 else 0
  | S l => Tc z rho l (k - 2) + 2 * z * Tc z rho l (k - 1) - rho * Tc z rho l k
  end.
Lemma Tc_neg z rho l : forall k, (k < 0)%Z -> Tc z rho l k = 0.
Proof.
  induction l as [|l IH]; intros k Hk; cbn [Tc].
  - destruct (Z.eqb_spec k 0); [lia|reflexivity].
  - rewrite !IH by lia. ring.
Qed.
Lemma Tc_big z rho l : forall k, (2 * Z.of_nat l < k)%Z -> Tc z rho l k = 0.
Proof.
  induction l as [|l IH]; intros k Hk; cbn [Tc].
  - destruct (Z.eqb_spec k 0); [lia|reflexivity].
  - rewrite !IH by lia. ring.
Qed.
Lemma Tc_sym z rho l : forall m : nat, Tc z rho l (Z.of_nat l - Z.of_nat m) = (- rho) ^ m * Tc z rho l (Z.of_nat l + Z.of_nat m).
Proof.
  induction l as [|l IH]; intros m.
  - destruct m as [|m]; [cbn; ring|]. cbn [Tc]. destruct (Z.eqb_spec (Z.of_nat 0 - Z.of_nat (S m)) 0), (Z.eqb_spec (Z.of_nat 0 + Z.of_nat (S m)) 0); try lia. ring.
  - destruct m as [|m]; [rewrite Z.sub_0_r, Z.add_0_r; cbn [pow]; ring|]. cbn [Tc].
    replace (Z.of_nat (S l) - Z.of_nat (S m) - 2)%Z with (Z.of_nat l - Z.of_nat (S (S m)))%Z by lia.
    replace (Z.of_nat (S l) - Z.of_nat (S m) - 1)%Z with (Z.of_nat l - Z.of_nat (S m))%Z by lia.
    replace (Z.of_nat (S l) - Z.of_nat (S m))%Z with (Z.of_nat l - Z.of_nat m)%Z by lia.
    rewrite !IH.
    replace (Z.of_nat (S l) + Z.of_nat (S m) - 2)%Z with (Z.of_nat l + Z.of_nat m)%Z by lia.
    replace (Z.of_nat (S l) + Z.of_nat (S m) - 1)%Z with (Z.of_nat l + Z.of_nat (S m))%Z by lia.
    replace (Z.of_nat (S l) + Z.of_nat (S m))%Z with (Z.of_nat l + Z.of_nat (S (S m)))%Z by lia.
    cbn [pow]. ring.
Qed.

Lemma smooth_pow l k t : ex_derive (Derive_n (fun s => (s ^ 2 - 1) ^ l) k) t.
Proof.
  apply (ex_derive_ext (fun t => bigsum (S l) (fun i => (C l i * (-1) ^ (l - i)) * (ffact (2 * i) k * t ^ (2 * i - k))))).
  - intros s. rewrite <- (Derive_n_poly (S l) (fun i => C l i * (-1) ^ (l - i)) (fun i => (2 * i)%nat)). apply Derive_n_ext. intros u.
    replace (u ^ 2 - 1) with (u ^ 2 + -1) by ring. rewrite <- binom. apply bigsum_ext. intros i _. rewrite <- pow_mult. ring.
  - eexists. apply is_derive_bigsum. intros i _. apply deriv_scal_l. apply deriv_scal_l. apply (pow_d (2 * i - k)).
Qed.
Lemma leibniz (f : R -> R) : (forall k t, ex_derive (Derive_n f k) t) -> forall k t,
  Derive_n (fun s => (s ^ 2 - 1) * f s) k t =
  (t ^ 2 - 1) * Derive_n f k t + 2 * INR k * t * Derive_n f (k - 1) t + INR k * (INR k - 1) * Derive_n f (k - 2) t.
Proof.
  intros Hs k. induction k as [|k IH]; intros t; [cbn; ring|].
  cbn [Derive_n]. rewrite (Derive_ext _ _ t IH). apply is_derive_unique.
  assert (Hd : forall k t, is_derive (Derive_n f k) t (Derive_n f (S k) t)) by (intros; apply Derive_correct, Hs).
  assert (H1 : is_derive (fun t => (t ^ 2 - 1) * Derive_n f k t) t (2 * t * Derive_n f k t + (t ^ 2 - 1) * Derive_n f (S k) t)).
  { evar_last; [apply (is_derive_mult (fun t : R => t ^ 2 - 1) (Derive_n f k) t (2 * t)); [auto_derive; [exact I|ring]|apply Hd|intros; apply Rmult_comm]|]. unfold mult, plus; cbn. ring. }
  assert (H2 : is_derive (fun t => 2 * INR k * t * Derive_n f (k - 1) t) t (2 * INR k * Derive_n f (k - 1) t + 2 * INR k * t * Derive_n f (S (k - 1)) t)).
  { evar_last; [apply (is_derive_mult (fun t : R => 2 * INR k * t) (Derive_n f (k - 1)) t (2 * INR k)); [auto_derive; [exact I|ring]|apply Hd|intros; apply Rmult_comm]|]. unfold mult, plus; cbn. ring. }
  assert (H3 : is_derive (fun t => INR k * (INR k - 1) * Derive_n f (k - 2) t) t (INR k * (INR k - 1) * Derive_n f (S (k - 2)) t)) by (apply deriv_scal_l, Hd).
  evar_last; [apply (is_derive_plus (fun t => (t ^ 2 - 1) * Derive_n f k t + 2 * INR k * t * Derive_n f (k - 1) t) (fun t => INR k * (INR k - 1) * Derive_n f (k - 2) t)); [apply (is_derive_plus (fun t => (t ^ 2 - 1) * Derive_n f k t) (fun t => 2 * INR k * t * Derive_n f (k - 1) t)); [exact H1|exact H2]|exact H3]|].
  unfold plus; cbn -[Derive_n INR].
  destruct k as [|[|k]].
  - cbn -[Derive_n INR]. cbn [INR]. cbn [Derive_n]. ring.
  - cbn -[Derive_n INR]. cbn [INR]. cbn [Derive_n]. ring.
  - replace (S (S (S k)) - 1)%nat with (S (S k)) by lia. replace (S (S (S k)) - 2)%nat with (S k) by lia. replace (S (S (S k) - 1))%nat with (S (S k)) by lia. replace (S (S k) - 1)%nat with (S k) by lia. replace (S (S (S k) - 2)) with (S k) by lia. rewrite !S_INR.
    change (Derive (fun x : R => Derive_n f (S (S k)) x) t) with (Derive_n f (S (S (S k))) t).
    change (Derive (Derive_n f (S (S k))) t) with (Derive_n f (S (S (S k))) t). rewrite Nat.sub_0_r. ring.
Qed.
Lemma Derive_n_const1 k t : Derive_n (fun _ : R => 1) k t = if Nat.eqb k 0 then 1 else 0.
Proof.
  destruct k as [|k]; [reflexivity|]. revert t. induction k as [|k IH]; intros t; [cbn; apply Derive_const|].
  cbn [Derive_n]. rewrite (Derive_ext _ (fun _ => 0)); [apply Derive_const|exact IH].
Qed.
Lemma Tc_deriv z l : forall k : nat, Tc z (1 - z ^ 2) l (Z.of_nat k) = Derive_n (fun u => (u ^ 2 - 1) ^ l) k z / INR (fact k).
Proof.
  induction l as [|l IH]; intros k.
  - cbn [Tc]. rewrite (Derive_n_ext _ (fun _ => 1)) by reflexivity. rewrite Derive_n_const1.
    destruct k as [|k]; [cbn; field|]. destruct (Z.eqb_spec (Z.of_nat (S k)) 0); [lia|]. cbn [Nat.eqb]. unfold Rdiv. ring.
  - cbn [Tc]. rewrite (Derive_n_ext _ (fun u => (u ^ 2 - 1) * (u ^ 2 - 1) ^ l)) by reflexivity.
    rewrite (leibniz (fun u => (u ^ 2 - 1) ^ l)) by (intros; apply smooth_pow). rewrite IH.
    destruct k as [|[|k]].
    + rewrite !Tc_neg by lia. cbn [Nat.sub fact INR]. field.
    + rewrite (Tc_neg _ _ _ (Z.of_nat 1 - 2)) by lia. replace (Z.of_nat 1 - 1)%Z with (Z.of_nat 0) by lia. rewrite IH. cbn [Nat.sub fact INR Nat.mul Nat.add]. field.
    + replace (Z.of_nat (S (S k)) - 2)%Z with (Z.of_nat k) by lia. replace (Z.of_nat (S (S k)) - 1)%Z with (Z.of_nat (S k)) by lia. rewrite !IH.
      replace (S (S k) - 1)%nat with (S k) by lia. replace (S (S k) - 2)%nat with k by lia. rewrite !(fact_simpl (S k)), !(fact_simpl k), !mult_INR, !S_INR.
      pose proof (fact_nz k). pose proof (pos_INR k). field. repeat split; try assumption; lra.
Qed.
(** in terms of the Legendre derivatives *)
Lemma Tc_legendre z l m : Tc z (1 - z ^ 2) l (Z.of_nat l + Z.of_nat m) = legendre_deriv l m z * (2 ^ l * INR (fact l)) / INR (fact (l + m)).
Proof.
  rewrite <- Nat2Z.inj_add, Tc_deriv. unfold legendre_deriv. pose proof (fact_nz l). pose proof (fact_nz (l + m)).
  assert (2 ^ l <> 0) by (apply pow_nonzero; lra). field. repeat split; assumption.
Qed.
