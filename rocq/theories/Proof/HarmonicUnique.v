(** The real spherical harmonics are linearly independent as functions on the sphere. *)
From Coq Require Import Reals Lra Lia ZArith List Bool Arith.
From Coquelicot Require Import Coquelicot.
From Verif Require Import Base.RealAux Model.Poly Spec.PolySpec Spec.HarmonicSpec Spec.RotationSpec Proof.BasisProof Proof.GreenProof Proof.GreenInv Proof.PolyUnique Proof.HarmonicProof Proof.RotationProof Proof.LegendreT.
Import ListNotations.
Open Scope R_scope.

(** * polynomials of exact degree *)
Definition ispoly (n : nat) (lead : R) (f : R -> R) : Prop := exists c : nat -> R, c n = lead /\ forall t, f t = bigsum (S n) (fun j => c j * t ^ j).
Lemma ispoly_ext n a f g : (forall t, f t = g t) -> ispoly n a f -> ispoly n a g.
Proof. intros H (c & E & Hc). exists c. split; [exact E|]. intros t. now rewrite <- H. Qed.
Lemma ispoly_mul n a f : ispoly n a f -> ispoly (S (S n)) a (fun t => (t ^ 2 - 1) * f t).
Proof.
  intros (c & E & Hc). exists (fun j => (if Nat.ltb j 2 then 0 else c (j - 2)%nat) - (if Nat.leb j n then c j else 0)). split.
  - destruct (Nat.ltb_spec (S (S n)) 2); [lia|]. destruct (Nat.leb_spec (S (S n)) n); [lia|]. replace (S (S n) - 2)%nat with n by lia. rewrite E. ring.
  - intros t. rewrite Hc.
    rewrite (bigsum_ext (S (S (S n))) _ (fun j => (if Nat.ltb j 2 then 0 else c (j - 2)%nat) * t ^ j + -1 * ((if Nat.leb j n then c j else 0) * t ^ j))) by (intros; ring).
    rewrite bigsum_plus, bigsum_scal. replace ((t ^ 2 - 1) * bigsum (S n) (fun j => c j * t ^ j)) with (bigsum (S n) (fun j => t ^ 2 * (c j * t ^ j)) + -1 * bigsum (S n) (fun j => c j * t ^ j)) by (rewrite bigsum_scal; ring).
    f_equal.
    + rewrite !(bigsum_split_first (S (S n))), !(bigsum_split_first (S n)). cbn [Nat.ltb Nat.leb]. rewrite !Rmult_0_l, !Rplus_0_l.
      apply bigsum_ext. intros i _. replace (S (S i) - 2)%nat with i by lia. cbn [pow]. ring.
    + f_equal. change (bigsum (S (S (S n)))) with (fun f => bigsum (S n) f + f (S n) + f (S (S n))). cbv beta.
      destruct (Nat.leb_spec (S n) n); [lia|]. destruct (Nat.leb_spec (S (S n)) n); [lia|]. rewrite !Rmult_0_l, !Rplus_0_r.
      apply bigsum_ext. intros i Hi. destruct (Nat.leb_spec i n); [reflexivity|lia].
Qed.
Lemma ispoly_pow l : ispoly (2 * l) 1 (fun t => (t ^ 2 - 1) ^ l).
Proof.
  induction l as [|l IH].
  - exists (fun _ => 1). split; [reflexivity|]. intros t. cbn. ring.
  - replace (2 * S l)%nat with (S (S (2 * l))) by lia. apply (ispoly_ext _ _ (fun t => (t ^ 2 - 1) * (t ^ 2 - 1) ^ l)); [reflexivity|]. now apply ispoly_mul.
Qed.
Lemma ispoly_derive n a f : ispoly (S n) a f -> ispoly n (INR (S n) * a) (Derive f).
Proof.
  intros (c & E & Hc). exists (fun j => INR (S j) * c (S j)). split; [now rewrite E|]. intros t.
  rewrite (Derive_ext _ _ t Hc). apply is_derive_unique.
  evar_last; [apply is_derive_bigsum; intros i _; apply deriv_scal_l; apply (pow_d i)|].
  rewrite bigsum_split_first. cbn [INR pred]. rewrite Rmult_0_l, Rmult_0_r, Rplus_0_l. apply bigsum_ext. intros i _. cbn [pred]. ring.
Qed.
Lemma ispoly_derive_n k : forall n a f, (k <= n)%nat -> ispoly n a f -> ispoly (n - k) (INR (fact n) / INR (fact (n - k)) * a) (Derive_n f k).
Proof.
  induction k as [|k IH]; intros n a f Hk Hf.
  - rewrite Nat.sub_0_r. replace (INR (fact n) / INR (fact n) * a) with a by (field; apply fact_nz). exact Hf.
  - pose proof (IH n a f ltac:(lia) Hf) as H. replace (n - k)%nat with (S (n - S k)) in H by lia. apply ispoly_derive in H. cbn [Derive_n].
    replace (INR (fact n) / INR (fact (n - S k)) * a) with (INR (S (n - S k)) * (INR (fact n) / INR (fact (S (n - S k))) * a)); [exact H|].
    rewrite fact_simpl, mult_INR. field. split; [apply fact_nz|apply not_0_INR; lia].
Qed.
Lemma ispoly_legendre l m : (m <= l)%nat -> exists a, a <> 0 /\ ispoly (l - m) a (legendre_deriv l m).
Proof.
  intros H. pose proof (ispoly_derive_n (l + m) (2 * l) 1 _ ltac:(lia) (ispoly_pow l)) as (c & E & Hc). replace (2 * l - (l + m))%nat with (l - m)%nat in * by lia.
  set (q := / (2 ^ l * INR (fact l))). assert (Hq : q <> 0). { unfold q. apply Rinv_neq_0_compat, Rmult_integral_contrapositive_currified; [apply pow_nonzero; lra|apply fact_nz]. }
  exists (q * (INR (fact (2 * l)) / INR (fact (l - m)) * 1)). split.
  - apply Rmult_integral_contrapositive_currified; [exact Hq|]. rewrite Rmult_1_r. apply Rmult_integral_contrapositive_currified; [apply fact_nz|apply Rinv_neq_0_compat, fact_nz].
  - exists (fun j => q * c j). split; [now rewrite E|]. intros t. unfold legendre_deriv. rewrite Hc. unfold Rdiv. fold q.
    rewrite Rmult_comm, <- bigsum_scal. apply bigsum_ext. intros; ring.
Qed.
Lemma graded_independent (p : nat -> R -> R) : (forall i, exists a, a <> 0 /\ ispoly i a (p i)) -> forall n (e : nat -> R),
  (forall t, 0 < t < 1 -> bigsum n (fun i => e i * p i t) = 0) -> forall i, (i < n)%nat -> e i = 0.
Proof.
  intros Hp. induction n as [|n IH]; intros e H i Hi; [lia|].
  assert (En : e n = 0).
  { (* the coefficient of t^n *)
    assert (Hlow : forall m, (m <= n)%nat -> exists c : nat -> R, forall t, bigsum m (fun i => e i * p i t) = bigsum n (fun j => c j * t ^ j)).
    { induction m as [|m IHm]; intros Hm.
      - exists (fun _ => 0). intros t. cbn [bigsum]. symmetry. apply bigsum_zero_ext. intros; ring.
      - destruct (IHm ltac:(lia)) as [c Hc]. destruct (Hp m) as (a & _ & cm & _ & Hcm). exists (fun j => c j + (if Nat.leb j m then e m * cm j else 0)). intros t. cbn [bigsum]. rewrite Hc, Hcm.
        rewrite (bigsum_ext n (fun j => (c j + _) * t ^ j) (fun j => c j * t ^ j + (if Nat.leb j m then e m * cm j else 0) * t ^ j)) by (intros; ring).
        rewrite bigsum_plus. f_equal. replace n with (S m + (n - S m))%nat by lia. rewrite bigsum_add.
        rewrite (bigsum_zero_ext (n - S m)), Rplus_0_r.
        + rewrite <- bigsum_scal. apply bigsum_ext. intros j Hj. destruct (Nat.leb_spec j m); [ring|lia].
        + intros j Hj. destruct (Nat.leb_spec (S m + j) m); [lia|ring]. }
    destruct (Hlow n ltac:(lia)) as [c Hc]. destruct (Hp n) as (a & Ha & cn & Ea & Hcn).
    assert (Z0 : (if Nat.ltb n n then c n else 0) + e n * cn n = 0).
    { apply (poly1_zero (S n) (fun j => (if Nat.ltb j n then c j else 0) + e n * cn j) 1 ltac:(lra)); [|lia].
      intros t Ht. pose proof (H t Ht) as Ht0. cbn [bigsum] in Ht0. rewrite Hc, Hcn in Ht0. etransitivity; [|exact Ht0].
      rewrite (bigsum_ext (S n) _ (fun j => (if Nat.ltb j n then c j else 0) * t ^ j + e n * (cn j * t ^ j))) by (intros; ring).
      rewrite bigsum_plus, bigsum_scal. f_equal. cbn [bigsum]. rewrite Nat.ltb_irrefl, Rmult_0_l, Rplus_0_r. apply bigsum_ext. intros j Hj. destruct (Nat.ltb_spec j n); [reflexivity|lia]. }
    rewrite Nat.ltb_irrefl, Ea, Rplus_0_l in Z0. apply Rmult_integral in Z0. destruct Z0; [assumption|contradiction]. }
  destruct (Nat.eq_dec i n) as [-> | Hne]; [exact En|]. apply IH; [|lia]. intros t Ht. pose proof (H t Ht) as H0. cbn [bigsum] in H0. rewrite En, Rmult_0_l, Rplus_0_r in H0. exact H0.
Qed.

(** * trigonometric polynomials *)
Lemma cos_inj_0_PI a b : 0 <= a <= PI -> 0 <= b <= PI -> a <> b -> cos a <> cos b.
Proof.
  intros Ha Hb Hne E. destruct (Rlt_or_le a b) as [H|H].
  - pose proof (cos_decreasing_1 a b). lra.
  - pose proof (cos_decreasing_1 b a). lra.
Qed.
Lemma trig_independent n : forall A B : nat -> R, (forall f, bigsum n (fun k => A k * cos (INR k * f) + B k * sin (INR k * f)) = 0) ->
  forall k, (k < n)%nat -> A k = 0 /\ (k <> 0%nat -> B k = 0).
Proof.
  induction n as [|n IH]; intros A B H k Hk; [lia|].
  set (h := PI / INR (S n)). pose proof PI_RGT_0 as Hpi. assert (HS : 0 < INR (S n)) by (apply lt_0_INR; lia).
  assert (Hh : forall k, (k <= n)%nat -> 0 <= INR k * h <= PI).
  { intros j Hj. unfold h. split; [apply Rmult_le_pos; [apply pos_INR|apply Rlt_le, Rdiv_lt_0_compat; lra]|].
    apply Rmult_le_reg_r with (INR (S n)); [exact HS|]. unfold Rdiv. rewrite <- Rmult_assoc, Rmult_assoc, Rinv_l, Rmult_1_r by lra.
    rewrite Rmult_comm. apply Rmult_le_compat_l; [lra|]. apply le_INR. lia. }
  set (w := fun k => 2 * cos (INR k * h) - 2 * cos (INR n * h)).
  assert (Hw : forall k, (k < n)%nat -> w k <> 0).
  { intros j Hj. unfold w. intros E. apply (cos_inj_0_PI (INR j * h) (INR n * h)); try (apply Hh; lia); [|lra].
    intros E2. assert (hp : h <> 0) by (apply Rgt_not_eq; unfold h; apply Rdiv_lt_0_compat; lra). apply Rmult_eq_reg_r in E2; [|exact hp]. apply INR_eq in E2. lia. }
  assert (Hlow : forall j, (j < n)%nat -> A j = 0 /\ (j <> 0%nat -> B j = 0)).
  { intros j Hj. destruct (IH (fun k => w k * A k) (fun k => w k * B k)) with (k := j) as [H1 H2]; [|exact Hj|].
    - intros f. pose proof (H (f + h)) as P1. pose proof (H (f - h)) as P2. pose proof (H f) as P3.
      assert (E : bigsum (S n) (fun k => (A k * cos (INR k * (f + h)) + B k * sin (INR k * (f + h))) + ((A k * cos (INR k * (f - h)) + B k * sin (INR k * (f - h))) + - (2 * cos (INR n * h)) * (A k * cos (INR k * f) + B k * sin (INR k * f)))) = 0).
      { rewrite (bigsum_plus (S n) (fun k => A k * cos (INR k * (f + h)) + B k * sin (INR k * (f + h)))), (bigsum_plus (S n) (fun k => A k * cos (INR k * (f - h)) + B k * sin (INR k * (f - h)))), (bigsum_scal (S n) (- (2 * cos (INR n * h)))), P1, P2, P3. ring. }
      etransitivity; [|exact E]. cbn [bigsum].
      match goal with |- _ = bigsum n ?F + _ => rewrite (bigsum_ext n F (fun k => w k * A k * cos (INR k * f) + w k * B k * sin (INR k * f))) end.
      + replace (INR n * (f + h)) with (INR n * f + INR n * h) by ring. replace (INR n * (f - h)) with (INR n * f - INR n * h) by ring. rewrite cos_plus, cos_minus, sin_plus, sin_minus. ring.
      + intros k' _. unfold w. replace (INR k' * (f + h)) with (INR k' * f + INR k' * h) by ring. replace (INR k' * (f - h)) with (INR k' * f - INR k' * h) by ring. rewrite cos_plus, cos_minus, sin_plus, sin_minus. ring.
    - split; [apply Rmult_integral in H1; destruct H1; [exfalso; now apply (Hw j)|assumption]|]. intros Hj0. specialize (H2 Hj0). apply Rmult_integral in H2; destruct H2; [exfalso; now apply (Hw j)|assumption]. }
  destruct (Nat.eq_dec k n) as [-> | Hne]; [|apply Hlow; lia].
  assert (Ht : forall f, A n * cos (INR n * f) + B n * sin (INR n * f) = 0).
  { intros f. pose proof (H f) as Hf. cbn [bigsum] in Hf. rewrite bigsum_zero_ext, Rplus_0_l in Hf; [exact Hf|]. intros i Hi. destruct (Hlow i Hi) as [-> Hb]. destruct (Nat.eq_dec i 0) as [-> | Hi0].
    - cbn [INR]. rewrite (Rmult_0_l f), sin_0. ring.
    - rewrite Hb by exact Hi0. ring. }
  split.
  - pose proof (Ht 0) as H0. rewrite Rmult_0_r, cos_0, sin_0 in H0. lra.
  - intros Hn. assert (Hn0 : INR n <> 0) by (apply not_0_INR; exact Hn). pose proof (Ht (PI / 2 / INR n)) as H0. replace (INR n * (PI / 2 / INR n)) with (PI / 2) in H0 by (field; exact Hn0). rewrite cos_PI2, sin_PI2 in H0. lra.
Qed.

(** * harmonics *)
Lemma bigsum_orders l (f : Z -> R) : bigsum (2 * l + 1) (fun nu => f (Z.of_nat nu - Z.of_nat l)%Z) =
  bigsum (S l) (fun a => f (Z.of_nat a) + (if Nat.eqb a 0 then 0 else f (- Z.of_nat a)%Z)).
Proof.
  replace (2 * l + 1)%nat with (l + (1 + l))%nat by lia. rewrite bigsum_add, bigsum_add. rewrite (bigsum_split_first l (fun a => f (Z.of_nat a) + (if Nat.eqb a 0 then 0 else f (- Z.of_nat a)%Z))). cbn [Nat.eqb]. cbn [bigsum].
  rewrite bigsum_plus, bigsum_rev. replace (Z.of_nat (l + 0) - Z.of_nat l)%Z with (Z.of_nat 0) by lia.
  rewrite (bigsum_ext l (fun i => f (Z.of_nat (l - 1 - i) - Z.of_nat l)%Z) (fun i => f (- Z.of_nat (S i))%Z)) by (intros i Hi; f_equal; lia).
  rewrite (bigsum_ext l (fun i => f (Z.of_nat (l + (1 + i)) - Z.of_nat l)%Z) (fun i => f (Z.of_nat (S i)))) by (intros i Hi; f_equal; lia).
  ring.
Qed.
Lemma harmonic_norm_pos l m : 0 < harmonic_norm l m.
Proof.
  unfold harmonic_norm. apply sqrt_lt_R0. pose proof PI_RGT_0. apply Rdiv_lt_0_compat.
  - apply Rmult_lt_0_compat; [|apply fact_pos]. apply Rmult_lt_0_compat; [destruct (Nat.eqb m 0); lra|apply lt_0_INR; lia].
  - apply Rmult_lt_0_compat; [lra|apply fact_pos].
Qed.
Lemma harmonic_unique L d : (forall x y z, on_sphere x y z -> harmonic_eval L d x y z = 0) ->
  forall l nu, (l <= L)%nat -> (nu <= 2 * l)%nat -> d (l * l + nu)%nat = 0.
Proof.
  intros H.
  set (co := fun (l : nat) (m : Z) => d (Z.to_nat (Z.of_nat (l * l + l) + m))).
  set (P := fun (l a : nat) (z : R) => harmonic_norm l a * legendre_deriv l a z).
  assert (Hz : forall z a, -1 < z < 1 -> (a <= L)%nat ->
    bigsum (S L) (fun l => if Nat.leb a l then co l (Z.of_nat a) * P l a z else 0) = 0 /\
    (a <> 0%nat -> bigsum (S L) (fun l => if Nat.leb a l then co l (- Z.of_nat a)%Z * P l a z else 0) = 0)).
  { intros z a Hz Ha. set (s := sqrt (1 - z ^ 2)). assert (Hs : 0 < s) by (apply sqrt_lt_R0; nra). assert (Hs2 : s * s = 1 - z ^ 2) by (apply sqrt_sqrt; nra).
    set (A := fun a => s ^ a * bigsum (S L) (fun l => if Nat.leb a l then co l (Z.of_nat a) * P l a z else 0)).
    set (B := fun a => s ^ a * bigsum (S L) (fun l => if Nat.leb a l then co l (- Z.of_nat a)%Z * P l a z else 0)).
    destruct (trig_independent (S L) A B) with (k := a) as [HA HB]; [|lia|].
    - intros f. etransitivity; [|apply (H (s * cos f) (s * sin f) z)].
      2:{ unfold on_sphere. pose proof (sin2_cos2 f) as E. unfold Rsqr in E. transitivity ((s * s) * (sin f * sin f + cos f * cos f) + z ^ 2); [ring|]. rewrite E, Hs2. ring. }
      symmetry. unfold harmonic_eval.
      rewrite (bigsum_ext (S L) _ (fun l => bigsum (S L) (fun a => (if Nat.leb a l then s ^ a * (co l (Z.of_nat a) * P l a z) * cos (INR a * f) else 0) + (if Nat.leb a l then s ^ a * (co l (- Z.of_nat a)%Z * P l a z) * sin (INR a * f) else 0)))).
      + rewrite bigsum_swap. apply bigsum_ext. intros k _. unfold A, B. rewrite bigsum_plus. f_equal.
        * rewrite (Rmult_comm (s ^ k)), Rmult_assoc, (Rmult_comm (bigsum _ _)), <- bigsum_scal. apply bigsum_ext. intros l _. destruct (Nat.leb k l); ring.
        * rewrite (Rmult_comm (s ^ k)), Rmult_assoc, (Rmult_comm (bigsum _ _)), <- bigsum_scal. apply bigsum_ext. intros l _. destruct (Nat.leb k l); ring.
      + intros l Hl.
        rewrite (bigsum_ext _ _ (fun nu => (fun m => co l m * real_Y l m (s * cos f) (s * sin f) z) (Z.of_nat nu - Z.of_nat l)%Z)).
        2:{ intros nu Hnu. cbv beta. unfold co. f_equal. f_equal. lia. }
        rewrite (bigsum_orders l (fun m => co l m * real_Y l m (s * cos f) (s * sin f) z)).
        replace (S L) with (S l + (L - l))%nat by lia. rewrite bigsum_add. rewrite (bigsum_zero_ext (L - l)), Rplus_0_r.
        2:{ intros i Hi. destruct (Nat.leb_spec (S l + i) l); [lia|ring]. }
        apply bigsum_ext. intros k Hk. destruct (Nat.leb_spec k l); [|lia].
        pose proof (cpow_rot k s 0 f) as EC. replace (s * cos f - 0 * sin f) with (s * cos f) in EC by ring. replace (s * sin f + 0 * cos f) with (s * sin f) in EC by ring.
        assert (EC0 : cpow k s 0 = (s ^ k, 0)). { clear. induction k as [|k IH]; [reflexivity|]. cbn [cpow pow]. rewrite IH. f_equal; ring. }
        rewrite EC0 in EC. cbn [fst snd] in EC.
        unfold real_Y. replace (Z.abs_nat (Z.of_nat k)) with k by lia. replace (Z.abs_nat (- Z.of_nat k)) with k by lia. rewrite EC. cbn [fst snd]. fold (P l k z).
        destruct (Z.ltb_spec (Z.of_nat k) 0); [lia|]. f_equal; [ring|].
        destruct (Nat.eqb_spec k 0) as [-> | Hk0]; [cbn [INR]; rewrite (Rmult_0_l f), sin_0; ring|]. destruct (Z.ltb_spec (- Z.of_nat k) 0); [ring|lia].
    - assert (Hsa : s ^ a <> 0) by (apply pow_nonzero; lra). split.
      + unfold A in HA. apply Rmult_integral in HA. destruct HA; [contradiction|assumption].
      + intros Hne. specialize (HB Hne). unfold B in HB. apply Rmult_integral in HB. destruct HB; [contradiction|assumption]. }
  assert (Hco : forall (m : Z) l, (l <= L)%nat -> (Z.abs_nat m <= l)%nat -> co l m = 0).
  { intros m l Hl Hm. set (a := Z.abs_nat m) in *.
    assert (Hsum : forall z, 0 < z < 1 -> bigsum (L - a + 1) (fun i => (co (a + i)%nat m * harmonic_norm (a + i) a) * legendre_deriv (a + i) a z) = 0).
    { intros z Hz01. assert (E : bigsum (S L) (fun l => if Nat.leb a l then co l m * P l a z else 0) = 0).
      { destruct (Hz z a ltac:(lra) ltac:(lia)) as [H1 H2]. destruct (Z_le_dec 0 m) as [Hm0|Hm0].
        - replace m with (Z.of_nat a) by (unfold a; lia). exact H1.
        - replace m with (- Z.of_nat a)%Z by (unfold a; lia). apply H2. unfold a; lia. }
      replace (S L) with (a + (L - a + 1))%nat in E by lia. rewrite bigsum_add in E. rewrite (bigsum_zero_ext a), Rplus_0_l in E.
      2:{ intros i Hi. destruct (Nat.leb_spec a i); [lia|reflexivity]. }
      etransitivity; [|exact E]. apply bigsum_ext. intros i _. destruct (Nat.leb_spec a (a + i)); [unfold P; ring|lia]. }
    pose proof (graded_independent (fun i => legendre_deriv (a + i) a)) as GI.
    assert (E : co (a + (l - a))%nat m * harmonic_norm (a + (l - a)) a = 0).
    { apply (GI) with (n := (L - a + 1)%nat) (e := fun i => co (a + i)%nat m * harmonic_norm (a + i) a); [|exact Hsum|lia].
      intros i. destruct (ispoly_legendre (a + i) a ltac:(lia)) as (q & Hq & Hp). exists q. split; [exact Hq|]. replace (a + i - a)%nat with i in Hp by lia. exact Hp. }
    replace (a + (l - a))%nat with l in E by lia. apply Rmult_integral in E. destruct E as [E|E]; [exact E|]. pose proof (harmonic_norm_pos l a). lra. }
  intros l nu Hl Hnu. pose proof (Hco (Z.of_nat nu - Z.of_nat l)%Z l Hl ltac:(lia)) as E. unfold co in E. etransitivity; [|exact E]. f_equal. lia.
Qed.
