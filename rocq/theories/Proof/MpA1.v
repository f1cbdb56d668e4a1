(** The multiprecision A1 matrix is the core one. *)
From Coq Require Import Reals Lra Lia ZArith List Bool.
From Verif Require Import Base.RealAux Base.Dict Model.Poly Model.Basis Model.MpBasis Spec.PolySpec Spec.BasisSpec Spec.HarmonicSpec
  Proof.PolyProof Proof.PolyMatrix Proof.PolyUnique Proof.BasisProof Proof.GreenProof Proof.GreenInv Proof.HarmonicProof.
Import ListNotations.
Open Scope R_scope.

(** * Factorials *)
Lemma mp_fac2_even a : (0 <= a)%Z -> mp_fac2 (2 * a) = Some (zfact a).
Proof.
  intros H. unfold mp_fac2. destruct (Z.eqb_spec (2 * a) 0) as [E|E].
  - replace a with 0%Z by lia. reflexivity.
  - destruct (Z.ltb_spec (2 * a) 0); [lia|]. rewrite andb_false_r. f_equal. unfold gamma_half.
    replace (2 * a + 2)%Z with ((a + 1) * 2)%Z by lia. rewrite Z.mod_mul, Z.div_mul by lia. cbn [Z.eqb].
    destruct (Z.ltb_spec 0 ((a + 1) * 2)); [|lia]. unfold zfact. do 2 f_equal. lia.
Qed.
Lemma mp_fac_nat n : (0 <= n)%Z -> mp_fac n = Some (zfact n).
Proof. apply mp_fac2_even. Qed.
Lemma mp_fac2_num a : (-1 <= a)%Z -> mp_fac2 a = Some (gamma_half (a + 2)).
Proof.
  intros H. unfold mp_fac2. destruct (Z.eqb_spec a 0) as [->|E]; [reflexivity|].
  destruct (Z.ltb_spec a 0) as [L|L]; [replace a with (-1)%Z by lia; reflexivity|]. now rewrite andb_false_r.
Qed.
Lemma zfact_pos n : 0 < zfact n.
Proof. unfold zfact. apply lt_0_INR, lt_O_fact. Qed.
Lemma mp_A_core l m : (0 <= m <= l)%Z -> mp_A l m = Some (Alm l m).
Proof. intros H. unfold mp_A, Alm. rewrite !mp_fac_nat by lia. cbn [ext_mul ext_div]. reflexivity. Qed.
Lemma mp_B_core l m j k : (0 <= m <= l)%Z -> (0 <= j <= m)%Z -> (0 <= k <= l - m)%Z -> mp_B l m j k = Some (Blmjk l m j k).
Proof.
  intros Hm Hj Hk. unfold mp_B, Blmjk. cbv zeta. rewrite !mp_fac_nat by lia. rewrite (mp_fac2_num (l + m + k - 1)) by lia. cbn [ext_mul ext_div].
  unfold mp_fac2. destruct (Z.eqb_spec (- l + m + k - 1) 0); [lia|].
  rewrite (andb_comm (_ mod 2 =? 0)%Z). destruct (_ && _)%bool; cbn [ext_div ext_mul]; f_equal. ring.
Qed.
Lemma mp_C_core p q k : (0 <= q)%Z -> (q <= p)%Z -> (p <= k)%Z -> (exists K P Q, k = 2 * K /\ p = 2 * P /\ q = 2 * Q)%Z -> mp_C p q k = Some (Cpqk p q k).
Proof.
  intros Hq Hp Hk (K & P & Q & -> & -> & ->). unfold mp_C, Cpqk.
  replace (2 * K - 2 * P)%Z with (2 * (K - P))%Z by lia. replace (2 * P - 2 * Q)%Z with (2 * (P - Q))%Z by lia.
  rewrite !mp_fac2_even by lia. cbn [ext_mul ext_div]. rewrite !(Z.mul_comm 2), !Z.div_mul by lia. reflexivity.
Qed.

(** * Two dictionary updates that add the same to every weighted sum *)
Definition inc (g : ijk -> R) (f : list (ijk * R) -> list (ijk * R)) (w : R) : Prop := forall d, dsum g (f d) = dsum g d + w.
Definition same (g : ijk -> R) (f1 f2 : list (ijk * R) -> list (ijk * R)) : Prop := exists w, inc g f1 w /\ inc g f2 w.
Lemma same_fold {A} g (s1 s2 : list (ijk * R) -> A -> list (ijk * R)) l : (forall a, In a l -> same g (fun d => s1 d a) (fun d => s2 d a)) ->
  same g (fun d => fold_left s1 l d) (fun d => fold_left s2 l d).
Proof.
  induction l as [|a l IH]; intros H.
  - exists 0. split; intros d; cbn [fold_left]; ring.
  - destruct (IH (fun b Hb => H b (or_intror Hb))) as (w & W1 & W2). destruct (H a (or_introl eq_refl)) as (v & V1 & V2).
    exists (v + w). split; intros d; cbn [fold_left]; [rewrite W1, V1|rewrite W2, V2]; ring.
Qed.
Lemma inc0_fold {A} g (s : list (ijk * R) -> A -> list (ijk * R)) l : (forall a, In a l -> inc g (fun d => s d a) 0) -> inc g (fun d => fold_left s l d) 0.
Proof.
  induction l as [|a l IH]; intros H d; cbn [fold_left]; [ring|].
  rewrite (IH (fun b Hb => H b (or_intror Hb))), (H a (or_introl eq_refl)). ring.
Qed.
Lemma same_add g k v1 v2 : v1 = v2 -> same g (add_to k v1) (add_to k v2).
Proof. intros ->. exists (v2 * g k). split; intros d; apply dsum_add_to. Qed.
Lemma same_comp g f1 f2 h1 h2 : same g f1 f2 -> same g h1 h2 -> same g (fun d => h1 (f1 d)) (fun d => h2 (f2 d)).
Proof. intros (w & A1 & A2) (v & B1 & B2). exists (w + v). split; intros d; [rewrite B1, A1|rewrite B2, A2]; ring. Qed.
Lemma even_in (n : nat) k : In k (zrange2 0 (Z.of_nat n)) -> exists i, k = Z.of_nat (2 * i) /\ (2 * i < n)%nat.
Proof. change 0%Z with (Z.of_nat 0). intros H. apply zrange2_In in H. exact H. Qed.

Lemma mp_even_core g (l am J : nat) (m : Z) : (am <= l)%nat -> (J <= am)%nat -> Z.abs m = Z.of_nat am ->
  same g (mp_even (Z.of_nat l) (Z.of_nat am) (b2z (m <? 0)%Z) (Z.of_nat J)) (Ylm_inner (Z.of_nat l) m (Alm (Z.of_nat l) (Z.of_nat am)) 0 (Z.of_nat J)).
Proof.
  intros Hl HJ Hm. unfold mp_even, Ylm_inner. rewrite Hm. cbv zeta. replace (Z.of_nat l - Z.of_nat am + 1)%Z with (Z.of_nat (l - am + 1)) by lia.
  apply same_fold. intros k Hk. apply even_in in Hk. destruct Hk as (K & -> & HK). unfold mp_coeff.
  rewrite mp_A_core, mp_B_core by lia. cbn [fin]. unfold Reqb. destruct (Req_EM_T (Blmjk (Z.of_nat l) (Z.of_nat am) (Z.of_nat J) (Z.of_nat (2 * K))) 0) as [E|E].
  - exists 0. split; [|intros d; ring]. apply inc0_fold. intros p Hp. apply inc0_fold. intros q Hq d. rewrite dsum_add_to, E. ring.
  - replace (Z.of_nat (2 * K) - 0 + 1)%Z with (Z.of_nat (2 * K + 1)) by lia. replace (Z.of_nat (2 * K) + 1)%Z with (Z.of_nat (2 * K + 1)) by lia.
    apply same_fold. intros p Hp. apply even_in in Hp. destruct Hp as (P & -> & HP). replace (Z.of_nat (2 * P) + 1)%Z with (Z.of_nat (2 * P + 1)) by lia.
    apply same_fold. intros q Hq. apply even_in in Hq. destruct Hq as (Q & -> & HQ). apply same_add. rewrite Z.sub_0_r.
    rewrite mp_C_core; [cbn [fin]; ring|lia|lia|lia|]. exists (Z.of_nat K), (Z.of_nat P), (Z.of_nat Q). lia.
Qed.
Lemma mp_odd_core g (l am J : nat) (m : Z) : (am <= l)%nat -> (J <= am)%nat -> Z.abs m = Z.of_nat am ->
  same g (mp_odd (Z.of_nat l) (Z.of_nat am) (b2z (m <? 0)%Z) (Z.of_nat J)) (Ylm_inner (Z.of_nat l) m (Alm (Z.of_nat l) (Z.of_nat am)) 1 (Z.of_nat J)).
Proof.
  intros Hl HJ Hm. unfold mp_odd, Ylm_inner. rewrite Hm. cbv zeta. replace (Z.of_nat l - Z.of_nat am + 1)%Z with (Z.of_nat (l - am + 1)) by lia.
  apply same_fold. intros k Hk. change 1%Z with (Z.of_nat 1) in Hk. apply zrange2_In in Hk. destruct Hk as (K & -> & HK). unfold mp_coeff.
  rewrite mp_A_core, mp_B_core by lia. cbn [fin]. unfold Reqb. destruct (Req_EM_T (Blmjk (Z.of_nat l) (Z.of_nat am) (Z.of_nat J) (Z.of_nat (1 + 2 * K))) 0) as [E|E].
  - exists 0. split; [|intros d; ring]. apply inc0_fold. intros p Hp. apply inc0_fold. intros q Hq d. rewrite dsum_add_to, E. ring.
  - replace (Z.of_nat (1 + 2 * K) - 1 + 1)%Z with (Z.of_nat (1 + 2 * K)) by lia.
    apply same_fold. intros p Hp. apply even_in in Hp. destruct Hp as (P & -> & HP). replace (Z.of_nat (2 * P) + 1)%Z with (Z.of_nat (2 * P + 1)) by lia.
    apply same_fold. intros q Hq. apply even_in in Hq. destruct Hq as (Q & -> & HQ). apply same_add.
    rewrite mp_C_core; [cbn [fin]; ring|lia|lia|lia|]. exists (Z.of_nat K), (Z.of_nat P), (Z.of_nat Q). lia.
Qed.
Lemma mp_Y_dsum g (l : nat) m : (Z.abs m <= Z.of_nat l)%Z -> dsum g (mp_Y (Z.of_nat l) m) = dsum g (Ylm (Z.of_nat l) m).
Proof.
  intros Hm. set (am := Z.abs_nat m). assert (Ham : Z.abs m = Z.of_nat am) by (unfold am; lia).
  assert (S : same g (fun d => fold_left (fun res j => mp_odd (Z.of_nat l) (Z.of_nat am) (b2z (m <? 0)%Z) j (mp_even (Z.of_nat l) (Z.of_nat am) (b2z (m <? 0)%Z) j res)) (zrange2 (b2z (m <? 0)%Z) (Z.of_nat am + 1)) d)
    (fun d => fold_left (fun res j => Ylm_inner (Z.of_nat l) m (Alm (Z.of_nat l) (Z.of_nat am)) 1 j (Ylm_inner (Z.of_nat l) m (Alm (Z.of_nat l) (Z.of_nat am)) 0 j res)) (zrange2 (b2z (m <? 0)%Z) (Z.of_nat am + 1)) d)).
  { apply same_fold. intros j Hj. assert (exists J, j = Z.of_nat J /\ (J <= am)%nat) as (J & -> & HJ).
    { replace (Z.of_nat am + 1)%Z with (Z.of_nat (am + 1)) in Hj by lia. replace (b2z (m <? 0)%Z) with (Z.of_nat (Z.to_nat (b2z (m <? 0)%Z))) in Hj by (destruct (m <? 0)%Z; reflexivity).
      apply zrange2_In in Hj. destruct Hj as (i & -> & Hi). eexists. split; [reflexivity|lia]. }
    apply (same_comp g _ _ _ _ (mp_even_core g l am J m ltac:(lia) HJ Ham) (mp_odd_core g l am J m ltac:(lia) HJ Ham)). }
  destruct S as (w & W1 & W2). specialize (W1 []). specialize (W2 []). unfold mp_Y, Ylm. cbv zeta. rewrite Ham. rewrite W2, <- W1.
  destruct (Z.leb_spec 0 m) as [P|P].
  - destruct (Z.ltb_spec m 0); [lia|]. cbn [b2z]. assert (Em : Z.of_nat am = m) by lia. rewrite Em. reflexivity.
  - destruct (Z.ltb_spec m 0); [|lia]. cbn [b2z]. reflexivity.
Qed.
Lemma mp_Y_nodup l m : NoDup (keys (mp_Y l m)).
Proof.
  assert (E : forall am sh j d, NoDup (keys d) -> NoDup (keys (mp_even l am sh j d))).
  { intros am sh j d H. unfold mp_even. apply fold_nodup; [|exact H]. intros d1 k H1. apply fold_nodup; [|exact H1]. intros d2 p H2. apply fold_nodup; [|exact H2].
    intros d3 q H3. now apply nodup_add_to. }
  assert (O : forall am sh j d, NoDup (keys d) -> NoDup (keys (mp_odd l am sh j d))).
  { intros am sh j d H. unfold mp_odd. apply fold_nodup; [|exact H]. intros d1 k H1. apply fold_nodup; [|exact H1]. intros d2 p H2. apply fold_nodup; [|exact H2].
    intros d3 q H3. now apply nodup_add_to. }
  unfold mp_Y. destruct (0 <=? m)%Z; (apply fold_nodup; [|constructor]); intros d j H; apply O, E, H.
Qed.

(** * Looking up a key *)
Definition at_key (p k : ijk) : R := b2r (ijk_eqb p k).
Lemma get0_dsum p d : NoDup (keys d) -> get0 p d = dsum (at_key p) d.
Proof.
  unfold get0. induction d as [|[k v] d IH]; intros H; [reflexivity|]. inversion H as [|? ? Hi Hn]; subst. rewrite dsum_cons. cbn [dget]. unfold at_key at 1.
  destruct (ijk_eqb p k) eqn:E.
  - apply ijk_eqb_eq in E. subst k. cbn [b2r]. rewrite <- IH by exact Hn. apply (dget_None ijk_eqb ijk_eqb_eq) in Hi. rewrite Hi. ring.
  - cbn [b2r]. rewrite IH by exact Hn. ring.
Qed.
Lemma coef_dsum d (r : nat) : (forall k, In k (keys d) -> valid_ijk k) -> coef d r = dsum (at_key (n2ijk (Z.of_nat r))) d.
Proof.
  intros H. unfold coef, dsum. apply Rsum_map_ext. intros [k v] Hi. cbn [fst snd].
  assert (Hv : valid_ijk k) by (apply H; change k with (fst (k, v)); now apply in_map). unfold at_key.
  destruct (Z.eqb_spec (idx k) (Z.of_nat r)) as [E|E].
  - rewrite <- E, n2ijk_idx by exact Hv. rewrite (proj2 (ijk_eqb_eq k k) eq_refl). cbn [b2r]. ring.
  - destruct (ijk_eqb (n2ijk (Z.of_nat r)) k) eqn:Ek; [|cbn [b2r]; ring]. apply ijk_eqb_eq in Ek. exfalso. apply E. rewrite <- Ek. apply idx_n2ijk. lia.
Qed.
Lemma coef_get0 d (r : nat) : NoDup (keys d) -> (forall k, In k (keys d) -> valid_ijk k) -> coef d r = get0 (n2ijk (Z.of_nat r)) d.
Proof. intros Hn Hv. rewrite coef_dsum by exact Hv. symmetry. now apply get0_dsum. Qed.
Lemma mp_p_coeffs_n2ijk n : mp_p_coeffs n = n2ijk n.
Proof. exact (ptilde_n2ijk n). Qed.

Lemma mp_A1_entry D (r c : nat) : (c < (D + 1) * (D + 1))%nat -> mp_A1 (Z.of_nat D) (Z.of_nat r) (Z.of_nat c) = A1 (Z.of_nat D) (Z.of_nat r) (Z.of_nat c).
Proof.
  intros Hc. destruct (slot_decomp D c Hc) as (l & nu & Hl & Hnu & ->). rewrite A1_entry by assumption.
  unfold mp_A1. f_equal. f_equal. rewrite lm_enum_form, map_map, Rsum_map_seq. rewrite (bigsum_single _ (l * l + nu)%nat); [| exact Hc |].
  - cbv beta. rewrite Nat.add_0_l, n2lm_slot, Z.eqb_refl by exact Hnu. rewrite mp_p_coeffs_n2ijk, get0_dsum by apply mp_Y_nodup.
    rewrite mp_Y_dsum by lia. symmetry. apply coef_dsum. intros k Hk. apply Ylm_keys in Hk; [|lia]. tauto.
  - intros i Hi Hne. rewrite Nat.add_0_l. destruct (n2lm (Z.of_nat i)). destruct (Z.eqb_spec (Z.of_nat i) (Z.of_nat (l * l + nu))); [lia|reflexivity].
Qed.
