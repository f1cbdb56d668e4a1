(** The multiprecision gtilde and A2_inv are the core ones. *)
From Coq Require Import Reals Lra Lia ZArith List Bool.
From Verif Require Import Base.RealAux Base.Dict Model.Poly Model.Basis Model.MpBasis Spec.PolySpec Spec.BasisSpec
  Proof.PolyProof Proof.PolyMatrix Proof.PolyUnique Proof.BasisProof Proof.GreenProof Proof.GreenInv Proof.MpA1 Proof.MpA2.
Import ListNotations.
Open Scope R_scope.

Lemma get0_dset p k v d : get0 p (dset ijk_eqb k v d) = if ijk_eqb p k then v else get0 p d.
Proof. unfold get0, dset. rewrite (dget_dupd ijk_eqb ijk_eqb_eq). destruct (ijk_eqb p k); reflexivity. Qed.
Lemma skip_zero p (t : list (ijk * Z)) : forall d1 d2, NoDup (keys t) -> get0 p d1 = get0 p d2 -> (In p (keys t) -> get0 p d1 = 0) ->
  get0 p (fold_left (fun res e => dset ijk_eqb (fst e) (IZR (snd e)) res) t d1) =
  get0 p (fold_left (fun res e => if (snd e =? 0)%Z then res else dset ijk_eqb (fst e) (IZR (snd e)) res) t d2).
Proof.
  induction t as [|[k v] t IH]; intros d1 d2 Hn E H0; [exact E|]. inversion Hn as [|? ? Hk Hn']; subst. cbn [fold_left fst snd]. apply IH; [exact Hn'| |].
  - rewrite get0_dset. destruct (ijk_eqb p k) eqn:Ek.
    + apply ijk_eqb_eq in Ek. subst k. destruct (Z.eqb_spec v 0) as [->|Hv]; [rewrite <- E; symmetry; apply H0; now left|].
      rewrite get0_dset. rewrite (proj2 (ijk_eqb_eq p p) eq_refl). reflexivity.
    + destruct (v =? 0)%Z; [exact E|]. rewrite get0_dset, Ek. exact E.
  - intros Hi. rewrite get0_dset. destruct (ijk_eqb p k) eqn:Ek; [apply ijk_eqb_eq in Ek; subst k; contradiction|]. apply H0. now right.
Qed.
Lemma neg_half_odd mu : (mu mod 2 <> 0)%Z -> (- (mu - 3) / 2 = - ((mu - 3) / 2) /\ - (mu + 3) / 2 = - ((mu + 3) / 2))%Z.
Proof.
  intros H. pose proof (Z.div_mod mu 2 ltac:(lia)) as E. pose proof (Z.mod_pos_bound mu 2 ltac:(lia)). assert (E1 : (mu mod 2 = 1)%Z) by lia. set (h := (mu / 2)%Z) in *.
  replace (mu - 3)%Z with (2 * (h - 1))%Z by lia. replace (mu + 3)%Z with (2 * (h + 2))%Z by lia. replace (- (2 * (h - 1)))%Z with (2 * - (h - 1))%Z by lia. replace (- (2 * (h + 2)))%Z with (2 * - (h + 2))%Z by lia.
  rewrite !zdiv2. split; reflexivity.
Qed.
Lemma mp_gtilde_get0 p n : get0 p (mp_gtilde n) = get0 p (gtilde n).
Proof.
  unfold mp_gtilde, gtilde. cbv zeta. set (l := Z.sqrt n). set (m := (n - l * l - l)%Z). set (mu := (l - m)%Z). set (nu := (l + m)%Z).
  destruct (Z.eqb_spec (nu mod 2) 0) as [E|E].
  { apply skip_zero; [|reflexivity|reflexivity]. repeat constructor. intros []. }
  destruct ((l =? 1) && (m =? 0))%Z%bool.
  { apply skip_zero; [|reflexivity|reflexivity]. repeat constructor. intros []. }
  destruct ((mu =? 1) && (l mod 2 =? 0))%Z%bool.
  { apply skip_zero; [|reflexivity|reflexivity]. repeat constructor. intros []. }
  destruct (mu =? 1)%Z.
  { apply skip_zero; [|reflexivity|reflexivity]. cbn [keys map fst]. constructor; [|constructor; [|constructor; [intros []|constructor]]]; cbn [In]; intros H; decompose [or] H; try contradiction; injection H0 || injection H1; intros; lia. }
  assert (Hmu : (mu mod 2 <> 0)%Z). { replace mu with (nu + (- m) * 2)%Z by (unfold mu, nu; lia). rewrite Z.mod_add by lia. exact E. }
  destruct (neg_half_odd mu Hmu) as [-> ->]. apply skip_zero; [|reflexivity|reflexivity]. cbn [keys map fst].
  assert (A1 : ((nu + 3) / 2 = (nu - 1) / 2 + 2)%Z). { replace (nu + 3)%Z with (nu - 1 + 2 * 2)%Z by lia. rewrite Z.div_add by lia. reflexivity. }
  assert (A2 : ((mu - 1) / 2 = (mu - 5) / 2 + 2)%Z). { replace (mu - 1)%Z with (mu - 5 + 2 * 2)%Z by lia. rewrite Z.div_add by lia. reflexivity. }
  constructor; [|constructor; [|constructor; [intros []|constructor]]]; cbn [In].
  - intros [H|[H|[]]]; injection H; intros; lia.
  - intros [H|[]]. injection H. intros. lia.
Qed.
Lemma mp_A2_inv_entry D (r c : nat) : (c < (D + 1) * (D + 1))%nat -> mp_A2_inv (Z.of_nat D) (Z.of_nat r) (Z.of_nat c) = A2_inv (Z.of_nat D) (Z.of_nat r) (Z.of_nat c).
Proof.
  intros Hc. rewrite A2_inv_get0 by exact Hc. unfold mp_A2_inv. rewrite lm_enum_form, map_map, Rsum_map_seq. rewrite (bigsum_single _ c); [| exact Hc |].
  - cbv beta. rewrite Nat.add_0_l, Z.eqb_refl. rewrite mp_p_coeffs_n2ijk. apply mp_gtilde_get0.
  - intros i Hi Hne. rewrite Nat.add_0_l. destruct (Z.eqb_spec (Z.of_nat i) (Z.of_nat c)); [lia|reflexivity].
Qed.
