(** Property-level statements about Ylm. *)
From Coq Require Import Reals Lra Lia ZArith List Bool Arith Psatz.
From Coquelicot Require Import Coquelicot.
From Verif Require Import Base.RealAux Base.Dict Model.Poly Model.Basis Model.Solution Model.Wigner3j Model.Ylm
  Spec.PolySpec Spec.BasisSpec Spec.HarmonicSpec Spec.RotationSpec Spec.DiskSpec Spec.Wigner3jSpec Spec.YlmSpec
  Proof.PolyProof Proof.HarmonicProof Proof.DiskProof Proof.RTProof Proof.GreenProof Proof.Wigner3jMain Proof.RacahMain Proof.YlmProof Proof.YlmMore.
Import ListNotations.
Open Scope R_scope.

Lemma getitem_at v (l : nat) m : wf_ylm v -> (Z.of_nat l <= y_deg v)%Z -> (Z.abs m <= Z.of_nat l)%Z -> ylm_getitem v (Z.of_nat l, m) = nth (dense_pos l m) (ylm_todense v) 0.
Proof.
  intros Hw Hl Hm. pose proof Hw as (_ & _ & H0 & _). unfold ylm_getitem, jax_get. rewrite todense_length by exact H0. unfold ylm_index. cbn [fst snd].
  destruct (Z.ltb_spec (Z.of_nat l * (Z.of_nat l + 1) + m) 0); [nia|]. f_equal. unfold dense_pos, ncoef, deg_nat.
  rewrite Z.min_l by nia. rewrite Z.max_r by nia. f_equal. nia.
Qed.
Lemma todense_spec d : valid_coeffs d -> d <> [] -> exists v, make_ylm d = Ok v /\
  (forall l m, In (l, m) (map fst d) -> (l <= y_deg v)%Z) /\ (exists m, In (y_deg v, m) (map fst d)) /\
  length (ylm_todense v) = ncoef (Z.to_nat (y_deg v)) /\
  (forall (l : nat) m c, (Z.of_nat l <= y_deg v)%Z -> (Z.abs m <= Z.of_nat l)%Z -> coeff_is d (Z.of_nat l, m) c ->
     nth (dense_pos l m) (ylm_todense v) 0 = c /\ ylm_getitem v (Z.of_nat l, m) = c) /\
  (forall p, map_at (Z.to_nat (y_deg v)) (ylm_todense v) p = coeffs_value d p).
Proof.
  intros Hv Hd. destruct (make_ylm_ok d Hd) as (v & E & D1 & D2 & (k & D3 & D4) & _). destruct (make_ylm_wf d v Hv E) as [W _]. exists v. split; [exact E|].
  split; [intros l m H; apply (D2 (l, m)), H|]. split; [exists (snd k); rewrite <- D4; destruct k; exact D3|].
  pose proof W as (_ & _ & H0 & _). split; [apply todense_length, H0|]. split.
  - intros l m c Hl Hm Hc. rewrite getitem_at by assumption. assert (X : nth (dense_pos l m) (ylm_todense v) 0 = c); [|split; exact X].
    rewrite todense_at by assumption. rewrite D1. apply lget0_coeff; [apply Hv|exact Hc].
  - intros p. rewrite <- D1. apply (todense_value v p W).
Qed.
Lemma value_div c d p : coeffs_value (map (fun kv => (fst kv, snd kv / c)) d) p = coeffs_value d p / c.
Proof.
  rewrite (map_ext (fun kv => (fst kv, snd kv / c)) (fun kv => (fst kv, snd kv * / c))) by reflexivity. rewrite value_map. unfold Rdiv. ring.
Qed.
Lemma normalize_spec d v c : valid_coeffs d -> make_ylm d = Ok v -> In ((0, 0)%Z, c) d -> c <> 0 ->
  exists w, ylm_normalize v = Ok w /\ ylm_normalize w = Ok w /\ y_deg w = y_deg v /\ coeff_is (y_data w) (0, 0)%Z 1 /\
    y_data w = map (fun kv => (fst kv, snd kv / c)) d /\ (forall p, coeffs_value (y_data w) p = coeffs_value d p / c).
Proof.
  intros Hv E Hc Hz. destruct (make_ylm_wf d v Hv E) as [W D]. rewrite <- D in Hc. destruct (normalize_ok v c W Hc Hz) as (w & Ew & Ww & Dw & Gw).
  destruct (normalize_idem v w W Ew) as [I1 I2]. exists w. split; [exact Ew|]. split; [exact I1|]. split; [exact Gw|]. rewrite D in Dw.
  split; [apply lget0_coeff; [apply Ww|exact I2]|]. split; [exact Dw|]. intros p. rewrite Dw. apply value_div.
Qed.
Lemma make_data d v : make_ylm d = Ok v -> y_data v = d.
Proof. unfold make_ylm. destruct d; [discriminate|]. intros E. injection E as <-. reflexivity. Qed.
Lemma normalize_missing d v : make_ylm d = Ok v -> ~ In (0, 0)%Z (map fst d) -> ylm_normalize v = Err KeyError.
Proof. intros E H. unfold ylm_normalize. rewrite (make_data d v E). rewrite (proj2 (dget_None lm_eqb lm_eqb_eq (0, 0)%Z d) H). reflexivity. Qed.
Lemma normalize_zero d v : valid_coeffs d -> make_ylm d = Ok v -> In ((0, 0)%Z, 0) d -> ylm_normalize v = Err ZeroDivisionError /\ ylm_normalize v <> Err ValueError.
Proof.
  intros Hv E H. assert (X : ylm_normalize v = Err ZeroDivisionError); [|rewrite X; split; [reflexivity|discriminate]].
  unfold ylm_normalize. rewrite (make_data d v E). rewrite (In_dget lm_eqb lm_eqb_eq (0, 0)%Z 0 d (proj1 Hv) H). rewrite (proj2 (Reqb_true 0 0) eq_refl). reflexivity.
Qed.
Lemma getitem_beyond d v l m c : valid_coeffs d -> make_ylm d = Ok v -> (y_deg v < l)%Z -> (Z.abs m <= l)%Z -> coeff_is d (y_deg v, y_deg v) c -> ylm_getitem v (l, m) = c.
Proof.
  intros Hv E Hl Hm Hc. destruct (make_ylm_wf d v Hv E) as [W D]. pose proof W as (_ & _ & H0 & _).
  assert (X : lget0 (y_deg v, y_deg v) d = c) by (apply lget0_coeff; [apply Hv|exact Hc]). rewrite <- X, <- D.
  replace (y_deg v, y_deg v) with (Z.of_nat (deg_nat v), y_deg v) by (unfold deg_nat; f_equal; lia).
  rewrite <- todense_at by (try assumption; unfold deg_nat; lia). unfold ylm_getitem, jax_get. rewrite todense_length by exact H0. unfold ylm_index. cbn [fst snd].
  destruct (Z.ltb_spec (l * (l + 1) + m) 0); [nia|]. f_equal. unfold dense_pos, ncoef, deg_nat. set (D0 := Z.to_nat (y_deg v)). assert (HD : y_deg v = Z.of_nat D0) by (unfold D0; lia). clearbody D0.
  rewrite HD in *. rewrite Z.min_r by nia. rewrite Z.max_r by nia. f_equal. nia.
Qed.
Lemma invalid_order a c : exists v, make_ylm [((0, 0), a); ((1, -2), c)]%Z = Ok v /\ ylm_todense v = [a + c; 0; 0; 0].
Proof.
  eexists. split; [reflexivity|]. unfold ylm_todense. cbn -[Rplus Pos.to_nat]. change (Pos.to_nat 4) with 4%nat. cbn -[Rplus]. replace (a + (c + 0)) with (a + c) by ring. replace (0 + (0 + 0)) with 0 by ring. reflexivity.
Qed.
Lemma from_ld_unit_flux inv u : right_inverse (ncoef (length u)) (A1 (Z.of_nat (length u))) (inv (length u)) -> ld_flux u <> 0 ->
  exists w, ylm_from_limb_darkening inv u = Ok w /\ disk_integral (fun x y => 2 / sqrt PI * coeffs_value (y_data w) (x, y, zdisk x y)) = 1.
Proof.
  intros Hi Hf. destruct (from_ld_ok inv u Hi) as (w & E & _ & _ & V). exists w. split; [exact E|].
  rewrite (disk_ext_in _ (fun x y => dense_eval (length u) (fun j => / ld_flux u * limb_dark_vector u (Z.of_nat j)) x y (zdisk x y))).
  - rewrite <- rT_dot. transitivity (/ ld_flux u * ld_flux u); [|field; exact Hf]. rewrite (bigsum_ext _ _ (fun n => / ld_flux u * (limb_dark_vector u (Z.of_nat n) * nth n (rT (length u)) 0))) by (intros; ring).
    rewrite bigsum_scal. f_equal. rewrite (rT_dot (length u) (fun n => limb_dark_vector u (Z.of_nat n))). apply disk_ext_in. intros x y Hd. apply BasisProof.limb_dark_eval. apply zdisk_sphere, Hd.
  - intros x y Hd. rewrite V by (apply zdisk_sphere, Hd). fold (ld_profile u (zdisk x y)). change (disk_integral _) with (ld_flux u).
    transitivity (/ ld_flux u * dense_eval (length u) (fun j => limb_dark_vector u (Z.of_nat j)) x y (zdisk x y)).
    + rewrite BasisProof.limb_dark_eval by (apply zdisk_sphere, Hd). unfold ld_profile, Rdiv. ring.
    + rewrite !dense_eval_flat. rewrite <- bigsum_scal. apply bigsum_ext. intros. ring.
Qed.
Lemma ld_sat : (forall u : list R, exists inv, right_inverse (ncoef (length u)) (A1 (Z.of_nat (length u))) (inv (length u))) /\ ld_flux [] <> 0.
Proof.
  split.
  - intros u. destruct (A1_has_inverse (length u)) as [B HB]. exists (fun _ => B). exact HB.
  - assert (E : ld_flux [] = PI); [|rewrite E; pose proof PI_RGT_0; lra].
    transitivity (disk_integral (fun x y => dense_eval 0 (fun j => limb_dark_vector [] (Z.of_nat j)) x y (zdisk x y))).
    + symmetry. apply disk_ext_in. intros x y Hd. apply (BasisProof.limb_dark_eval []). apply zdisk_sphere, Hd.
    + rewrite <- rT_dot. assert (H := BasisProof.limb_dark_eval [] 0 0 1 ltac:(unfold on_sphere; ring)). rewrite dense_eval_flat in H. change ((0 + 1) * (0 + 1))%nat with 1%nat. cbn [length Nat.add Nat.mul bigsum] in *. cbn -[limb_dark_vector rT] in H. assert (R0 : nth 0 (rT 0) 0 = PI) by (cbn; ring). rewrite R0. change (Z.of_nat 0) with 0%Z. nra.
Qed.
Lemma mul_constant_spec a f d v : make_ylm [((0, 0)%Z, a)] = Ok f -> valid_coeffs d -> make_ylm d = Ok v ->
  exists w, ylm_mul f v = Ok w /\ valid_coeffs (y_data w) /\ y_deg w = y_deg v /\
   forall l m c, coeff_is d (l, m) c -> coeff_is (y_data w) (l, m) ((if Z.even l then 1 else -1) * sqrt (2 * IZR l + 1) * a / sqrt (4 * PI) * c).
Proof.
  intros Ef Hv Ev. destruct (make_ylm_wf d v Hv Ev) as [W D]. destruct (mul_constant a f v Ef W) as (w & Ew & Ww & Dw & G). exists w. split; [exact Ew|].
  split; [apply Ww|]. split; [exact Dw|]. intros l m c Hc. apply lget0_coeff; [apply Ww|]. rewrite G, D. cbn [fst]. rewrite (proj1 (lget0_coeff d (l, m) c (proj1 Hv)) Hc).
  unfold mul_factor, sign_pow. rewrite plus_IZR, mult_IZR. reflexivity.
Qed.
Lemma Y00 x y z : real_Y 0 0 x y z = 1 / sqrt (4 * PI).
Proof.
  unfold real_Y, harmonic_norm, legendre_deriv. cbn -[sqrt PI]. replace (1 * 1 * 1 / (4 * PI * 1)) with (1 / (4 * PI)) by (field; pose proof PI_RGT_0; lra).
  rewrite sqrt_div, sqrt_1 by (pose proof PI_RGT_0; lra). field. apply Rgt_not_eq, sqrt_lt_R0. pose proof PI_RGT_0; lra.
Qed.
Lemma Y10 x y z : real_Y 1 0 x y z = sqrt 3 / sqrt (4 * PI) * z.
Proof.
  unfold real_Y, harmonic_norm, legendre_deriv. cbn -[sqrt PI Derive INR pow].
  assert (E : Derive (fun s => (s ^ 2 - 1) ^ 1) z = 2 * z) by (apply is_derive_unique; auto_derive; [exact I|ring]).
  rewrite E. replace (INR 3) with 3 by (cbn; ring). replace (INR 1) with 1 by reflexivity. replace (1 * 3 * 1 / (4 * PI * 1)) with (3 / (4 * PI)) by (field; pose proof PI_RGT_0; lra).
  rewrite sqrt_div by (pose proof PI_RGT_0; lra). field. apply Rgt_not_eq, sqrt_lt_R0. pose proof PI_RGT_0; lra.
Qed.
Lemma mul_refuted : exists f g w x y z, make_ylm [((0, 0)%Z, 1)] = Ok f /\ make_ylm [((1, 0)%Z, 1)] = Ok g /\ ylm_mul f g = Ok w /\ on_sphere x y z /\
  coeffs_value (y_data w) (x, y, z) <> coeffs_value (y_data f) (x, y, z) * coeffs_value (y_data g) (x, y, z).
Proof.
  destruct (make_ylm_ok [((0, 0)%Z, 1)] ltac:(discriminate)) as (f & Ef & Df & _). destruct (make_ylm_ok [((1, 0)%Z, 1)] ltac:(discriminate)) as (g & Eg & Dg & _).
  assert (Vg : valid_coeffs [((1, 0)%Z, 1)]) by (split; [constructor; [intros []|constructor]|intros k [<-|[]]; unfold valid_lm; cbn; lia]).
  destruct (make_ylm_wf _ g Vg Eg) as [Wg _].
  destruct (mul_constant 1 f g Ef Wg) as (w & Ew & Ww & Dw & G).
  exists f, g, w, 0, 0, 1. split; [exact Ef|]. split; [exact Eg|]. split; [exact Ew|]. split; [unfold on_sphere; ring|].
  rewrite <- (todense_value w _ Ww), Df, Dg. assert (DW : deg_nat w = 1%nat) by (unfold deg_nat; rewrite Dw; injection Eg as <-; reflexivity). rewrite DW.
  assert (PP := PI_RGT_0). assert (Sp : 0 < sqrt (4 * PI)) by (apply sqrt_lt_R0; lra).
  assert (Pz : forall n, (n < 4)%nat -> n <> 2%nat -> nth n (ylm_todense w) 0 = 0).
  { intros n Hn Hne. rewrite todense_nth by (try exact Ww; rewrite DW; exact Hn). rewrite G, Dg. unfold lget0. replace (dget lm_eqb (lm_of_index (Z.of_nat n)) [((1, 0)%Z, 1)]) with (@None R); [ring|].
    destruct n as [|[|[|[|n]]]]; try reflexivity; lia. }
  assert (P2 : nth 2 (ylm_todense w) 0 = - sqrt 3 / sqrt (4 * PI)).
  { rewrite todense_nth by (try exact Ww; rewrite DW; unfold ncoef; lia). rewrite G, Dg. change (lm_of_index (Z.of_nat 2)) with (1, 0)%Z. unfold lget0, mul_factor, sign_pow. cbn [dget lm_eqb fst snd Z.eqb Pos.eqb andb Z.even].
    change (IZR (2 * 1 + 1)) with 3. field. lra. }
  unfold map_at. rewrite harmonic_flat. change (ncoef 1) with 4%nat. cbn [bigsum]. rewrite (Pz 0%nat), (Pz 1%nat), (Pz 3%nat), P2 by lia.
  change (lm_of_index (Z.of_nat 2)) with (1, 0)%Z. cbn [fst snd]. change (Z.to_nat 1) with 1%nat. rewrite Y10. unfold coeffs_value. cbn [map Rsum fold_right fst snd].
  change (Z.to_nat 0) with 0%nat. change (Z.to_nat 1) with 1%nat. rewrite Y00, Y10. intros H.
  assert (S3 : 0 < sqrt 3) by (apply sqrt_lt_R0; lra).
  assert (X : sqrt 3 * sqrt 3 = - sqrt 3). { apply (Rmult_eq_reg_r (/ sqrt (4 * PI) / sqrt (4 * PI))); [|apply Rgt_not_eq, Rdiv_lt_0_compat; [apply Rinv_0_lt_compat|]; lra].
    rewrite !Rmult_0_l in H. rewrite Y00 in H. match type of H with ?a = _ => transitivity (- a) end; [field; lra|]. rewrite H. field. lra. }
  nra.
Qed.
(** ** non-commutativity *)
Lemma w3j_11 m2 m3 : ((m2 = 1 /\ m3 = 0) \/ (m2 = 0 /\ m3 = 1))%Z -> exists f, w3j_calculate 1 1 m2 m3 = Ok f /\ f 1%Z = - IZR (m2 - m3) / sqrt 6.
Proof.
  intros Hm. set (g := fun j : Z => if (j =? 1)%Z then - IZR (m2 - m3) / sqrt 6 else if (j =? 2)%Z then - / sqrt 10 else 0).
  assert (S6 : 0 < sqrt 6) by (apply sqrt_lt_R0; lra). assert (S10 : 0 < sqrt 10) by (apply sqrt_lt_R0; lra).
  assert (Q6 := sqrt_sqrt 6 ltac:(lra)). assert (Q10 := sqrt_sqrt 10 ltac:(lra)).
  assert (I6 : 0 < / sqrt 6) by (apply Rinv_0_lt_compat; lra). assert (I10 : 0 < / sqrt 10) by (apply Rinv_0_lt_compat; lra).
  destruct (calculate_is 1 1 m2 m3 g ltac:(lia) ltac:(lia)) as (f & E & F).
  - split; [split; [|split]|].
    + intros j Hj. unfold allowed_j in Hj. unfold g. destruct (Z.eqb_spec j 1), (Z.eqb_spec j 2); try reflexivity; lia.
    + unfold total_weight. change (Z.to_nat (1 + 1 + 1)) with 3%nat. cbn [bigsum]. unfold g. cbn -[pow sqrt IZR Z.sub INR].
      replace (INR 0) with 0 by reflexivity. replace (INR 1) with 1 by reflexivity. replace (INR 2) with 2 by (cbn; ring).
      assert (D2 : IZR (m2 - m3) * IZR (m2 - m3) = 1) by (destruct Hm as [[-> ->]|[-> ->]]; cbn; ring).
      replace ((- IZR (m2 - m3) / sqrt 6) ^ 2) with (/ 6). 2:{ transitivity ((IZR (m2 - m3) * IZR (m2 - m3)) / (sqrt 6 * sqrt 6)); [rewrite D2, Q6; field|field; lra]. }
      replace ((- / sqrt 10) ^ 2) with (/ 10). 2:{ transitivity (1 / (sqrt 10 * sqrt 10)); [rewrite Q10; field|field; lra]. } lra.
    + assert (PS : parity_sign (1 - 1 + m2 + m3) = -1) by (destruct Hm as [[-> ->]|[-> ->]]; reflexivity). rewrite PS. unfold g. cbn -[sqrt]. lra.
    + intros j Hj. unfold allowed_j in Hj. assert (H : (j = 1 \/ j = 2)%Z) by lia. unfold sgA, sgB, g.
      assert (E60 : sqrt 60 = sqrt 10 * sqrt 6) by (rewrite <- sqrt_mult by lra; f_equal; lra).
      assert (M1 : IZR (m2 + m3) = 1) by (destruct Hm as [[-> ->]|[-> ->]]; reflexivity). rewrite M1.
      assert (D2 : (IZR m2 - IZR m3) * (IZR m2 - IZR m3) = 1) by (destruct Hm as [[-> ->]|[-> ->]]; cbn; ring).
      rewrite minus_IZR. assert (M3 : IZR m2 + IZR m3 = 1) by (rewrite <- plus_IZR; exact M1).
      destruct H as [->| ->]; cbn -[sqrt pow].
      * replace (((1 + 1) ^ 2 - (1 - 1) ^ 2) * ((1 + 1 + 1) ^ 2 - (1 + 1) ^ 2) * ((1 + 1) ^ 2 - 1 ^ 2)) with 60 by ring. rewrite E60.
        replace ((1 ^ 2 - (1 - 1) ^ 2) * ((1 + 1 + 1) ^ 2 - 1 ^ 2) * (1 ^ 2 - 1 ^ 2)) with 0 by ring. rewrite sqrt_0.
        transitivity (- sqrt 6 + 6 * ((IZR m2 - IZR m3) * (IZR m2 - IZR m3)) / sqrt 6); [field; lra|]. rewrite D2. rewrite <- Q6 at 2. field. lra.
      * replace (((2 + 1) ^ 2 - (1 - 1) ^ 2) * ((1 + 1 + 1) ^ 2 - (2 + 1) ^ 2) * ((2 + 1) ^ 2 - 1 ^ 2)) with 0 by ring. rewrite sqrt_0.
        replace ((2 ^ 2 - (1 - 1) ^ 2) * ((1 + 1 + 1) ^ 2 - 2 ^ 2) * (2 ^ 2 - 1 ^ 2)) with 60 by ring. rewrite E60.
        transitivity ((IZR m2 - IZR m3) * (30 / sqrt 10 - 3 * sqrt 10)); [field; lra|]. replace (30 / sqrt 10) with (3 * sqrt 10); [ring|]. transitivity (3 * (sqrt 10 * sqrt 10) / sqrt 10); [field; lra|]. rewrite Q10. unfold Rdiv. ring.
  - exists f. split; [exact E|]. rewrite F. reflexivity.
Qed.
Lemma pair11 m1 m2 w : (m1 + m2 = 1)%Z -> coeff_is (mul_pair 1 m1 1 1 m2 1 w []) (1, 1)%Z
  (w 1%Z * (sqrt (IZR (2 * 1 + 1)) * sqrt (IZR (2 * 1 + 1) / (4 * PI)) * sqrt (IZR (2 * 1 + 1)))).
Proof.
  intros H. unfold mul_pair. rewrite H. change (zrange (Z.max (Z.abs 1) (Z.abs (1 - 1))) (1 + 1 + 1)) with [1; 2]%Z. cbn [fold_left]. unfold ylm_add_to.
  cbn [dupd lm_eqb fst snd Z.eqb Pos.eqb andb]. left. left. f_equal. change (sign_pow (1 + 1 + 1 + 1)) with 1. ring.
Qed.
Lemma mul_not_commutative : exists f g w w', make_ylm [((1, 1)%Z, 1)] = Ok f /\ make_ylm [((1, 0)%Z, 1)] = Ok g /\ ylm_mul f g = Ok w /\ ylm_mul g f = Ok w' /\
  exists c, c <> 0 /\ coeff_is (y_data w) (1, 1)%Z c /\ coeff_is (y_data w') (1, 1)%Z (- c).
Proof.
  destruct (w3j_11 1 0 ltac:(lia)) as (f1 & E1 & F1). destruct (w3j_11 0 1 ltac:(lia)) as (f2 & E2 & F2).
  eexists _, _, _, _. split; [reflexivity|]. split; [reflexivity|].
  assert (L1 : lm_list 1 = [(0, 0); (1, -1); (1, 0); (1, 1)]%Z) by reflexivity.
  split; [|split].
  - unfold ylm_mul. cbn [y_deg]. change (zmax_list _) with 1%Z. rewrite L1. cbn [fold_left]. unfold mul_inner. cbn [rbind y_data dget lm_eqb fst snd Z.eqb Pos.eqb andb].
    rewrite E1. cbn [rbind]. reflexivity.
  - unfold ylm_mul. cbn [y_deg]. change (zmax_list _) with 1%Z. rewrite L1. cbn [fold_left]. unfold mul_inner. cbn [rbind y_data dget lm_eqb fst snd Z.eqb Pos.eqb andb].
    rewrite E2. cbn [rbind]. reflexivity.
  - cbn [y_data]. assert (S6 : 0 < sqrt 6) by (apply sqrt_lt_R0; lra). assert (PP := PI_RGT_0).
    assert (P3 : 0 < sqrt (IZR (2 * 1 + 1))) by (apply sqrt_lt_R0, IZR_lt; lia). assert (P4 : 0 < sqrt (IZR (2 * 1 + 1) / (4 * PI))) by (apply sqrt_lt_R0, Rdiv_lt_0_compat; [apply IZR_lt; lia|lra]).
    exists (f1 1%Z * (sqrt (IZR (2 * 1 + 1)) * sqrt (IZR (2 * 1 + 1) / (4 * PI)) * sqrt (IZR (2 * 1 + 1)))). split; [|split].
    + apply Rmult_integral_contrapositive. split; [rewrite F1|apply Rgt_not_eq; repeat apply Rmult_lt_0_compat; assumption]. change (IZR (1 - 0)) with 1.
      intros E. apply (f_equal (fun x => x * sqrt 6)) in E. revert E. unfold Rdiv. rewrite Rmult_assoc, Rinv_l by lra. lra.
    + apply pair11. reflexivity.
    + replace (- (f1 1%Z * (sqrt (IZR (2 * 1 + 1)) * sqrt (IZR (2 * 1 + 1) / (4 * PI)) * sqrt (IZR (2 * 1 + 1))))) with
        (f2 1%Z * (sqrt (IZR (2 * 1 + 1)) * sqrt (IZR (2 * 1 + 1) / (4 * PI)) * sqrt (IZR (2 * 1 + 1)))); [apply pair11; reflexivity|].
      rewrite F1, F2. change (IZR (1 - 0)) with 1. change (IZR (0 - 1)) with (-1). field. lra.
Qed.
