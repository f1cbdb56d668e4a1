From Coq Require Import Reals Lra Lia ZArith List Bool Arith.
From Coquelicot Require Import Coquelicot.
From Verif Require Import Base.RealAux Base.Dict Model.Poly Model.Basis Spec.PolySpec Spec.BasisSpec Spec.HarmonicSpec Proof.PolyProof Proof.PolyMatrix Proof.BasisProof Proof.GreenProof Proof.GreenInv.
Import ListNotations.
Open Scope R_scope.
Local Notation C := Binomial.C.

(** * Gamma at half-integers *)
Lemma fact_pos n : 0 < INR (fact n).
Proof. apply lt_0_INR, lt_O_fact. Qed.
Lemma fact_nz n : INR (fact n) <> 0.
Proof. apply Rgt_not_eq, fact_pos. Qed.
Lemma fact_2S n : INR (fact (2 * S n)) = (2 * INR n + 2) * (2 * INR n + 1) * INR (fact (2 * n)).
Proof.
  replace (2 * S n)%nat with (S (S (2 * n))) by lia. rewrite !fact_simpl, !mult_INR, !S_INR, mult_INR. simpl (INR 2). ring.
Qed.
Lemma sqrt_PI_pos : 0 < sqrt PI.
Proof. apply sqrt_lt_R0, PI_RGT_0. Qed.
Lemma gamma_up_form n : gamma_up n = INR (fact (2 * n)) / (4 ^ n * INR (fact n)) * sqrt PI.
Proof.
  induction n as [|n IH]; [cbn; field|]. cbn [gamma_up]. rewrite IH, fact_2S, fact_simpl, mult_INR, S_INR. cbn [pow].
  pose proof (fact_nz n). pose proof (pos_INR n). assert (4 ^ n <> 0) by (apply pow_nonzero; lra). field. repeat split; try assumption; lra.
Qed.
Lemma gamma_down_form n : gamma_down n = (-4) ^ n * INR (fact n) / INR (fact (2 * n)) * sqrt PI.
Proof.
  induction n as [|n IH]; [cbn; field|]. cbn [gamma_down]. rewrite IH, fact_2S, fact_simpl, mult_INR, S_INR. cbn [pow].
  pose proof (fact_nz (2 * n)). pose proof (pos_INR n). field. repeat split; try assumption; lra.
Qed.
Lemma gamma_half_up (s : nat) : gamma_half (2 * Z.of_nat s + 1) = gamma_up s.
Proof.
  unfold gamma_half. replace ((2 * Z.of_nat s + 1) mod 2 =? 0)%Z with false.
  2:{ symmetry. apply Z.eqb_neq. rewrite Z.add_comm, Z.mul_comm, Z_mod_plus_full. discriminate. }
  cbv zeta. replace ((2 * Z.of_nat s + 1 - 1) / 2)%Z with (Z.of_nat s) by (replace (2 * Z.of_nat s + 1 - 1)%Z with (Z.of_nat s * 2)%Z by ring; now rewrite Z_div_mult by lia).
  replace (0 <=? Z.of_nat s)%Z with true by (symmetry; apply Z.leb_le; lia). now rewrite Nat2Z.id.
Qed.
Lemma gamma_half_down (n : nat) : gamma_half (1 - 2 * Z.of_nat n) = gamma_down n.
Proof.
  destruct n as [|n]; [exact (gamma_half_up 0)|].
  unfold gamma_half. replace ((1 - 2 * Z.of_nat (S n)) mod 2 =? 0)%Z with false.
  2:{ symmetry. apply Z.eqb_neq. replace (1 - 2 * Z.of_nat (S n))%Z with (1 + (- Z.of_nat (S n)) * 2)%Z by ring. rewrite Z_mod_plus_full. discriminate. }
  cbv zeta. replace ((1 - 2 * Z.of_nat (S n) - 1) / 2)%Z with (- Z.of_nat (S n))%Z by (replace (1 - 2 * Z.of_nat (S n) - 1)%Z with ((- Z.of_nat (S n)) * 2)%Z by ring; now rewrite Z_div_mult by lia).
  destruct (Z.leb_spec 0 (- Z.of_nat (S n))); [lia|]. rewrite Z.opp_involutive. now rewrite Nat2Z.id.
Qed.

(** * Blmjk *)
Definition leg_coef (m H kk i : nat) : R :=
  (-1) ^ (H - i) * INR (fact (2 * (m + H + kk + i))) / (2 ^ (m + 2 * H + kk) * INR (fact (m + H + kk + i)) * INR (fact (H - i)) * INR (fact (kk + 2 * i))).
Lemma Blmjk_wrong_parity (l m j k : nat) : (m + k <= l)%nat -> Nat.odd (l - m - k) = true ->
  Blmjk (Z.of_nat l) (Z.of_nat m) (Z.of_nat j) (Z.of_nat k) = 0.
Proof.
  intros H Ho. unfold Blmjk. cbv zeta. apply Nat.odd_spec in Ho. destruct Ho as [h Hh].
  replace (- Z.of_nat l + Z.of_nat m + Z.of_nat k - 1)%Z with ((- Z.of_nat (h + 1)) * 2)%Z by lia. rewrite Z_mod_mult.
  destruct (Z.ltb_spec (- Z.of_nat (h + 1) * 2) 0); [reflexivity|lia].
Qed.
Lemma Blmjk_val (m H kk i j : nat) : (i <= H)%nat -> (j <= m)%nat ->
  Blmjk (Z.of_nat (m + 2 * H + kk)) (Z.of_nat m) (Z.of_nat j) (Z.of_nat (kk + 2 * i)) = C m j * leg_coef m H kk i.
Proof.
  intros Hi Hj. unfold Blmjk. cbv zeta.
  replace (- Z.of_nat (m + 2 * H + kk) + Z.of_nat m + Z.of_nat (kk + 2 * i) - 1)%Z with (1 + (- Z.of_nat (H - i) - 1) * 2)%Z by lia.
  rewrite Z_mod_plus_full. change (1 mod 2 =? 0)%Z with false. rewrite andb_false_r.
  replace (Z.of_nat (m + 2 * H + kk) + Z.of_nat m + Z.of_nat (kk + 2 * i) - 1 + 2)%Z with (2 * Z.of_nat (m + H + kk + i) + 1)%Z by lia.
  replace (1 + (- Z.of_nat (H - i) - 1) * 2 + 2)%Z with (1 - 2 * Z.of_nat (H - i))%Z by lia.
  rewrite gamma_half_up, gamma_half_down, gamma_up_form, gamma_down_form. unfold zfact, leg_coef, C.
  rewrite Nat2Z.id, !Nat2Z.id. replace (Z.to_nat (Z.of_nat m - Z.of_nat j)) with (m - j)%nat by lia.
  replace (Z.to_nat (Z.of_nat (m + 2 * H + kk) - Z.of_nat m - Z.of_nat (kk + 2 * i))) with (2 * (H - i))%nat by lia.
  set (s := (m + H + kk + i)%nat). set (n := (H - i)%nat).
  assert (El : (m + 2 * H + kk)%nat = (s + n)%nat) by (unfold s, n; lia). rewrite El.
  replace ((-4) ^ n) with ((-1) ^ n * (2 ^ n * 2 ^ n)) by (rewrite <- !Rpow_mult_distr; f_equal; ring).
  replace (4 ^ s) with (2 ^ s * 2 ^ s) by (rewrite <- !Rpow_mult_distr; f_equal; ring). rewrite pow_add.
  assert (E1 : (-1) ^ n * (-1) ^ n = 1) by (rewrite <- Rpow_mult_distr; replace (-1 * -1) with 1 by ring; apply pow1).
  assert (H2 : forall q, 2 ^ q <> 0) by (intros; apply pow_nonzero; lra).
  assert (H1 : (-1) ^ n <> 0) by (apply pow_nonzero; lra).
  replace ((-1) ^ n * INR (fact (2 * s))) with (/ (-1) ^ n * INR (fact (2 * s))).
  2:{ f_equal. apply Rmult_eq_reg_l with ((-1) ^ n); [|exact H1]. rewrite E1. now apply Rinv_r. }
  pose proof fact_nz. pose proof sqrt_PI_pos. field. repeat split; auto; lra.
Qed.

(** * Legendre derivatives *)
Definition ffact (e k : nat) : R := if Nat.leb k e then INR (fact e) / INR (fact (e - k)) else 0.
Lemma ffact_S e k : ffact e (S k) = ffact e k * INR (e - k).
Proof.
  unfold ffact. destruct (Nat.leb_spec (S k) e), (Nat.leb_spec k e); try lia.
  - replace (e - k)%nat with (S (e - S k)) by lia. rewrite fact_simpl, mult_INR. field. split; [apply fact_nz|apply not_0_INR; lia].
  - replace (e - k)%nat with 0%nat by lia. simpl. ring.
  - ring.
Qed.
Lemma Derive_n_poly N (c : nat -> R) (e : nat -> nat) k : forall t,
  Derive_n (fun s => bigsum N (fun i => c i * s ^ e i)) k t = bigsum N (fun i => c i * (ffact (e i) k * t ^ (e i - k))).
Proof.
  induction k as [|k IH]; intros t.
  - cbn [Derive_n]. apply bigsum_ext. intros i _. unfold ffact. cbn [Nat.leb]. rewrite Nat.sub_0_r. field. apply fact_nz.
  - cbn [Derive_n]. rewrite (Derive_ext _ (fun t => bigsum N (fun i => c i * (ffact (e i) k * t ^ (e i - k)))) t IH).
    apply is_derive_unique. apply is_derive_bigsum. intros i _. apply deriv_scal_l.
    evar_last; [apply deriv_scal_l; apply (pow_d (e i - k))|]. rewrite ffact_S. replace (e i - S k)%nat with (pred (e i - k)) by lia. ring.
Qed.
Lemma legendre_deriv_form (m H kk : nat) t : (kk <= 1)%nat ->
  legendre_deriv (m + 2 * H + kk) m t = bigsum (S H) (fun i => leg_coef m H kk i * t ^ (kk + 2 * i)).
Proof.
  intros Hkk. set (l := (m + 2 * H + kk)%nat). unfold legendre_deriv.
  rewrite (Derive_n_ext _ (fun s => bigsum (S l) (fun i => (C l i * (-1) ^ (l - i)) * s ^ (2 * i)))).
  2:{ intros s. replace (s ^ 2 - 1) with (s ^ 2 + -1) by ring. rewrite <- binom. apply bigsum_ext. intros i _. rewrite <- pow_mult. ring. }
  rewrite Derive_n_poly. replace (S l) with ((m + H + kk) + S H)%nat by (unfold l; lia). rewrite bigsum_add.
  rewrite bigsum_zero_ext, Rplus_0_l.
  - unfold Rdiv. rewrite Rmult_comm, <- bigsum_scal. apply bigsum_ext. intros i Hi. unfold ffact.
    destruct (Nat.leb_spec (l + m) (2 * (m + H + kk + i))); [|unfold l in *; lia].
    replace (2 * (m + H + kk + i) - (l + m))%nat with (kk + 2 * i)%nat by (unfold l; lia).
    unfold leg_coef, C. fold l. replace (l - (m + H + kk + i))%nat with (H - i)%nat by (unfold l; lia).
    pose proof fact_nz. field. repeat split; auto. apply pow_nonzero; lra.
  - intros i Hi. unfold ffact. destruct (Nat.leb_spec (l + m) (2 * i)); [unfold l in *; lia|]. ring.
Qed.

(** * (x + i y)^n by the binomial theorem *)
Definition Fsum (m : nat) (x y : R) (g : nat -> R) : R := bigsum (S m) (fun j => C m j * x ^ (m - j) * y ^ j * g j).
Lemma C_n_0 n : C n 0 = 1.
Proof. unfold C. rewrite Nat.sub_0_r. cbn [fact INR]. field. apply fact_nz. Qed.
Lemma C_n_n n : C n n = 1.
Proof. unfold C. rewrite Nat.sub_diag. cbn [fact INR]. field. apply fact_nz. Qed.
Lemma Fsum_S m x y g : Fsum (S m) x y g = x * Fsum m x y g + y * Fsum m x y (fun j => g (S j)).
Proof.
  unfold Fsum. rewrite bigsum_split_first. rewrite C_n_0, Nat.sub_0_r.
  rewrite (bigsum_ext (S m) _ (fun j => (if Nat.ltb j m then C m (S j) else 0) * x ^ (m - j) * y ^ S j * g (S j) + y * (C m j * x ^ (m - j) * y ^ j * g (S j)))).
  - rewrite bigsum_plus, bigsum_scal. rewrite (bigsum_split_first m (fun j => C m j * x ^ (m - j) * y ^ j * g j)).
    change (bigsum (S m) (fun j => (if Nat.ltb j m then C m (S j) else 0) * x ^ (m - j) * y ^ S j * g (S j))) with
      (bigsum m (fun j => (if Nat.ltb j m then C m (S j) else 0) * x ^ (m - j) * y ^ S j * g (S j)) + (if Nat.ltb m m then C m (S m) else 0) * x ^ (m - m) * y ^ S m * g (S m)).
    rewrite Nat.ltb_irrefl. rewrite (bigsum_ext m _ (fun j => x * (C m (S j) * x ^ (m - S j) * y ^ S j * g (S j)))).
    + rewrite bigsum_scal, C_n_0, Nat.sub_0_r. cbn [pow]. ring.
    + intros j Hj. destruct (Nat.ltb_spec j m); [|lia]. replace (m - j)%nat with (S (m - S j)) by lia. cbn [pow]. ring.
  - intros j Hj. rewrite Nat.sub_succ. cbn [pow]. destruct (Nat.ltb_spec j m).
    + rewrite <- pascal by assumption. ring.
    + replace j with m by lia. rewrite !C_n_n. ring.
Qed.
Fixpoint icyc (j : nat) : R * R := match j with O => (1, 0) | S j => let '(a, b) := icyc j in (- b, a) end.
Lemma cpow_F m x y : cpow m x y = (Fsum m x y (fun j => fst (icyc j)), Fsum m x y (fun j => snd (icyc j))).
Proof.
  induction m as [|m IH].
  - cbn [cpow]. unfold Fsum. cbn. f_equal; rewrite C_n_0; ring.
  - cbn [cpow]. rewrite IH. rewrite !Fsum_S. f_equal.
    + unfold Rminus. rewrite Rmult_comm. f_equal. rewrite Ropp_mult_distr_l, Rmult_comm. f_equal. unfold Fsum.
      rewrite <- (Rmult_1_l (bigsum _ _)), Ropp_mult_distr_l, <- bigsum_scal. apply bigsum_ext. intros j _. cbn [icyc]. destruct (icyc j). cbn [fst snd]. ring.
    + rewrite Rplus_comm, Rmult_comm. f_equal. rewrite Rmult_comm. f_equal. unfold Fsum. apply bigsum_ext. intros j _. cbn [icyc]. destruct (icyc j). cbn [fst snd]. ring.
Qed.
Lemma icyc_even J : icyc (2 * J) = ((-1) ^ J, 0).
Proof. induction J as [|J IH]; [reflexivity|]. replace (2 * S J)%nat with (S (S (2 * J))) by lia. cbn [icyc]. rewrite IH. cbn [pow]. f_equal; ring. Qed.
Lemma icyc_odd J : icyc (1 + 2 * J) = (0, (-1) ^ J).
Proof. change (1 + 2 * J)%nat with (S (2 * J)). cbn [icyc]. rewrite icyc_even. f_equal; ring. Qed.

(** * Sums over range(a, b, 2) *)
Lemma zrange2_form (b n : nat) : zrange2 (Z.of_nat b) (Z.of_nat n) = map (fun i => Z.of_nat (b + 2 * i)) (seq 0 ((n - b + 1) / 2)).
Proof.
  unfold zrange2. destruct (Nat.le_gt_cases b n).
  - replace (Z.to_nat ((Z.of_nat n - Z.of_nat b + 1) / 2)) with ((n - b + 1) / 2)%nat.
    + apply map_ext. intros; lia.
    + replace (Z.of_nat n - Z.of_nat b + 1)%Z with (Z.of_nat (n - b + 1)) by lia. change 2%Z with (Z.of_nat 2) at 1. rewrite <- div_Zdiv by lia. now rewrite Nat2Z.id.
  - replace (n - b)%nat with 0%nat by lia. change ((0 + 1) / 2)%nat with 0%nat.
    replace (Z.to_nat ((Z.of_nat n - Z.of_nat b + 1) / 2)) with 0%nat; [reflexivity|].
    assert ((Z.of_nat n - Z.of_nat b + 1) / 2 < 1)%Z by (apply Z.div_lt_upper_bound; lia). lia.
Qed.
Lemma zrange2_In (b n : nat) k : In k (zrange2 (Z.of_nat b) (Z.of_nat n)) -> exists i, k = Z.of_nat (b + 2 * i) /\ (b + 2 * i < n)%nat.
Proof.
  rewrite zrange2_form, in_map_iff. intros (i & <- & Hi). apply in_seq in Hi. exists i. split; [reflexivity|].
  pose proof (Nat.mul_div_le (n - b + 1) 2 ltac:(lia)). lia.
Qed.
Lemma sum_range2 (b n : nat) w : (b <= 1)%nat ->
  Rsum (map w (zrange2 (Z.of_nat b) (Z.of_nat n))) = bigsum n (fun j => if Nat.eqb (j mod 2) b then w (Z.of_nat j) else 0).
Proof.
  intros Hb. rewrite zrange2_form, map_map, Rsum_map_seq.
  rewrite (bigsum_ext _ _ (fun i => w (Z.of_nat (b + 2 * i)))) by (intros; do 2 f_equal; lia).
  assert (H : forall h, (bigsum h (fun i => w (Z.of_nat (b + 2 * i))) = bigsum (2 * h) (fun j => if Nat.eqb (j mod 2) b then w (Z.of_nat j) else 0))).
  { induction h as [|h IH]; [reflexivity|]. replace (2 * S h)%nat with (S (S (2 * h))) by lia. cbn [bigsum]. rewrite IH.
    replace ((S (2 * h)) mod 2)%nat with 1%nat by (replace (S (2 * h)) with (1 + h * 2)%nat by lia; now rewrite Nat.mod_add by lia).
    replace ((2 * h) mod 2)%nat with 0%nat by (rewrite Nat.mul_comm; now rewrite Nat.mod_mul by lia).
    destruct b as [|[|b]]; [| |lia]; cbn [Nat.eqb]; [change (0 + 2 * h)%nat with (2 * h)%nat|change (1 + 2 * h)%nat with (S (2 * h))]; ring. }
  destruct (Nat.Even_or_Odd n) as [[h ->]|[h ->]].
  - destruct b as [|[|b]]; [| |lia].
    + replace ((2 * h - 0 + 1) / 2)%nat with h by (rewrite Nat.sub_0_r; now rewrite div2_odd). apply H.
    + destruct h as [|h]; [reflexivity|]. replace ((2 * S h - 1 + 1) / 2)%nat with (S h) by (replace (2 * S h - 1 + 1)%nat with (2 * S h)%nat by lia; now rewrite div2_even). apply H.
  - replace (2 * h + 1)%nat with (S (2 * h)) by lia. cbn [bigsum]. rewrite <- H.
    replace ((2 * h) mod 2)%nat with 0%nat by (rewrite Nat.mul_comm; now rewrite Nat.mod_mul by lia).
    destruct b as [|[|b]]; [| |lia].
    + replace ((S (2 * h) - 0 + 1) / 2)%nat with (S h) by (replace (S (2 * h) - 0 + 1)%nat with (2 * S h)%nat by lia; now rewrite div2_even). cbn [bigsum Nat.eqb]. change (0 + 2 * h)%nat with (2 * h)%nat. ring.
    + replace ((S (2 * h) - 1 + 1) / 2)%nat with h by (replace (S (2 * h) - 1 + 1)%nat with (2 * h + 1)%nat by lia; now rewrite div2_odd). cbn [Nat.eqb]. ring.
Qed.

(** * Ylm evaluated on the sphere *)
Lemma Cpqk_val (P Q K : nat) : (Q <= P)%nat -> (P <= K)%nat ->
  Cpqk (Z.of_nat (0 + 2 * P)) (Z.of_nat (0 + 2 * Q)) (Z.of_nat (2 * K)) = C K P * C P Q.
Proof.
  intros HQ HP. unfold Cpqk, zfact.
  replace (Z.of_nat (2 * K) / 2)%Z with (Z.of_nat K) by (replace (Z.of_nat (2 * K)) with (Z.of_nat K * 2)%Z by lia; now rewrite Z_div_mult by lia).
  replace (Z.of_nat (0 + 2 * Q) / 2)%Z with (Z.of_nat Q) by (replace (Z.of_nat (0 + 2 * Q)) with (Z.of_nat Q * 2)%Z by lia; now rewrite Z_div_mult by lia).
  replace ((Z.of_nat (2 * K) - Z.of_nat (0 + 2 * P)) / 2)%Z with (Z.of_nat (K - P)) by (replace (Z.of_nat (2 * K) - Z.of_nat (0 + 2 * P))%Z with (Z.of_nat (K - P) * 2)%Z by lia; now rewrite Z_div_mult by lia).
  replace ((Z.of_nat (0 + 2 * P) - Z.of_nat (0 + 2 * Q)) / 2)%Z with (Z.of_nat (P - Q)) by (replace (Z.of_nat (0 + 2 * P) - Z.of_nat (0 + 2 * Q))%Z with (Z.of_nat (P - Q) * 2)%Z by lia; now rewrite Z_div_mult by lia).
  rewrite !Nat2Z.id. unfold C. pose proof fact_nz. field. repeat split; auto.
Qed.
Lemma pow_even_split z K : z ^ (2 * K) = (z ^ 2) ^ K.
Proof. now rewrite <- pow_mult. Qed.
Lemma Ylm_inner_eval (l am b J kk : nat) m A res x y z : on_sphere x y z -> Z.abs m = Z.of_nat am -> b2z (m <? 0)%Z = Z.of_nat b ->
  (b + 2 * J <= am)%nat -> (am <= l)%nat -> (kk <= 1)%nat ->
  let j := (b + 2 * J)%nat in
  dsum (fun p => mono p x y z) (Ylm_inner (Z.of_nat l) m A (Z.of_nat kk) (Z.of_nat j) res) =
  dsum (fun p => mono p x y z) res +
  Rsum (map (fun k => A * Blmjk (Z.of_nat l) (Z.of_nat am) (Z.of_nat j) k * ((-1) ^ J * x ^ (am - j) * y ^ j * z ^ Z.to_nat k))
            (zrange2 (Z.of_nat kk) (Z.of_nat (l - am + 1)))).
Proof.
  intros Hs Ham Hb Hj Hl Hkk j. unfold Ylm_inner. rewrite Ham, Hb.
  replace (Z.of_nat l - Z.of_nat am + 1)%Z with (Z.of_nat (l - am + 1)) by lia.
  apply fold_dsum. intros d k Hk. apply zrange2_In in Hk. destruct Hk as (i & -> & Hi). cbv zeta.
  set (B := Blmjk (Z.of_nat l) (Z.of_nat am) (Z.of_nat j) (Z.of_nat (kk + 2 * i))).
  destruct (Reqb B 0) eqn:EB. { apply Reqb_true in EB. rewrite EB. ring. }
  replace (Z.of_nat (kk + 2 * i) - Z.of_nat kk + 1)%Z with (Z.of_nat (2 * i + 1)) by lia.
  replace (Z.of_nat (kk + 2 * i) - Z.of_nat kk)%Z with (Z.of_nat (2 * i)) by lia.
  rewrite (fold_dsum _ _ (fun p => A * B * ((-1) ^ J * x ^ (am - j) * y ^ j * z ^ kk) * (C i (Z.to_nat p / 2) * (- (x ^ 2 + y ^ 2)) ^ (Z.to_nat p / 2) * 1 ^ (i - Z.to_nat p / 2)))).
  - f_equal. rewrite Rsum_map_scal. change 0%Z with (Z.of_nat 0). rewrite zrange2_form, map_map, Rsum_map_seq.
    replace ((2 * i + 1 - 0 + 1) / 2)%nat with (S i) by (replace (2 * i + 1 - 0 + 1)%nat with (2 * S i)%nat by lia; now rewrite div2_even).
    rewrite (bigsum_ext _ _ (fun P => C i P * (- (x ^ 2 + y ^ 2)) ^ P * 1 ^ (i - P))).
    + rewrite binom. replace (- (x ^ 2 + y ^ 2) + 1) with (z ^ 2) by (unfold on_sphere in Hs; lra). rewrite Nat2Z.id, pow_add, pow_even_split. ring.
    + intros P _. rewrite Nat2Z.id. replace (0 + 2 * (0 + P))%nat with (2 * P)%nat by lia. now rewrite div2_even.
  - clear d. intros d p Hp. change 0%Z with (Z.of_nat 0) in Hp. apply zrange2_In in Hp. destruct Hp as (P & -> & HP).
    rewrite Nat2Z.id. replace (0 + 2 * P)%nat with (2 * P)%nat by lia. rewrite div2_even.
    replace (Z.of_nat (2 * P) + 1)%Z with (Z.of_nat (2 * P + 1)) by lia.
    rewrite (fold_dsum _ _ (fun q => A * B * ((-1) ^ J * x ^ (am - j) * y ^ j * z ^ kk) * ((-1) ^ P * C i P) * (C P (Z.to_nat q / 2) * (y ^ 2) ^ (Z.to_nat q / 2) * (x ^ 2) ^ (P - Z.to_nat q / 2)))).
    + f_equal. rewrite Rsum_map_scal. change 0%Z with (Z.of_nat 0). rewrite zrange2_form, map_map, Rsum_map_seq.
      replace ((2 * P + 1 - 0 + 1) / 2)%nat with (S P) by (replace (2 * P + 1 - 0 + 1)%nat with (2 * S P)%nat by lia; now rewrite div2_even).
      rewrite (bigsum_ext _ _ (fun Q => C P Q * (y ^ 2) ^ Q * (x ^ 2) ^ (P - Q))).
      * rewrite binom. rewrite pow1. replace ((- (x ^ 2 + y ^ 2)) ^ P) with ((-1) ^ P * (y ^ 2 + x ^ 2) ^ P) by (rewrite <- Rpow_mult_distr; f_equal; ring). ring.
      * intros Q _. rewrite Nat2Z.id. replace (0 + 2 * (0 + Q))%nat with (2 * Q)%nat by lia. now rewrite div2_even.
    + clear d. intros d q Hq. change 0%Z with (Z.of_nat 0) in Hq. apply zrange2_In in Hq. destruct Hq as (Q & -> & HQ).
      rewrite dsum_add_to. f_equal. unfold mono. rewrite !Nat2Z.id.
      pose proof (Cpqk_val P Q i ltac:(lia) ltac:(lia)) as HC. replace (0 + 2 * P)%nat with (2 * P)%nat in HC by lia. rewrite HC.
      replace (0 + 2 * Q)%nat with (2 * Q)%nat by lia. rewrite div2_even.
      replace ((Z.of_nat j + Z.of_nat (2 * P) - Z.of_nat b) / 2)%Z with (Z.of_nat (J + P)) by (replace (Z.of_nat j + Z.of_nat (2 * P) - Z.of_nat b)%Z with (Z.of_nat (J + P) * 2)%Z by (unfold j; lia); now rewrite Z_div_mult by lia).
      unfold sgn_pow. rewrite Nat2Z.id.
      replace (Z.to_nat (Z.of_nat am - Z.of_nat j + Z.of_nat (2 * P) - Z.of_nat (2 * Q))) with ((am - j) + 2 * (P - Q))%nat by lia.
      replace (Z.to_nat (Z.of_nat j + Z.of_nat (2 * Q))) with (j + 2 * Q)%nat by lia.
      rewrite !pow_add, !pow_even_split. ring.
Qed.
Lemma loop_right (am H kk b J : nat) A X z : (kk <= 1)%nat -> (b + 2 * J <= am)%nat ->
  Rsum (map (fun k => A * Blmjk (Z.of_nat (am + 2 * H + kk)) (Z.of_nat am) (Z.of_nat (b + 2 * J)) k * (X * z ^ Z.to_nat k))
            (zrange2 (Z.of_nat kk) (Z.of_nat (am + 2 * H + kk - am + 1)))) =
  A * C am (b + 2 * J) * X * legendre_deriv (am + 2 * H + kk) am z.
Proof.
  intros Hkk Hj. rewrite legendre_deriv_form by exact Hkk. rewrite zrange2_form, map_map, Rsum_map_seq.
  replace ((am + 2 * H + kk - am + 1 - kk + 1) / 2)%nat with (S H) by (replace (am + 2 * H + kk - am + 1 - kk + 1)%nat with (2 * S H)%nat by lia; now rewrite div2_even).
  rewrite <- bigsum_scal. apply bigsum_ext. intros i Hi. cbn [Nat.add]. rewrite Blmjk_val by lia. rewrite Nat2Z.id. ring.
Qed.
Lemma loop_wrong (am H kk kk' b J : nat) A X z : (kk <= 1)%nat -> (kk' = 1 - kk)%nat -> (b + 2 * J <= am)%nat ->
  Rsum (map (fun k => A * Blmjk (Z.of_nat (am + 2 * H + kk)) (Z.of_nat am) (Z.of_nat (b + 2 * J)) k * (X * z ^ Z.to_nat k))
            (zrange2 (Z.of_nat kk') (Z.of_nat (am + 2 * H + kk - am + 1)))) = 0.
Proof.
  intros Hkk Hk' Hj. apply Rsum_map_zero. intros k Hk. apply zrange2_In in Hk. destruct Hk as (i & -> & Hi).
  rewrite Blmjk_wrong_parity; [ring|lia|]. apply Nat.odd_spec. exists (if Nat.eqb kk 0 then H - i - 1 else H - i)%nat. destruct (Nat.eqb_spec kk 0); lia.
Qed.
Lemma Ylm_eval (l : nat) (m : Z) x y z : on_sphere x y z -> (Z.abs m <= Z.of_nat l)%Z ->
  dict_eval (Ylm (Z.of_nat l) m) x y z = real_Y l m x y z.
Proof.
  intros Hs Hm. rewrite dict_eval_dsum. unfold Ylm, real_Y. cbv zeta.
  set (am := Z.abs_nat m). assert (Ham : Z.abs m = Z.of_nat am) by (unfold am; lia). rewrite Ham.
  set (b := if (m <? 0)%Z then 1%nat else 0%nat). assert (Hb : b2z (m <? 0)%Z = Z.of_nat b) by (unfold b, b2z; destruct (m <? 0)%Z; reflexivity).
  assert (Hb1 : (b <= 1)%nat) by (unfold b; destruct (m <? 0)%Z; lia).
  assert (El : exists H kk, (kk <= 1)%nat /\ l = (am + 2 * H + kk)%nat).
  { exists ((l - am) / 2)%nat, ((l - am) mod 2)%nat. split; [pose proof (Nat.mod_upper_bound (l - am) 2); lia|].
    pose proof (Nat.div_mod (l - am) 2 ltac:(lia)). lia. }
  destruct El as (H & kk & Hkk & El).
  assert (EA : Alm (Z.of_nat l) (Z.of_nat am) = harmonic_norm l am).
  { unfold Alm, harmonic_norm. f_equal. unfold zfact. replace (Z.to_nat (Z.of_nat l - Z.of_nat am)) with (l - am)%nat by lia.
    replace (Z.to_nat (Z.of_nat l + Z.of_nat am)) with (l + am)%nat by lia. rewrite (INR_IZR_INZ (2 * l + 1)).
    replace (Z.of_nat (2 * l + 1)) with (2 * Z.of_nat l + 1)%Z by lia. unfold Rdiv. f_equal. f_equal. f_equal.
    destruct (Nat.eqb_spec am 0) as [E|E]; [rewrite E; cbn; ring|]. replace (Z.of_nat am =? 0)%Z with false by (symmetry; apply Z.eqb_neq; lia). unfold b2r. ring. }
  rewrite EA. set (A := harmonic_norm l am). rewrite Hb. replace (Z.of_nat am + 1)%Z with (Z.of_nat (am + 1)) by lia.
  rewrite (fold_dsum _ _ (fun j => A * legendre_deriv l am z * (C am (Z.to_nat j) * x ^ (am - Z.to_nat j) * y ^ Z.to_nat j * (-1) ^ (Z.to_nat j / 2)))).
  - rewrite dsum_nil, Rplus_0_l, Rsum_map_scal. f_equal. rewrite (sum_range2 b (am + 1)) by exact Hb1. rewrite cpow_F. cbn [fst snd]. unfold Fsum.
    replace (am + 1)%nat with (S am) by lia.
    assert (Hmod : forall J, ((1 + 2 * J) mod 2 = 1)%nat /\ ((2 * J) mod 2 = 0)%nat /\ ((1 + 2 * J) / 2 = J)%nat /\ (2 * J / 2 = J)%nat).
    { intros J. rewrite div2_even. replace (1 + 2 * J)%nat with (2 * J + 1)%nat by lia. rewrite div2_odd. replace (2 * J + 1)%nat with (1 + J * 2)%nat by lia. rewrite Nat.mod_add by lia.
      rewrite (Nat.mul_comm 2 J), Nat.mod_mul by lia. repeat split; reflexivity. }
    unfold b. destruct (m <? 0)%Z; apply bigsum_ext; intros j Hj; rewrite Nat2Z.id; destruct (Nat.Even_or_Odd j) as [[J ->]|[J HJ]]; try (rewrite Nat.add_comm in HJ; subst j);
      destruct (Hmod J) as (M1 & M2 & M3 & M4); rewrite ?M1, ?M2, ?M3, ?M4, ?icyc_even, ?icyc_odd; cbn [Nat.eqb fst snd]; ring.
  - intros d j Hj. apply zrange2_In in Hj. destruct Hj as (J & -> & HJ).
    assert (EJ : ((b + 2 * J) / 2 = J)%nat). { destruct b as [|[|b']]; [apply div2_even| |lia]. replace (1 + 2 * J)%nat with (2 * J + 1)%nat by lia. apply div2_odd. }
    rewrite Nat2Z.id, EJ. change 1%Z with (Z.of_nat 1). change 0%Z with (Z.of_nat 0).
    rewrite (Ylm_inner_eval l am b J 1 m A _ x y z) by (try assumption; lia).
    rewrite (Ylm_inner_eval l am b J 0 m A _ x y z) by (try assumption; lia).
    rewrite Rplus_assoc. f_equal. rewrite El. destruct kk as [|[|kk]]; [| |lia].
    + rewrite (loop_right am H 0 b J), (loop_wrong am H 0 1 b J) by lia. ring.
    + rewrite (loop_right am H 1 b J), (loop_wrong am H 1 0 b J) by lia. ring.
Qed.
Lemma Ylm_keys (l : nat) (m : Z) k : (Z.abs m <= Z.of_nat l)%Z -> In k (keys (Ylm (Z.of_nat l) m)) -> valid_ijk k /\ (deg_of k <= Z.of_nat l)%Z.
Proof.
  intros Hm. revert k. unfold Ylm.
  set (am := Z.abs_nat m). assert (Ham : Z.abs m = Z.of_nat am) by (unfold am; lia). rewrite Ham.
  set (b := if (m <? 0)%Z then 1%nat else 0%nat). assert (Hb : b2z (m <? 0)%Z = Z.of_nat b) by (unfold b, b2z; destruct (m <? 0)%Z; reflexivity).
  set (A := Alm _ _). clearbody A.
  assert (Hin : forall kk j d, (kk <= 1)%nat -> (j <= am)%nat -> (forall k, In k (keys d) -> valid_ijk k /\ (deg_of k <= Z.of_nat l)%Z) ->
    forall k, In k (keys (Ylm_inner (Z.of_nat l) m A (Z.of_nat kk) (Z.of_nat j) d)) -> valid_ijk k /\ (deg_of k <= Z.of_nat l)%Z).
  { intros kk j d Hkk Hj Hd. unfold Ylm_inner. rewrite Ham. replace (Z.of_nat l - Z.of_nat am + 1)%Z with (Z.of_nat (l - am + 1)) by lia.
    apply fold_keys; [|exact Hd]. clear d Hd. intros d k Hk Hd. apply zrange2_In in Hk. destruct Hk as (i & -> & Hi). cbv zeta. destruct (Reqb _ 0); [exact Hd|].
    replace (Z.of_nat (kk + 2 * i) - Z.of_nat kk + 1)%Z with (Z.of_nat (2 * i + 1)) by lia.
    apply fold_keys; [|exact Hd]. clear d Hd. intros d p Hp Hd. change 0%Z with (Z.of_nat 0) in Hp. apply zrange2_In in Hp. destruct Hp as (P & -> & HP).
    replace (Z.of_nat (0 + 2 * P) + 1)%Z with (Z.of_nat (2 * P + 1)) by lia.
    apply fold_keys; [|exact Hd]. clear d Hd. intros d q Hq Hd. change 0%Z with (Z.of_nat 0) in Hq. apply zrange2_In in Hq. destruct Hq as (Q & -> & HQ).
    intros k' Hk'. apply keys_add_to in Hk'. destruct Hk' as [-> |Hk']; [|now apply Hd]. unfold valid_ijk, deg_of. lia. }
  cbv zeta. rewrite Hb. replace (Z.of_nat am + 1)%Z with (Z.of_nat (am + 1)) by lia. apply fold_keys; [|intros k []].
  intros d j Hj Hd. apply zrange2_In in Hj. destruct Hj as (J & -> & HJ). apply (Hin 1%nat); [lia|lia|]. apply (Hin 0%nat); [lia|lia|exact Hd].
Qed.

Lemma n2lm_slot (l nu : nat) : (nu <= 2 * l)%nat -> n2lm (Z.of_nat (l * l + nu)) = (Z.of_nat l, (Z.of_nat nu - Z.of_nat l)%Z).
Proof. intros H. rewrite <- (lm2n_n2lm (Z.of_nat l) (Z.of_nat nu - Z.of_nat l)); [|unfold lm_valid; lia]. f_equal. unfold lm2n. lia. Qed.
Lemma A1_entry D (l nu r : nat) : (l <= D)%nat -> (nu <= 2 * l)%nat ->
  A1 (Z.of_nat D) (Z.of_nat r) (Z.of_nat (l * l + nu)) = coef (Ylm (Z.of_nat l) (Z.of_nat nu - Z.of_nat l)) r * 2 / sqrt PI.
Proof.
  intros Hl Hnu. unfold A1. pose proof (A_impl_entry D (fun l m _ => Ylm l m) r (l * l + nu)%nat ltac:(nia)) as H.
  rewrite n2lm_slot in H by exact Hnu. rewrite H; [reflexivity|]. intros k Hk. apply Ylm_keys in Hk; [|lia]. destruct Hk. split; [assumption|lia].
Qed.
Lemma A1_eval D (d : nat -> R) x y z : on_sphere x y z -> let N := ((D + 1) * (D + 1))%nat in
  dense_eval D (fun r => bigsum N (fun n => A1 (Z.of_nat D) (Z.of_nat r) (Z.of_nat n) * d n)) x y z = 2 / sqrt PI * harmonic_eval D d x y z.
Proof.
  intros Hs. cbv zeta. rewrite dense_eval_sum. unfold harmonic_eval. rewrite bigsum_square, <- bigsum_scal.
  apply bigsum_ext. intros l Hl. rewrite <- bigsum_scal. apply bigsum_ext. intros nu Hnu.
  rewrite <- (Ylm_eval l (Z.of_nat nu - Z.of_nat l) x y z Hs) by lia. rewrite <- (dense_of_coef D).
  - rewrite !dense_eval_flat. set (c := d (l * l + nu)%nat).
    rewrite (bigsum_ext _ _ (fun r => 2 / sqrt PI * (coef (Ylm (Z.of_nat l) (Z.of_nat nu - Z.of_nat l)) r * mono (n2ijk (Z.of_nat r)) x y z))).
    + rewrite bigsum_scal. ring.
    + intros r _. rewrite A1_entry by lia. unfold Rdiv. ring.
  - intros k Hk. apply Ylm_keys in Hk; [|lia]. destruct Hk as [Hv Hd]. split; [exact Hv|].
    assert (HH := idx_lt_degree k (Z.of_nat D) Hv). destruct k as [[a b] c]. unfold deg_of in Hd. specialize (HH ltac:(lia)). nia.
Qed.
