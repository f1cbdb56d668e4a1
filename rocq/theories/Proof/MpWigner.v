(** The explicit Wigner matrices of multiprecision/rotation.py are those of Risbo's recursion. *)
From Coq Require Import Reals Lra Lia ZArith List Bool Arith.
From Coquelicot Require Import Coquelicot.
From Verif Require Import Base.RealAux Base.Dict Model.Poly Model.Basis Model.S2fft Model.Rotation Model.MpBasis Model.MpRotation Spec.PolySpec Spec.HarmonicSpec Spec.RotationSpec
  Proof.BasisProof Proof.HarmonicProof Proof.MpA1 Proof.RotationProof Proof.WignerGen Proof.WignerStep Proof.WignerRot Proof.WignerMap.
Import ListNotations.
Open Scope R_scope.
Local Notation C := Binomial.C.
Local Notation fct n := (INR (fact n)).

(** * the terms, with natural exponents *)
Definition tm (J i k b : nat) (c d : R) : R :=
  if ((i <=? k + b) && (k + b <=? J))%nat%bool then
    (-1) ^ (k + b - i) * c ^ (J - (k + b - i) - b) * d ^ (k + b - i + b) / (fct b * fct (i - b) * fct (J - k - b) * fct (k + b - i))
  else 0.
Lemma binom_sum x y n : (x + y) ^ n = bigsum (S n) (fun i => C n i * x ^ i * y ^ (n - i)).
Proof. rewrite bigsum_sum_f. apply binomial. Qed.
Lemma C_fact n i : C n i = fct n / (fct i * fct (n - i)).
Proof. reflexivity. Qed.
Lemma fct_nz n : fct n <> 0.
Proof. apply INR_fact_neq_0. Qed.
(** the generating function of column i *)
Lemma tm_gen J i c d s t : (i <= J)%nat ->
  bigsum (S J) (fun k => bigsum (S i) (fun b => tm J i k b c d) * (s ^ (J - k) * t ^ k)) = (c * s - d * t) ^ (J - i) * (d * s + c * t) ^ i / (fct i * fct (J - i)).
Proof.
  intros Hi.
  transitivity (bigsum (S i) (fun b => bigsum (S J) (fun k => tm J i k b c d * (s ^ (J - k) * t ^ k)))).
  { rewrite bigsum_swap. apply bigsum_ext. intros k _. rewrite Rmult_comm, <- bigsum_scal. apply bigsum_ext. intros; ring. }
  transitivity (bigsum (S i) (fun b => bigsum (S (J - i)) (fun a =>
     (C i b * (d * s) ^ b * (c * t) ^ (i - b)) * (C (J - i) a * (- (d * t)) ^ a * (c * s) ^ (J - i - a)) / (fct i * fct (J - i))))).
  2:{ replace (c * s - d * t) with (- (d * t) + c * s) by ring. rewrite (binom_sum (- (d * t)) (c * s)), (binom_sum (d * s) (c * t)).
      rewrite (bigsum_ext _ _ (fun b => (bigsum (S (J - i)) (fun a => C (J - i) a * (- (d * t)) ^ a * (c * s) ^ (J - i - a)) / (fct i * fct (J - i))) * (C i b * (d * s) ^ b * (c * t) ^ (i - b)))).
      - rewrite bigsum_scal. unfold Rdiv. ring.
      - intros b _. rewrite (bigsum_ext _ _ (fun a => (C i b * (d * s) ^ b * (c * t) ^ (i - b) / (fct i * fct (J - i))) * (C (J - i) a * (- (d * t)) ^ a * (c * s) ^ (J - i - a)))) by (intros; unfold Rdiv; ring).
        rewrite bigsum_scal. unfold Rdiv. ring. }
  apply bigsum_ext. intros b Hb.
  (* k = a + (i - b) *)
  replace (S J) with ((i - b) + (S (J - i) + b))%nat by lia. rewrite !bigsum_add.
  rewrite bigsum_zero_ext.
  2:{ intros k Hk. unfold tm. destruct (Nat.leb_spec i (k + b)); [lia|]. cbn [andb]. ring. }
  rewrite (bigsum_zero_ext b).
  2:{ intros k Hk. unfold tm. match goal with |- context [(?x <=? J)%nat] => destruct (Nat.leb_spec x J); [lia|] end. rewrite andb_false_r. ring. }
  rewrite Rplus_0_l, Rplus_0_r. apply bigsum_ext. intros a Ha. unfold tm.
  destruct (Nat.leb_spec i (i - b + a + b)); [|lia]. destruct (Nat.leb_spec (i - b + a + b) J); [|lia]. cbn [andb].
  replace (i - b + a + b - i)%nat with a by lia. replace (J - (i - b + a) - b)%nat with (J - i - a)%nat by lia.
  replace (J - (i - b + a))%nat with (b + (J - i - a))%nat by lia. replace (J - a - b)%nat with ((i - b) + (J - i - a))%nat by lia.
  rewrite !C_fact. replace (- (d * t)) with (-1 * (d * t)) by ring. rewrite !Rpow_mult_distr, !pow_add.
  pose proof (fct_nz b). pose proof (fct_nz (i - b)). pose proof (fct_nz a). pose proof (fct_nz (J - i - a)). pose proof (fct_nz i). pose proof (fct_nz (J - i)).
  field. repeat split; assumption.
Qed.

(** * the explicit matrix is the symmetric power *)
Definition explicit (J : nat) (c d : R) (k i : nat) : R :=
  sqrt (fct k * fct (J - k) * fct i * fct (J - i)) * bigsum (S i) (fun b => tm J i k b c d).
Lemma explicit_bz J c d k i : (k <= J)%nat -> (i <= J)%nat -> explicit J c d k i * bz J (Z.of_nat k) = bz J (Z.of_nat i) * (fct i * fct (J - i)) * bigsum (S i) (fun b => tm J i k b c d).
Proof.
  intros Hk Hi. unfold explicit. rewrite !bz_in by lia. rewrite !Nat2Z.id, !C_fact.
  set (S0 := bigsum _ _). pose proof (INR_fact_lt_0 k). pose proof (INR_fact_lt_0 (J - k)). pose proof (INR_fact_lt_0 i). pose proof (INR_fact_lt_0 (J - i)). pose proof (INR_fact_lt_0 J).
  set (fk := fct k) in *. set (fk' := fct (J - k)) in *. set (fi := fct i) in *. set (fi' := fct (J - i)) in *. set (fJ := fct J) in *.
  assert (P1 : 0 < fi * fi') by (apply Rmult_lt_0_compat; assumption). assert (P2 : 0 < fk * fk') by (apply Rmult_lt_0_compat; assumption).
  assert (E : sqrt (fk * fk' * fi * fi') * sqrt (fJ / (fk * fk')) = sqrt (fJ / (fi * fi')) * (fi * fi')).
  { rewrite <- sqrt_mult_alt by (rewrite Rmult_assoc; apply Rmult_le_pos; lra).
    transitivity (sqrt (fJ / (fi * fi') * ((fi * fi') * (fi * fi')))).
    - f_equal. field. lra.
    - rewrite sqrt_mult_alt by (apply Rlt_le, Rdiv_lt_0_compat; assumption). f_equal. apply sqrt_square. lra. }
  transitivity (sqrt (fk * fk' * fi * fi') * sqrt (fJ / (fk * fk')) * S0); [ring|]. rewrite E. ring.
Qed.
Lemma explicit_gen l c d i s t : (i <= 2 * l)%nat ->
  bigsum (S (2 * l)) (fun k => explicit (2 * l) c d k i * bz (2 * l) (Z.of_nat k) * (s ^ (2 * l - k) * t ^ k)) =
  bz (2 * l) (Z.of_nat i) * ((- c * s + d * t) ^ (2 * l - i) * (- d * s + - c * t) ^ i).
Proof.
  intros Hi. set (J := (2 * l)%nat) in *.
  rewrite (bigsum_ext _ _ (fun k => (bz J (Z.of_nat i) * (fct i * fct (J - i))) * (bigsum (S i) (fun b => tm J i k b c d) * (s ^ (J - k) * t ^ k)))).
  2:{ intros k Hk. rewrite explicit_bz by lia. ring. }
  rewrite bigsum_scal, tm_gen by exact Hi.
  replace (- c * s + d * t) with (-1 * (c * s - d * t)) by ring. replace (- d * s + - c * t) with (-1 * (d * s + c * t)) by ring.
  rewrite !Rpow_mult_distr. assert (E : (-1) ^ (J - i) * (-1) ^ i = 1). { rewrite <- pow_add. replace (J - i + i)%nat with (2 * l)%nat by (unfold J in *; lia). apply pow_1_even. }
  transitivity (bz J (Z.of_nat i) * (((-1) ^ (J - i) * (-1) ^ i) * ((c * s - d * t) ^ (J - i) * (d * s + c * t) ^ i))); [|ring].
  rewrite E. field. split; apply fct_nz.
Qed.
Lemma explicit_wigner L l beta k i : (k <= 2 * l)%nat -> (i <= 2 * l)%nat ->
  explicit (2 * l) (cos (beta / 2)) (sin (beta / 2)) k i = wigner_d L beta l (Z.of_nat k) (Z.of_nat i).
Proof.
  intros Hk Hi. set (c := cos (beta / 2)). set (d := sin (beta / 2)). destruct (wigner_d_sym L beta l) as [_ H]. fold c d in H.
  apply (Rmult_eq_reg_r (bz (2 * l) (Z.of_nat k))); [|apply bz_nz; lia].
  pose proof (hsum_inj (2 * l) (fun k => explicit (2 * l) c d (Z.to_nat k) i * bz (2 * l) k) (fun k => wigner_d L beta l k (Z.of_nat i) * bz (2 * l) k)) as K.
  specialize (fun h => K h (Z.of_nat k) ltac:(lia)). cbv beta in K. rewrite Nat2Z.id in K. apply K. clear K.
  intros s t. rewrite (H (Z.of_nat i)) by lia. rewrite Nat2Z.id, <- explicit_gen by exact Hi. unfold hsum. apply bigsum_ext. intros k' _. rewrite Nat2Z.id. ring.
Qed.

(** * the code's sum *)
Lemma msign_pow n : msign (Z.of_nat n) = (-1) ^ n.
Proof.
  unfold msign. destruct (Z.even (Z.of_nat n)) eqn:E.
  - apply Z.even_spec in E. destruct E as [q Hq]. replace n with (2 * Z.to_nat q)%nat by lia. symmetry. apply pow_1_even.
  - rewrite <- Z.negb_odd in E. apply negb_false_iff in E. apply Z.odd_spec in E. destruct E as [q Hq]. replace n with (S (2 * Z.to_nat q)) by lia. symmetry. apply pow_1_odd.
Qed.
Lemma msign_plus2 a b : msign (a + 2 * b) = msign a.
Proof. unfold msign. now rewrite Z.even_add_mul_2. Qed.
Lemma msign_mul a b : msign a * msign b = msign (a + b).
Proof. unfold msign. rewrite Z.even_add. destruct (Z.even a), (Z.even b); cbn [Bool.eqb]; ring. Qed.
Lemma mp_fac_neg n : (n < 0)%Z -> mp_fac n = None.
Proof.
  intros H. unfold mp_fac, mp_fac2. destruct (Z.eqb_spec (2 * n) 0); [lia|]. destruct (Z.ltb_spec (2 * n) 0); [|lia].
  rewrite Z.mul_comm, Z.mod_mul by lia. reflexivity.
Qed.
Lemma zpow_nat x n z : z = Z.of_nat n -> zpow x z = x ^ n.
Proof. intros ->. unfold zpow. destruct (Z.ltb_spec (Z.of_nat n) 0); [lia|]. now rewrite Nat2Z.id. Qed.
Lemma mp_fac_fct z n : z = Z.of_nat n -> mp_fac z = Some (fct n).
Proof. intros ->. rewrite mp_fac_nat by lia. unfold zfact. now rewrite Nat2Z.id. Qed.
Lemma mp_term_tm l k i b beta : (k <= 2 * l)%nat -> (i <= 2 * l)%nat -> (b <= i)%nat -> let L := Z.of_nat l in
  msign (Z.of_nat k - L + (Z.of_nat i - L)) * mp_term L (Z.of_nat i - L) (Z.of_nat k - L) (Z.of_nat b) beta = tm (2 * l) i k b (cos (beta / 2)) (sin (beta / 2)).
Proof.
  intros Hk Hi Hb L. unfold mp_term, tm. set (c := cos (beta / 2)). set (d := sin (beta / 2)).
  rewrite (mp_fac_fct (Z.of_nat b) b) by reflexivity. rewrite (mp_fac_fct (L + (Z.of_nat i - L) - Z.of_nat b) (i - b)) by lia.
  destruct (Nat.leb_spec i (k + b)) as [H1|H1]; cbn [andb].
  2:{ rewrite (mp_fac_neg (Z.of_nat k - L - (Z.of_nat i - L) + Z.of_nat b)) by lia. destruct (mp_fac (L - (Z.of_nat k - L) - Z.of_nat b)); cbn [ext_mul ext_div fin]; ring. }
  destruct (Nat.leb_spec (k + b) (2 * l)) as [H2|H2].
  2:{ rewrite (mp_fac_neg (L - (Z.of_nat k - L) - Z.of_nat b)) by lia. cbn [ext_mul ext_div fin]; ring. }
  rewrite (mp_fac_fct (Z.of_nat k - L - (Z.of_nat i - L) + Z.of_nat b) (k + b - i)) by lia. rewrite (mp_fac_fct (L - (Z.of_nat k - L) - Z.of_nat b) (2 * l - k - b)) by lia.
  cbn [ext_mul ext_div fin].
  rewrite (zpow_nat c (2 * l - (k + b - i) - b)) by lia. rewrite (zpow_nat d (k + b - i + b)) by lia.
  rewrite <- (msign_pow (k + b - i)).
  assert (E : msign (Z.of_nat (k + b - i)) = msign (Z.of_nat k - L + (Z.of_nat i - L)) * msign (Z.of_nat b)).
  { rewrite msign_mul. rewrite <- (msign_plus2 (Z.of_nat (k + b - i)) (Z.of_nat i - L)). f_equal. lia. }
  rewrite E. unfold Rdiv. ring.
Qed.
(** the entries of D *)
Lemma mp_D_wigner L prec l alpha beta gamma r c : (r <= 2 * l)%nat -> (c <= 2 * l)%nat ->
  mp_D prec l alpha beta gamma r c =
  (cexpm (IZR (Z.of_nat c - Z.of_nat l) * gamma + IZR (Z.of_nat r - Z.of_nat l) * alpha) * RtoC (wigner_d L (if Reqb beta 0 then prec else beta) l (Z.of_nat r) (Z.of_nat c)))%C.
Proof.
  intros Hr Hc. unfold mp_D, mp_Dmn. set (be := if Reqb beta 0 then prec else beta). set (Lz := Z.of_nat l).
  rewrite <- (explicit_wigner L l be r c Hr Hc). unfold explicit. set (cc := cos (be / 2)). set (dd := sin (be / 2)).
  unfold zsum. replace (Z.to_nat (Lz + (Z.of_nat c - Lz) + 1)) with (S c) by lia.
  rewrite (bigsum_ext (S c) (fun b => tm (2 * l) c r b cc dd) (fun b => msign (Z.of_nat r - Lz + (Z.of_nat c - Lz)) * mp_term Lz (Z.of_nat c - Lz) (Z.of_nat r - Lz) (Z.of_nat b) be)).
  2:{ intros b Hb. symmetry. apply mp_term_tm; lia. }
  rewrite bigsum_scal. set (S0 := bigsum _ _).
  rewrite (mp_fac_fct (Lz - (Z.of_nat c - Lz)) (2 * l - c)) by lia. rewrite (mp_fac_fct (Lz + (Z.of_nat c - Lz)) c) by lia.
  rewrite (mp_fac_fct (Lz - (Z.of_nat r - Lz)) (2 * l - r)) by lia. rewrite (mp_fac_fct (Lz + (Z.of_nat r - Lz)) r) by lia. cbn [ext_mul fin].
  replace (fct (2 * l - c) * fct c * fct (2 * l - r) * fct r) with (fct r * fct (2 * l - r) * fct c * fct (2 * l - c)) by ring.
  replace (alpha * IZR (Z.of_nat r - Lz) + gamma * IZR (Z.of_nat c - Lz)) with (IZR (Z.of_nat c - Lz) * gamma + IZR (Z.of_nat r - Lz) * alpha) by ring.
  set (e := cexpm _). set (q := sqrt _). set (sg := msign _). unfold Cmult, RtoC. cbn [fst snd]. f_equal; ring.
Qed.

(** * U is unitary *)
Lemma U_dagger_U l r c : (r < 2 * l + 1)%nat -> (c < 2 * l + 1)%nat -> csum (2 * l + 1) (fun a => (Cconj (mp_U l a r) * mp_U l a c)%C) = if Nat.eqb r c then 1%C else 0%C.
Proof.
  intros Hr Hc. pose (F := fun z : Z => if (z =? Z.of_nat c - Z.of_nat l)%Z then 1 else 0).
  transitivity (csum (2 * l + 1) (fun a => (Cconj (Umn (Z.of_nat a - Z.of_nat l) (Z.of_nat r - Z.of_nat l)) * Vx F (Z.of_nat a - Z.of_nat l))%C)).
  - apply csum_ext. intros a Ha. f_equal. rewrite <- (Vx_sum l F) by lia.
    rewrite (csum_single (2 * l + 1) c); [|exact Hc|].
    + unfold F. rewrite Z.eqb_refl. unfold mp_U. ring.
    + intros i Hi Hn. unfold F. destruct (Z.eqb_spec (Z.of_nat i - Z.of_nat l) (Z.of_nat c - Z.of_nat l)); [lia|]. ring.
  - rewrite Vx_back by lia. unfold F. destruct (Nat.eqb_spec r c) as [->|Hn]; [now rewrite Z.eqb_refl|].
    destruct (Z.eqb_spec (Z.of_nat r - Z.of_nat l) (Z.of_nat c - Z.of_nat l)); [lia|reflexivity].
Qed.
Lemma Uinv_dagger Uinv : inverse_of_U Uinv -> forall l r c, (r < 2 * l + 1)%nat -> (c < 2 * l + 1)%nat -> Uinv l r c = Cconj (mp_U l c r).
Proof.
  intros H l r c Hr Hc.
  transitivity (csum (2 * l + 1) (fun k => (if Nat.eqb r k then 1%C else 0%C) * Uinv l k c)%C).
  { rewrite (csum_single _ r); [rewrite Nat.eqb_refl; ring|exact Hr|]. intros k Hk Hn. destruct (Nat.eqb_spec r k); [lia|ring]. }
  rewrite (csum_ext _ _ (fun k => csum (2 * l + 1) (fun a => Cconj (mp_U l a r) * (mp_U l a k * Uinv l k c))))%C.
  2:{ intros k Hk. rewrite <- (U_dagger_U l r k) by assumption. rewrite Cmult_comm, <- csum_scal. apply csum_ext. intros a _. ring. }
  rewrite csum_swap. rewrite (csum_ext _ _ (fun a => Cconj (mp_U l a r) * (if Nat.eqb a c then 1%C else 0%C)))%C.
  2:{ intros a Ha. rewrite csum_scal. f_equal. now apply H. }
  rewrite (csum_single _ c); [rewrite Nat.eqb_refl; ring|exact Hc|]. intros a Ha Hn. destruct (Nat.eqb_spec a c); [contradiction|ring].
Qed.
(** the adjoint is an inverse *)
Lemma mp_block_core Uinv prec l alpha beta gamma r c : inverse_of_U Uinv -> (r <= 2 * l)%nat -> (c <= 2 * l)%nat ->
  mp_block Uinv prec l alpha beta gamma r c = rotation_matrix (fun _ => (gamma, if Reqb beta 0 then prec else beta, alpha)) l 1 0 0 1 l r c.
Proof.
  intros HU Hr Hc. unfold mp_block, rotation_matrix, euler. destruct (Reqb 1 0) eqn:E1; [apply Reqb_true in E1; lra|]. cbv beta iota zeta. f_equal.
  rewrite (csum_ext _ _ (fun b => csum (2 * l + 1) (fun a => Uinv l r a * mp_D prec l alpha beta gamma a b * mp_U l b c)))%C.
  2:{ intros b _. rewrite Cmult_comm, <- csum_scal. apply csum_ext. intros; ring. }
  rewrite csum_swap. apply csum_ext. intros a Ha. apply csum_ext. intros b Hb. rewrite !Nat.sub_diag. cbn [Nat.add].
  rewrite (Uinv_dagger _ HU) by lia. rewrite (mp_D_wigner (S l)) by lia. rewrite dls_wigner.
  replace (Z.of_nat a - (Z.of_nat l - Z.of_nat l))%Z with (Z.of_nat a) by lia. replace (Z.of_nat b - (Z.of_nat l - Z.of_nat l))%Z with (Z.of_nat b) by lia. unfold mp_U. ring.
Qed.
Lemma mp_block_rotates Uinv prec l alpha beta gamma r p : inverse_of_U Uinv -> (r <= 2 * l)%nat -> sphere p ->
  bigsum (2 * l + 1) (fun c => mp_block Uinv prec l alpha beta gamma r c * Yat l p (Z.of_nat c - Z.of_nat l)) =
  Yat l (rot_z alpha (rot_y (if Reqb beta 0 then prec else beta) (rot_z gamma p))) (Z.of_nat r - Z.of_nat l).
Proof.
  intros HU Hr Hp. set (be := if Reqb beta 0 then prec else beta).
  rewrite <- (block_rotates (fun _ => (gamma, be, alpha)) l 1 0 0 1 gamma be alpha l r p); [| |lia|exact Hr|exact Hp].
  - apply bigsum_ext. intros c Hc. rewrite mp_block_core by (assumption || lia). reflexivity.
  - unfold euler. destruct (Reqb 1 0) eqn:E1; [apply Reqb_true in E1; lra|]. reflexivity.
Qed.
