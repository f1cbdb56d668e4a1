(** dot_rotation_matrix represents the rotation of the map. *)
From Coq Require Import Reals Lra Lia ZArith List Bool Arith.
From Coquelicot Require Import Coquelicot.
From Verif Require Import Base.RealAux Model.Poly Model.S2fft Model.Rotation Spec.PolySpec Spec.HarmonicSpec Spec.RotationSpec
  Proof.HarmonicProof Proof.RotationProof Proof.LegendreT Proof.WignerGen Proof.WignerStep Proof.WignerRot.
Import ListNotations.
Open Scope R_scope.

Lemma sphere_rot_y b p : sphere p -> sphere (rot_y b p).
Proof.
  destruct p as [[x y] z]. unfold sphere, rot_y, on_sphere. intros H. pose proof (sin2_cos2 b) as E. unfold Rsqr in E. etransitivity; [|exact H].
  transitivity ((x ^ 2 + z ^ 2) * (sin b * sin b + cos b * cos b) + y ^ 2); [ring|rewrite E; ring].
Qed.
Lemma sphere_rot_z b p : sphere p -> sphere (rot_z b p).
Proof.
  destruct p as [[x y] z]. unfold sphere, rot_z, on_sphere. intros H. pose proof (sin2_cos2 b) as E. unfold Rsqr in E. etransitivity; [|exact H].
  transitivity ((x ^ 2 + y ^ 2) * (sin b * sin b + cos b * cos b) + z ^ 2); [ring|rewrite E; ring].
Qed.
Lemma Vx_rot_y L b l p m : sphere p -> (Z.abs m <= Z.of_nat l)%Z ->
  Vx (Yat l (rot_y b p)) m =
  (bigsum (2 * l + 1) (fun i => wigner_d L b l (Z.of_nat l + m) (Z.of_nat i) * fst (Vx (Yat l p) (Z.of_nat i - Z.of_nat l))),
   bigsum (2 * l + 1) (fun i => wigner_d L b l (Z.of_nat l + m) (Z.of_nat i) * snd (Vx (Yat l p) (Z.of_nat i - Z.of_nat l)))).
Proof.
  intros Hs Hm. pose proof (sphere_rot_y b p Hs) as Hs'. destruct p as [[x y] z]. unfold rot_y in *. cbn [sphere] in Hs, Hs'.
  rewrite Vx_gc by assumption. rewrite (gc_rot_y L) by lia. cbn [fst snd].
  assert (Hb : bz (2 * l) (Z.of_nat l + m) <> 0) by (apply bz_nz; lia).
  f_equal.
  - transitivity (kap l * bigsum (2 * l + 1) (fun i => wigner_d L b l (Z.of_nat l + m) (Z.of_nat i) * (fst (gc x y z l (Z.of_nat i)) / bz (2 * l) (Z.of_nat i)))); [field; exact Hb|].
    rewrite <- bigsum_scal. apply bigsum_ext. intros i Hi. rewrite Vx_gc by (assumption || lia). cbn [fst snd].
    replace (Z.of_nat l + (Z.of_nat i - Z.of_nat l))%Z with (Z.of_nat i) by lia. unfold Rdiv. ring.
  - transitivity (- kap l * bigsum (2 * l + 1) (fun i => wigner_d L b l (Z.of_nat l + m) (Z.of_nat i) * (snd (gc x y z l (Z.of_nat i)) / bz (2 * l) (Z.of_nat i)))); [field; exact Hb|].
    rewrite <- bigsum_scal. apply bigsum_ext. intros i Hi. rewrite Vx_gc by (assumption || lia). cbn [fst snd].
    replace (Z.of_nat l + (Z.of_nat i - Z.of_nat l))%Z with (Z.of_nat i) by lia. unfold Rdiv. ring.
Qed.
Lemma Yat_rot_z l t p m : Yat l (rot_z t p) m = Yat l p m * cos (IZR m * t) - Yat l p (- m) * sin (IZR m * t).
Proof. destruct p as [[x y] z]. apply real_Y_rot_z. Qed.
Lemma Vx_rot_z l t p m : Vx (Yat l (rot_z t p)) m = (cexpm (IZR m * t) * Vx (Yat l p) m)%C.
Proof.
  unfold Vx, cexpm, Cmult. rewrite !Yat_rot_z, Z.opp_involutive. pose proof sqrt2_pos as H2.
  destruct (Z.ltb_spec 0 m); [|destruct (Z.eqb_spec m 0) as [-> | Hne]]; cbn [fst snd].
  - rewrite opp_IZR. replace (- IZR m * t) with (- (IZR m * t)) by ring. rewrite cos_neg, sin_neg. f_equal; field; lra.
  - rewrite Rmult_0_l, cos_0, sin_0. f_equal; ring.
  - rewrite opp_IZR. replace (- IZR m * t) with (- (IZR m * t)) by ring. rewrite cos_neg, sin_neg. f_equal; field; lra.
Qed.

(** * complex sums *)
Lemma csum_ext n (f g : nat -> C) : (forall i, (i < n)%nat -> f i = g i) -> csum n f = csum n g.
Proof. induction n as [|n IH]; intros H; cbn [csum]; [reflexivity|]. rewrite IH, H by (intros; try apply H; lia). reflexivity. Qed.
Lemma csum_plus n f g : (csum n (fun i => f i + g i) = csum n f + csum n g)%C.
Proof. induction n as [|n IH]; cbn [csum]; [ring|]. rewrite IH. ring. Qed.
Lemma csum_scal n c f : (csum n (fun i => c * f i) = c * csum n f)%C.
Proof. induction n as [|n IH]; cbn [csum]; [ring|]. rewrite IH. ring. Qed.
Lemma csum_zero n (f : nat -> C) : (forall i, (i < n)%nat -> f i = 0%C) -> csum n f = 0%C.
Proof. induction n as [|n IH]; intros H; cbn [csum]; [reflexivity|]. rewrite IH, H by (intros; try apply H; lia). ring. Qed.
Lemma csum_swap n m (f : nat -> nat -> C) : csum n (fun i => csum m (fun j => f i j)) = csum m (fun j => csum n (fun i => f i j)).
Proof. induction n as [|n IH]; cbn [csum]; [symmetry; now apply csum_zero|]. rewrite IH, <- csum_plus. reflexivity. Qed.
Lemma csum_add n m f : (csum (n + m) f = csum n f + csum m (fun i => f (n + i)%nat))%C.
Proof. induction m as [|m IH]; [rewrite Nat.add_0_r; cbn [csum]; ring|]. rewrite Nat.add_succ_r. cbn [csum]. rewrite IH. ring. Qed.
Lemma csum_band D l (f : nat -> C) : (l <= D)%nat -> (forall i, (i < D - l \/ D + l < i)%nat -> f i = 0%C) -> csum (2 * D + 1) f = csum (2 * l + 1) (fun i => f (D - l + i)%nat).
Proof.
  intros H Hf. replace (2 * D + 1)%nat with ((D - l) + ((2 * l + 1) + (D - l)))%nat by lia. rewrite !csum_add.
  rewrite csum_zero by (intros; apply Hf; lia). rewrite (csum_zero (D - l) (fun i => f (D - l + (2 * l + 1 + i))%nat)) by (intros; apply Hf; lia). ring.
Qed.
Lemma csum_pair n f : csum n f = (bigsum n (fun i => fst (f i)), bigsum n (fun i => snd (f i))).
Proof. induction n as [|n IH]; cbn [csum bigsum]; [reflexivity|]. rewrite IH. reflexivity. Qed.
Lemma csum_single n k (f : nat -> C) : (k < n)%nat -> (forall i, (i < n)%nat -> i <> k -> f i = 0%C) -> csum n f = f k.
Proof.
  intros Hk H. rewrite csum_pair. rewrite (surjective_pairing (f k)). f_equal.
  - rewrite (bigsum_single n k); [reflexivity|exact Hk|]. intros i Hi Hn. rewrite H by assumption. reflexivity.
  - rewrite (bigsum_single n k); [reflexivity|exact Hk|]. intros i Hi Hn. rewrite H by assumption. reflexivity.
Qed.
Lemma csum_two n k1 k2 (f : nat -> C) : (k1 < n)%nat -> (k2 < n)%nat -> k1 <> k2 -> (forall i, (i < n)%nat -> i <> k1 -> i <> k2 -> f i = 0%C) -> (csum n f = f k1 + f k2)%C.
Proof.
  intros H1 H2 Hne H. rewrite (csum_ext n f (fun i => (if Nat.eqb i k1 then f i else 0) + (if Nat.eqb i k1 then 0 else f i))%C).
  2:{ intros i _. destruct (Nat.eqb i k1); ring. }
  rewrite csum_plus. f_equal.
  - rewrite (csum_single n k1); [now rewrite Nat.eqb_refl|assumption|]. intros i _ Hi. destruct (Nat.eqb_spec i k1); [contradiction|reflexivity].
  - rewrite (csum_single n k2); [destruct (Nat.eqb_spec k2 k1); [congruence|reflexivity]|assumption|].
    intros i Hi Hn. destruct (Nat.eqb_spec i k1); [reflexivity|]. now apply H.
Qed.

(** * the change from complex to real harmonics *)
Lemma Umn_zero m n : m <> n -> m <> (- n)%Z -> Umn m n = 0%C.
Proof. intros H1 H2. unfold Umn. cbv zeta. destruct (Z.eqb_spec m n), (Z.eqb_spec m (- n)); try contradiction. rewrite Rplus_0_r. ring. Qed.
Lemma parity_pow (N : nat) : (Z.of_nat N mod 2 =? 0)%Z = true /\ (-1) ^ N = 1 \/ (Z.of_nat N mod 2 =? 0)%Z = false /\ (-1) ^ N = -1.
Proof.
  induction N as [|N [[E H]|[E H]]].
  - left. split; reflexivity.
  - right. apply Z.eqb_eq in E. split; [apply Z.eqb_neq|cbn [pow]; rewrite H; ring].
    rewrite Nat2Z.inj_succ. unfold Z.succ. rewrite Zplus_mod, E. discriminate.
  - left. apply Z.eqb_neq in E. split; [apply Z.eqb_eq|cbn [pow]; rewrite H; ring].
    rewrite Nat2Z.inj_succ. unfold Z.succ. rewrite Zplus_mod. pose proof (Z.mod_pos_bound (Z.of_nat N) 2 ltac:(lia)). replace (Z.of_nat N mod 2)%Z with 1%Z by lia. reflexivity.
Qed.
Lemma mod2_opp n : (- n mod 2 =? 0)%Z = (n mod 2 =? 0)%Z.
Proof.
  destruct (Z.eqb_spec (n mod 2) 0) as [E|E].
  - apply Z.eqb_eq. now rewrite Z_mod_zero_opp_full.
  - apply Z.eqb_neq. rewrite Z_mod_nz_opp_full by exact E. pose proof (Z.mod_pos_bound n 2 ltac:(lia)). lia.
Qed.
Lemma Cdiv_sqrt2 (a : R * R) : (a / RtoC (sqrt 2))%C = (fst a / sqrt 2, snd a / sqrt 2).
Proof.
  pose proof sqrt2_pos as H. rewrite (surjective_pairing a) at 1. unfold Cdiv, Cinv, Cmult, RtoC. cbn [fst snd].
  replace (sqrt 2 ^ 2 + 0 ^ 2) with (sqrt 2 * sqrt 2) by ring. f_equal; field; lra.
Qed.
Lemma Umn_val (N : nat) : (0 < N)%nat -> let n := Z.of_nat N in let q := / sqrt 2 in
  Umn n n = ((-1) ^ N * q, 0) /\ Umn (- n) n = (q, 0) /\ Umn (- n) (- n) = (0, q) /\ Umn n (- n) = (0, - ((-1) ^ N * q)).
Proof.
  intros HN n q. assert (Hn : (0 < n)%Z) by (unfold n; lia).
  pose proof (parity_pow N) as HP. fold n in HP.
  assert (B1 : (n <? 0)%Z = false) by (apply Z.ltb_ge; lia). assert (B2 : (- n <? 0)%Z = true) by (apply Z.ltb_lt; lia).
  assert (B3 : (0 <? n)%Z = true) by (apply Z.ltb_lt; lia). assert (B4 : (0 <? - n)%Z = false) by (apply Z.ltb_ge; lia).
  assert (B5 : (n =? - n)%Z = false) by (apply Z.eqb_neq; lia). assert (B6 : (- n =? n)%Z = false) by (apply Z.eqb_neq; lia).
  assert (B7 : (n =? 0)%Z = false) by (apply Z.eqb_neq; lia).
  unfold Umn. cbv zeta. rewrite ?mod2_opp, ?Z.opp_involutive, ?Z.eqb_refl, ?B1, ?B2, ?B3, ?B4, ?B5, ?B6, ?B7, ?Z.eqb_refl. cbn [andb].
  destruct HP as [[-> ->]|[-> ->]]; cbn [negb andb]; rewrite !Cdiv_sqrt2; unfold Cmult, RtoC, Ci, q; cbn [fst snd]; (split; [|split; [|split]]); f_equal; unfold Rdiv; ring.
Qed.
Lemma Umn_00 : Umn 0 0 = 1%C.
Proof.
  unfold Umn. cbv zeta. cbn [Z.ltb Z.compare Z.eqb andb Z.opp]. rewrite Cdiv_sqrt2. unfold Cmult, RtoC. cbn [fst snd]. pose proof sqrt2_pos.
  f_equal; field; lra.
Qed.
Lemma Vx_sum l (F : Z -> R) m : (Z.abs m <= Z.of_nat l)%Z ->
  csum (2 * l + 1) (fun c => (Umn m (Z.of_nat c - Z.of_nat l) * RtoC (F (Z.of_nat c - Z.of_nat l)%Z))%C) = Vx F m.
Proof.
  intros Hm. destruct (Z.eq_dec m 0) as [-> | Hne].
  - rewrite (csum_single _ l); [|lia|].
    + rewrite Z.sub_diag, Umn_00. unfold Vx. cbn [Z.ltb Z.compare Z.eqb]. unfold Cmult, RtoC. cbn [fst snd]. f_equal; ring.
    + intros i Hi Hn. rewrite Umn_zero by lia. ring.
  - set (N := Z.abs_nat m). assert (HN : (0 < N)%nat) by (unfold N; lia). destruct (Umn_val N HN) as (U1 & U2 & U3 & U4).
    rewrite (csum_two _ (l + N) (l - N)); try (unfold N in *; lia).
    2:{ intros i Hi H1 H2. rewrite Umn_zero by (unfold N in *; lia). ring. }
    replace (Z.of_nat (l + N) - Z.of_nat l)%Z with (Z.of_nat N) by lia. replace (Z.of_nat (l - N) - Z.of_nat l)%Z with (- Z.of_nat N)%Z by (unfold N in *; lia).
    unfold Vx. destruct (Z.ltb_spec 0 m).
    + assert (E : m = Z.of_nat N) by (unfold N; lia). clearbody N. subst m. rewrite U1, U4. rewrite Nat2Z.id. unfold Cmult, Cplus, RtoC. cbn [fst snd]. f_equal; unfold Rdiv; ring.
    + destruct (Z.eqb_spec m 0); [contradiction|]. assert (E : m = (- Z.of_nat N)%Z) by (unfold N; lia). clearbody N. subst m. rewrite U2, U3, Z.opp_involutive. unfold Cmult, Cplus, RtoC. cbn [fst snd]. f_equal; unfold Rdiv; ring.
Qed.
Lemma Vx_back l (F : Z -> R) n : (Z.abs n <= Z.of_nat l)%Z ->
  csum (2 * l + 1) (fun a => (Cconj (Umn (Z.of_nat a - Z.of_nat l) n) * Vx F (Z.of_nat a - Z.of_nat l))%C) = RtoC (F n).
Proof.
  intros Hm. pose proof sqrt2_pos as H2. assert (Hq : / sqrt 2 * / sqrt 2 = / 2). { rewrite <- Rinv_mult. f_equal. apply sqrt_sqrt. lra. }
  destruct (Z.eq_dec n 0) as [-> | Hne].
  - rewrite (csum_single _ l); [|lia|].
    + rewrite Z.sub_diag, Umn_00. unfold Vx. cbn [Z.ltb Z.compare Z.eqb]. unfold Cmult, Cconj, RtoC. cbn [fst snd]. f_equal; ring.
    + intros i Hi Hn. rewrite Umn_zero by lia. unfold Cconj, Cmult, RtoC. cbn [fst snd]. f_equal; ring.
  - set (N := Z.abs_nat n). assert (HN : (0 < N)%nat) by (unfold N; lia). destruct (Umn_val N HN) as (U1 & U2 & U3 & U4).
    rewrite (csum_two _ (l + N) (l - N)); try (unfold N in *; lia).
    2:{ intros i Hi H1' H2'. rewrite Umn_zero by (unfold N in *; lia). unfold Cconj, Cmult, RtoC. cbn [fst snd]. f_equal; ring. }
    replace (Z.of_nat (l + N) - Z.of_nat l)%Z with (Z.of_nat N) by lia. replace (Z.of_nat (l - N) - Z.of_nat l)%Z with (- Z.of_nat N)%Z by (unfold N in *; lia).
    assert (P1 : (-1) ^ N * (-1) ^ N = 1) by (rewrite <- Rpow_mult_distr; replace (-1 * -1) with 1 by ring; apply pow1).
    unfold Vx. destruct (Z.ltb_spec 0 (Z.of_nat N)); [|lia]. destruct (Z.ltb_spec 0 (- Z.of_nat N)); [lia|]. destruct (Z.eqb_spec (- Z.of_nat N) 0); [lia|].
    rewrite Nat2Z.id, Z.opp_involutive. set (A := F (Z.of_nat N)). set (B := F (- Z.of_nat N)%Z). set (q := / sqrt 2) in *. set (e := (-1) ^ N) in *.
    unfold Rdiv. fold q.
    destruct (Z.ltb_spec 0 n).
    + assert (E : n = Z.of_nat N) by (unfold N; lia). rewrite E, U1, U2. fold A. unfold Cmult, Cplus, Cconj, RtoC. cbn [fst snd]. f_equal.
      * transitivity ((e * e) * (q * q) * A + (q * q) * A); [ring|]. rewrite P1, Hq. field.
      * transitivity (- ((e * e) * (q * q) * B) + (q * q) * B); [ring|]. rewrite P1, Hq. field.
    + assert (E : n = (- Z.of_nat N)%Z) by (unfold N; lia). rewrite E, U3, U4. fold B. unfold Cmult, Cplus, Cconj, RtoC. cbn [fst snd]. f_equal.
      * transitivity ((e * e) * (q * q) * B + (q * q) * B); [ring|]. rewrite P1, Hq. field.
      * transitivity ((e * e) * (q * q) * A - (q * q) * A); [ring|]. rewrite P1, Hq. field.
Qed.

(** * one block of the rotation *)
Section Block.
Variable as_euler : R * R * R -> R * R * R.
Lemma dls_wigner deg b l (i j : nat) : rotate_dls (Z.of_nat deg + 1) b l (Z.of_nat i) (Z.of_nat j) =
  wigner_d (S deg) b l (Z.of_nat i - (Z.of_nat deg - Z.of_nat l)) (Z.of_nat j - (Z.of_nat deg - Z.of_nat l)).
Proof. unfold rotate_dls, wigner_d. replace (Z.of_nat deg + 1)%Z with (Z.of_nat (S deg)) by lia. f_equal; lia. Qed.
Lemma block_rotates deg x y z theta alpha beta gamma l r p : euler as_euler x y z theta = (alpha, beta, gamma) -> (l <= deg)%nat -> (r <= 2 * l)%nat -> sphere p ->
  bigsum (2 * l + 1) (fun c => rotation_matrix as_euler deg x y z theta l r c * Yat l p (Z.of_nat c - Z.of_nat l)) =
  Yat l (rot_z gamma (rot_y beta (rot_z alpha p))) (Z.of_nat r - Z.of_nat l).
Proof.
  intros He Hl Hr Hs. unfold rotation_matrix. rewrite He. cbv zeta.
  set (N := fun i : nat => (Z.of_nat i - Z.of_nat deg)%Z).
  set (U := fun a b : nat => Umn (Z.of_nat a - Z.of_nat l) (Z.of_nat b - Z.of_nat l)).
  set (W := fun a b : nat => RtoC (wigner_d (S deg) beta l (Z.of_nat a) (Z.of_nat b))).
  set (E := fun a b : nat => cexpm (IZR (Z.of_nat b - Z.of_nat l) * alpha + IZR (Z.of_nat a - Z.of_nat l) * gamma)).
  destruct (wigner_d_sym (S deg) beta l) as [Ho _].
  assert (NB : forall i, N (deg - l + i)%nat = (Z.of_nat i - Z.of_nat l)%Z) by (intros; unfold N; lia).
  assert (Efull : forall c, (c <= 2 * l)%nat ->
    csum (2 * deg + 1) (fun a => csum (2 * deg + 1) (fun b => (Cconj (Umn (N a) (N (deg - l + r)%nat)) *
      (cexpm (IZR (N b) * alpha + IZR (N a) * gamma) * RtoC (rotate_dls (Z.of_nat deg + 1) beta l (Z.of_nat a) (Z.of_nat b))) * Umn (N b) (N (deg - l + c)%nat))%C)) =
    csum (2 * l + 1) (fun a => csum (2 * l + 1) (fun b => (Cconj (U a r) * (E a b * W a b) * U b c)%C))).
  { intros c Hc. rewrite (csum_band deg l).
    - apply csum_ext. intros a Ha. rewrite (csum_band deg l).
      + apply csum_ext. intros b Hb. rewrite !NB, dls_wigner.
        replace (Z.of_nat (deg - l + a) - (Z.of_nat deg - Z.of_nat l))%Z with (Z.of_nat a) by lia.
        replace (Z.of_nat (deg - l + b) - (Z.of_nat deg - Z.of_nat l))%Z with (Z.of_nat b) by lia. reflexivity.
      + exact Hl.
      + intros b Hb. rewrite dls_wigner, Ho by lia. ring.
    - exact Hl.
    - intros a Ha. apply csum_zero. intros b Hb. rewrite dls_wigner, Ho by lia. ring. }
  set (q := rot_z alpha p). set (Q := rot_z gamma (rot_y beta q)).
  assert (Hq : sphere q) by now apply sphere_rot_z.
  transitivity (fst (csum (2 * l + 1) (fun a => (Cconj (U a r) * Vx (Yat l Q) (Z.of_nat a - Z.of_nat l))%C))).
  2:{ unfold U. rewrite (Vx_back l (Yat l Q)) by lia. reflexivity. }
  assert (HV : forall a, (a < 2 * l + 1)%nat -> Vx (Yat l Q) (Z.of_nat a - Z.of_nat l) = csum (2 * l + 1) (fun b => (E a b * W a b * Vx (Yat l p) (Z.of_nat b - Z.of_nat l))%C)).
  { intros a Ha. unfold Q. rewrite Vx_rot_z, (Vx_rot_y (S deg)) by (assumption || lia).
    replace (Z.of_nat l + (Z.of_nat a - Z.of_nat l))%Z with (Z.of_nat a) by lia.
    transitivity (cexpm (IZR (Z.of_nat a - Z.of_nat l) * gamma) * csum (2 * l + 1) (fun b => W a b * Vx (Yat l q) (Z.of_nat b - Z.of_nat l)))%C.
    - f_equal. rewrite csum_pair. f_equal; apply bigsum_ext; intros b _; unfold W, Cmult, RtoC; cbn [fst snd]; ring.
    - rewrite <- csum_scal. apply csum_ext. intros b _. unfold q. rewrite Vx_rot_z. unfold E.
      set (u := IZR (Z.of_nat a - Z.of_nat l) * gamma). set (v := IZR (Z.of_nat b - Z.of_nat l) * alpha).
      assert (Ec : cexpm (v + u) = (cexpm u * cexpm v)%C). { unfold cexpm, Cmult. cbn [fst snd]. rewrite cos_plus, sin_plus. f_equal; ring. }
      rewrite Ec. ring. }
  rewrite (csum_ext _ _ (fun a => csum (2 * l + 1) (fun b => csum (2 * l + 1) (fun c => Cconj (U a r) * (E a b * W a b) * U b c * RtoC (Yat l p (Z.of_nat c - Z.of_nat l)))))%C).
  2:{ intros a Ha. rewrite HV by exact Ha. rewrite <- csum_scal. apply csum_ext. intros b Hb. rewrite <- (Vx_sum l (Yat l p)) by lia.
      rewrite <- !csum_scal. apply csum_ext. intros c _. unfold U. ring. }
  rewrite (csum_ext _ _ (fun a => csum (2 * l + 1) (fun c => csum (2 * l + 1) (fun b => Cconj (U a r) * (E a b * W a b) * U b c * RtoC (Yat l p (Z.of_nat c - Z.of_nat l)))))%C) by (intros; apply csum_swap).
  rewrite csum_swap, csum_pair. cbn [fst]. apply bigsum_ext. intros c Hc.
  match goal with |- Re ?A * ?y = fst ?B => assert (EB : B = (A * RtoC y)%C) end.
  { etransitivity; [|apply (f_equal (fun w => (w * _)%C)); symmetry; exact (Efull c ltac:(lia))]. rewrite Cmult_comm, <- csum_scal. apply csum_ext. intros a _. rewrite <- csum_scal. apply csum_ext. intros b _. ring. }
  rewrite EB. unfold Re, Cmult, RtoC. cbn [fst snd]. ring.
Qed.
End Block.
