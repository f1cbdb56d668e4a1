(** The Luscombe-Luban algorithm computes the normalised solution of the recurrence. *)
From Coq Require Import Reals Lra Lia ZArith List Bool Psatz.
From Verif Require Import Base.RealAux Model.Poly Model.Wigner3j Spec.Wigner3jSpec Proof.PolyMatrix Proof.Euler.
Import ListNotations.
Open Scope R_scope.

Lemma zrange_nil a b : (b <= a)%Z -> zrange a b = [].
Proof. intros H. unfold zrange. replace (Z.to_nat (b - a)) with O by lia. reflexivity. Qed.
Lemma zrange_cons a b : (a < b)%Z -> zrange a b = a :: zrange (a + 1) b.
Proof.
  intros H. unfold zrange. replace (Z.to_nat (b - a)) with (S (Z.to_nat (b - (a + 1)))) by lia.
  cbn [seq map]. f_equal; [lia|]. rewrite <- seq_shift, map_map. apply map_ext. intros k. lia.
Qed.
Lemma zrange_down_nil a b : (a <= b)%Z -> zrange_down a b = [].
Proof. intros H. unfold zrange_down. replace (Z.to_nat (a - b)) with O by lia. reflexivity. Qed.
Lemma zrange_down_cons a b : (b < a)%Z -> zrange_down a b = a :: zrange_down (a - 1) b.
Proof.
  intros H. unfold zrange_down. replace (Z.to_nat (a - b)) with (S (Z.to_nat (a - 1 - b))) by lia.
  cbn [seq map]. f_equal; [lia|]. rewrite <- seq_shift, map_map. apply map_ext. intros k. lia.
Qed.
Lemma aset_eq a i v : aset a i v i = v.
Proof. unfold aset. rewrite Z.eqb_refl. reflexivity. Qed.
Lemma aset_ne a i v j : j <> i -> aset a i v j = a j.
Proof. unfold aset. intros H. destruct (Z.eqb_spec j i); [contradiction|reflexivity]. Qed.
Lemma in_range_iff lo hi j : in_range lo hi j = true <-> (lo <= j <= hi)%Z.
Proof. unfold in_range. rewrite andb_true_iff, !Z.leb_le. tauto. Qed.
Lemma in_range_out lo hi j : ~ (lo <= j <= hi)%Z -> in_range lo hi j = false.
Proof. intros H. destruct (in_range lo hi j) eqn:E; [|reflexivity]. apply in_range_iff in E. contradiction. Qed.
Lemma ascale_in a lo hi c j : (lo <= j <= hi)%Z -> ascale a lo hi c j = a j * c.
Proof. intros H. unfold ascale. apply in_range_iff in H. rewrite H. reflexivity. Qed.
Lemma ascale_out a lo hi c j : ~ (lo <= j <= hi)%Z -> ascale a lo hi c j = a j.
Proof. intros H. unfold ascale. rewrite in_range_out by assumption. reflexivity. Qed.
Lemma acopy_in a lo hi b j : (lo <= j <= hi)%Z -> acopy a lo hi b j = b j.
Proof. intros H. unfold acopy. apply in_range_iff in H. rewrite H. reflexivity. Qed.
Lemma acopy_out a lo hi b j : ~ (lo <= j <= hi)%Z -> acopy a lo hi b j = a j.
Proof. intros H. unfold acopy. rewrite in_range_out by assumption. reflexivity. Qed.
Lemma Reqb_true x y : Reqb x y = true <-> x = y.
Proof. unfold Reqb. destruct (Req_EM_T x y); split; intros; try discriminate; auto; contradiction. Qed.
Lemma Reqb_false x y : Reqb x y = false <-> x <> y.
Proof. unfold Reqb. destruct (Req_EM_T x y); split; intros; try discriminate; auto; contradiction. Qed.
Lemma Rgtb_false x y : Rgtb x y = false <-> x <= y.
Proof. unfold Rgtb, Rltb. destruct (Rlt_dec y x); split; intros; try discriminate; auto; lra. Qed.
Lemma Rgtb_true' x y : Rgtb x y = true <-> y < x.
Proof. unfold Rgtb, Rltb. destruct (Rlt_dec y x); split; intros; try discriminate; auto; lra. Qed.
Lemma Rgeb_false x y : Rgeb x y = false <-> x < y.
Proof. unfold Rgeb, Rleb. destruct (Rle_dec y x); split; intros; try discriminate; auto; lra. Qed.
Lemma Rgeb_true' x y : Rgeb x y = true <-> y <= x.
Proof. unfold Rgeb, Rleb. destruct (Rle_dec y x); split; intros; try discriminate; auto; lra. Qed.

(** F[jm-k] = F[jm-k+1] * sf[jm-k], k = 1..n *)
Lemma chain_down sf jm (n : nat) F0 :
  let F := fold_left (fun F k => aset F (jm - k) (F (jm - k + 1)%Z * sf (jm - k)%Z)) (zrange 1 (1 + Z.of_nat n)) F0 in
  (forall j, (jm - Z.of_nat n <= j < jm)%Z -> F j = F (j + 1)%Z * sf j) /\
  (forall j, (j < jm - Z.of_nat n \/ jm <= j)%Z -> F j = F0 j).
Proof.
  induction n as [|n IH].
  - cbn [Z.of_nat]. rewrite zrange_nil by lia. cbn [fold_left]. split; intros j Hj; [lia|reflexivity].
  - rewrite zrange_S, fold_left_app. cbn [fold_left].
    set (F := fold_left _ (zrange 1 (1 + Z.of_nat n)) F0) in *. cbv zeta in IH. destruct IH as [I1 I2].
    cbv zeta. split; intros j Hj.
    + destruct (Z.eq_dec j (jm - (1 + Z.of_nat n))) as [->|Hne].
      * rewrite aset_eq, aset_ne by lia. reflexivity.
      * rewrite !aset_ne by lia. apply I1. lia.
    + rewrite aset_ne by lia. apply I2. lia.
Qed.
Lemma chain_up rf jp (n : nat) F0 :
  let F := fold_left (fun F k => aset F (jp + k) (F (jp + k - 1)%Z * rf (jp + k)%Z)) (zrange 1 (1 + Z.of_nat n)) F0 in
  (forall j, (jp < j <= jp + Z.of_nat n)%Z -> F j = F (j - 1)%Z * rf j) /\
  (forall j, (j <= jp \/ jp + Z.of_nat n < j)%Z -> F j = F0 j).
Proof.
  induction n as [|n IH].
  - cbn [Z.of_nat]. rewrite zrange_nil by lia. cbn [fold_left]. split; intros j Hj; [lia|reflexivity].
  - rewrite zrange_S, fold_left_app. cbn [fold_left].
    set (F := fold_left _ (zrange 1 (1 + Z.of_nat n)) F0) in *. cbv zeta in IH. destruct IH as [I1 I2].
    cbv zeta. split; intros j Hj.
    + destruct (Z.eq_dec j (jp + (1 + Z.of_nat n))) as [->|Hne].
      * rewrite aset_eq, aset_ne by lia. reflexivity.
      * rewrite !aset_ne by lia. apply I1. lia.
    + rewrite aset_ne by lia. apply I2. lia.
Qed.

Section Calc.
Variables j2 j3 m2 m3 : Z.
Notation jmin := (w_jmin j2 j3 m2 m3).
Notation jmax := (w_jmax j2 j3).
Notation X := (w_Xj j2 j3 m2 m3).
Notation Y := (w_Yj j2 j3 m2 m3).
Notation Zc := (w_Zj j2 j3 m2 m3).
Hypothesis Hm2 : (Z.abs m2 <= j2)%Z.
Hypothesis Hm3 : (Z.abs m3 <= j3)%Z.
Hypothesis Hlt : (jmin < jmax)%Z.

Lemma jmin_nonneg : (0 <= jmin)%Z. Proof using Hm2. unfold w_jmin. lia. Qed.
Lemma A_pos j : (jmin < j <= jmax)%Z -> 0 < w_A j j2 j3 (w_m1 m2 m3).
Proof using Hm2 Hm3 Hlt.
  unfold w_jmin, w_jmax, w_A, w_m1. intros H. apply sqrt_lt_R0. apply IZR_lt.
  repeat apply Z.mul_pos_pos; nia.
Qed.
Lemma A_min : w_A jmin j2 j3 (w_m1 m2 m3) = 0.
Proof using.
  clear. unfold w_A. rewrite <- sqrt_0. f_equal. apply (f_equal IZR).
  unfold w_jmin, w_m1. destruct (Z.max_spec (Z.abs (j2 - j3)) (Z.abs (m2 + m3))) as [[_ ->]|[_ ->]].
  - replace (Z.abs (m2 + m3) ^ 2)%Z with ((m2 + m3) ^ 2)%Z; [ring|]. rewrite !Z.pow_2_r. symmetry. apply Z.abs_square.
  - replace (Z.abs (j2 - j3) ^ 2)%Z with ((j2 - j3) ^ 2)%Z; [ring|]. rewrite !Z.pow_2_r. symmetry. apply Z.abs_square.
Qed.
Lemma A_top : w_A (jmax + 1) j2 j3 (w_m1 m2 m3) = 0.
Proof using. clear. unfold w_A, w_jmax. rewrite <- sqrt_0. f_equal. apply (f_equal IZR). ring. Qed.
Lemma X_pos j : (jmin <= j < jmax)%Z -> (0 < j)%Z -> 0 < X j.
Proof using Hm2 Hm3 Hlt. intros H1 H2. unfold w_Xj, w_X. apply Rmult_lt_0_compat; [apply IZR_lt, H2|]. apply A_pos. lia. Qed.
Lemma Z_pos j : (jmin < j <= jmax)%Z -> 0 < Zc j.
Proof using Hm2 Hm3 Hlt.
  intros H1. pose proof jmin_nonneg. unfold w_Zj, w_Z. apply Rmult_lt_0_compat; [apply IZR_lt; lia|]. apply A_pos, H1.
Qed.
Lemma X_top : X jmax = 0. Proof using. clear. unfold w_Xj, w_X. rewrite A_top. ring. Qed.
Lemma Z_min : Zc jmin = 0. Proof using. clear. unfold w_Zj, w_Z. rewrite A_min. ring. Qed.
(** when the lower end is 0 the first equation is empty *)
Lemma jmin0 : jmin = 0%Z -> j2 = j3 /\ (m2 + m3 = 0)%Z.
Proof using. clear. unfold w_jmin. lia. Qed.
Lemma X0 : jmin = 0%Z -> X jmin = 0. Proof using. clear. intros E. rewrite E. unfold w_Xj, w_X. ring. Qed.
Lemma Y0 : jmin = 0%Z -> Y jmin = 0.
Proof using. clear. intros E. destruct (jmin0 E) as [E1 E2]. rewrite E. unfold w_Yj, w_Y. subst j3. rewrite E2. apply (f_equal IZR). ring. Qed.

Definition fden (sf : arrz) (j : Z) : R := Y j + Zc j * sf (j - 1)%Z.
Definition fwd_ok (sf : arrz) (j : Z) : Prop :=
  fden sf j <> 0 /\ X j * fden sf j < 0 /\ Rabs (X j) <= Rabs (fden sf j) /\ sf j = - X j / fden sf j.
Lemma w_fwd_spec (n : nat) : forall a sf sf' jm, (a + Z.of_nat n = jmax)%Z ->
  w_fwd j2 j3 m2 m3 (zrange a jmax) sf = (sf', jm) ->
  (jm = jmax \/ a - 1 <= jm <= jmax - 2)%Z /\ (forall j, (j < a \/ jm < j \/ jmax <= j)%Z -> sf' j = sf j) /\
  (forall j, (a <= j <= jm)%Z -> (j < jmax)%Z -> fwd_ok sf' j).
Proof using.
  clear. induction n as [|n IH]; intros a sf sf' jm Ha E.
  - rewrite zrange_nil in E by lia. cbn [w_fwd] in E. injection E as E1 E2. subst. split; [left; reflexivity|].
    split; [reflexivity|]. intros; lia.
  - rewrite zrange_cons in E by lia. cbn [w_fwd] in E. fold (fden sf a) in E.
    destruct (Rgtb (Rabs (X a)) (Rabs (fden sf a)) || Rgeb (X a * fden sf a) 0 || Reqb (fden sf a) 0)%bool eqn:C.
    + injection E as E1 E2. subst. split; [right; lia|]. split; [reflexivity|]. intros; lia.
    + apply orb_false_iff in C. destruct C as [C C3]. apply orb_false_iff in C. destruct C as [C1 C2].
      apply Rgtb_false in C1. apply Rgeb_false in C2. apply Reqb_false in C3.
      destruct (IH (a + 1)%Z _ _ _ ltac:(lia) E) as (I1 & I2 & I3). split; [lia|]. split.
      * intros j Hj. rewrite I2 by lia. apply aset_ne. lia.
      * intros j Hj1 Hj2. destruct (Z.eq_dec j a) as [->|]; [|apply I3; lia].
        assert (D : fden sf' a = fden sf a) by (unfold fden; rewrite I2 by lia; rewrite aset_ne by lia; reflexivity).
        unfold fwd_ok. rewrite D. repeat split; try assumption. rewrite I2 by lia. apply aset_eq.
Qed.
Definition bden (rf : arrz) (j : Z) : R := Y j + X j * rf (j + 1)%Z.
Definition bwd_ok (rf : arrz) (j : Z) : Prop :=
  bden rf j <> 0 /\ Zc j * bden rf j < 0 /\ Rabs (Zc j) <= Rabs (bden rf j) /\ rf j = - Zc j / bden rf j.
Lemma w_bwd_spec (n : nat) : forall a b rf rf' jp, (a - Z.of_nat n = b)%Z ->
  w_bwd j2 j3 m2 m3 (zrange_down a b) rf = (rf', jp) ->
  (jp = jmin /\ (forall j, (b < j <= a)%Z -> bwd_ok rf' j) /\ (forall j, (j <= b \/ a < j)%Z -> rf' j = rf j)) \/
  ((b + 2 <= jp <= a + 1)%Z /\ (forall j, (jp <= j <= a)%Z -> bwd_ok rf' j) /\ (forall j, (j < jp \/ a < j)%Z -> rf' j = rf j)).
Proof using.
  clear. induction n as [|n IH]; intros a b rf rf' jp Ha E.
  - rewrite zrange_down_nil in E by lia. cbn [w_bwd] in E. injection E as E1 E2. subst. left. split; [reflexivity|].
    split; [intros; lia|reflexivity].
  - rewrite zrange_down_cons in E by lia. cbn [w_bwd] in E. fold (bden rf a) in E.
    destruct (Reqb (bden rf a) 0 || Rgtb (Rabs (Zc a)) (Rabs (bden rf a)) || Rgeb (Zc a * bden rf a) 0)%bool eqn:C.
    + injection E as E1 E2. subst. right. split; [lia|]. split; [intros; lia|reflexivity].
    + apply orb_false_iff in C. destruct C as [C C3]. apply orb_false_iff in C. destruct C as [C1 C2].
      apply Rgtb_false in C2. apply Rgeb_false in C3. apply Reqb_false in C1.
      assert (K : (forall j, (a - 1 < j)%Z -> rf' j = aset rf a (- Zc a / bden rf a) j) -> bwd_ok rf' a).
      { intros I. assert (D : bden rf' a = bden rf a) by (unfold bden; rewrite I by lia; rewrite aset_ne by lia; reflexivity).
        unfold bwd_ok. rewrite D. repeat split; try assumption. rewrite I by lia. apply aset_eq. }
      destruct (IH (a - 1)%Z b _ _ _ ltac:(lia) E) as [(I1 & I2 & I3)|(I1 & I2 & I3)].
      * left. split; [exact I1|]. split.
        -- intros j Hj. destruct (Z.eq_dec j a) as [->|]; [|apply I2; lia]. apply K. intros i Hi. apply I3. lia.
        -- intros j Hj. rewrite I3 by lia. apply aset_ne. lia.
      * right. split; [lia|]. split.
        -- intros j Hj. destruct (Z.eq_dec j a) as [->|]; [|apply I2; lia]. apply K. intros i Hi. apply I3. lia.
        -- intros j Hj. rewrite I3 by lia. apply aset_ne. lia.
Qed.

(** ** the lower nonclassical region *)
Definition start_pair (F : arrz) : Prop := F jmin = 1 /\
  ((w_all0 m2 m3 = true /\ F (jmin + 1)%Z = 0) \/ (X jmin <> 0 /\ F (jmin + 1)%Z = - Y jmin / X jmin)).
Definition start_chain (F sf : arrz) (jm : Z) : Prop :=
  F jm = 1 /\ (forall j, (jmin <= j < jm)%Z -> F j = F (j + 1)%Z * sf j) /\
  X jmin * Y jmin < 0 /\ sf jmin = - X jmin / Y jmin /\
  (forall j, (jmin < j <= jm)%Z -> (j < jmax)%Z -> fwd_ok sf j) /\ (jm = jmax \/ jm <= jmax - 2)%Z.
Lemma w_lower_spec um jm F sf : w_lower j2 j3 m2 m3 = (um, jm, F, sf) ->
  (um = true /\ jm = jmin /\ X jmin = 0 /\ Y jmin = 0 /\ w_all0 m2 m3 = false) \/
  (um = false /\ (jmin + 1 <= jm <= jmax)%Z /\ (forall j, (j < jmin)%Z -> F j = 0) /\
   ((jm = (jmin + 1)%Z /\ start_pair F) \/ start_chain F sf jm)).
Proof using Hm2 Hm3 Hlt.
  unfold w_lower. destruct (w_all0 m2 m3) eqn:A0.
  { intros E. injection E as <- <- <- <-. right. split; [reflexivity|]. split; [lia|]. split.
    - intros j Hj. rewrite !aset_ne by lia. reflexivity.
    - left. split; [reflexivity|]. split; [rewrite aset_ne by lia; apply aset_eq|]. left. split; [exact A0|apply aset_eq]. }
  destruct (Reqb (Y jmin) 0) eqn:Ey.
  { apply Reqb_true in Ey. destruct (Reqb (X jmin) 0) eqn:Ex.
    - apply Reqb_true in Ex. intros E. injection E as <- <- <- <-. left. auto.
    - apply Reqb_false in Ex. intros E. injection E as <- <- <- <-. right. split; [reflexivity|]. split; [lia|]. split.
      + intros j Hj. rewrite !aset_ne by lia. reflexivity.
      + left. split; [reflexivity|]. split; [rewrite aset_ne by lia; apply aset_eq|]. right. split; [exact Ex|].
        rewrite aset_eq, Ey. field. exact Ex. }
  apply Reqb_false in Ey.
  assert (Hj : jmin <> 0%Z) by (intros H; apply Ey, Y0, H).
  assert (HX : 0 < X jmin) by (apply X_pos; pose proof jmin_nonneg; lia).
  destruct (Rgeb (X jmin * Y jmin) 0) eqn:Exy.
  { intros E. injection E as <- <- <- <-. right. split; [reflexivity|]. split; [lia|]. split.
    - intros j Hjj. rewrite !aset_ne by lia. reflexivity.
    - left. split; [reflexivity|]. split; [rewrite aset_ne by lia; apply aset_eq|]. right. split; [lra|apply aset_eq]. }
  apply Rgeb_false in Exy.
  set (sf0 := aset zarr jmin (- X jmin / Y jmin)).
  destruct (w_fwd j2 j3 m2 m3 (zrange (jmin + 1) jmax) sf0) as [sf' jm'] eqn:Ef.
  destruct (w_fwd_spec (Z.to_nat (jmax - (jmin + 1))) (jmin + 1)%Z _ _ _ ltac:(lia) Ef) as (I1 & I2 & I3).
  replace (jm' - jmin + 1)%Z with (1 + Z.of_nat (Z.to_nat (jm' - jmin)))%Z by lia.
  destruct (chain_down sf' jm' (Z.to_nat (jm' - jmin)) (aset zarr jm' 1)) as [C1 C2].
  set (F0 := fold_left _ _ (aset zarr jm' 1)) in *. cbv beta iota zeta.
  assert (F1 : F0 jm' = 1) by (rewrite C2 by lia; apply aset_eq).
  destruct (Z.eqb_spec jm' jmin) as [E0|E0]; intros E; injection E as <- <- <- <-; right; (split; [reflexivity|]); (split; [lia|]); split.
  - intros j Hjj. rewrite aset_ne by lia. rewrite C2 by lia. rewrite aset_ne by lia. reflexivity.
  - left. split; [reflexivity|]. split; [rewrite aset_ne by lia; rewrite E0 in F1; exact F1|]. right. split; [lra|apply aset_eq].
  - intros j Hjj. rewrite C2 by lia. rewrite aset_ne by lia. reflexivity.
  - right. split; [exact F1|]. split; [intros j Hjj; apply C1; lia|]. split; [exact Exy|].
    split; [rewrite I2 by lia; apply aset_eq|]. split; [intros j H1 H2; apply I3; lia|]. lia.
Qed.
(** ** the upper one *)
Definition end_pair (F : arrz) : Prop := F jmax = 1 /\
  ((w_all0 m2 m3 = true /\ F (jmax - 1)%Z = 0) \/ F (jmax - 1)%Z = - Y jmax / Zc jmax).
(** F is a chain of ratios rf from jp up, which are right from b+1 up *)
Definition end_chain (F rf : arrz) (jp b : Z) : Prop :=
  F jp = 1 /\ (forall j, (jp < j <= jmax)%Z -> F j = F (j - 1)%Z * rf j) /\
  (Y jmax <> 0 /\ Y jmax * Zc jmax < 0) /\ rf jmax = - Zc jmax / Y jmax /\ (forall j, (b < j < jmax)%Z -> bwd_ok rf j).
Lemma w_upper_spec jm sf um jp F : (jmin <= jm < jmax)%Z -> w_upper j2 j3 m2 m3 jm sf = (um, jp, F) ->
  um = false /\ (jmin <= jp < jmax)%Z /\
  ((jp = (jmax - 1)%Z /\ end_pair F) \/
   (exists rf, end_chain F rf jp (jp - 1) /\ (jm < jp)%Z) \/
   (jp = jmin /\ exists rf, end_chain F rf jmin (jm - 1) /\ forall j, (j < jm)%Z -> rf j = sf j)).
Proof using Hm2 Hm3 Hlt.
  intros Hjm. unfold w_upper.
  assert (HZ : 0 < Zc jmax) by (apply Z_pos; lia).
  destruct (w_all0 m2 m3) eqn:A0.
  { intros E. injection E as <- <- <-. split; [reflexivity|]. split; [lia|]. left. split; [reflexivity|]. split; [rewrite aset_ne by lia; apply aset_eq|].
    left. split; [exact A0|apply aset_eq]. }
  assert (K : forall um jp F, (false, (jmax - 1)%Z, aset (aset zarr jmax 1) (jmax - 1) (- Y jmax / Zc jmax)) = (um, jp, F) ->
     um = false /\ (jmin <= jp < jmax)%Z /\ (jp = (jmax - 1)%Z /\ end_pair F)).
  { intros um' jp' F' E. injection E as <- <- <-. split; [reflexivity|]. split; [lia|]. split; [reflexivity|]. split; [rewrite aset_ne by lia; apply aset_eq|].
    right. apply aset_eq. }
  destruct (Reqb (Y jmax) 0) eqn:Ey.
  { destruct (Reqb (Zc jmax) 0) eqn:Ez; [apply Reqb_true in Ez; lra|]. intros E. destruct (K _ _ _ E) as (K1 & K2 & K3). auto. }
  apply Reqb_false in Ey.
  destruct (Rgeb (Y jmax * Zc jmax) 0) eqn:Eyz.
  { intros E. destruct (K _ _ _ E) as (K1 & K2 & K3). auto. }
  set (rf0 := aset sf jmax (- Zc jmax / Y jmax)).
  destruct (w_bwd j2 j3 m2 m3 (zrange_down (jmax - 1) (jm - 1)) rf0) as [rf jp'] eqn:Eb.
  pose proof (w_bwd_spec (Z.to_nat (jmax - 1 - (jm - 1))) (jmax - 1)%Z (jm - 1)%Z _ _ _ ltac:(lia) Eb) as S.
  assert (Hjp : (jmin <= jp' <= jmax)%Z) by (destruct S as [(S1 & _)|(S1 & _)]; lia).
  replace (jmax - jp' + 1)%Z with (1 + Z.of_nat (Z.to_nat (jmax - jp')))%Z by lia.
  destruct (chain_up rf jp' (Z.to_nat (jmax - jp')) (aset zarr jp' 1)) as [C1 C2].
  set (F0 := fold_left _ _ (aset zarr jp' 1)) in *. cbv beta iota zeta.
  assert (F1 : F0 jp' = 1) by (rewrite C2 by lia; apply aset_eq).
  assert (R1 : rf jmax = - Zc jmax / Y jmax).
  { destruct S as [(_ & _ & S3)|(_ & _ & S3)]; rewrite S3 by lia; apply aset_eq. }
  destruct (Z.eqb_spec jp' jmax) as [E0|E0]; intros E; injection E as <- <- <-; (split; [reflexivity|]); (split; [lia|]).
  - left. split; [reflexivity|]. split; [rewrite aset_ne by lia; rewrite E0 in F1; exact F1|]. right. apply aset_eq.
  - destruct S as [(S1 & S2 & S3)|(S1 & S2 & S3)].
    + right. right. split; [exact S1|]. exists rf. split.
      * rewrite S1 in *. split; [exact F1|]. split; [intros j Hj; apply C1; lia|]. split; [split; [exact Ey|apply Rgeb_false, Eyz]|]. split; [exact R1|].
        intros j Hj. apply S2. lia.
      * intros j Hj. rewrite S3 by lia. apply aset_ne. lia.
    + right. left. exists rf. split; [|lia]. split; [exact F1|]. split; [intros j Hj; apply C1; lia|]. split; [split; [exact Ey|apply Rgeb_false, Eyz]|]. split; [exact R1|].
      intros j Hj. apply S2. lia.
Qed.
Lemma fwd_nz sf j : (jmin < j < jmax)%Z -> fwd_ok sf j -> sf j <> 0.
Proof using Hm2 Hm3 Hlt.
  intros Hj (H1 & H2 & H3 & H4). rewrite H4. pose proof jmin_nonneg as J0.
  assert (HX : 0 < X j) by (apply X_pos; lia). intros E.
  apply (Rmult_eq_compat_r (fden sf j)) in E. unfold Rdiv in E. rewrite Rmult_assoc, Rinv_l, Rmult_0_l in E by assumption. lra.
Qed.
Lemma bwd_nz rf j : (jmin < j <= jmax)%Z -> bwd_ok rf j -> rf j <> 0.
Proof using Hm2 Hm3 Hlt.
  intros Hj (H1 & H2 & H3 & H4). rewrite H4.
  assert (HX : 0 < Zc j) by (apply Z_pos; lia). intros E.
  apply (Rmult_eq_compat_r (bden rf j)) in E. unfold Rdiv in E. rewrite Rmult_assoc, Rinv_l, Rmult_0_l in E by assumption. lra.
Qed.
Lemma chain_nz F (rf : arrz) jp (n : nat) : F jp = 1 -> (forall j, (jp < j <= jp + Z.of_nat n)%Z -> F j = F (j - 1)%Z * rf j) ->
  (forall j, (jp < j <= jp + Z.of_nat n)%Z -> rf j <> 0) -> F (jp + Z.of_nat n)%Z <> 0.
Proof using.
  clear. induction n as [|n IH]; intros H1 H2 H3.
  - replace (jp + Z.of_nat 0)%Z with jp by lia. rewrite H1. lra.
  - rewrite H2 by lia. replace (jp + Z.of_nat (S n) - 1)%Z with (jp + Z.of_nat n)%Z by lia.
    apply Rmult_integral_contrapositive_currified; [apply IH; [exact H1| |]; intros; [apply H2|apply H3]; lia|apply H3; lia].
Qed.
Lemma end_chain_nz F rf jp : (jp < jmax)%Z -> end_chain F rf jp jp \/ end_chain F rf jp (jp - 1) ->
  (jmin <= jp)%Z -> F jmax <> 0.
Proof using Hm2 Hm3 Hlt.
  intros Hjp H Hp. replace jmax with (jp + Z.of_nat (Z.to_nat (jmax - jp)))%Z by lia.
  assert (HZ : 0 < Zc jmax) by (apply Z_pos; lia).
  assert (K : exists b, end_chain F rf jp b /\ (b <= jp)%Z) by (destruct H; eexists; (split; [eassumption|lia])).
  destruct K as (b & (H1 & H2 & [H3 _] & H4 & H5) & Hb).
  apply chain_nz with (rf := rf); [exact H1|intros; apply H2; lia|]. intros j Hj.
  destruct (Z.eq_dec j jmax) as [->|].
  - rewrite H4. intros E. apply (Rmult_eq_compat_r (Y jmax)) in E. unfold Rdiv in E. rewrite Rmult_assoc, Rinv_l, Rmult_0_l in E by assumption. lra.
  - apply bwd_nz; [lia|]. apply H5. lia.
Qed.
(** the top entry of F_plus is not zero *)
Lemma w_upper_top um1 jm Fm sf um jp F : w_lower j2 j3 m2 m3 = (um1, jm, Fm, sf) -> (jm < jmax)%Z ->
  w_upper j2 j3 m2 m3 jm sf = (um, jp, F) -> F jmax <> 0.
Proof using Hm2 Hm3 Hlt.
  intros HL Hjm HU. pose proof (w_lower_spec _ _ _ _ HL) as L.
  assert (Hjm' : (jmin <= jm < jmax)%Z) by (destruct L as [L|L]; lia).
  destruct (w_upper_spec _ _ _ _ _ Hjm' HU) as (_ & U1 & [(_ & U2 & _)|[(rf & U2 & _)|(U2 & rf & U3 & U4)]]).
  - rewrite U2. lra.
  - apply (end_chain_nz F rf jp); [lia|right; exact U2|lia].
  - subst jp. destruct U3 as (H1 & H2 & [H3 _] & H4 & H5).
    assert (HZ : 0 < Zc jmax) by (apply Z_pos; lia).
    replace jmax with (jmin + Z.of_nat (Z.to_nat (jmax - jmin)))%Z by lia.
    apply chain_nz with (rf := rf); [exact H1|intros; apply H2; lia|]. intros j Hj.
    destruct (Z.eq_dec j jmax) as [->|].
    { rewrite H4. intros E. apply (Rmult_eq_compat_r (Y jmax)) in E. unfold Rdiv in E. rewrite Rmult_assoc, Rinv_l, Rmult_0_l in E by assumption. lra. }
    destruct (Z_lt_le_dec j jm) as [Hl|Hl]; [|apply bwd_nz; [lia|apply H5; lia]].
    rewrite U4 by lia. destruct L as [L|(_ & _ & _ & [(L & _)|(_ & _ & _ & _ & L & _)])]; [lia|lia|].
    apply fwd_nz; [lia|]. apply L; lia.
Qed.
(** downward steps keep a non-zero top entry non-zero *)
Lemma w_down_top F j : (j <= jmax)%Z -> F jmax <> 0 -> w_down_step j2 j3 m2 m3 F j jmax <> 0.
Proof using.
  clear. intros Hj HF. unfold w_down_step. set (F' := aset F (j - 1) _).
  assert (E : F' jmax = F jmax) by (apply aset_ne; lia).
  destruct (Rgtb _ 1); [rewrite ascale_in by lia|]; rewrite E; [|exact HF].
  apply Rmult_integral_contrapositive_currified; [exact HF|lra].
Qed.
Lemma w_down_fold_top b (n : nat) : forall a F, (a <= jmax)%Z -> Z.to_nat (a - b) = n -> F jmax <> 0 ->
  fold_left (w_down_step j2 j3 m2 m3) (zrange_down a b) F jmax <> 0.
Proof using.
  clear. induction n as [|n IH]; intros a F Ha Hn HF.
  - rewrite zrange_down_nil by lia. exact HF.
  - rewrite zrange_down_cons by lia. cbn [fold_left]. apply IH; [lia|lia|]. apply w_down_top; [lia|exact HF].
Qed.
Lemma w_up_bound js : forall F b, (forall j, In j js -> (j < b)%Z) -> (snd (w_up j2 j3 m2 m3 js F b) <= b)%Z.
Proof using.
  clear. induction js as [|j js IH]; intros F b Hb; [cbn; lia|]. cbn [w_up].
  destruct (_ && _)%bool; [cbn; specialize (Hb j (or_introl eq_refl)); lia|]. apply IH. intros i Hi. apply Hb. right. exact Hi.
Qed.
Lemma zrange_In a b j : In j (zrange a b) -> (a <= j < b)%Z.
Proof using. clear. unfold zrange. rewrite in_map_iff. intros (k & <- & Hk). apply in_seq in Hk. lia. Qed.
Lemma w_up_low lo js : forall F b, (lo <= b)%Z -> (forall j, In j js -> (lo <= j)%Z) -> (lo <= snd (w_up j2 j3 m2 m3 js F b))%Z.
Proof using.
  clear. induction js as [|j js IH]; intros F b Hb Hj; [cbn; lia|]. cbn [w_up].
  destruct (_ && _)%bool; [cbn; specialize (Hj j (or_introl eq_refl)); lia|]. apply IH; [exact Hb|]. intros i Hi. apply Hj. right. exact Hi.
Qed.
Lemma w_up_below js : forall F b, (forall j, (j < jmin)%Z -> F j = 0) -> (forall j, In j js -> (jmin <= j)%Z) ->
  forall j, (j < jmin)%Z -> fst (w_up j2 j3 m2 m3 js F b) j = 0.
Proof using.
  clear. induction js as [|i js IH]; intros F b HF Hj; [exact HF|]. cbn [w_up].
  assert (Hi := Hj i (or_introl eq_refl)).
  set (F1 := aset F (i + 1) _). set (F2 := if Rgtb _ 1 then _ else F1).
  assert (H2 : forall j, (j < jmin)%Z -> F2 j = 0).
  { intros j Hjj. unfold F2. destruct (Rgtb _ 1); [rewrite ascale_out by lia|]; unfold F1; rewrite aset_ne by lia; apply HF, Hjj. }
  destruct (_ && _)%bool; [exact H2|]. apply IH; [exact H2|]. intros k Hk. apply Hj. right. exact Hk.
Qed.
(** two terms only: the second is not zero *)
Lemma two_terms : (jmax = jmin + 1)%Z -> w_all0 m2 m3 = false /\ Y jmin <> 0.
Proof using Hm2 Hm3 Hlt.
  intros E. assert (J : (jmin = j2 + j3 - 1)%Z) by (unfold w_jmax in E; lia).
  assert (J0 := jmin_nonneg).
  unfold w_Yj, w_Y. rewrite J. unfold w_jmin, w_jmax in *.
  assert (M : (Z.abs (m2 + m3) = j2 + j3 - 1)%Z) by lia.
  split.
  - unfold w_all0, w_m1. destruct (Z.eqb_spec (- (m2 + m3)) 0); [|reflexivity]. destruct (Z.eqb_spec m2 0); [|reflexivity].
    destruct (Z.eqb_spec m3 0); [|reflexivity]. exfalso. lia.
  - intros H. apply eq_IZR in H. apply Z.mul_eq_0 in H. destruct H as [H|H]; [lia|].
    assert (D : ((m2 = j2 /\ m3 = j3 - 1) \/ (m2 = j2 - 1 /\ m3 = j3) \/ (m2 = - j2 /\ m3 = 1 - j3) \/ (m2 = 1 - j2 /\ m3 = - j3))%Z) by lia.
    destruct D as [[-> ->]|[[-> ->]|[[-> ->]|[-> ->]]]].
    + replace (_ - _)%Z with (- (2 * j3 * (j2 + j3 - 1)))%Z in H by ring. nia.
    + replace (_ - _)%Z with (2 * j2 * (j2 + j3 - 1))%Z in H by ring. nia.
    + replace (_ - _)%Z with (2 * j3 * (j2 + j3 - 1))%Z in H by ring. nia.
    + replace (_ - _)%Z with (- (2 * j2 * (j2 + j3 - 1)))%Z in H by ring. nia.
Qed.
(** before the normalisation: zero outside of the range, and not zero at the top *)
Lemma w_calc_shape : exists f, w3j_calculate j2 j3 m2 m3 = Ok (w_finish f jmin jmax j2 j3 m2 m3) /\
  f jmax <> 0 /\ forall j, ~ (jmin <= j <= jmax)%Z -> f j = 0.
Proof using Hm2 Hm3 Hlt.
  unfold w3j_calculate.
  replace ((Z.abs m2 >? j2) || (Z.abs m3 >? j3))%Z with false by (symmetry; apply orb_false_iff; split; rewrite Z.gtb_ltb; apply Z.ltb_ge; lia).
  destruct (Z.ltb_spec jmax jmin); [lia|]. destruct (Z.eqb_spec jmax jmin); [lia|].
  destruct (w_lower j2 j3 m2 m3) as [[[um jm] Fm] sf] eqn:HL.
  pose proof (w_lower_spec _ _ _ _ HL) as L.
  destruct (Z.eqb_spec jm jmax) as [Ej|Ej].
  { eexists. split; [reflexivity|]. split; [|intros j Hj; rewrite acopy_out by exact Hj; reflexivity]. rewrite acopy_in by lia.
    destruct L as [L|(_ & L1 & L2 & [(L3 & L4 & L5)|(L3 & _)])]; [lia| |].
    - destruct (two_terms ltac:(lia)) as [T1 T2]. rewrite T1 in L5. destruct L5 as [[L5 _]|[L5 L6]]; [discriminate|].
      replace jmax with (jmin + 1)%Z by lia. rewrite L6. intros E. apply (Rmult_eq_compat_r (X jmin)) in E. unfold Rdiv in E.
      rewrite Rmult_assoc, Rinv_l, Rmult_0_l in E by assumption. lra.
    - rewrite <- Ej, L3. lra. }
  assert (Hjm : (jm < jmax)%Z) by (destruct L as [L|L]; lia).
  destruct (w_upper j2 j3 m2 m3 jm sf) as [[um' jp] Fp] eqn:HU.
  pose proof (w_upper_top _ _ _ _ _ _ _ HL Hjm HU) as HT.
  destruct (w_upper_spec jm _ _ _ _ ltac:(destruct L as [L|L]; lia) HU) as (-> & U1 & _).
  destruct um.
  - eexists. split; [reflexivity|]. split; [|intros j Hj; rewrite acopy_out by exact Hj; reflexivity]. rewrite acopy_in by lia.
    apply w_down_fold_top with (n := Z.to_nat (jp - jmin)); [lia|reflexivity|exact HT].
  - destruct (w_up j2 j3 m2 m3 (zrange jm ((jm + jp) / 2)) Fm ((jm + jp) / 2)) as [Fm' jd] eqn:Eu.
    assert (B : (jd <= (jm + jp) / 2)%Z).
    { pose proof (w_up_bound (zrange jm ((jm + jp) / 2)) Fm ((jm + jp) / 2)%Z) as B. rewrite Eu in B. apply B. intros j Hj. apply zrange_In in Hj. lia. }
    assert (B2 : ((jm + jp) / 2 < jmax)%Z) by (apply Z.div_lt_upper_bound; lia).
    assert (B4 : (jmin <= jd)%Z).
    { pose proof (w_up_low jmin (zrange jm ((jm + jp) / 2)) Fm ((jm + jp) / 2)%Z) as B4. rewrite Eu in B4. apply B4.
      - apply Z.div_le_lower_bound; destruct L as [L|L]; lia.
      - intros j Hj. apply zrange_In in Hj. destruct L as [L|L]; lia. }
    assert (B5 : Fm' (jmin - 1)%Z = 0).
    { pose proof (w_up_below (zrange jm ((jm + jp) / 2)) Fm ((jm + jp) / 2)%Z) as B5. rewrite Eu in B5. apply B5; [| |lia].
      - destruct L as [(L & _)|(_ & _ & L & _)]; [discriminate|exact L].
      - intros j Hj. apply zrange_In in Hj. destruct L as [L|L]; lia. }
    set (jd' := if (_ && _)%bool then (jd - 1)%Z else jd).
    assert (B6 : (jmin <= jd')%Z).
    { unfold jd'. destruct (_ && _)%bool eqn:C; [|exact B4]. apply andb_true_iff in C. destruct C as [C _].
      apply negb_true_iff in C. apply Reqb_false in C. destruct (Z.eq_dec jd jmin) as [->|]; [contradiction|lia]. }
    assert (B3 : (jd' < jmax)%Z) by (unfold jd'; destruct (_ && _)%bool; lia).
    clearbody jd'. set (Fp' := fold_left _ (zrange_down jp jd') Fp).
    assert (HT' : Fp' jmax <> 0) by (apply w_down_fold_top with (n := Z.to_nat (jp - jd')); [lia|reflexivity|exact HT]).
    destruct (Z.eqb_spec jd' jmax); [lia|].
    destruct (Z.eqb_spec jd' jmin).
    + eexists. split; [reflexivity|]. split; [|intros j Hj; rewrite acopy_out by exact Hj; reflexivity]. rewrite acopy_in by lia. exact HT'.
    + eexists. split; [reflexivity|]. split.
      * rewrite acopy_in by lia. exact HT'.
      * intros j Hj. rewrite !acopy_out by lia. reflexivity.
Qed.

(** ** proportionality to a solution of the recurrence *)
Variable g : arrz.
Hypothesis Hrec : forall j, (jmin <= j <= jmax)%Z -> X j * g (j + 1)%Z + Y j * g j + Zc j * g (j - 1)%Z = 0.
Hypothesis Hnz : g jmax <> 0.
Hypothesis Hplateau : forall c j, (forall i, (jmin <= i <= jmax)%Z -> 0 < c * g i) -> (jmin < j < jmax)%Z ->
  g (j - 1)%Z = g j -> g j = g (j + 1)%Z -> False.
Definition prop (F : arrz) (lo hi : Z) : Prop := exists c, forall j, (lo <= j <= hi)%Z -> g j = c * F j.

Lemma prop_sub F lo hi lo' hi' : prop F lo hi -> (lo <= lo')%Z -> (hi' <= hi)%Z -> prop F lo' hi'.
Proof using. clear. intros [c H] H1 H2. exists c. intros j Hj. apply H. lia. Qed.
Lemma zeros_up (n : nat) : forall j, (jmin <= j)%Z -> (j + 1 + Z.of_nat n = jmax)%Z -> g j = 0 -> g (j + 1)%Z = 0 -> False.
Proof using Hm2 Hm3 Hlt Hrec Hnz.
  induction n as [|n IH]; intros j Hj Hn H1 H2.
  - apply Hnz. rewrite <- Hn. replace (j + 1 + Z.of_nat 0)%Z with (j + 1)%Z by lia. exact H2.
  - pose proof jmin_nonneg as J0. apply (IH (j + 1)%Z); [lia|lia|exact H2|].
    pose proof (Hrec (j + 1)%Z ltac:(lia)) as E. replace (j + 1 - 1)%Z with j in E by lia. rewrite H1, H2 in E.
    assert (HX : 0 < X (j + 1)%Z) by (apply X_pos; lia).
    assert (E' : X (j + 1)%Z * g (j + 1 + 1)%Z = 0) by lra. apply Rmult_integral in E'. destruct E' as [E'|E']; [lra|exact E'].
Qed.
Lemma no_two_zeros j : (jmin <= j < jmax)%Z -> g j = 0 -> g (j + 1)%Z = 0 -> False.
Proof using Hm2 Hm3 Hlt Hrec Hnz. intros Hj. apply (zeros_up (Z.to_nat (jmax - (j + 1)))); lia. Qed.
(** with all m = 0 the values of the wrong parity vanish *)
Lemma all0_parity (n : nat) : w_all0 m2 m3 = true -> (jmin <= jmax - 1 - 2 * Z.of_nat n)%Z -> g (jmax - 1 - 2 * Z.of_nat n)%Z = 0.
Proof using Hm2 Hm3 Hlt Hrec.
  intros A0. assert (HY : forall j, Y j = 0).
  { intros j. unfold w_all0 in A0. apply andb_true_iff in A0. destruct A0 as [A0 A3]. apply andb_true_iff in A0. destruct A0 as [_ A2].
    apply Z.eqb_eq in A2, A3. unfold w_Yj, w_Y. rewrite A2, A3. apply (f_equal IZR). ring. }
  assert (St : forall j, (jmin < j <= jmax)%Z -> (j = jmax \/ g (j + 1)%Z = 0) -> g (j - 1)%Z = 0).
  { intros j Hj Hg. pose proof (Hrec j ltac:(lia)) as E. rewrite HY in E. pose proof (Z_pos j Hj) as HZ.
    assert (E' : Zc j * g (j - 1)%Z = 0).
    { destruct Hg as [->|Hg]; [rewrite X_top in E|rewrite Hg in E]; lra. }
    apply Rmult_integral in E'. destruct E' as [E'|E']; [lra|exact E']. }
  induction n as [|n IH]; intros Hn.
  - replace (jmax - 1 - 2 * Z.of_nat 0)%Z with (jmax - 1)%Z by lia. apply St; [lia|left; reflexivity].
  - replace (jmax - 1 - 2 * Z.of_nat (S n))%Z with ((jmax - 1 - 2 * Z.of_nat n - 1) - 1)%Z by lia.
    apply St; [lia|]. right. replace (jmax - 1 - 2 * Z.of_nat n - 1 + 1)%Z with (jmax - 1 - 2 * Z.of_nat n)%Z by lia. apply IH. lia.
Qed.
Lemma all0_even : w_all0 m2 m3 = true -> exists n : nat, (jmax - jmin = 2 * Z.of_nat n)%Z.
Proof using Hm2 Hm3 Hlt.
  intros A0. unfold w_all0 in A0. apply andb_true_iff in A0. destruct A0 as [A0 A3]. apply andb_true_iff in A0. destruct A0 as [_ A2].
  apply Z.eqb_eq in A2, A3. exists (Z.to_nat (Z.min j2 j3)). unfold w_jmin, w_jmax in *. lia.
Qed.
Lemma all0_first : w_all0 m2 m3 = true -> g (jmin + 1)%Z = 0.
Proof using Hm2 Hm3 Hlt Hrec.
  intros A0. destruct (all0_even A0) as [n Hn]. destruct n as [|n]; [lia|].
  replace (jmin + 1)%Z with (jmax - 1 - 2 * Z.of_nat n)%Z by lia. apply all0_parity; [exact A0|lia].
Qed.
Lemma all0_last : w_all0 m2 m3 = true -> g (jmax - 1)%Z = 0.
Proof using Hm2 Hm3 Hlt Hrec.
  intros A0. replace (jmax - 1)%Z with (jmax - 1 - 2 * Z.of_nat 0)%Z by lia. apply all0_parity; [exact A0|lia].
Qed.
Lemma div_to x y z : z <> 0 -> x * z + y = 0 -> x = - y / z.
Proof using. clear. intros Hz E. apply Rmult_eq_reg_r with z; [|exact Hz]. unfold Rdiv. rewrite Rmult_assoc, Rinv_l by exact Hz. lra. Qed.

Lemma pair_prop F : start_pair F -> prop F jmin (jmin + 1).
Proof using Hm2 Hm3 Hlt Hrec.
  intros (H1 & H2). exists (g jmin). intros j Hj. assert (C : j = jmin \/ j = (jmin + 1)%Z) by lia. destruct C as [->| ->].
  - rewrite H1. ring.
  - destruct H2 as [[A0 ->]|[HX ->]]; [rewrite all0_first by exact A0; ring|].
    pose proof (Hrec jmin ltac:(lia)) as E. rewrite Z_min in E.
    rewrite (div_to (g (jmin + 1)%Z) (Y jmin * g jmin) (X jmin) HX ltac:(lra)). field. exact HX.
Qed.
Lemma sf_ratio sf jm : X jmin * Y jmin < 0 -> sf jmin = - X jmin / Y jmin ->
  (forall j, (jmin < j <= jm)%Z -> (j < jmax)%Z -> fwd_ok sf j) ->
  forall (n : nat), (jmin + Z.of_nat n <= jm)%Z -> (jmin + Z.of_nat n < jmax)%Z ->
  g (jmin + Z.of_nat n)%Z = sf (jmin + Z.of_nat n)%Z * g (jmin + Z.of_nat n + 1)%Z.
Proof using Hrec Hlt.
  intros HXY H0 HF. induction n as [|n IH]; intros H1 H2.
  - replace (jmin + Z.of_nat 0)%Z with jmin by lia. rewrite H0.
    assert (HY : Y jmin <> 0) by (intros E; rewrite E in HXY; lra).
    pose proof (Hrec jmin ltac:(lia)) as E. rewrite Z_min in E.
    rewrite (div_to (g jmin) (X jmin * g (jmin + 1)%Z) (Y jmin) HY ltac:(lra)). field. exact HY.
  - specialize (IH ltac:(lia) ltac:(lia)). set (j := (jmin + Z.of_nat (S n))%Z) in *.
    assert (Ej : (jmin + Z.of_nat n)%Z = (j - 1)%Z) by (unfold j; lia). rewrite Ej in IH. replace (j - 1 + 1)%Z with j in IH by lia.
    destruct (HF j ltac:(lia) ltac:(lia)) as (D1 & D2 & D3 & D4). rewrite D4.
    pose proof (Hrec j ltac:(lia)) as E. rewrite IH in E. unfold fden in *.
    rewrite (div_to (g j) (X j * g (j + 1)%Z) _ D1); [field; exact D1|]. rewrite <- E. ring.
Qed.
Lemma chain_prop F sf jm : (jmin <= jm <= jmax)%Z -> start_chain F sf jm -> prop F jmin jm.
Proof using Hrec Hlt.
  intros Hjm (H1 & H2 & H3 & H4 & H5 & _). exists (g jm).
  assert (K : forall n : nat, (jmin <= jm - Z.of_nat n)%Z -> g (jm - Z.of_nat n)%Z = g jm * F (jm - Z.of_nat n)%Z).
  { induction n as [|n IH]; intros Hn.
    - replace (jm - Z.of_nat 0)%Z with jm by lia. rewrite H1. ring.
    - specialize (IH ltac:(lia)). pose proof (sf_ratio sf jm H3 H4 H5 (Z.to_nat (jm - Z.of_nat (S n) - jmin)) ltac:(lia) ltac:(lia)) as E.
      replace (jmin + Z.of_nat (Z.to_nat (jm - Z.of_nat (S n) - jmin)))%Z with (jm - Z.of_nat (S n))%Z in E by lia.
      rewrite H2 by lia. replace (jm - Z.of_nat (S n) + 1)%Z with (jm - Z.of_nat n)%Z in * by lia. rewrite E, IH. ring. }
  intros j Hj. replace j with (jm - Z.of_nat (Z.to_nat (jm - j)))%Z by lia. apply K. lia.
Qed.
Lemma lower_prop um jm F sf : w_lower j2 j3 m2 m3 = (um, jm, F, sf) -> um = false -> prop F jmin jm.
Proof using Hm2 Hm3 Hlt Hrec.
  intros HL Hu. destruct (w_lower_spec _ _ _ _ HL) as [(L & _)|(_ & L1 & _ & [(-> & L2)|L2])]; [congruence| |].
  - apply pair_prop, L2.
  - apply (chain_prop F sf); [lia|exact L2].
Qed.
Lemma end_pair_prop F : end_pair F -> prop F (jmax - 1) jmax.
Proof using Hm2 Hm3 Hlt Hrec.
  intros (H1 & H2). exists (g jmax). intros j Hj. assert (C : j = jmax \/ j = (jmax - 1)%Z) by lia. destruct C as [->| ->].
  - rewrite H1. ring.
  - destruct H2 as [[A0 ->]| ->]; [rewrite all0_last by exact A0; ring|].
    assert (HZ : 0 < Zc jmax) by (apply Z_pos; lia).
    pose proof (Hrec jmax ltac:(lia)) as E. rewrite X_top in E.
    rewrite (div_to (g (jmax - 1)%Z) (Y jmax * g jmax) (Zc jmax) ltac:(lra) ltac:(lra)). field. lra.
Qed.
Lemma rf_ratio rf b : Y jmax <> 0 -> rf jmax = - Zc jmax / Y jmax -> (forall j, (b < j < jmax)%Z -> bwd_ok rf j) ->
  forall (n : nat), (b < jmax - Z.of_nat n)%Z -> (jmin <= jmax - Z.of_nat n)%Z ->
  g (jmax - Z.of_nat n)%Z = rf (jmax - Z.of_nat n)%Z * g (jmax - Z.of_nat n - 1)%Z.
Proof using Hrec Hlt.
  intros HY H0 HF. induction n as [|n IH]; intros H1 H2.
  - replace (jmax - Z.of_nat 0)%Z with jmax by lia. rewrite H0.
    pose proof (Hrec jmax ltac:(lia)) as E. rewrite X_top in E.
    rewrite (div_to (g jmax) (Zc jmax * g (jmax - 1)%Z) (Y jmax) HY ltac:(lra)). field. exact HY.
  - specialize (IH ltac:(lia) ltac:(lia)). set (j := (jmax - Z.of_nat (S n))%Z) in *.
    assert (Ej : (jmax - Z.of_nat n)%Z = (j + 1)%Z) by (unfold j; lia). rewrite Ej in IH. replace (j + 1 - 1)%Z with j in IH by lia.
    destruct (HF j ltac:(lia)) as (D1 & D2 & D3 & D4). rewrite D4.
    pose proof (Hrec j ltac:(lia)) as E. rewrite IH in E. unfold bden in *.
    rewrite (div_to (g j) (Zc j * g (j - 1)%Z) _ D1); [field; exact D1|]. rewrite <- E. ring.
Qed.
Lemma rf_ratio' rf b j : Y jmax <> 0 -> rf jmax = - Zc jmax / Y jmax -> (forall j, (b < j < jmax)%Z -> bwd_ok rf j) ->
  (b < j <= jmax)%Z -> (jmin <= j)%Z -> g j = rf j * g (j - 1)%Z.
Proof using Hrec Hlt.
  intros H1 H2 H3 H4 H5. replace j with (jmax - Z.of_nat (Z.to_nat (jmax - j)))%Z by lia. apply (rf_ratio rf b); try assumption; lia.
Qed.
Lemma end_chain_prop F rf jp b : (jmin <= jp)%Z -> (b <= jp)%Z -> (jp <= jmax)%Z -> end_chain F rf jp b -> prop F jp jmax.
Proof using Hrec Hlt.
  intros Hp Hb Hp' (H1 & H2 & [H3 _] & H4 & H5). exists (g jp).
  assert (K : forall n : nat, (jp + Z.of_nat n <= jmax)%Z -> g (jp + Z.of_nat n)%Z = g jp * F (jp + Z.of_nat n)%Z).
  { induction n as [|n IH]; intros Hn.
    - replace (jp + Z.of_nat 0)%Z with jp by lia. rewrite H1. ring.
    - specialize (IH ltac:(lia)). pose proof (rf_ratio' rf b (jp + Z.of_nat (S n))%Z H3 H4 H5 ltac:(lia) ltac:(lia)) as E.
      rewrite H2 by lia. replace (jp + Z.of_nat (S n) - 1)%Z with (jp + Z.of_nat n)%Z in * by lia. rewrite E, IH. ring. }
  intros j Hj. replace j with (jp + Z.of_nat (Z.to_nat (j - jp)))%Z by lia. apply K. lia.
Qed.
Lemma ratio_le1 x den : den <> 0 -> Rabs x <= Rabs den -> Rabs (- x / den) <= 1.
Proof using.
  clear. intros H H1. unfold Rdiv. rewrite Rabs_mult, Rabs_Ropp, Rabs_inv. apply Rmult_le_reg_r with (Rabs den); [apply Rabs_pos_lt, H|].
  rewrite Rmult_assoc, Rinv_l by (apply Rabs_no_R0, H). lra.
Qed.
Lemma ratio_pos x den : den <> 0 -> x * den < 0 -> 0 < - x / den.
Proof using.
  clear. intros H H1. replace (- x / den) with ((- (x * den)) * / (den * den)) by (field; exact H).
  apply Rmult_lt_0_compat; [lra|]. apply Rinv_0_lt_compat. nra.
Qed.
(** the ratios of both chains cannot overlap on more than the top two values *)
Lemma no_stale sf rf jm : (jmin + 2 <= jm <= jmax - 2)%Z -> X jmin * Y jmin < 0 -> sf jmin = - X jmin / Y jmin ->
  (forall j, (jmin < j <= jm)%Z -> (j < jmax)%Z -> fwd_ok sf j) -> Y jmax <> 0 -> Y jmax * Zc jmax < 0 -> rf jmax = - Zc jmax / Y jmax ->
  (forall j, (jm - 1 < j < jmax)%Z -> bwd_ok rf j) -> False.
Proof using Hm2 Hm3 Hlt Hrec Hnz Hplateau.
  intros Hj L3 L4 L5 H3 H3' H4 H5.
      assert (Sf : forall j, (jmin < j <= jm)%Z -> g j = sf j * g (j + 1)%Z /\ 0 < sf j <= 1).
      { intros j Hjj. split.
        - pose proof (sf_ratio sf jm L3 L4 L5 (Z.to_nat (j - jmin)) ltac:(lia) ltac:(lia)) as E.
          replace (jmin + Z.of_nat (Z.to_nat (j - jmin)))%Z with j in E by lia. exact E.
        - destruct (L5 j ltac:(lia) ltac:(lia)) as (D1 & D2 & D3 & ->). split; [apply ratio_pos; assumption|].
          eapply Rle_trans; [apply Rle_abs|apply ratio_le1; assumption]. }
      assert (Rf : forall j, (jm <= j < jmax)%Z -> g j = rf j * g (j - 1)%Z /\ 0 < rf j <= 1).
      { intros j Hjj. split; [apply (rf_ratio' rf (jm - 1)); try assumption; lia|].
        destruct (H5 j ltac:(lia)) as (D1 & D2 & D3 & ->). split; [apply ratio_pos; assumption|].
        eapply Rle_trans; [apply Rle_abs|apply ratio_le1; assumption]. }
      destruct (Sf (jm - 1)%Z ltac:(lia)) as [S1 S2]. replace (jm - 1 + 1)%Z with jm in S1 by lia.
      destruct (Rf jm ltac:(lia)) as [R1 R2].
      destruct (Sf jm ltac:(lia)) as [S3 S4].
      destruct (Rf (jm + 1)%Z ltac:(lia)) as [R3 R4]. replace (jm + 1 - 1)%Z with jm in R3 by lia.
      assert (G : g jm <> 0).
      { intros G. apply (no_two_zeros jm ltac:(lia) G). rewrite R3, G. ring. }
      assert (E1 : rf jm * sf (jm - 1)%Z = 1).
      { apply Rmult_eq_reg_r with (g jm); [|exact G]. rewrite Rmult_assoc, <- S1, <- R1. ring. }
      assert (E2 : sf jm * rf (jm + 1)%Z = 1).
      { apply Rmult_eq_reg_r with (g jm); [|exact G]. rewrite Rmult_assoc, <- R3, <- S3. ring. }
      assert (O : forall x y, 0 < x <= 1 -> 0 < y <= 1 -> x * y = 1 -> x = 1 /\ y = 1) by (intros; split; nra).
      destruct (O _ _ R2 S2 E1) as [_ E3]. destruct (O _ _ S4 R4 E2) as [E4 _].
      apply (Hplateau (g jm) jm); [|lia|rewrite S1, E3; ring|rewrite S3, E4; ring].
      assert (Gp : 0 < g jm * g jm) by (clear - G; nra).
      assert (Lo : forall n : nat, (jmin <= jm - Z.of_nat n)%Z -> 0 < g jm * g (jm - Z.of_nat n)%Z).
      { induction n as [|n IH]; intros Hn; [replace (jm - Z.of_nat 0)%Z with jm by lia; exact Gp|]. specialize (IH ltac:(lia)).
        set (i := (jm - Z.of_nat (S n))%Z) in *. replace (jm - Z.of_nat n)%Z with (i + 1)%Z in IH by (unfold i; lia).
        assert (Q : g i = sf i * g (i + 1)%Z /\ 0 < sf i).
        { destruct (Z.eq_dec i jmin) as [Ei|Ei]; [|destruct (Sf i ltac:(lia)); split; [assumption|lra]]. split.
          - pose proof (sf_ratio sf jm L3 L4 L5 0 ltac:(lia) ltac:(lia)) as E. replace (jmin + Z.of_nat 0)%Z with i in E by lia. exact E.
          - rewrite Ei, L4. apply ratio_pos; [intros E; rewrite E in L3; lra|exact L3]. }
        destruct Q as [Q1 Q2]. rewrite Q1. replace (g jm * (sf i * g (i + 1)%Z)) with (sf i * (g jm * g (i + 1)%Z)) by ring. now apply Rmult_lt_0_compat. }
      assert (Hi : forall n : nat, (jm + Z.of_nat n <= jmax)%Z -> 0 < g jm * g (jm + Z.of_nat n)%Z).
      { induction n as [|n IH]; intros Hn; [replace (jm + Z.of_nat 0)%Z with jm by lia; exact Gp|]. specialize (IH ltac:(lia)).
        set (i := (jm + Z.of_nat (S n))%Z) in *. replace (jm + Z.of_nat n)%Z with (i - 1)%Z in IH by (unfold i; lia).
        assert (Q : g i = rf i * g (i - 1)%Z /\ 0 < rf i).
        { destruct (Z.eq_dec i jmax) as [Ei|Ei]; [|destruct (Rf i ltac:(lia)); split; [assumption|lra]]. split.
          - apply (rf_ratio' rf (jm - 1)); try assumption; lia.
          - rewrite Ei, H4. apply ratio_pos; [exact H3|rewrite Rmult_comm; exact H3']. }
        destruct Q as [Q1 Q2]. rewrite Q1. replace (g jm * (rf i * g (i - 1)%Z)) with (rf i * (g jm * g (i - 1)%Z)) by ring. now apply Rmult_lt_0_compat. }
      intros i Hii. destruct (Z_le_gt_dec i jm) as [Hl|Hl].
      { replace i with (jm - Z.of_nat (Z.to_nat (jm - i)))%Z by lia. apply Lo. lia. }
      { replace i with (jm + Z.of_nat (Z.to_nat (i - jm)))%Z by lia. apply Hi. lia. }
Qed.
(** the backward chain never runs into the stale forward ratios *)
Lemma upper_prop um1 jm Fm sf um jp F : w_lower j2 j3 m2 m3 = (um1, jm, Fm, sf) -> (jm < jmax)%Z ->
  w_upper j2 j3 m2 m3 jm sf = (um, jp, F) -> prop F jp jmax.
Proof using Hm2 Hm3 Hlt Hrec Hnz Hplateau.
  intros HL Hjm HU. pose proof (w_lower_spec _ _ _ _ HL) as L.
  assert (Hjm' : (jmin <= jm < jmax)%Z) by (destruct L as [L|L]; lia).
  destruct (w_upper_spec _ _ _ _ _ Hjm' HU) as (_ & U1 & [(-> & U2)|[(rf & U2 & U3)|(U2 & rf & U3 & U4)]]).
  - apply end_pair_prop, U2.
  - apply (end_chain_prop F rf jp (jp - 1)); try lia. exact U2.
  - subst jp. destruct (Z_le_gt_dec jm (jmin + 1)) as [Hj|Hj].
    + apply (end_chain_prop F rf jmin (jm - 1)); try lia. exact U3.
    + exfalso. destruct L as [L|(_ & _ & _ & [(L & _)|(_ & _ & L3 & L4 & L5 & L6)])]; [lia|lia|].
      destruct U3 as (_ & _ & [H3 H3'] & H4 & H5).
      apply (no_stale sf rf jm); try assumption; lia.
Qed.
Lemma down_prop F j : (jmin < j < jmax)%Z -> prop F j jmax -> prop (w_down_step j2 j3 m2 m3 F j) (j - 1) jmax.
Proof using Hm2 Hm3 Hlt Hrec.
  intros Hj [c Hc]. unfold w_down_step. set (F1 := aset F (j - 1) _).
  assert (P1 : forall i, (j - 1 <= i <= jmax)%Z -> g i = c * F1 i).
  { intros i Hi. unfold F1. destruct (Z.eq_dec i (j - 1)) as [->|]; [|rewrite aset_ne by assumption; apply Hc; lia].
    rewrite aset_eq. pose proof (Hrec j ltac:(lia)) as E. rewrite (Hc j), (Hc (j + 1)%Z) in E by lia.
    assert (HZ : 0 < Zc j) by (apply Z_pos; lia).
    rewrite (div_to (g (j - 1)%Z) (X j * (c * F (j + 1)%Z) + Y j * (c * F j)) (Zc j) ltac:(lra)); [field; lra|]. rewrite <- E. ring. }
  destruct (Rgtb _ 1); [|exists c; exact P1]. exists (c * 1000). intros i Hi. rewrite ascale_in by lia. rewrite P1 by lia. field.
Qed.
Lemma down_fold_prop b (n : nat) : forall a F, (jmin <= b)%Z -> (a < jmax)%Z -> Z.to_nat (a - b) = n -> prop F a jmax -> (b <= a)%Z ->
  prop (fold_left (w_down_step j2 j3 m2 m3) (zrange_down a b) F) b jmax.
Proof using Hm2 Hm3 Hlt Hrec.
  induction n as [|n IH]; intros a F Hb Ha Hn HF Hab.
  - rewrite zrange_down_nil by lia. apply (prop_sub _ _ _ _ _ HF); lia.
  - rewrite zrange_down_cons by lia. cbn [fold_left]. apply IH; try lia. apply down_prop; [lia|exact HF].
Qed.
Lemma up_fold_prop b : forall (n : nat) a F, (jmin < a)%Z -> (b <= jmax)%Z -> Z.to_nat (b - a) = n -> prop F jmin a -> (a <= b)%Z ->
  let '(F', jd) := w_up j2 j3 m2 m3 (zrange a b) F b in prop F' jmin jd /\ (jd = b \/ (F' jd <> 0 /\ (a < jd <= b)%Z)).
Proof using Hm2 Hm3 Hlt Hrec.
  induction n as [|n IH]; intros a F Ha Hb Hn [c Hc] Hab.
  - rewrite zrange_nil by lia. cbn [w_up]. split; [exists c; intros j Hj; apply Hc; lia|left; reflexivity].
  - rewrite zrange_cons by lia. cbn [w_up]. set (F1 := aset F (a + 1) _). pose proof jmin_nonneg as J0.
    assert (P1 : forall i, (jmin <= i <= a + 1)%Z -> g i = c * F1 i).
    { intros i Hi. unfold F1. destruct (Z.eq_dec i (a + 1)) as [->|]; [|rewrite aset_ne by assumption; apply Hc; lia].
      rewrite aset_eq. pose proof (Hrec a ltac:(lia)) as E. rewrite (Hc a), (Hc (a - 1)%Z) in E by lia.
      assert (HX : 0 < X a) by (apply X_pos; lia).
      rewrite (div_to (g (a + 1)%Z) (Y a * (c * F a) + Zc a * (c * F (a - 1)%Z)) (X a) ltac:(lra)); [field; lra|]. rewrite <- E. ring. }
    set (F2 := if Rgtb _ 1 then _ else F1).
    assert (P2 : prop F2 jmin (a + 1)).
    { unfold F2. destruct (Rgtb _ 1); [|exists c; exact P1]. exists (c * 1000). intros i Hi. rewrite ascale_in by lia. rewrite P1 by lia. field. }
    clearbody F2. destruct (negb (Reqb (F2 (a - 1)%Z) 0) && Rltb (Rabs (F2 (a + 1)%Z / F2 (a - 1)%Z)) 1 && negb (Reqb (F2 (a + 1)%Z) 0))%bool eqn:C.
    + split; [exact P2|]. right. apply andb_true_iff in C. destruct C as [_ C]. apply negb_true_iff, Reqb_false in C. split; [exact C|lia].
    + specialize (IH (a + 1)%Z F2 ltac:(lia) Hb ltac:(lia) P2 ltac:(lia)).
      destruct (w_up j2 j3 m2 m3 (zrange (a + 1) b) F2 b) as [F' jd]. destruct IH as [I1 I2]. split; [exact I1|]. destruct I2 as [->|[I2 I3]]; [left; reflexivity|right; split; [exact I2|lia]].
Qed.
(** before the normalisation the result is proportional to g *)
Lemma w_calc_prop : exists f, w3j_calculate j2 j3 m2 m3 = Ok (w_finish f jmin jmax j2 j3 m2 m3) /\
  prop f jmin jmax /\ forall j, ~ (jmin <= j <= jmax)%Z -> f j = 0.
Proof using Hm2 Hm3 Hlt Hrec Hnz Hplateau.
  unfold w3j_calculate.
  replace ((Z.abs m2 >? j2) || (Z.abs m3 >? j3))%Z with false by (symmetry; apply orb_false_iff; split; rewrite Z.gtb_ltb; apply Z.ltb_ge; lia).
  destruct (Z.ltb_spec jmax jmin); [lia|]. destruct (Z.eqb_spec jmax jmin); [lia|].
  destruct (w_lower j2 j3 m2 m3) as [[[um jm] Fm] sf] eqn:HL.
  pose proof (w_lower_spec _ _ _ _ HL) as L.
  assert (CP : forall F, prop F jmin jmax -> prop (acopy zarr jmin jmax F) jmin jmax).
  { intros F [c Hc]. exists c. intros j Hj. rewrite acopy_in by lia. apply Hc, Hj. }
  destruct (Z.eqb_spec jm jmax) as [Ej|Ej].
  { assert (Hu : um = false) by (destruct L as [L|L]; [lia|tauto]).
    eexists. split; [reflexivity|]. split; [|intros j Hj; rewrite acopy_out by exact Hj; reflexivity]. apply CP. rewrite <- Ej. apply (lower_prop _ _ _ _ HL Hu). }
  assert (Hjm : (jm < jmax)%Z) by (destruct L as [L|L]; lia).
  destruct (w_upper j2 j3 m2 m3 jm sf) as [[um' jp] Fp] eqn:HU.
  pose proof (upper_prop _ _ _ _ _ _ _ HL Hjm HU) as HP.
  destruct (w_upper_spec jm _ _ _ _ ltac:(destruct L as [L|L]; lia) HU) as (-> & U1 & U2).
  destruct um.
  - eexists. split; [reflexivity|]. split; [|intros j Hj; rewrite acopy_out by exact Hj; reflexivity]. apply CP.
    apply down_fold_prop with (n := Z.to_nat (jp - jmin)); try lia. exact HP.
  - destruct L as [(L & _)|(_ & L1 & L2 & L3)]; [discriminate|].
    pose proof (lower_prop _ _ _ _ HL eq_refl) as HPm.
    set (b := ((jm + jp) / 2)%Z). assert (Hb : (2 * b <= jm + jp < 2 * b + 2)%Z) by (unfold b; pose proof (Z.div_mod (jm + jp) 2); pose proof (Z.mod_pos_bound (jm + jp) 2); lia).
    clearbody b. destruct (w_up j2 j3 m2 m3 (zrange jm b) Fm b) as [Fm' jd] eqn:Eu.
    assert (K : exists jd', (if (negb (Reqb (Fm' (jd - 1)%Z) 0) && Rltb (Rabs (Fm' jd / Fm' (jd - 1)%Z)) (/ 1000000))%bool then (jd - 1)%Z else jd) = jd' /\
              (jmin <= jd' <= jp)%Z /\ prop Fm' jmin jd' /\ (jd' = jmin \/ Fm' jd' <> 0)).
    { destruct (Z_le_gt_dec jm b) as [Hbm|Hbm].
      - pose proof (up_fold_prop b (Z.to_nat (b - jm)) jm Fm ltac:(lia) ltac:(lia) eq_refl HPm Hbm) as UP. rewrite Eu in UP.
        destruct UP as [P1 P2]. assert (Hjd : (jm <= jd <= jp)%Z) by lia.
        destruct (_ && _)%bool eqn:C.
        + apply andb_true_iff in C. destruct C as [C _]. apply negb_true_iff, Reqb_false in C.
          eexists. split; [reflexivity|]. split; [lia|]. split; [apply (prop_sub _ _ _ _ _ P1); lia|right; exact C].
        + eexists. split; [reflexivity|]. split; [lia|]. split; [exact P1|]. right. destruct P2 as [P2|[P2 _]]; [|exact P2].
          intros Z0. assert (Z1 : Fm' (jd - 1)%Z = 0).
          { destruct (Req_dec (Fm' (jd - 1)%Z) 0) as [|NZ]; [assumption|]. exfalso.
            apply andb_false_iff in C. destruct C as [C|C]; [apply negb_false_iff, Reqb_true in C; contradiction|].
            rewrite Z0 in C. unfold Rdiv in C. rewrite Rmult_0_l, Rabs_R0 in C. unfold Rltb in C. destruct (Rlt_dec 0 (/ 1000000)); [discriminate|lra]. }
          destruct P1 as [c Hc]. apply (no_two_zeros (jd - 1)%Z ltac:(lia)); [rewrite Hc, Z1 by lia; ring|].
          replace (jd - 1 + 1)%Z with jd by lia. rewrite Hc, Z0 by lia. ring.
      - rewrite zrange_nil in Eu by lia. cbn [w_up] in Eu. injection Eu as <- <-.
        assert (Ejp : (jp < jm)%Z) by lia.
        assert (E1 : jp = jmin /\ jm = (jmin + 1)%Z).
        { destruct U2 as [(U2 & _)|[(rf & U2 & U3)|(U2 & _)]]; [lia|lia|]. split; [exact U2|].
          subst jp. destruct (Z.eq_dec jm (jmin + 1)) as [|NE]; [assumption|exfalso].
          destruct (w_upper_spec jm _ _ _ _ ltac:(lia) HU) as (_ & _ & [(V & _)|[(rf & _ & V)|(_ & rf & V3 & V4)]]); [lia|lia|].
          (* the stale case, excluded as in upper_prop *)
          destruct L3 as [(L3 & _)|(_ & _ & L3 & L4 & L5 & L6)]; [lia|]. destruct V3 as (_ & _ & [H3 H3'] & H4 & H5).
          apply (no_stale sf rf jm); try assumption; lia. }
        destruct E1 as [-> ->]. assert (b = jmin) by lia. subst b.
        rewrite (L2 (jmin - 1)%Z) by lia. destruct (Reqb_true 0 0) as [_ ->]; [|reflexivity]. cbn [negb andb].
        eexists. split; [reflexivity|]. split; [lia|]. split; [apply (prop_sub _ _ _ _ _ HPm); lia|left; reflexivity]. }
    destruct K as (jd' & -> & K1 & K2 & K3).
    set (Fp' := fold_left _ (zrange_down jp jd') Fp).
    assert (HP' : prop Fp' jd' jmax) by (apply down_fold_prop with (n := Z.to_nat (jp - jd')); try lia; exact HP).
    clearbody Fp'. destruct (Z.eqb_spec jd' jmax); [lia|].
    destruct (Z.eqb_spec jd' jmin) as [->|Hne].
    + eexists. split; [reflexivity|]. split; [|intros j Hj; rewrite acopy_out by exact Hj; reflexivity]. apply CP, HP'.
    + eexists. split; [reflexivity|]. split; [|intros j Hj; rewrite !acopy_out by lia; reflexivity].
      destruct K3 as [K3|K3]; [contradiction|]. destruct K2 as [cm Hcm]. destruct HP' as [cp Hcp].
      assert (Ec : cm * Fm' jd' = cp * Fp' jd') by (rewrite <- Hcm, <- Hcp by lia; reflexivity).
      exists cp. intros j Hj. destruct (Z_le_gt_dec j jd').
      * rewrite acopy_out by lia. rewrite acopy_in by lia. rewrite Hcm by lia.
        apply Rmult_eq_reg_r with (Fm' jd'); [|exact K3]. unfold Rdiv. rewrite !Rmult_assoc, Rinv_l, Rmult_1_r by exact K3.
        transitivity (Fm' j * (cm * Fm' jd')); [ring|]. rewrite Ec. ring.
      * rewrite acopy_in by lia. apply Hcp. lia.
Qed.
End Calc.
