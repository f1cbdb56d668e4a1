From Coq Require Import Reals Lra Lia ZArith List Bool Arith.
From Verif Require Import Base.RealAux Model.Poly Model.S2fft Model.Rotation Spec.PolySpec Spec.HarmonicSpec Spec.RotationSpec Proof.PolyProof Proof.PolyMatrix Proof.BasisProof Proof.HarmonicProof.
Import ListNotations.
Open Scope R_scope.

(** * Lists in blocks of length 2 l + 1 *)
Lemma blocks_length (B : nat -> list R) D : (forall l, length (B l) = (2 * l + 1)%nat) -> length (flat_map B (seq 0 D)) = (D * D)%nat.
Proof.
  intros H. induction D as [|D IH]; [reflexivity|]. rewrite seq_S, flat_map_app, app_length, IH. cbn [flat_map plus]. rewrite app_nil_r, H. lia.
Qed.
Lemma nth_blocks (B : nat -> list R) D l nu : (forall l, length (B l) = (2 * l + 1)%nat) -> (l < D)%nat -> (nu <= 2 * l)%nat ->
  nth (l * l + nu) (flat_map B (seq 0 D)) 0 = nth nu (B l) 0.
Proof.
  intros H. induction D as [|D IH]; [lia|]. intros Hl Hnu. rewrite seq_S, flat_map_app. cbn [flat_map plus]. rewrite app_nil_r.
  destruct (Nat.eq_dec l D) as [->|].
  - rewrite app_nth2; rewrite blocks_length by exact H; [|lia]. f_equal. lia.
  - rewrite app_nth1; [apply IH; lia|]. rewrite blocks_length by exact H. nia.
Qed.
(** two vectors of maps of the same degree agree when all their (l, nu) entries do *)
Lemma list_slots_ext L a b : length a = ncoef L -> length b = ncoef L ->
  (forall l nu, (l <= L)%nat -> (nu <= 2 * l)%nat -> nth (l * l + nu) a 0 = nth (l * l + nu) b 0) -> a = b.
Proof.
  intros Ha Hb H. apply nth_ext with (d := 0) (d' := 0); [congruence|]. intros n Hn. unfold ncoef in Ha. rewrite Ha in Hn.
  destruct (slot_decomp L n Hn) as (l & nu & Hl & Hnu & ->). now apply H.
Qed.

(** * dot_rz *)
Lemma cheb_form (g : nat -> R) c deg : (forall n, g (S (S n)) = 2 * g (S n) * c - g n) ->
  length (cheb_list deg c (g 0%nat) (g 1%nat)) = (deg - 1 + 2)%nat /\ forall n, (n <= deg)%nat -> nth n (cheb_list deg c (g 0%nat) (g 1%nat)) 0 = g n.
Proof.
  intros Hg. unfold cheb_list.
  assert (H : forall k, let a := fold_left (fun a n => a ++ [2 * nth (n - 1) a 0 * c - nth (n - 2) a 0]) (seq 2 k) [g 0%nat; g 1%nat] in
    length a = (k + 2)%nat /\ forall n, (n < k + 2)%nat -> nth n a 0 = g n).
  { induction k as [|k IH]; cbv zeta.
    - split; [reflexivity|]. intros [|[|n]] Hn; [reflexivity|reflexivity|lia].
    - rewrite seq_S, fold_left_app. cbn [fold_left]. cbv zeta in IH. destruct IH as [IL IN]. split; [rewrite app_length, IL; cbn; lia|].
      intros n Hn. destruct (Nat.eq_dec n (k + 2)) as [->|].
      + rewrite app_nth2 by lia. rewrite IL, Nat.sub_diag. cbn [nth]. rewrite !IN by lia. replace (2 + k - 1)%nat with (S k) by lia. replace (2 + k - 2)%nat with k by lia.
        replace (k + 2)%nat with (S (S k)) by lia. symmetry. apply Hg.
      + rewrite app_nth1 by lia. apply IN. lia. }
  specialize (H (deg - 1)%nat). cbv zeta in H. destruct H as [HL HN]. split; [exact HL|]. intros n Hn. apply HN. lia.
Qed.
Lemma order_block_length ell nt neg : length (map (fun m => neg (nth (Z.to_nat (- m)) nt 0)) (zrange (- Z.of_nat ell) 0) ++ map (fun m => nth m nt 0) (seq 0 (ell + 1))) = (2 * ell + 1)%nat.
Proof. rewrite app_length, !map_length, seq_length. unfold zrange. rewrite map_length, seq_length. lia. Qed.
Lemma order_list_nth deg nt neg l nu : (l <= deg)%nat -> (nu <= 2 * l)%nat ->
  nth (l * l + nu) (order_list deg nt neg) 0 = if Nat.ltb nu l then neg (nth (l - nu) nt 0) else nth (nu - l) nt 0.
Proof.
  intros Hl Hnu. unfold order_list. rewrite nth_blocks by (try (intros; apply order_block_length); lia).
  assert (E : length (map (fun m => neg (nth (Z.to_nat (- m)) nt 0)) (zrange (- Z.of_nat l) 0)) = l).
  { rewrite map_length. unfold zrange. rewrite map_length, seq_length. lia. }
  destruct (Nat.ltb_spec nu l).
  - rewrite app_nth1 by lia. unfold zrange. rewrite map_map.
    rewrite (nth_indep _ 0 (neg (nth (Z.to_nat (- (- Z.of_nat l + Z.of_nat 0))) nt 0))) by (rewrite map_length, seq_length; lia).
    rewrite (map_nth (fun k => neg (nth (Z.to_nat (- (- Z.of_nat l + Z.of_nat k))) nt 0))). rewrite seq_nth by lia. do 2 f_equal. lia.
  - rewrite app_nth2 by lia. rewrite E. rewrite (nth_indep _ 0 (nth 0 nt 0)) by (rewrite map_length, seq_length; lia).
    rewrite (map_nth (fun m => nth m nt 0)). rewrite seq_nth by lia. reflexivity.
Qed.
Lemma upd_length l i v : length (upd l i v) = length l.
Proof. revert i. induction l as [|a l IH]; intros [|i]; cbn; auto. Qed.
Lemma upd_same l i v : (i < length l)%nat -> nth i (upd l i v) 0 = v.
Proof. revert i. induction l as [|a l IH]; intros [|i] H; cbn in *; try lia; [reflexivity|]. apply IH. lia. Qed.
Lemma upd_other l i k v : i <> k -> nth k (upd l i v) 0 = nth k l 0.
Proof. revert i k. induction l as [|a l IH]; intros [|i] [|k] H; cbn; try reflexivity; try lia. apply IH. lia. Qed.
Lemma upd_inner (g : nat -> R) o k : forall res, (o + k <= length res)%nat ->
  let r := fold_left (fun res j => upd res (o + j) (g j)) (seq 0 k) res in
  length r = length res /\ (forall j, (j < k)%nat -> nth (o + j) r 0 = g j) /\ (forall n, (n < o \/ o + k <= n)%nat -> nth n r 0 = nth n res 0).
Proof.
  induction k as [|k IH]; intros res Hl; cbv zeta.
  - cbn [seq fold_left]. split; [reflexivity|]. split; [intros; lia|reflexivity].
  - rewrite seq_S, fold_left_app. cbn [fold_left plus]. destruct (IH res ltac:(lia)) as (L1 & V1 & O1). split; [now rewrite upd_length|]. split.
    + intros j Hj. destruct (Nat.eq_dec j k) as [->|]; [rewrite upd_same; [reflexivity|lia]|]. rewrite upd_other by lia. apply V1. lia.
    + intros n Hn. rewrite upd_other by lia. apply O1. lia.
Qed.
Lemma upd_outer (g : nat -> nat -> R) D : forall res, (D * D <= length res)%nat ->
  let r := fold_left (fun res l => fold_left (fun res j => upd res (l * l + j) (g l j)) (seq 0 (2 * l + 1)) res) (seq 0 D) res in
  length r = length res /\ (forall l nu, (l < D)%nat -> (nu <= 2 * l)%nat -> nth (l * l + nu) r 0 = g l nu).
Proof.
  induction D as [|D IH]; intros res Hl; cbv zeta.
  - split; [reflexivity|]. intros; lia.
  - rewrite seq_S, fold_left_app. cbn [fold_left plus]. destruct (IH res ltac:(nia)) as (L1 & V1).
    match goal with |- context [fold_left (fun res j => upd res (D * D + j) (g D j)) (seq 0 (2 * D + 1)) ?r0] => destruct (upd_inner (g D) (D * D) (2 * D + 1) r0) as (L2 & V2 & O2) end.
    { rewrite L1. nia. }
    split; [congruence|]. intros l nu Hl' Hnu. destruct (Nat.eq_dec l D) as [->|]; [apply V2; lia|]. rewrite O2 by nia. apply V1; lia.
Qed.
Lemma cos_cheb t n : cos (INR (S (S n)) * t) = 2 * cos (INR (S n) * t) * cos t - cos (INR n * t).
Proof.
  replace (INR (S (S n)) * t) with (INR (S n) * t + t) by (rewrite (S_INR (S n)); ring).
  replace (INR n * t) with (INR (S n) * t - t) by (rewrite (S_INR n); ring). rewrite cos_plus, cos_minus. ring.
Qed.
Lemma sin_cheb t n : sin (INR (S (S n)) * t) = 2 * sin (INR (S n) * t) * cos t - sin (INR n * t).
Proof.
  replace (INR (S (S n)) * t) with (INR (S n) * t + t) by (rewrite (S_INR (S n)); ring).
  replace (INR n * t) with (INR (S n) * t - t) by (rewrite (S_INR n); ring). rewrite sin_plus, sin_minus. ring.
Qed.
Lemma nmax_ncoef deg : (deg ^ 2 + 2 * deg + 1)%nat = ncoef deg.
Proof. unfold ncoef. cbn [Nat.pow]. lia. Qed.
Lemma INR_sub_Z (a b : nat) : (b <= a)%nat -> INR (a - b) = IZR (Z.of_nat a - Z.of_nat b).
Proof. intros H. rewrite INR_IZR_INZ. f_equal. lia. Qed.
Lemma dot_rz_ok deg t M : length M = ncoef deg -> exists r, dot_rz deg t M = Ok r /\ length r = ncoef deg /\
  forall l nu, (l <= deg)%nat -> (nu <= 2 * l)%nat ->
  let m := (Z.of_nat nu - Z.of_nat l)%Z in
  nth (l * l + nu) r 0 = nth (l * l + nu) M 0 * cos (IZR m * t) + nth (l * l + (2 * l - nu)) M 0 * sin (IZR m * t).
Proof.
  intros HM. unfold dot_rz. cbv zeta. rewrite nmax_ncoef, HM, Nat.eqb_refl. eexists. split; [reflexivity|].
  unfold rz_impl. rewrite nmax_ncoef.
  set (cm := order_list _ _ _). set (sm := order_list _ _ _).
  set (g := fun ell j => nth (ell * ell + j) M 0 * nth (ell * ell + j) cm 0 + nth (ell * ell + 2 * ell - j) M 0 * nth (ell * ell + j) sm 0).
  destruct (upd_outer g (deg + 1) (repeat 0 (ncoef deg))) as [HL HV]. { rewrite repeat_length. unfold ncoef. lia. }
  rewrite repeat_length in HL. split; [exact HL|]. intros l nu Hl Hnu. set (m := (Z.of_nat nu - Z.of_nat l)%Z). etransitivity; [apply HV; lia|]. unfold g.
  replace (l * l + 2 * l - nu)%nat with (l * l + (2 * l - nu))%nat by lia.
  assert (C1 : nth (l * l + nu) cm 0 = cos (IZR m * t)).
  { unfold cm. rewrite order_list_nth by lia.
    destruct (cheb_form (fun n => cos (INR n * t)) (cos t) deg (cos_cheb t)) as [_ Hc].
    replace (cos (INR 0 * t)) with 1 in Hc by (cbn; rewrite Rmult_0_l, cos_0; reflexivity). replace (cos (INR 1 * t)) with (cos t) in Hc by (cbn; f_equal; ring).
    destruct (Nat.ltb_spec nu l).
    - rewrite Hc by lia. rewrite INR_sub_Z by lia. rewrite <- cos_neg. f_equal. unfold m. replace (Z.of_nat nu - Z.of_nat l)%Z with (- (Z.of_nat l - Z.of_nat nu))%Z by ring. rewrite opp_IZR. ring.
    - rewrite Hc by lia. now rewrite INR_sub_Z by lia. }
  assert (S1 : nth (l * l + nu) sm 0 = sin (IZR m * t)).
  { unfold sm. rewrite order_list_nth by lia.
    destruct (cheb_form (fun n => sin (INR n * t)) (cos t) deg (sin_cheb t)) as [_ Hc].
    replace (sin (INR 0 * t)) with 0 in Hc by (cbn; rewrite Rmult_0_l, sin_0; reflexivity). replace (sin (INR 1 * t)) with (sin t) in Hc by (cbn; f_equal; ring).
    destruct (Nat.ltb_spec nu l).
    - rewrite Hc by lia. rewrite INR_sub_Z by lia. rewrite <- sin_neg. f_equal. unfold m. replace (Z.of_nat nu - Z.of_nat l)%Z with (- (Z.of_nat l - Z.of_nat nu))%Z by ring. rewrite opp_IZR. ring.
    - rewrite Hc by lia. now rewrite INR_sub_Z by lia. }
  rewrite C1, S1. reflexivity.
Qed.
Lemma dot_rz_length_err deg t M : length M <> ncoef deg -> dot_rz deg t M = Err ValueError.
Proof. intros H. unfold dot_rz. rewrite nmax_ncoef. destruct (Nat.eqb_spec (length M) (ncoef deg)); [contradiction|reflexivity]. Qed.

(** * Geometric meaning *)
Lemma cpow_rot m x y t : cpow m (x * cos t - y * sin t) (x * sin t + y * cos t) =
  (fst (cpow m x y) * cos (INR m * t) - snd (cpow m x y) * sin (INR m * t), fst (cpow m x y) * sin (INR m * t) + snd (cpow m x y) * cos (INR m * t)).
Proof.
  induction m as [|m IH]; [cbn; rewrite Rmult_0_l, cos_0, sin_0; f_equal; ring|].
  cbn [cpow]. rewrite IH. destruct (cpow m x y) as [a b]. cbn [fst snd].
  replace (INR (S m) * t) with (INR m * t + t) by (rewrite S_INR; ring). rewrite cos_plus, sin_plus. f_equal; ring.
Qed.
Lemma bigsum_rev n f : bigsum n f = bigsum n (fun i => f (n - 1 - i)%nat).
Proof.
  induction n as [|n IH]; [reflexivity|]. rewrite (bigsum_split_first n (fun i => f (S n - 1 - i)%nat)). cbn [bigsum]. rewrite IH, Rplus_comm. f_equal.
  - f_equal. lia.
  - apply bigsum_ext. intros i Hi. f_equal. lia.
Qed.
(** the harmonics of orders m and -m at a point rotated about z *)
Lemma real_Y_rot_z l m x y z t :
  real_Y l m (x * cos t - y * sin t) (x * sin t + y * cos t) z = real_Y l m x y z * cos (IZR m * t) - real_Y l (- m) x y z * sin (IZR m * t).
Proof.
  unfold real_Y. replace (Z.abs_nat (- m)) with (Z.abs_nat m) by lia. set (a := Z.abs_nat m). rewrite cpow_rot. cbn [fst snd].
  destruct (Z.lt_trichotomy m 0) as [H|[H|H]].
  - destruct (Z.ltb_spec m 0), (Z.ltb_spec (- m) 0); try lia.
    replace (INR a * t) with (- (IZR m * t)). 2:{ unfold a. rewrite INR_IZR_INZ, Zabs2Nat.id_abs, Z.abs_neq by lia. rewrite opp_IZR. ring. }
    rewrite sin_neg, cos_neg. ring.
  - subst m. unfold a. cbn. rewrite !Rmult_0_l, cos_0, sin_0. ring.
  - destruct (Z.ltb_spec m 0), (Z.ltb_spec (- m) 0); try lia.
    replace (INR a * t) with (IZR m * t). 2:{ unfold a. rewrite INR_IZR_INZ, Zabs2Nat.id_abs, Z.abs_eq by lia. ring. }
    ring.
Qed.
Lemma dot_rz_map deg t M r p : length M = ncoef deg -> dot_rz deg t M = Ok r -> map_at deg r p = map_at deg M (rot_z t p).
Proof.
  intros HM Hr. destruct (dot_rz_ok deg t M HM) as (r' & Hr' & _ & HV). rewrite Hr in Hr'. injection Hr' as <-.
  destruct p as [[x y] z]. unfold map_at, rot_z, harmonic_eval. apply bigsum_ext. intros l Hl.
  rewrite (bigsum_ext _ (fun nu => nth (l * l + nu) M 0 * _) (fun nu => nth (l * l + nu) M 0 * real_Y l (Z.of_nat nu - Z.of_nat l) x y z * cos (IZR (Z.of_nat nu - Z.of_nat l) * t) +
    - (nth (l * l + nu) M 0 * real_Y l (- (Z.of_nat nu - Z.of_nat l)) x y z * sin (IZR (Z.of_nat nu - Z.of_nat l) * t)))).
  2:{ intros nu _. rewrite real_Y_rot_z. ring. }
  rewrite (bigsum_ext _ (fun nu => nth (l * l + nu) r 0 * _) (fun nu => nth (l * l + nu) M 0 * real_Y l (Z.of_nat nu - Z.of_nat l) x y z * cos (IZR (Z.of_nat nu - Z.of_nat l) * t) +
    nth (l * l + (2 * l - nu)) M 0 * real_Y l (Z.of_nat nu - Z.of_nat l) x y z * sin (IZR (Z.of_nat nu - Z.of_nat l) * t))).
  2:{ intros nu Hnu. rewrite HV by lia. ring. }
  rewrite !bigsum_plus. f_equal. rewrite bigsum_rev. apply bigsum_ext. intros nu Hnu.
  replace (2 * l + 1 - 1 - nu)%nat with (2 * l - nu)%nat by lia. replace (2 * l - (2 * l - nu))%nat with nu by lia.
  replace (Z.of_nat (2 * l - nu) - Z.of_nat l)%Z with (- (Z.of_nat nu - Z.of_nat l))%Z by lia. rewrite opp_IZR.
  replace (- IZR (Z.of_nat nu - Z.of_nat l) * t) with (- (IZR (Z.of_nat nu - Z.of_nat l) * t)) by ring. rewrite sin_neg. ring.
Qed.

Lemma dot_rz_zero deg M : length M = ncoef deg -> dot_rz deg 0 M = Ok M.
Proof.
  intros HM. destruct (dot_rz_ok deg 0 M HM) as (r & Hr & HL & HV). rewrite Hr. f_equal. apply (list_slots_ext deg); auto.
  intros l nu Hl Hnu. rewrite HV by lia. rewrite Rmult_0_r, cos_0, sin_0. ring.
Qed.
Lemma dot_rz_add deg s t M r : length M = ncoef deg -> dot_rz deg s M = Ok r -> dot_rz deg t r = dot_rz deg (s + t) M.
Proof.
  intros HM Hr. destruct (dot_rz_ok deg s M HM) as (r' & Hr' & HL & HV). rewrite Hr in Hr'. injection Hr' as <-.
  destruct (dot_rz_ok deg t r HL) as (r2 & H2 & L2 & V2). destruct (dot_rz_ok deg (s + t) M HM) as (r3 & H3 & L3 & V3). rewrite H2, H3. f_equal.
  apply (list_slots_ext deg); auto. intros l nu Hl Hnu. rewrite V2, V3 by lia. rewrite !HV by lia. cbv zeta.
  replace (2 * l - (2 * l - nu))%nat with nu by lia. replace (Z.of_nat (2 * l - nu) - Z.of_nat l)%Z with (- (Z.of_nat nu - Z.of_nat l))%Z by lia.
  rewrite opp_IZR. set (m := IZR (Z.of_nat nu - Z.of_nat l)). replace (- m * s) with (- (m * s)) by ring. rewrite cos_neg, sin_neg, Rmult_plus_distr_l, cos_plus, sin_plus. ring.
Qed.
Lemma trig_period_Z (m : Z) a : cos (a + IZR m * (2 * PI)) = cos a /\ sin (a + IZR m * (2 * PI)) = sin a.
Proof.
  assert (H : forall n : nat, cos (a + INR n * (2 * PI)) = cos a /\ sin (a + INR n * (2 * PI)) = sin a).
  { intros n. split; [rewrite <- (cos_period a n)|rewrite <- (sin_period a n)]; f_equal; ring. }
  assert (H' : forall n : nat, cos (a - INR n * (2 * PI)) = cos a /\ sin (a - INR n * (2 * PI)) = sin a).
  { intros n. rewrite <- (cos_period (a - INR n * (2 * PI)) n), <- (sin_period (a - INR n * (2 * PI)) n).
    replace (a - INR n * (2 * PI) + 2 * INR n * PI) with a by ring. auto. }
  destruct (Z.le_gt_cases 0 m).
  - specialize (H (Z.to_nat m)). rewrite INR_IZR_INZ, Z2Nat.id in H by lia. exact H.
  - specialize (H' (Z.to_nat (- m))). rewrite INR_IZR_INZ, Z2Nat.id in H' by lia. rewrite opp_IZR in H'.
    replace (a - - IZR m * (2 * PI)) with (a + IZR m * (2 * PI)) in H' by ring. exact H'.
Qed.
Lemma dot_rz_period deg t M : length M = ncoef deg -> dot_rz deg (t + 2 * PI) M = dot_rz deg t M.
Proof.
  intros HM. destruct (dot_rz_ok deg t M HM) as (r & Hr & HL & HV). destruct (dot_rz_ok deg (t + 2 * PI) M HM) as (r2 & H2 & L2 & V2).
  rewrite Hr, H2. f_equal. apply (list_slots_ext deg); auto. intros l nu Hl Hnu. rewrite HV, V2 by lia. cbv zeta.
  set (m := (Z.of_nat nu - Z.of_nat l)%Z). replace (IZR m * (t + 2 * PI)) with (IZR m * t + IZR m * (2 * PI)) by ring.
  destruct (trig_period_Z m (IZR m * t)) as [-> ->]. reflexivity.
Qed.
Lemma dot_rz_power deg t M r l m : length M = ncoef deg -> dot_rz deg t M = Ok r -> (l <= deg)%nat -> (m <= l)%nat -> pair_power r l m = pair_power M l m.
Proof.
  intros HM Hr Hl Hm. destruct (dot_rz_ok deg t M HM) as (r' & Hr' & _ & HV). rewrite Hr in Hr'. injection Hr' as <-. unfold pair_power.
  replace (l * l + l + m)%nat with (l * l + (l + m))%nat by lia. replace (l * l + l - m)%nat with (l * l + (l - m))%nat by lia.
  rewrite !HV by lia. cbv zeta. replace (2 * l - (l + m))%nat with (l - m)%nat by lia. replace (2 * l - (l - m))%nat with (l + m)%nat by lia.
  replace (Z.of_nat (l + m) - Z.of_nat l)%Z with (Z.of_nat m) by lia. replace (Z.of_nat (l - m) - Z.of_nat l)%Z with (- Z.of_nat m)%Z by lia.
  rewrite opp_IZR. replace (- IZR (Z.of_nat m) * t) with (- (IZR (Z.of_nat m) * t)) by ring. rewrite cos_neg, sin_neg.
  pose proof (sin2_cos2 (IZR (Z.of_nat m) * t)) as H. unfold Rsqr in H. set (c := cos _) in *. set (s := sin _) in *.
  set (a := nth _ M 0). set (b := nth (l * l + (l - m)) M 0). transitivity ((a ^ 2 + b ^ 2) * (s * s + c * c)); [ring|rewrite H; ring].
Qed.
