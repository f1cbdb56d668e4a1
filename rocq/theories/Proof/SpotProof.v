(** Proofs about ylm_spot. *)
From Coq Require Import Reals Lra Lia ZArith List Bool Arith Psatz.
From Verif Require Import Base.RealAux Base.Dict Model.Poly Model.Basis Model.S2fft Model.Rotation Model.Ylm Model.Spot
  Spec.HarmonicSpec Spec.RotationSpec Spec.YlmSpec Spec.SpotSpec Proof.PolyProof Proof.YlmProof Proof.YlmMore Proof.YlmFacts Proof.RotationMap Proof.RotationMore Proof.AxisAngle Proof.StarryProof.
Import ListNotations.
Open Scope R_scope.

Lemma profile_range t r f : -1 < spot_profile t r f < 0.
Proof.
  unfold spot_profile. pose proof (exp_pos (- (f * (t - r)))) as E. set (e := exp _) in *. split.
  - assert (0 < 1 / (1 + e)) by (apply Rdiv_lt_0_compat; lra). lra.
  - assert (1 / (1 + e) < 1) by (apply Rmult_lt_reg_r with (1 + e); [lra|]; field_simplify; lra). lra.
Qed.
Lemma profile_mid r f : spot_profile r r f = - / 2.
Proof. unfold spot_profile. replace (- (f * (r - r))) with 0 by ring. rewrite exp_0. field. Qed.
Lemma profile_mono t t' r f : 0 < f -> t < t' -> spot_profile t r f < spot_profile t' r f.
Proof.
  intros Hf H. unfold spot_profile. assert (exp (- (f * (t' - r))) < exp (- (f * (t - r)))) by (apply exp_increasing; nra).
  pose proof (exp_pos (- (f * (t' - r)))). apply Rplus_lt_compat_r. unfold Rdiv. rewrite !Rmult_1_l. apply Rinv_lt_contravar; [apply Rmult_lt_0_compat; lra|lra].
Qed.
Section Spot.
Variable as_euler : R * R * R -> R * R * R.
Hypothesis Hz : zyz_euler as_euler.
Variable solved : nat -> nat -> R.
Definition spot_w (ydeg npts : nat) (fac r : R) (l : nat) : R := bigsum npts (fun k => solved l k * spot_profile (nth k (bp_theta npts) 0) r fac).
Lemma spot_coeffs_nth ydeg npts fac con r l nu : (l <= ydeg)%nat -> (nu <= 2 * l)%nat -> nth (l * l + nu) (spot_coeffs solved ydeg npts fac con r) 0 =
  (if (nu =? l)%nat then bp_S (bp_smoothing ydeg) l * spot_w ydeg npts fac r l * con else 0) + (if (l * l + nu =? 0)%nat then 1 else 0).
Proof.
  intros Hl Hnu. unfold spot_coeffs. rewrite (nth_map_seq (fun n => (if (n =? Nat.sqrt n * (Nat.sqrt n + 1))%nat then _ else 0) + _)) by nia.
  replace (Nat.sqrt (l * l + nu)) with l by (symmetry; apply Nat.sqrt_unique; nia). f_equal.
  replace (l * l + nu =? l * (l + 1))%nat with (nu =? l)%nat.
  - destruct (nu =? l)%nat; [|reflexivity]. f_equal. unfold spot_w. rewrite <- bigsum_scal. apply bigsum_ext. intros; ring.
  - destruct (nu =? l)%nat eqn:E; symmetry; [apply Nat.eqb_eq in E; apply Nat.eqb_eq; nia|apply Nat.eqb_neq in E; apply Nat.eqb_neq; nia].
Qed.
Lemma Yl0 l x y z : real_Y l 0 x y z = sqrt (2 * INR l + 1) * legendre_deriv l 0 z / sqrt (4 * PI).
Proof.
  unfold real_Y, harmonic_norm. cbn [Z.abs_nat Z.ltb Z.compare Nat.eqb cpow fst]. rewrite Nat.sub_0_r, Nat.add_0_r. assert (F := INR_fact_neq_0 l). assert (P := PI_RGT_0).
  replace (1 * INR (2 * l + 1) * INR (fact l) / (4 * PI * INR (fact l))) with ((2 * INR l + 1) / (4 * PI)).
  - rewrite sqrt_div_alt by lra. unfold Rdiv. ring.
  - rewrite plus_INR, mult_INR. change (INR 2) with 2. change (INR 1) with 1. field. split; [exact F|lra].
Qed.
Lemma spot_zonal ydeg npts fac con r x y z : map_at ydeg (spot_coeffs solved ydeg npts fac con r) (x, y, z) =
  (1 + con * zonal ydeg (fun l => bp_S (bp_smoothing ydeg) l * spot_w ydeg npts fac r l) z) / sqrt (4 * PI).
Proof.
  unfold map_at, harmonic_eval. assert (S4 : sqrt (4 * PI) <> 0) by (apply Rgt_not_eq, sqrt_lt_R0; pose proof PI_RGT_0; lra).
  transitivity (bigsum (S ydeg) (fun l => con * (bp_S (bp_smoothing ydeg) l * spot_w ydeg npts fac r l * (sqrt (2 * INR l + 1) * legendre_deriv l 0 z)) / sqrt (4 * PI) + (if (l =? 0)%nat then 1 / sqrt (4 * PI) else 0))).
  - apply bigsum_ext. intros l Hl. rewrite (bigsum_ext _ _ (fun nu => (if (nu =? l)%nat then bp_S (bp_smoothing ydeg) l * spot_w ydeg npts fac r l * con * real_Y l (Z.of_nat nu - Z.of_nat l) x y z else 0) + (if (l * l + nu =? 0)%nat then real_Y l (Z.of_nat nu - Z.of_nat l) x y z else 0))).
    + rewrite bigsum_plus. f_equal.
      * rewrite (bigsum_single _ l) by (lia || (intros i Hi Hne; apply Nat.eqb_neq in Hne; rewrite Hne; reflexivity)). rewrite Nat.eqb_refl, Z.sub_diag, Yl0. field. exact S4.
      * destruct l as [|l].
        -- cbn [Nat.mul Nat.add bigsum Nat.eqb]. change (Z.of_nat 0 - Z.of_nat 0)%Z with 0%Z. rewrite Y00. field. exact S4.
        -- cbn [Nat.eqb]. transitivity (bigsum (2 * S l + 1) (fun _ => 0)); [apply bigsum_ext; intros; reflexivity|]. apply bigsum_zero.
    + intros nu Hnu. rewrite spot_coeffs_nth by lia. destruct (nu =? l)%nat, (l * l + nu =? 0)%nat; ring.
  - rewrite bigsum_plus.     rewrite (bigsum_single (S ydeg) 0 (fun l => if (l =? 0)%nat then 1 / sqrt (4 * PI) else 0)) by (lia || (intros i Hi Hne; apply Nat.eqb_neq in Hne; rewrite Hne; reflexivity)). cbn [Nat.eqb]. unfold zonal. rewrite (bigsum_ext _ _ (fun l => con / sqrt (4 * PI) * (bp_S (bp_smoothing ydeg) l * spot_w ydeg npts fac r l * (sqrt (2 * INR l + 1) * legendre_deriv l 0 z)))) by (intros; unfold Rdiv; ring).
    rewrite bigsum_scal. field. exact S4.
Qed.
End Spot.
Section Main.
Variable as_euler : R * R * R -> R * R * R.
Hypothesis Hz : zyz_euler as_euler.
Variable solved : nat -> nat -> R.
Lemma rot_axis_x t p : rot_axis (scal3 (/ norm3 (1, 0, 0)) (1, 0, 0)) t p = rot_x t p.
Proof.
  destruct p as [[x y] z]. unfold rot_axis, norm3, dot3, scal3, add3, cross3, rot_x. replace (1 * 1 + 0 * 0 + 0 * 0) with 1 by ring. rewrite sqrt_1, Rinv_1. apply triple_eq; ring.
Qed.
Lemma rot_axis_y t p : rot_axis (scal3 (/ norm3 (0, 1, 0)) (0, 1, 0)) t p = rot_y t p.
Proof.
  destruct p as [[x y] z]. unfold rot_axis, norm3, dot3, scal3, add3, cross3, rot_y. replace (0 * 0 + 1 * 1 + 0 * 0) with 1 by ring. rewrite sqrt_1, Rinv_1. apply triple_eq; ring.
Qed.
Lemma sphere_rot_y t p : sphere3 p -> sphere3 (rot_y t p).
Proof.
  destruct p as [[x y] z]. unfold sphere3, rot_y, dot3. intros H. pose proof (sin2_cos2 t) as C. unfold Rsqr in C. rewrite <- H.
  replace ((x * cos t + z * sin t) * (x * cos t + z * sin t) + y * y + (- x * sin t + z * cos t) * (- x * sin t + z * cos t)) with ((x * x + z * z) * (sin t * sin t + cos t * cos t) + y * y) by ring. rewrite C. ring.
Qed.
Lemma spot_ok ydeg npts fac con r lat lon : exists v, ylm_spot as_euler solved ydeg npts fac con r lat lon = Ok v /\ wf_ylm v /\ y_deg v = Z.of_nat ydeg /\
  forall p, sphere3 p -> coeffs_value (y_data v) p =
    (1 + con * zonal ydeg (fun l => bp_S (bp_smoothing ydeg) l * spot_w solved ydeg npts fac r l) (dot3 (direction lat lon) p)) / sqrt (4 * PI).
Proof using Hz.
  unfold ylm_spot. set (y0 := spot_coeffs solved ydeg npts fac con r). assert (L0 : length y0 = ncoef ydeg) by (unfold y0, spot_coeffs; rewrite map_length, seq_length; reflexivity).
  destruct (dot_rotation_ok as_euler Hz ydeg (Some 1) (Some 0) (Some 0) lat y0) as (y1 & E1 & L1 & V1); [left; discriminate|exact L0|cbn [angle0]; intros _ H; injection H; lra|]. rewrite E1. cbn [rbind].
  destruct (dot_rotation_ok as_euler Hz ydeg (Some 0) (Some 1) (Some 0) (- lon) y1) as (y2 & E2 & L2 & V2); [left; discriminate|exact L1|cbn [angle0]; intros _ H; injection H; lra|]. rewrite E2. cbn [rbind]. cbn [angle0] in *.
  assert (N2 : y2 <> []) by (intros ->; unfold ncoef in L2; cbn in L2; lia).
  destruct (from_dense_todense_ylm y2 N2) as (v & E3 & W & D & T & _). exists v. split; [exact E3|]. split; [exact W|].
  assert (EL : Nat.sqrt (length y2 - 1) = ydeg). { rewrite L2. unfold ncoef. apply Nat.sqrt_unique. nia. }
  rewrite EL in D, T. split; [exact D|]. rewrite L2, Nat.sub_diag in T. cbn [repeat] in T. rewrite app_nil_r in T.
  intros p Hp. rewrite <- (todense_value v p W). replace (deg_nat v) with ydeg by (unfold deg_nat; rewrite D; lia). rewrite T.
  rewrite V2 by exact Hp. rewrite rot_axis_y. rewrite V1 by (apply sphere_rot_y, Hp). rewrite rot_axis_x.
  destruct p as [[x y] z]. unfold rot_y, rot_x. unfold y0. rewrite spot_zonal. f_equal. f_equal. f_equal. f_equal. unfold dot3, direction. rewrite cos_neg, sin_neg. ring.
Qed.
End Main.
(** the weights are the penalised least-squares fit *)
Section Fit.
Variables (L n : nat) (eps : R) (theta : nat -> R) (b : nat -> R).
Let B k l := sqrt (2 * INR l + 1) * legendre_deriv l 0 (cos (theta k)).
Lemma zonal_B c k : zonal L c (cos (theta k)) = bigsum (S L) (fun l => c l * B k l).
Proof. reflexivity. Qed.
Lemma fit_optimal w c : 0 <= eps ->
  (forall l, (l <= L)%nat -> bigsum (S L) (fun m => (bigsum n (fun k => B k l * B k m) + (if (l =? m)%nat then eps else 0)) * w m) = bigsum n (fun k => B k l * b k)) ->
  fit_cost L n eps theta b c = fit_cost L n eps theta b w + (bigsum n (fun k => zonal L (fun l => c l - w l) (cos (theta k)) ^ 2) + eps * bigsum (S L) (fun l => (c l - w l) ^ 2)).
Proof.
  intros He Hn. set (h := fun l => c l - w l).
  assert (ZC : forall k, zonal L c (cos (theta k)) = zonal L w (cos (theta k)) + zonal L h (cos (theta k))).
  { intros k. rewrite !zonal_B, <- bigsum_plus. apply bigsum_ext. intros l _. unfold h. ring. }
  assert (NE : bigsum n (fun k => (zonal L w (cos (theta k)) - b k) * zonal L h (cos (theta k))) + eps * bigsum (S L) (fun l => w l * h l) = 0).
  { transitivity (bigsum (S L) (fun l => h l * (bigsum (S L) (fun m => (bigsum n (fun k => B k l * B k m) + (if (l =? m)%nat then eps else 0)) * w m) - bigsum n (fun k => B k l * b k)))).
    - transitivity (bigsum (S L) (fun l => bigsum n (fun k => h l * B k l * (zonal L w (cos (theta k)) - b k)) + eps * (w l * h l))).
      + rewrite bigsum_plus, bigsum_scal. f_equal. rewrite bigsum_swap. apply bigsum_ext. intros k _. rewrite (zonal_B h), <- bigsum_scal. apply bigsum_ext. intros l _. ring.
      + apply bigsum_ext. intros l Hl. symmetry. transitivity (h l * (bigsum n (fun k => B k l * zonal L w (cos (theta k))) + eps * w l - bigsum n (fun k => B k l * b k))).
        * f_equal. f_equal. rewrite (bigsum_ext _ _ (fun m => bigsum n (fun k => B k l * B k m * w m) + (if (l =? m)%nat then eps * w m else 0))).
          { rewrite bigsum_plus. f_equal.
            - rewrite bigsum_swap. apply bigsum_ext. intros k _. rewrite zonal_B, <- bigsum_scal. apply bigsum_ext. intros m _. ring.
            - rewrite (bigsum_single _ l) by (lia || (intros i Hi Hne; apply not_eq_sym, Nat.eqb_neq in Hne; rewrite Hne; reflexivity)). now rewrite Nat.eqb_refl. }
          intros m _. rewrite Rmult_plus_distr_r. f_equal; [|destruct (l =? m)%nat; ring]. rewrite Rmult_comm, <- bigsum_scal. apply bigsum_ext. intros; ring.
        * replace (bigsum n (fun k => h l * B k l * (zonal L w (cos (theta k)) - b k))) with (h l * (bigsum n (fun k => B k l * zonal L w (cos (theta k))) + - 1 * bigsum n (fun k => B k l * b k))); [ring|].
          rewrite <- bigsum_scal, <- bigsum_plus, <- bigsum_scal. apply bigsum_ext. intros; ring.
    - apply bigsum_zero_ext. intros l Hl. rewrite Hn by lia. ring. }
  unfold fit_cost.
  rewrite (bigsum_ext n (fun k => (zonal L c (cos (theta k)) - b k) ^ 2) (fun k => (zonal L w (cos (theta k)) - b k) ^ 2 + (2 * ((zonal L w (cos (theta k)) - b k) * zonal L h (cos (theta k))) + zonal L h (cos (theta k)) ^ 2))) by (intros k _; rewrite ZC; ring).
  rewrite (bigsum_ext (S L) (fun l => c l ^ 2) (fun l => w l ^ 2 + (2 * (w l * h l) + h l ^ 2))) by (intros l _; unfold h; ring).
  rewrite !bigsum_plus, !bigsum_scal. fold h. change (fun l => (c l - w l) ^ 2) with (fun l => h l ^ 2). lra.
Qed.
End Fit.
Lemma spot_w_normal solved ydeg npts eps fac r :
  (forall l k, (l <= ydeg)%nat -> (k < npts)%nat ->
     bigsum (S ydeg) (fun m => (bigsum npts (fun j => bp_design (fun l => legendre_deriv l 0) (bp_theta npts) j l * bp_design (fun l => legendre_deriv l 0) (bp_theta npts) j m) + (if (l =? m)%nat then eps else 0)) * solved m k)
     = bp_design (fun l => legendre_deriv l 0) (bp_theta npts) k l) ->
  forall l, (l <= ydeg)%nat -> bigsum (S ydeg) (fun m => (bigsum npts (fun j => bp_design (fun l => legendre_deriv l 0) (bp_theta npts) j l * bp_design (fun l => legendre_deriv l 0) (bp_theta npts) j m) + (if (l =? m)%nat then eps else 0)) * spot_w solved ydeg npts fac r m)
     = bigsum npts (fun k => bp_design (fun l => legendre_deriv l 0) (bp_theta npts) k l * spot_profile (nth k (bp_theta npts) 0) r fac).
Proof.
  intros H l Hl. unfold spot_w. rewrite (bigsum_ext (S ydeg) _ (fun m => bigsum npts (fun k => (bigsum npts (fun j => bp_design (fun l => legendre_deriv l 0) (bp_theta npts) j l * bp_design (fun l => legendre_deriv l 0) (bp_theta npts) j m) + (if (l =? m)%nat then eps else 0)) * solved m k * spot_profile (nth k (bp_theta npts) 0) r fac))).
  - rewrite bigsum_swap. apply bigsum_ext. intros k Hk. rewrite <- (H l k Hl Hk). rewrite Rmult_comm, <- bigsum_scal. apply bigsum_ext. intros; ring.
  - intros m _. rewrite <- bigsum_scal. apply bigsum_ext. intros; ring.
Qed.
