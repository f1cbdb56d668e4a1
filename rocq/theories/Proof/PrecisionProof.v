(** multiprecision/precision.py, and how far the nudged rotations of multiprecision/flux.py lead. *)
From Coq Require Import Reals Lra Lia ZArith List Bool Arith.
From Coquelicot Require Import Coquelicot.
From Verif Require Import Base.RealAux Base.Dict Model.Poly Model.Basis Model.S2fft Model.Rotation Model.Solution Model.SolutionVector Model.Ylm Model.Surface Model.StarryLightCurve
  Model.MpBasis Model.MpLightCurve Model.MpSolution Model.MpRotation Model.MpFlux Model.MpPrecision
  Spec.PolySpec Spec.LimbDarkSpec Spec.HarmonicSpec Spec.RotationSpec Spec.BasisSpec Spec.DiskSpec Spec.OccultSpec Spec.YlmSpec Spec.SurfaceSpec Spec.SkySpec Spec.SystemSpec Spec.ShadowSpec Spec.QuadSpec Spec.MpRotationSpec Spec.MpFluxSpec Spec.PrecisionSpec
  Proof.PolyProof Proof.BasisProof Proof.RotationProof Proof.RotationMore Proof.AxisAngle Proof.Euler Proof.RotationMap Proof.SurfaceProof Proof.StarryProof Proof.Monomial Proof.OccultedSky Proof.OccultedFlux
  Proof.YlmProof Proof.YlmMore Proof.LimbDarkGreen Proof.Shadows Proof.OrderLimit Proof.MapLimit Proof.HarmonicUnique Proof.MpRotationProof Proof.MpRotationDot Proof.MpFluxProof Properties.MpProps.
From Verif Require Proof.MpA2.
Import ListNotations.
Open Scope R_scope.

(** * Lipschitz functions on the cube *)
Definition cube (p : vec3) : Prop := let '(x, y, z) := p in Rabs x <= 1 /\ Rabs y <= 1 /\ Rabs z <= 1.
Definition dist1 (p q : vec3) : R := let '(x, y, z) := p in let '(a, b, c) := q in Rabs (x - a) + Rabs (y - b) + Rabs (z - c).
Definition tame (f : vec3 -> R) : Prop := exists K, 0 <= K /\ forall p q, cube p -> cube q -> Rabs (f p) <= K /\ Rabs (f p - f q) <= K * dist1 p q.
Lemma dist1_pos p q : 0 <= dist1 p q.
Proof. destruct p as [[x y] z], q as [[a b] c]. unfold dist1. pose proof (Rabs_pos (x - a)). pose proof (Rabs_pos (y - b)). pose proof (Rabs_pos (z - c)). lra. Qed.
Lemma tame_ext f g : (forall p, f p = g p) -> tame f -> tame g.
Proof. intros E (K & K0 & H). exists K. split; [exact K0|]. intros p q Hp Hq. rewrite <- !E. now apply H. Qed.
Lemma tame_const c : tame (fun _ => c).
Proof. exists (Rabs c). split; [apply Rabs_pos|]. intros p q _ _. split; [lra|]. rewrite Rminus_eq_0, Rabs_R0. apply Rmult_le_pos; [apply Rabs_pos|apply dist1_pos]. Qed.
Lemma tame_x : tame (fun p => fst (fst p)).
Proof. exists 1. split; [lra|]. intros [[x y] z] [[a b] c] (H & _) _. cbn [fst]. split; [exact H|]. unfold dist1. pose proof (Rabs_pos (y - b)). pose proof (Rabs_pos (z - c)). lra. Qed.
Lemma tame_y : tame (fun p => snd (fst p)).
Proof. exists 1. split; [lra|]. intros [[x y] z] [[a b] c] (_ & H & _) _. cbn [fst snd]. split; [exact H|]. unfold dist1. pose proof (Rabs_pos (x - a)). pose proof (Rabs_pos (z - c)). lra. Qed.
Lemma tame_z : tame (fun p => snd p).
Proof. exists 1. split; [lra|]. intros [[x y] z] [[a b] c] (_ & _ & H) _. cbn [fst snd]. split; [exact H|]. unfold dist1. pose proof (Rabs_pos (x - a)). pose proof (Rabs_pos (y - b)). lra. Qed.
Lemma tame_plus f g : tame f -> tame g -> tame (fun p => f p + g p).
Proof.
  intros (K & K0 & HK) (L & L0 & HL). exists (K + L). split; [lra|]. intros p q Hp Hq. destruct (HK p q Hp Hq) as [A1 A2], (HL p q Hp Hq) as [B1 B2]. split.
  - apply Rle_trans with (1 := Rabs_triang _ _). lra.
  - replace (f p + g p - (f q + g q)) with ((f p - f q) + (g p - g q)) by ring. apply Rle_trans with (1 := Rabs_triang _ _). lra.
Qed.
Lemma tame_mult f g : tame f -> tame g -> tame (fun p => f p * g p).
Proof.
  intros (K & K0 & HK) (L & L0 & HL). exists (2 * (K * L) + K * L). assert (P : 0 <= K * L) by now apply Rmult_le_pos. split; [lra|]. intros p q Hp Hq. destruct (HK p q Hp Hq) as [A1 A2], (HL p q Hp Hq) as [B1 B2]. destruct (HL q p Hq Hp) as [B3 _].
  pose proof (dist1_pos p q) as D. split.
  - rewrite Rabs_mult. apply Rle_trans with (K * L); [|lra]. apply Rmult_le_compat; try apply Rabs_pos; assumption.
  - replace (f p * g p - f q * g q) with (f p * (g p - g q) + (f p - f q) * g q) by ring. apply Rle_trans with (1 := Rabs_triang _ _). rewrite !Rabs_mult.
    assert (Rabs (f p) * Rabs (g p - g q) <= K * (L * dist1 p q)) by (apply Rmult_le_compat; try apply Rabs_pos; assumption).
    assert (Rabs (f p - f q) * Rabs (g q) <= K * dist1 p q * L) by (apply Rmult_le_compat; try apply Rabs_pos; assumption).
    assert (0 <= K * L * dist1 p q) by now apply Rmult_le_pos. nra.
Qed.
Lemma tame_bigsum n (f : nat -> vec3 -> R) : (forall i, (i < n)%nat -> tame (f i)) -> tame (fun p => bigsum n (fun i => f i p)).
Proof.
  induction n as [|n IH]; intros H; [apply (tame_const 0)|]. cbn [bigsum]. apply (tame_plus (fun p => bigsum n (fun i => f i p)) (f n)); [apply IH; intros; apply H; lia|apply H; lia].
Qed.
Lemma tame_pow f n : tame f -> tame (fun p => f p ^ n).
Proof. intros H. induction n as [|n IH]; [apply (tame_const 1)|]. cbn [pow]. now apply tame_mult. Qed.
Lemma tame_cpow n : tame (fun p => fst (cpow n (fst (fst p)) (snd (fst p)))) /\ tame (fun p => snd (cpow n (fst (fst p)) (snd (fst p)))).
Proof.
  induction n as [|n [I1 I2]]; [split; [apply (tame_const 1)|apply (tame_const 0)]|]. pose proof tame_x as X. pose proof tame_y as Y. split.
  - eapply tame_ext; [|exact (tame_plus _ _ (tame_mult _ _ I1 X) (tame_mult _ _ (tame_const (-1)) (tame_mult _ _ I2 Y)))]. intros p. cbn [cpow]. destruct (cpow n (fst (fst p)) (snd (fst p))) as [a b]. cbn [fst snd]. ring.
  - eapply tame_ext; [|exact (tame_plus _ _ (tame_mult _ _ I1 Y) (tame_mult _ _ I2 X))]. intros p. cbn [cpow]. destruct (cpow n (fst (fst p)) (snd (fst p))) as [a b]. cbn [fst snd]. ring.
Qed.
Lemma tame_Y l m : (Z.abs_nat m <= l)%nat -> tame (fun p => real_Y l m (fst (fst p)) (snd (fst p)) (snd p)).
Proof.
  intros Hm. unfold real_Y. cbv zeta. set (a := Z.abs_nat m) in *. destruct (tame_cpow a) as [C1 C2]. apply tame_mult.
  - apply tame_mult; [apply tame_const|]. destruct (ispoly_legendre l a Hm) as (c0 & _ & (c & _ & E)). eapply tame_ext; [intros p; symmetry; apply E|]. apply tame_bigsum. intros i _. apply tame_mult; [apply tame_const|apply tame_pow, tame_z].
  - destruct (m <? 0)%Z; assumption.
Qed.
Lemma tame_map d y : tame (map_at d y).
Proof.
  eapply tame_ext with (f := fun p => harmonic_eval d (fun n => nth n y 0) (fst (fst p)) (snd (fst p)) (snd p)); [intros [[x b] z]; reflexivity|].
  unfold harmonic_eval. apply tame_bigsum. intros l _. apply tame_bigsum. intros nu Hnu. apply tame_mult; [apply tame_const|apply tame_Y; lia].
Qed.
Lemma tame_ld u : tame (fun p => ld_profile u (snd p)).
Proof.
  unfold ld_profile. assert (T : tame (fun p => bigsum (length u) (fun n => nth n u 0 * (1 - snd p) ^ S n))).
  { apply (tame_bigsum (length u) (fun n p => nth n u 0 * (1 - snd p) ^ S n)). intros i _. apply tame_mult; [apply tame_const|]. apply (tame_pow (fun p => 1 - snd p)). eapply tame_ext; [|exact (tame_plus _ _ (tame_const 1) (tame_mult _ _ (tame_const (-1)) tame_z))]. intros p. cbn beta. ring. }
  eapply tame_ext; [|exact (tame_plus _ _ (tame_const 1) (tame_mult _ _ (tame_const (-1)) T))]. intros p. cbn beta. ring.
Qed.
Lemma abs_le_1 a b c : a * a + b * b + c * c = 1 -> Rabs a <= 1.
Proof. intros H. apply Rabs_le. nra. Qed.
Lemma sphere_cube p : sphere3 p -> cube p.
Proof. destruct p as [[x y] z]. unfold sphere3, dot3, cube. intros H. split; [apply (abs_le_1 x y z); lra|split; [apply (abs_le_1 y x z); lra|apply (abs_le_1 z x y); lra]]. Qed.
Lemma norm_dist p q : dist1 p q <= 3 * norm3 (add3 p (scal3 (-1) q)).
Proof.
  destruct p as [[x y] z], q as [[a b] c]. unfold dist1, norm3, add3, scal3, dot3. set (s := sqrt _).
  assert (S : forall t e f, sqrt (t * t + e * e + f * f) >= Rabs t). { intros t e f. apply Rle_ge. rewrite <- sqrt_Rsqr_abs. apply sqrt_le_1_alt. unfold Rsqr. nra. }
  assert (A1 : Rabs (x - a) <= s). { replace (x - a) with (x + -1 * a) by ring. apply Rge_le, S. }
  assert (A2 : Rabs (y - b) <= s). { replace (y - b) with (y + -1 * b) by ring. unfold s. replace ((x + -1 * a) * (x + -1 * a) + (y + -1 * b) * (y + -1 * b)) with ((y + -1 * b) * (y + -1 * b) + (x + -1 * a) * (x + -1 * a)) by ring. apply Rge_le, S. }
  assert (A3 : Rabs (z - c) <= s). { replace (z - c) with (z + -1 * c) by ring. unfold s. match goal with |- _ <= sqrt (?u + ?v + ?w) => replace (u + v + w) with (w + u + v) by ring end. apply Rge_le, S. }
  lra.
Qed.
(** * visible integrals of functions that are close *)
Lemma vis_close b r f g v w e : vis b r f v -> vis b r g w -> 0 <= e -> (forall x y, x ^ 2 + y ^ 2 <= 1 -> Rabs (f x y - g x y) <= e) -> Rabs (v - w) <= e * PI.
Proof.
  intros (K & K1 & K2 & K3) (L & L1 & L2 & L3) He H. pose proof PI_RGT_0 as P.
  assert (D : forall phi, Rabs (K phi - L phi) <= e / 2).
  { intros phi. assert (A := is_RInt_minus (V := R_NormedModule) _ _ _ _ _ _ (K1 phi) (L1 phi)). 
    assert (U : is_RInt (fun rho => e * rho) 0 1 (e / 2)). { replace (e / 2) with (minus (e * 1 ^ 2 / 2) (e * 0 ^ 2 / 2)) by (unfold minus, plus, opp; cbn; field). apply (is_RInt_derive (fun t => e * t ^ 2 / 2)). - intros t _. auto_derive; [trivial|]. field. - intros t _. apply (ex_derive_continuous (V := R_NormedModule)). auto_derive. trivial. }
    apply (norm_RInt_le (V := R_NormedModule) (fun rho => minus (unhidden_by 0 b r f (rho * sin phi) (rho * cos phi) * rho) (unhidden_by 0 b r g (rho * sin phi) (rho * cos phi) * rho)) (fun rho => e * rho) 0 1); [lra| |exact A|exact U].
    intros rho Hr. change (Rabs (unhidden_by 0 b r f (rho * sin phi) (rho * cos phi) * rho - unhidden_by 0 b r g (rho * sin phi) (rho * cos phi) * rho) <= e * rho).
    unfold unhidden_by. destruct (Rlt_dec _ _); [rewrite !Rmult_0_l, Rminus_eq_0, Rabs_R0; nra|]. rewrite <- Rmult_minus_distr_r, Rabs_mult, (Rabs_right rho) by lra. apply Rmult_le_compat_r; [lra|]. apply H.
    pose proof (sin2_cos2 phi) as Q. unfold Rsqr in Q. assert ((rho * sin phi) ^ 2 + (rho * cos phi) ^ 2 = rho ^ 2) by (replace ((rho * sin phi) ^ 2 + (rho * cos phi) ^ 2) with (rho ^ 2 * (sin phi * sin phi + cos phi * cos phi)) by ring; rewrite Q; ring). assert (0 <= rho ^ 2 <= 1) by (split; [apply pow2_ge_0|]; rewrite <- (pow1 2); apply pow_incr; lra). lra. }
  assert (A := is_RInt_minus (V := R_NormedModule) _ _ _ _ _ _ K3 L3).
  assert (U : is_RInt (fun _ : R => e / 2) (- PI) PI (e * PI)). { replace (e * PI) with (scal (PI - - PI) (e / 2)) by (unfold scal; cbn; unfold mult; cbn; field). apply (is_RInt_const (V := R_NormedModule)). }
  apply (norm_RInt_le (V := R_NormedModule) (fun phi => minus (K phi) (L phi)) (fun _ => e / 2) (- PI) PI); [lra| |exact A|exact U]. intros phi _. apply D.
Qed.

(** * the nudged rotations *)
Lemma zdisk_closed x y : x ^ 2 + y ^ 2 <= 1 -> sphere3 (x, y, zdisk x y).
Proof. intros H. unfold sphere3, dot3, zdisk. rewrite sqrt_sqrt by lra. ring. Qed.
Lemma true_point d y inc obl phi tz : (1 <= d)%nat -> length y = ncoef d -> nth 0 y 0 = 1 -> obl = 0 \/ cos obl <> 1 -> inc = PI / 2 \/ cos inc <> 0 ->
  exists c, length c = ncoef d /\ forall p, sphere3 p -> map_at d c p = map_at d y (map_point (Some inc) (Some obl) (Some phi) (rot_z (- tz) p)).
Proof.
  intros Hd Ly Ny Hob Hin. assert (T : exists th, (th = 0 \/ cos th <> 1) /\ forall p, rot_z (- phi) p = rot_z (- th) p).
  { destruct (Req_EM_T (cos phi) 1) as [E|E]; [|exists phi; split; [now right|reflexivity]]. exists 0. split; [now left|]. intros [[x b] z]. unfold rot_z. rewrite Ropp_0, cos_0, sin_0, cos_neg, sin_neg, E.
    assert (sin phi = 0). { pose proof (sin2_cos2 phi) as Q. unfold Rsqr in Q. rewrite E in Q. nra. } rewrite H. apply triple_eq; ring. }
  destruct T as (th & Hth & Eth). destruct (left_project_conv (fun l r c => Cconj (mp_U l c r)) (1 / 2) d inc obl th y adjoint_inverse ltac:(lra) Ly Ny Hth Hob Hin) as (a & La & Va & _).
  destruct (dot_rz_ok d (- tz) a La) as (c & Ec & Lc & _). exists c. split; [exact Lc|]. intros p Hp. rewrite (dot_rz_map d (- tz) a c p La Ec). rewrite Va by now apply rot_z_sphere.
  unfold map_point. cbn [angle0]. now rewrite Eth.
Qed.
Lemma nudged_sphere tol inc obl phi p : sphere3 p -> sphere3 (nudged_point tol inc obl phi p).
Proof.
  intros Hp. unfold nudged_point, sphere3. rewrite iso_x, iso_z, iso_x, iso_z, horizontal_conj, iso_z, iso_x, iso_z. exact Hp.
Qed.
Lemma map_point_sphere inc obl phi p : sphere3 p -> sphere3 (map_point inc obl phi p).
Proof. intros Hp. unfold map_point, sphere3. rewrite iso_x, iso_z, iso_x, iso_z. exact Hp. Qed.
Lemma nudge_bound d u y : (1 <= d)%nat -> length y = ncoef d -> nth 0 y 0 = 1 -> ld_flux u <> 0 -> exists K, 0 <= K /\
  forall tol inc obl phi b r, 0 < tol < 1 -> obl = 0 \/ cos obl <> 1 -> inc = PI / 2 \/ cos inc <> 0 -> b <> 0 -> 0 < r -> Rabs b < 1 + r -> r < 1 + Rabs b ->
  Rabs (unhidden_flux 0 b r (fun p => 2 / sqrt PI * map_at d y (nudged_point tol inc obl phi p) * ld_profile u (snd p)) - unhidden_flux 0 b r (fun p => 2 / sqrt PI * map_at d y (map_point (Some inc) (Some obl) (Some phi) p) * ld_profile u (snd p))) <= K * tol.
Proof.
  intros Hd Ly Ny Hf. destruct (tame_mult _ _ (tame_const (2 / sqrt PI)) (tame_map d y)) as (K & K0 & HK). destruct (tame_ld u) as (L & L0 & HL). pose proof PI_RGT_0 as P.
  exists (K * 6 * L * PI). split. { apply Rmult_le_pos; [apply Rmult_le_pos; [lra|exact L0]|lra]. }
  intros tol inc obl phi b r Htol Hob Hin Hb Hr H1 H2. pose proof adjoint_inverse as HU.
  destruct (C80_A2_total (d + length u)) as (M & HM & _). apply MpA2.mp_A2_iff in HM.
  destruct (occ_of_map (fun f lo hi => RInt f lo hi) M b r u d ltac:(intros f lo hi v H; now apply is_RInt_unique) HM Hb Hr H1 H2 Hf) as (sT & _ & W).
  destruct (flux_matrices _ tol d inc obl HU Htol Hd Hob Hin) as (m & _ & Q). destruct (Q phi (atan2 0 b) y Ly Ny) as (_ & c1 & _ & L1 & _ & V1 & _). clear Q.
  destruct (true_point d y inc obl phi (atan2 0 b) Hd Ly Ny Hob Hin) as (c2 & L2 & V2).
  destruct (W c1 L1) as (w1 & _ & X1). destruct (W c2 L2) as (w2 & _ & X2).
  set (F1 := fun p : vec3 => 2 / sqrt PI * map_at d y (nudged_point tol inc obl phi p) * ld_profile u (snd p)). set (F2 := fun p : vec3 => 2 / sqrt PI * map_at d y (map_point (Some inc) (Some obl) (Some phi) p) * ld_profile u (snd p)).
  assert (Y1 : vis (Rabs b) r (fun x y' => F1 (rot_z (- atan2 0 b) (x, y', zdisk x y'))) w1). { refine (vis_ext_in _ _ _ _ _ _ X1). intros x y' Hx _. rewrite V1 by (apply zdisk_sphere3, Hx). reflexivity. }
  assert (Y2 : vis (Rabs b) r (fun x y' => F2 (rot_z (- atan2 0 b) (x, y', zdisk x y'))) w2). { refine (vis_ext_in _ _ _ _ _ _ X2). intros x y' Hx _. rewrite V2 by (apply zdisk_sphere3, Hx). reflexivity. }
  destruct (atan2_axis b) as [A1 A2]. assert (Z1 := around_rot F1 _ _ _ _ Y1). assert (Z2 := around_rot F2 _ _ _ _ Y2). rewrite A1, A2 in Z1, Z2. unfold unhidden_flux. rewrite Z1, Z2.
  replace (K * 6 * L * PI * tol) with (K * (6 * tol) * L * PI) by ring. apply (vis_close (Rabs b) r _ _ w1 w2 (K * (6 * tol) * L) Y1 Y2). { apply Rmult_le_pos; [apply Rmult_le_pos; lra|exact L0]. }
  intros x y' Hx. set (p := rot_z (- atan2 0 b) (x, y', zdisk x y')). assert (Hp : sphere3 p) by (apply rot_z_sphere, zdisk_closed, Hx). unfold F1, F2. rewrite <- Rmult_minus_distr_r, Rabs_mult.
  assert (C1 := sphere_cube _ (nudged_sphere tol inc obl phi p Hp)). assert (C2 := sphere_cube _ (map_point_sphere (Some inc) (Some obl) (Some phi) p Hp)).
  apply Rmult_le_compat; try apply Rabs_pos.
  - apply Rle_trans with (1 := proj2 (HK _ _ C1 C2)). apply Rmult_le_compat_l; [exact K0|]. apply Rle_trans with (1 := norm_dist _ _). assert (N := nudged_close tol inc obl phi p (proj1 Htol) Hp). lra.
  - exact (proj1 (HL p p (sphere_cube p Hp) (sphere_cube p Hp))).
Qed.

(** * the light curves that precision.py compares *)
Lemma norm_sum_ones n : forall k, ld_norm_sum (repeat 1 n) k = 2 * (/ (INR k + 1) - / (INR k + INR n + 1)).
Proof.
  induction n as [|n IH]; intros k; pose proof (pos_INR k) as P; [cbn [repeat ld_norm_sum INR]; rewrite Rplus_0_r; ring|]. pose proof (pos_INR n) as Q. cbn [repeat ld_norm_sum]. rewrite IH, !S_INR. field. lra.
Qed.
Lemma flux_ones n : ld_flux (repeat 1 n) = 2 * PI / (INR n + 2).
Proof. rewrite ld_flux_disk, disk_flux_closed, norm_sum_ones. cbn [INR]. pose proof (pos_INR n). field. lra. Qed.
Lemma flux_ones_pos n : 0 < ld_flux (repeat 1 n).
Proof. rewrite flux_ones. pose proof (pos_INR n). pose proof PI_RGT_0. apply Rdiv_lt_0_compat; lra. Qed.
Lemma default_b r : 0 < r -> let b := precision_b r None in 0 < b /\ Rabs b < 1 + r /\ r < 1 + Rabs b.
Proof. intros Hr. cbv zeta. unfold precision_b, Rltb. destruct (Rlt_dec r 1); rewrite Rabs_right by lra; lra. Qed.
Lemma dense_ones_nth n N : (n < N)%nat -> nth n (repeat 1 N) 0 = 1.
Proof. revert n. induction N as [|N IH]; intros n H; [lia|]. destruct n; [reflexivity|]. cbn [repeat nth]. apply IH. lia. Qed.
Lemma ylm_ones d : exists v, ylm_from_dense (repeat 1 (ncoef d)) true = Ok v /\ wf_ylm v /\ Z.to_nat (y_deg v) = d /\ forall p, coeffs_value (y_data v) p = map_at d (repeat 1 (ncoef d)) p.
Proof.
  set (y := repeat 1 (ncoef d)). assert (Ly : length y = ncoef d) by apply repeat_length. assert (Pn : (0 < ncoef d)%nat) by (unfold ncoef; lia).
  assert (Hy : y <> []). { intros E. apply (f_equal (@length R)) in E. rewrite Ly in E. cbn in E. lia. }
  destruct (from_dense_todense_ylm y Hy) as (v & E & W & D & T & _). rewrite Ly in D, T. assert (Q : Nat.sqrt (ncoef d - 1) = d) by (apply Nat.sqrt_unique; unfold ncoef; nia). rewrite Q in D, T. rewrite Nat.sub_diag in T. cbn [repeat] in T. rewrite app_nil_r in T.
  destruct (from_dense_ylm y Hy) as (v' & E' & _ & D1 & _). rewrite E in E'. injection E' as <-.
  assert (I : In ((0, 0)%Z, 1) (y_data v)). { rewrite D1, dense_data_form. apply in_map_iff. exists 0%nat. split; [|apply in_seq; lia]. f_equal. unfold y. now apply dense_ones_nth. }
  destruct (normalize_ok v 1 W I ltac:(lra)) as (w & Ew & Ww & Dw & Gw).
  assert (Dw' : y_data w = y_data v). { rewrite Dw. rewrite <- (map_id (y_data v)) at 2. apply map_ext. intros [k c]. cbn [fst snd]. f_equal. field. }
  exists w. split; [unfold ylm_from_dense in *; destruct (make_ylm (ylm_dense_data y)) as [v0|]; [|discriminate]; cbn [rbind] in *; injection E as ->; exact Ew|]. split; [exact Ww|]. split; [rewrite Gw, D; lia|].
  intros p. rewrite Dw', <- (todense_value v p W), T. unfold deg_nat. now rewrite D, Nat2Z.id.
Qed.
Lemma ld_unhidden u b r : unhidden_flux 0 b r (fun p => ld_profile u (snd p)) / ld_flux u = occulted_flux u (Rabs b) r / disk_flux u.
Proof.
  rewrite <- ld_flux_disk. f_equal. pose proof (proj2 (ld_hides u 0 b r)) as H. replace (sqrt (0 ^ 2 + b ^ 2)) with (Rabs b) in H by (rewrite <- sqrt_Rsqr_abs; f_equal; unfold Rsqr; ring). rewrite <- H. reflexivity.
Qed.
Section Compare.
Variables (quad : (R -> R) -> R -> R -> R) (Uinv : nat -> nat -> nat -> C) (A2m : nat -> matrix) (r : R) (bo : option R).
Let b := precision_b r bo.
Hypotheses (HQ : exact_quad quad) (Hb : b <> 0) (Hr : 0 < r) (H1 : Rabs b < 1 + r) (H2 : r < 1 + Rabs b).
Lemma ones_ne n : ld_flux (repeat 1 n) <> 0.
Proof. pose proof (flux_ones_pos n). lra. Qed.
Lemma precision_ld eps high tol prec n : mp_A2_returns n (A2m n) ->
  limb_dark_precision eps high quad Uinv tol prec A2m n r bo = Ok (Rabs (1 + LimbDark.light_curve eps high (repeat 1 n) b r - occulted_flux (repeat 1 n) (Rabs b) r / disk_flux (repeat 1 n))).
Proof.
  intros HA. unfold limb_dark_precision. fold b. set (u := repeat 1 n). assert (Lu : length u = n) by apply repeat_length.
  assert (E := mp_flux_ld quad Uinv tol prec A2m u (PI / 2) 0 b r (Sequence []) 0 true HQ). rewrite Lu in E. rewrite E; try assumption; [|apply ones_ne]. cbn [rbind]. now rewrite ld_unhidden.
Qed.
Lemma precision_ld_limit n : mp_A2_returns n (A2m n) -> forall delta, 0 < delta -> exists N, forall k rule, (N <= k)%nat -> gauss_legendre k rule -> exists eps0, 0 < eps0 /\ forall eps, 0 < eps <= eps0 ->
  forall tol prec, exists e, limb_dark_precision eps rule quad Uinv tol prec A2m n r bo = Ok e /\ 0 <= e <= delta.
Proof.
  intros HA delta Hd. assert (Fn : disk_flux (repeat 1 n) <> 0) by (rewrite <- ld_flux_disk; apply ones_ne). assert (Nc : ~ (Rabs b = 0 /\ Rabs r = 1)). { intros [A _]. apply Hb. now apply Rabs_eq_0. }
  destruct (light_curve_limit (repeat 1 n) b r Fn Nc delta Hd) as (N & HN). exists N. intros k rule Hk G. destruct (HN k rule Hk G) as (e0 & He0 & H). exists e0. split; [exact He0|]. intros eps He tol prec. eexists. split; [now apply precision_ld|].
  split; [apply Rabs_pos|]. specialize (H eps He). rewrite (Rabs_right r) in H by lra. replace (1 + LimbDark.light_curve eps rule (repeat 1 n) b r - occulted_flux (repeat 1 n) (Rabs b) r / disk_flux (repeat 1 n)) with (LimbDark.light_curve eps rule (repeat 1 n) b r - (occulted_flux (repeat 1 n) (Rabs b) r / disk_flux (repeat 1 n) - 1)) by ring. exact H.
Qed.

Lemma default_point p : map_point (Some (PI / 2)) (Some 0) (Some 0) p = p.
Proof. unfold map_point. cbn [angle0]. rewrite Ropp_0, !RotationMore.rot_z_0. rewrite rot_x_add. replace (- (PI / 2) + PI / 2) with 0 by ring. apply rot_x_0. Qed.
Lemma precision_map as_euler A2 d n : (1 <= d)%nat -> inverse_of_U Uinv -> mp_A2_returns (d + n) (A2m (d + n)%nat) -> exists K, 0 <= K /\
  forall tol, 0 < tol < 1 -> forall delta, 0 < delta -> exists prec0, 0 < prec0 /\ forall prec, 0 < prec < prec0 ->
  exists v s, ylm_from_dense (repeat 1 ((d + 1) * (d + 1))) true = Ok v /\ make_surface (Some v) (Some (PI / 2)) None (repeat 1 n) None 1 false 0 1 None = Ok s /\
  forall eps low high calc, surface_light_curve as_euler eps low high A2 s (Some r) None (Some b) (Some 1) None = Ok calc ->
  exists e, starry_precision as_euler eps low high A2 quad Uinv tol prec A2m d n r bo = Ok e /\ Rabs (e - Rabs (calc - ones_flux d n b r)) <= delta + K * tol.
Proof.
  intros Hd HU HA. set (u := repeat 1 n). assert (Lu : length u = n) by apply repeat_length. set (y := repeat 1 (ncoef d)). assert (Ly : length y = ncoef d) by apply repeat_length.
  assert (Ny : nth 0 y 0 = 1) by (apply dense_ones_nth; unfold ncoef; lia). pose proof (flux_ones_pos n) as Fp. fold u in Fp. pose proof PI_RGT_0 as P.
  destruct (nudge_bound d u y Hd Ly Ny ltac:(lra)) as (K & K0 & HK). assert (Q0 : 0 < PI / ld_flux u) by now apply Rdiv_lt_0_compat.
  exists (PI / ld_flux u * K). split; [apply Rmult_le_pos; lra|]. intros tol Htol delta Hdel.
  assert (E := mp_flux_map quad Uinv tol A2m d u (PI / 2) 0 b r y 0 HQ HU). rewrite Lu in E. specialize (E HA Htol Hd Ly Ny (or_introl eq_refl) (or_introl eq_refl) Hb Hr H1 H2 ltac:(lra)).
  destruct (E delta Hdel) as (p0 & Hp0 & HE). exists p0. split; [exact Hp0|]. intros prec Hprec. destruct (HE prec Hprec) as (w & Ew & Hw). clear E HE.
  destruct (ylm_ones d) as (v & Ev & _). exists v. eexists. split; [exact Ev|]. split; [reflexivity|]. intros eps low high calc Ec.
  exists (Rabs (calc - w)). split.
  - unfold starry_precision. fold b. change ((d + 1) * (d + 1))%nat with (ncoef d). fold y u. unfold y at 1. rewrite Ev. cbn [rbind]. unfold make_surface in *. cbn [rbind] in *. rewrite Ew. cbn [rbind]. fold u in Ec. rewrite Ec. reflexivity.
  - specialize (HK tol (PI / 2) 0 0 b r Htol (or_introl eq_refl) (or_introl eq_refl) Hb Hr H1 H2). unfold ones_flux. fold u y.
    assert (Eu : unhidden_flux 0 b r (fun p => 2 / sqrt PI * map_at d y (map_point (Some (PI / 2)) (Some 0) (Some 0) p) * ld_profile u (snd p)) = unhidden_flux 0 b r (fun p => 2 / sqrt PI * map_at d y p * ld_profile u (snd p))).
    { unfold unhidden_flux, flux_around. apply disk_ext_in. intros x y' _. unfold unhidden_by. destruct (Rlt_dec _ _); [reflexivity|]. now rewrite default_point. }
    rewrite Eu in HK. set (V' := unhidden_flux 0 b r (fun p => 2 / sqrt PI * map_at d y (nudged_point tol (PI / 2) 0 0 p) * ld_profile u (snd p))) in *. set (V := unhidden_flux 0 b r (fun p => 2 / sqrt PI * map_at d y p * ld_profile u (snd p))) in *.
    apply Rle_trans with (1 := Rabs_triang_inv2 _ _). replace (calc - w - (calc - PI / ld_flux u * V)) with (- ((w - PI / ld_flux u * V') + PI / ld_flux u * (V' - V))) by ring. rewrite Rabs_Ropp. apply Rle_trans with (1 := Rabs_triang _ _).
    apply Rplus_le_compat; [lra|]. rewrite Rabs_mult, (Rabs_right (PI / ld_flux u)) by lra. rewrite Rmult_assoc. apply Rmult_le_compat_l; lra.
Qed.
Lemma precision_map_limit as_euler A2 d n : zyz_euler as_euler -> (1 <= d)%nat -> inverse_of_U Uinv -> mp_A2_returns (d + n) (A2m (d + n)%nat) -> right_inverse (ncoef (d + n)) (A2_inv (Z.of_nat (d + n))) (A2 (d + n)%nat) ->
  exists g K, green_coefficients (d + n) g (turned 0 b (fun p => 2 / sqrt PI * map_at d (repeat 1 (ncoef d)) p * ld_profile (repeat 1 n) (snd p))) /\ 0 <= K /\
  forall tol, 0 < tol < 1 -> forall delta, 0 < delta -> exists N, forall k low high, (N <= k)%nat -> gauss_legendre (Nat.min k 20) low -> gauss_legendre k high -> exists eps0, 0 < eps0 /\ forall eps, 0 < eps <= eps0 ->
  exists prec0, 0 < prec0 /\ forall prec, 0 < prec < prec0 ->
  exists e, starry_precision as_euler eps low high A2 quad Uinv tol prec A2m d n r bo = Ok e /\ 0 <= e <= delta + K * tol + (INR n + 2) / 2 * even_bounds 20 (d + n) g (Rabs b) r.
Proof.
  intros Hz Hd HU HA HI. destruct (precision_map as_euler A2 d n Hd HU HA) as (K & K0 & HK). destruct (ylm_ones d) as (v & Ev & Wv & Dv & Vv).
  set (s := {| s_y := v; s_inc := Some (PI / 2); s_obl := None; s_u := repeat 1 n; s_period := None; s_amplitude := 1; s_normalize := false; s_phase := 0; s_radius := 1; s_shear := None |}).
  assert (Sd : surf_ydeg s = d) by exact Dv. assert (St : surf_deg s = (d + n)%nat) by (unfold surf_deg; rewrite Sd; unfold surf_udeg; cbn [s s_u]; now rewrite repeat_length).
  assert (Eb : sqrt (0 ^ 2 + b ^ 2) = Rabs b) by (rewrite <- sqrt_Rsqr_abs; f_equal; unfold Rsqr; ring).
  assert (EI : forall p, seen_intensity (y_data (s_y s)) (s_u s) (s_inc s) (s_obl s) None p = 2 / sqrt PI * map_at d (repeat 1 (ncoef d)) p * ld_profile (repeat 1 n) (snd p)).
  { intros p. unfold seen_intensity. cbn [s s_y s_u s_inc s_obl]. rewrite Vv. unfold seen_point. change (map_point (Some (PI / 2)) None None p) with (map_point (Some (PI / 2)) (Some 0) (Some 0) p). now rewrite default_point. }
  destruct (map_limit as_euler A2 s None 0 b Hz Wv ltac:(rewrite Sd; lia) ltac:(now rewrite St)) as (g & Hg & H). rewrite St in Hg, H. rewrite Eb in H. exists g, K. split; [|split; [exact K0|]].
  { intros x y Hx Hp. assert (C := Hg x y Hx Hp). unfold turned in *. rewrite EI in C. exact C. }
  intros tol Htol delta Hdel. destruct (H r 1 ltac:(lra) H1 H2 ltac:(lra) (delta / 2) ltac:(lra)) as (N & HN). exists N. intros k low high Hk Gl Gh. destruct (HN k low high Hk Gl Gh) as (e0 & He0 & C). exists e0. split; [exact He0|]. intros eps He.
  destruct (C eps He) as (calc & Ec & Bc). destruct (HK tol Htol (delta / 2) ltac:(lra)) as (p0 & Hp0 & Hp). exists p0. split; [exact Hp0|]. intros prec Hprec. destruct (Hp prec Hprec) as (v' & s' & Ev' & Es' & Q).
  change ((d + 1) * (d + 1))%nat with (ncoef d) in Ev'. rewrite Ev in Ev'. injection Ev' as <-. unfold make_surface in Es'. cbn [rbind] in Es'. injection Es' as <-. fold s in Q.
  destruct (Q eps low high calc Ec) as (e & Ee & Be). exists e. split; [exact Ee|]. split.
  { unfold starry_precision in Ee. repeat (match type of Ee with rbind ?x _ = _ => destruct x; [cbn [rbind] in Ee|discriminate] end). injection Ee as <-. apply Rabs_pos. }
  assert (Ef : PI / ld_flux (s_u s) = (INR n + 2) / 2). { cbn [s s_u]. rewrite flux_ones. pose proof (pos_INR n). pose proof PI_RGT_0. field. lra. }
  rewrite Ef in Bc. assert (Pn := pos_INR n). cbn [s s_amplitude] in Bc. rewrite (Rabs_right (1 * ((INR n + 2) / 2))) in Bc by lra.
  assert (Eo : ones_flux d n b r = 1 * unhidden_flux 0 b r (seen_intensity (y_data (s_y s)) (s_u s) (s_inc s) (s_obl s) None) * ((INR n + 2) / 2)).
  { unfold ones_flux. rewrite <- Ef. cbn [s s_u]. rewrite Rmult_1_l, Rmult_comm. f_equal. unfold unhidden_flux, flux_around. apply disk_ext_in. intros x y' _. unfold unhidden_by. destruct (Rlt_dec _ _); [reflexivity|]. symmetry. apply EI. }
  rewrite <- Eo in Bc. apply Rabs_le_between in Be. rewrite Rmult_1_l in Bc. lra.
Qed.
(** without a map *)
Lemma precision_uniform as_euler A2 eps low high tol prec n : mp_A2_returns n (A2m n) ->
  starry_precision as_euler eps low high A2 quad Uinv tol prec A2m 0 n r bo = Ok (Rabs (1 + LimbDark.light_curve eps high (repeat 1 n) (Rabs b) r - occulted_flux (repeat 1 n) (Rabs b) r / disk_flux (repeat 1 n))).
Proof.
  intros HA. unfold starry_precision. fold b. set (u := repeat 1 n). assert (Lu : length u = n) by apply repeat_length.
  destruct (ylm_ones 0) as (v & Ev & _ & Dv & _). change ((0 + 1) * (0 + 1))%nat with (ncoef 0). rewrite Ev. cbn [rbind]. unfold make_surface. cbn [rbind].
  assert (E := mp_flux_ld quad Uinv tol prec A2m u (PI / 2) 0 b r (Array (repeat 1 (ncoef 0))) 0 true HQ). rewrite Lu in E. rewrite E; try assumption; [|apply ones_ne]. cbn [rbind]. rewrite light_curve_deg0 by exact Dv. cbn [rbind none0 s_u].
  assert (Eb : sqrt (0 ^ 2 + b ^ 2) = Rabs b) by (rewrite <- sqrt_Rsqr_abs; f_equal; unfold Rsqr; ring). rewrite Eb, ld_unhidden.
  assert (G : og_occ (geometry r None (Some b) (Some 1)) = true); [|now rewrite G]. unfold geometry. cbn [og_occ none0]. replace (0² + b²) with (0 ^ 2 + b ^ 2) by (unfold Rsqr; ring). rewrite Eb. unfold Rgeb, Rleb. destruct (Rle_dec _ _); [lra|]. destruct (Rle_dec _ _); [lra|reflexivity].
Qed.
End Compare.
(** impact parameters at which the expected value fails *)
Lemma precision_ld_clear eps high quad Uinv tol prec A2m n r b : 1 + r <= Rabs b -> limb_dark_precision eps high quad Uinv tol prec A2m n r (Some b) = Err AttributeError.
Proof.
  intros H. unfold limb_dark_precision, precision_b. assert (E := flux_clear_uniform quad Uinv tol prec A2m (PI / 2) 0 (repeat 1 n) b r (Sequence []) 0 true H). rewrite repeat_length in E. rewrite E. reflexivity.
Qed.
Lemma precision_ld_centred eps high quad Uinv tol prec A2m n r : inverse_of_U Uinv -> 0 < tol < 1 -> -1 < r <= 1 -> limb_dark_precision eps high quad Uinv tol prec A2m n r (Some 0) = Err ZeroDivisionError.
Proof.
  intros HU Ht Hr. unfold limb_dark_precision, precision_b. assert (E := flux_centred quad Uinv tol prec A2m HU Ht (PI / 2) 0 (or_introl eq_refl) (or_introl eq_refl) 0 (repeat 1 n) r (Sequence []) 0 true (or_introl eq_refl) Hr). rewrite repeat_length in E. rewrite E. reflexivity.
Qed.
