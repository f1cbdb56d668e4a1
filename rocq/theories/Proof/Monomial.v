(** Integrals of monomials x^i y^j z^k over the visible part of the disk. *)
From Coq Require Import Reals Lra Lia List Bool Arith Psatz.
From Coquelicot Require Import Coquelicot.
From Verif Require Import Base.RealAux Base.Analysis Spec.BasisSpec Spec.DiskSpec Spec.LimbDarkSpec Spec.OccultSpec Spec.SkySpec
  Proof.LimbDarkProof Proof.LimbDarkGreen Proof.LimbDarkArea Proof.Ray Proof.Edge Proof.Occult Proof.DiskRot.
Import ListNotations.
Open Scope R_scope.

(** N k m s = integral over t in [0,1] of t^m sqrt(1 - s t^2)^k *)
Definition Nint (k m : nat) (s : R) : R := RInt (fun t => t ^ m * sqrt (1 - t ^ 2 * s) ^ k) 0 1.
Lemma Nint_cont_in k m s t : continuous (fun t => t ^ m * sqrt (1 - t ^ 2 * s) ^ k) t.
Proof.
  apply cont_mult; [apply (cont_pow (fun t => t)), cont_id|]. apply (cont_pow (fun t => sqrt (1 - t ^ 2 * s))), cont_sqrt.
  apply (ex_derive_continuous (fun t : R => 1 - t ^ 2 * s)). auto_derive. exact I.
Qed.
Lemma Nint_is k m s : is_RInt (fun t => t ^ m * sqrt (1 - t ^ 2 * s) ^ k) 0 1 (Nint k m s).
Proof. apply rint_cont. intros. apply Nint_cont_in. Qed.
Lemma Nint_0 m s : Nint 0 m s = / INR (S m).
Proof.
  apply is_RInt_unique. apply (is_RInt_antider (fun t => t ^ (S m) / INR (S m))).
  - assert (D : forall x : R, is_derive (fun t : R => t ^ (S m) / INR (S m)) x (x ^ m * sqrt (1 - x ^ 2 * s) ^ 0)); [|exact D].
    intros x. auto_derive; [exact I|]. change (Init.Nat.pred (S m)) with m. assert (INR (S m) <> 0) by (apply not_0_INR; lia). rewrite pow_O. rewrite Rmult_1_r, Rmult_1_l. replace (match m with 0%nat => 1 | S _ => INR m + 1 end) with (INR (S m)) by reflexivity. field. assumption.
  - intros x. apply Nint_cont_in.
  - assert (INR (S m) <> 0) by (apply not_0_INR; lia). rewrite pow1, pow_i by lia. field. assumption.
Qed.

(** radial integral of rho^n sqrt(1 - rho^2)^k rho *)
Definition Hm (k n : nat) (x : R) : R := RInt (fun s => s ^ n * sqrt (1 - s ^ 2) ^ k * s) 0 x.
Lemma Hm_in k n s : continuous (fun s => s ^ n * sqrt (1 - s ^ 2) ^ k * s) s.
Proof. apply cont_mult; [|apply cont_id]. apply cont_mult; [apply (cont_pow (fun t => t)), cont_id|]. apply (cont_pow (fun t => sqrt (1 - t ^ 2))), sqrt_omx2_cont. Qed.
Lemma Hm_is k n x : is_RInt (fun s => s ^ n * sqrt (1 - s ^ 2) ^ k * s) 0 x (Hm k n x).
Proof. apply rint_cont. intros. apply Hm_in. Qed.
Lemma Hm_cont k n x : continuous (Hm k n) x.
Proof.
  apply (ex_derive_continuous (Hm k n)). exists (x ^ n * sqrt (1 - x ^ 2) ^ k * x). unfold Hm. apply (is_derive_RInt (V := R_NormedModule) (fun s => s ^ n * sqrt (1 - s ^ 2) ^ k * s) (Hm k n) 0 x).
  - exists (mkposreal 1 Rlt_0_1). intros y _. apply Hm_is.
  - apply Hm_in.
Qed.
Lemma Hm_0 k n : Hm k n 0 = 0.
Proof. exact (RInt_point (V := R_CompleteNormedModule) 0 _). Qed.
Lemma Hm_N k n x : Hm k n x = x ^ (n + 2) * Nint k (n + 1) (x ^ 2).
Proof.
  apply is_RInt_unique.
  assert (A : is_RInt (fun t => x * ((x * t + 0) ^ n * sqrt (1 - (x * t + 0) ^ 2) ^ k * (x * t + 0))) 0 1 (Hm k n x)).
  { apply (rint_lin (fun s => s ^ n * sqrt (1 - s ^ 2) ^ k * s) x 0). replace (x * 0 + 0) with 0 by ring. replace (x * 1 + 0) with x by ring. apply Hm_is. }
  assert (B : is_RInt (fun t => x ^ (n + 2) * (t ^ (n + 1) * sqrt (1 - t ^ 2 * x ^ 2) ^ k)) 0 1 (x ^ (n + 2) * Nint k (n + 1) (x ^ 2))).
  { apply (is_RInt_scal (V := R_NormedModule)), Nint_is. }
  replace (x ^ (n + 2) * Nint k (n + 1) (x ^ 2)) with (Hm k n x); [apply Hm_is|].
  apply (rint_val _ _ 0 1 _ _ A B). intros t _. rewrite Rplus_0_r. replace (1 - (x * t) ^ 2) with (1 - t ^ 2 * x ^ 2) by ring. rewrite Rpow_mult_distr, !pow_add. ring.
Qed.

(** visible integrals with the occultor at (0, b); the direction is measured from the occultor's *)
Definition vis (b r : R) (f : R -> R -> R) (v : R) : Prop :=
  exists K : R -> R, (forall phi, is_RInt (fun rho => unhidden_by 0 b r f (rho * sin phi) (rho * cos phi) * rho) 0 1 (K phi)) /\
    (forall phi, continuous K phi) /\ is_RInt K (- PI) PI v.
Lemma vis_ext b r f g v : (forall x y, f x y = g x y) -> vis b r f v -> vis b r g v.
Proof. intros E (K & K1 & K2). exists K. split; [|exact K2]. intros phi. apply (rint_ext_v _ _ _ _ _ (K1 phi)). intros. unfold unhidden_by. destruct (Rlt_dec _ _); [reflexivity|]. now rewrite E. Qed.
Lemma vis_zero b r : vis b r (fun _ _ => 0) 0.
Proof.
  exists (fun _ => 0). split; [|split].
  - intros phi. apply is_RInt_zero_on. intros. unfold unhidden_by. destruct (Rlt_dec _ _); ring.
  - intros. apply cont_const.
  - apply is_RInt_zero_on. reflexivity.
Qed.
Lemma vis_plus b r f g v w : vis b r f v -> vis b r g w -> vis b r (fun x y => f x y + g x y) (v + w).
Proof.
  intros (K & K1 & K2 & K3) (L & L1 & L2 & L3). exists (fun phi => K phi + L phi). split; [|split].
  - intros phi. apply (rint_ext_v _ _ _ _ _ (is_RInt_plus _ _ _ _ _ _ (K1 phi) (L1 phi))). intros x _. unfold plus; cbn. unfold unhidden_by. destruct (Rlt_dec _ _); ring.
  - intros phi. apply cont_plus; auto.
  - exact (is_RInt_plus _ _ _ _ _ _ K3 L3).
Qed.
Lemma vis_scal b r f v c : vis b r f v -> vis b r (fun x y => c * f x y) (c * v).
Proof.
  intros (K & K1 & K2 & K3). exists (fun phi => c * K phi). split; [|split].
  - intros phi. apply (rint_ext_v (fun rho => c * (unhidden_by 0 b r f (rho * sin phi) (rho * cos phi) * rho))).
    + apply (is_RInt_scal (V := R_NormedModule)), K1.
    + intros x _. unfold unhidden_by. destruct (Rlt_dec _ _); ring.
  - intros phi. apply cont_scal; auto.
  - apply (is_RInt_scal (V := R_NormedModule)), K3.
Qed.
Lemma vis_bigsum b r n (f : nat -> R -> R -> R) v : (forall i, (i < n)%nat -> vis b r (f i) (v i)) -> vis b r (fun x y => bigsum n (fun i => f i x y)) (bigsum n v).
Proof.
  induction n as [|n IH]; intros H; [apply vis_zero|]. cbn [bigsum]. apply (vis_plus b r (fun x y => bigsum n (fun i => f i x y)) (f n)); [apply IH; intros; apply H; lia|apply H; lia].
Qed.
Lemma vis_disk b r f v : vis b r f v -> disk_cont (unhidden_by 0 b r f) /\ flux_around 0 b r f = v.
Proof.
  intros (K & K1 & K2 & K3). set (g := fun t => K (PI / 2 - t)).
  assert (G1 : forall t, is_RInt (fun rho => unhidden_by 0 b r f (rho * cos t) (rho * sin t) * rho) 0 1 (g t)).
  { intros t. unfold g. assert (A := K1 (PI / 2 - t)). rewrite sin_shift, cos_shift in A. exact A. }
  assert (G2 : forall t, continuous g t).
  { intros t. unfold g. apply (cont_comp (fun t => PI / 2 - t) K); [|apply K2]. apply (ex_derive_continuous (fun t : R => PI / 2 - t)). auto_derive. exact I. }
  split; [exists g; split; assumption|]. unfold flux_around, disk_integral. rewrite (RInt_ext _ g) by (intros t _; apply is_RInt_unique, G1).
  assert (Hp : forall t, g (t + 2 * PI) = g t).
  { intros t. assert (A := G1 (t + 2 * PI)). assert (B := G1 t). apply (rint_val _ _ 0 1 _ _ A B). intros x _. rewrite cos_plus, sin_plus, cos_2PI, sin_2PI. f_equal. f_equal; ring. }
  rewrite <- (periodic_shift g (- (PI / 2)) G2 Hp). apply is_RInt_unique.
  apply (rint_ext_v (fun t => - (- 1 * K (-1 * t + PI)))).
  - replace v with (- - v) by ring. apply rint_opp, rint_lin. replace (-1 * 0 + PI) with PI by ring. replace (-1 * (2 * PI) + PI) with (- PI) by ring. apply rint_swap. rewrite Ropp_involutive. exact K3.
  - intros t _. unfold g. replace (PI / 2 - (t + - (PI / 2))) with (-1 * t + PI) by field. ring.
Qed.

(** a monomial *)
Definition cang (i j : nat) (phi : R) : R := sin phi ^ i * cos phi ^ j.
Lemma cang_cont i j phi : continuous (cang i j) phi.
Proof. apply cont_mult; [apply (cont_pow sin), (cont_sin (fun x => x)), cont_id|apply (cont_pow cos), (cont_cos (fun x => x)), cont_id]. Qed.
Definition edge_mono (i j k : nat) (b r psi : R) : R :=
  (r * sin psi) ^ i * (b - r * cos psi) ^ j * Nint k (i + j + 1) (erho2 b r psi) * (r ^ 2 - b * r * cos psi).
Section Mono.
Variables (b r k0 k1 : R) (i j k : nat).
Hypotheses (Hb : 0 <= b) (Hr0 : 0 <= r) (CT : contact b r k0 k1).
Notation H := (Hm k (i + j)).
Notation c := (cang i j).
Lemma mono_edge : exists E, is_RInt (edge_mono i j k b r) 0 k0 E /\
  is_RInt (fun phi => c phi * (H 1 - shadow b r H phi)) 0 PI (Nint k (i + j + 1) 1 * RInt c k1 PI - E).
Proof using Hb Hr0 CT.
  assert (H1 : H 1 = Nint k (i + j + 1) 1) by (rewrite Hm_N, pow1; replace (1 ^ 2) with 1 by ring; ring).
  assert (IC : forall u v, is_RInt c u v (RInt c u v)) by (intros; apply rint_cont, cang_cont).
  destruct CT as (K0 & K1 & I1 & I2 & K).
  destruct Hr0 as [Hr|<-].
  2:{ destruct K as [[-> ->]|[K _]]; [|lra]. exists 0. split.
      - apply is_RInt_zero_on. intros psi _. unfold edge_mono. ring.
      - apply (rint_ext_v (fun phi => Nint k (i + j + 1) 1 * c phi)).
        + rewrite Rminus_0_r. apply (is_RInt_scal (V := R_NormedModule)), IC.
        + intros phi _. rewrite H1. unfold shadow. replace (ray_in b 0 phi) with (ray_out b 0 phi); [ring|].
          unfold ray_in, ray_out, ray_d. rewrite sqrt_neg_0; [ring|]. pose proof (pow2_ge_0 (b * sin phi)). lra. }
  destruct (polar_ok b r Hb Hr) as (w & th & D & C & W & T & O & S). specialize (S c H (cang_cont i j) (Hm_cont k (i + j)) (Hm_0 k (i + j))).
  assert (RP : forall psi, 0 <= erho b r psi) by (intros; apply sqrt_pos).
  set (F := fun psi => c (th psi) * (H (clip (erho b r psi)) * w psi)) in *.
  assert (FC : forall x, continuous F x).
  { intros x. unfold F. apply cont_mult; [|apply edge_cont; [apply Hm_cont|exact C]]. apply (cont_comp th c); [|apply cang_cont]. apply (ex_derive_continuous th). eexists; apply D. }
  assert (EF : forall psi, 0 < psi < k0 -> F psi = edge_mono i j k b r psi).
  { intros psi Hp. unfold F, edge_mono, cang. specialize (I1 psi ltac:(lra)). destruct (O psi ltac:(lra)) as [_ [O1 O2]]. rewrite <- O1, <- O2, <- W.
    assert (Q := rho_sq b r Hb Hr psi). specialize (RP psi). rewrite clip_id by nra. rewrite Hm_N. replace (erho b r psi ^ 2) with (erho2 b r psi) by (rewrite <- Q; ring). set (NN := Nint _ _ _). rewrite <- Q, !Rpow_mult_distr, !pow_add. ring. }
  exists (RInt F 0 k0). split.
  { apply (rint_ext_v F); [apply rint_cont, FC|]. intros psi Hp. rewrite Rmin_left, Rmax_right in Hp by lra. apply EF, Hp. }
  assert (Hh : is_RInt F k0 PI (Nint k (i + j + 1) 1 * RInt c 0 k1)).
  { destruct (Req_dec k0 PI) as [E|NE].
    + subst k0. assert (k1 = 0) as ->.
      { destruct K as [[_ K]|(_ & R1 & K)]; [exact K|]. destruct (O PI ltac:(pose proof PI_RGT_0; lra)) as [_ [O1 _]]. rewrite T, cos_0 in O1. unfold erho in O1. rewrite R1, sqrt_1 in O1. rewrite <- K in O1.
        rewrite <- (acos_cos k1 K1). replace (cos k1) with 1 by lra. apply acos_1. }
      rewrite RInt_point. change (is_RInt F PI PI (Nint k (i + j + 1) 1 * 0)). rewrite Rmult_0_r. apply is_RInt_zero_on. intros x Hx. rewrite Rmin_left, Rmax_left in Hx by lra. lra.
    + assert (TH : th k0 = k1).
      { destruct K as [[K _]|(_ & R1 & K)]; [lra|]. destruct (O k0 ltac:(lra)) as [B [O1 _]]. unfold erho in O1. rewrite R1, sqrt_1, <- K in O1. rewrite <- (acos_cos k1 K1), <- (acos_cos (th k0) B). f_equal. lra. }
      assert (A := rint_comp c th (fun psi => - w psi) PI k0 (cang_cont i j) D (fun x => cont_opp w x (C x))). rewrite T, TH in A.
      apply rint_swap. apply (rint_ext_v (fun y => (- Nint k (i + j + 1) 1) * (- w y * c (th y)))).
      * replace (- (Nint k (i + j + 1) 1 * RInt c 0 k1)) with ((- Nint k (i + j + 1) 1) * RInt c 0 k1) by ring. apply (is_RInt_scal (V := R_NormedModule)), A.
      * intros psi Hp. rewrite Rmin_right, Rmax_left in Hp by lra. unfold F. specialize (I2 psi ltac:(lra) ltac:(lra)). assert (Q := rho_sq b r Hb Hr psi). specialize (RP psi). rewrite clip_1 by nra. rewrite H1. ring. }
  assert (FT : RInt F 0 PI = RInt F 0 k0 + Nint k (i + j + 1) 1 * RInt c 0 k1).
  { apply is_RInt_unique. apply (rint_chasles _ 0 k0 PI _ _ _ (rint_cont F 0 k0 FC) Hh eq_refl). }
  rewrite FT in S.
  apply (rint_ext_v (fun phi => Nint k (i + j + 1) 1 * c phi - c phi * shadow b r H phi)); [|intros; rewrite H1; ring].
  assert (CC : RInt c 0 PI = RInt c 0 k1 + RInt c k1 PI) by (apply is_RInt_unique, (rint_chasles _ 0 k1 PI _ _ _ (IC 0 k1) (IC k1 PI) eq_refl)).
  replace (Nint k (i + j + 1) 1 * RInt c k1 PI - RInt F 0 k0) with (Nint k (i + j + 1) 1 * RInt c 0 PI - (RInt F 0 k0 + Nint k (i + j + 1) 1 * RInt c 0 k1)) by (rewrite CC; ring).
  apply rint_minus; [|exact S]. apply (is_RInt_scal (V := R_NormedModule)), IC.
Qed.
Lemma shadow_even phi : shadow b r H (- phi) = shadow b r H phi.
Proof. unfold shadow, ray_in, ray_out, ray_d. rewrite cos_neg, sin_neg. replace ((b * - sin phi) ^ 2) with ((b * sin phi) ^ 2) by ring. reflexivity. Qed.
Lemma cang_neg phi : c (- phi) = (-1) ^ i * c phi.
Proof. unfold cang. rewrite cos_neg, sin_neg. replace (- sin phi) with (-1 * sin phi) by ring. rewrite Rpow_mult_distr. ring. Qed.
Lemma vis_mono : exists E, is_RInt (edge_mono i j k b r) 0 k0 E /\
  vis b r (fun x y => x ^ i * y ^ j * zdisk x y ^ k) ((1 + (-1) ^ i) * (Nint k (i + j + 1) 1 * RInt c k1 PI - E)).
Proof using Hb Hr0 CT.
  destruct mono_edge as (E & E1 & E2). exists E. split; [exact E1|]. set (W := Nint k (i + j + 1) 1 * RInt c k1 PI - E) in *.
  exists (fun phi => c phi * (H 1 - shadow b r H phi)). split; [|split].
  - intros phi. assert (A := ray_integral (fun s => s ^ (i + j) * sqrt (1 - s ^ 2) ^ k * s) H b r phi (fun x _ => Hm_is k (i + j) x)).
    apply (rint_ext_v (fun rho => c phi * (if Rlt_dec ((rho * cos phi - b) ^ 2 + (rho * sin phi) ^ 2) (r ^ 2) then 0 else rho ^ (i + j) * sqrt (1 - rho ^ 2) ^ k * rho))).
    + apply (rint_ext_v _ (fun rho => if Rlt_dec ((rho * cos phi - b) ^ 2 + (rho * sin phi) ^ 2) (r ^ 2) then 0 else rho ^ (i + j) * sqrt (1 - rho ^ 2) ^ k * rho)) in A; [|reflexivity].
      assert (B := is_RInt_scal (V := R_NormedModule) _ _ _ (c phi) _ A). unfold scal in B; cbn in B; unfold mult in B; cbn in B.
      replace (c phi * (H 1 - shadow b r H phi)) with (c phi * (H 1 - (H (clip (ray_out b r phi)) - H (clip (ray_in b r phi))))) by reflexivity. exact B.
    + intros rho _. unfold unhidden_by. replace ((rho * sin phi - 0) ^ 2 + (rho * cos phi - b) ^ 2) with ((rho * cos phi - b) ^ 2 + (rho * sin phi) ^ 2) by ring.
      destruct (Rlt_dec _ _); [ring|]. unfold zdisk. replace (1 - (rho * sin phi) ^ 2 - (rho * cos phi) ^ 2) with (1 - rho ^ 2).
      2:{ pose proof (sin2_cos2 phi) as C. unfold Rsqr in C. replace (1 - (rho * sin phi) ^ 2 - (rho * cos phi) ^ 2) with (1 - rho * rho * (sin phi * sin phi + cos phi * cos phi)) by ring. rewrite C. ring. }
      unfold cang. rewrite !Rpow_mult_distr, !pow_add. ring.
  - intros phi. apply cont_mult; [apply cang_cont|]. apply cont_minus; [apply cont_const|apply shadow_cont, Hm_cont].
  - apply (rint_chasles _ (- PI) 0 PI ((-1) ^ i * W) W); [|exact E2|ring].
    apply (rint_ext_v (fun phi => (- (-1) ^ i) * (-1 * (c (-1 * phi + 0) * (H 1 - shadow b r H (-1 * phi + 0)))))).
    + replace ((-1) ^ i * W) with ((- (-1) ^ i) * (- W)) by ring. apply (is_RInt_scal (V := R_NormedModule)). apply (rint_lin (fun phi => c phi * (H 1 - shadow b r H phi))).
      replace (-1 * - PI + 0) with PI by ring. replace (-1 * 0 + 0) with 0 by ring. apply rint_swap. rewrite Ropp_involutive. exact E2.
    + intros phi _. replace (-1 * phi + 0) with (- phi) by ring. rewrite cang_neg, shadow_even.
      assert (P : (-1) ^ i * (-1) ^ i = 1). { rewrite <- Rpow_mult_distr. replace (-1 * -1) with 1 by ring. apply pow1. }
      transitivity ((-1) ^ i * (-1) ^ i * (c phi * (H 1 - shadow b r H phi))); [ring|]. rewrite P. ring.
Qed.
End Mono.
