(** The solution vector of an occultation is the visible integral of the Green's basis. *)
From Coq Require Import Reals Lra Lia ZArith List Bool Arith Psatz.
From Coquelicot Require Import Coquelicot.
From Verif Require Import Base.RealAux Base.Analysis Base.Dict Model.Poly Model.Basis Model.SolutionVector Spec.PolySpec Spec.BasisSpec Spec.DiskSpec Spec.OccultSpec Spec.SkySpec
  Proof.BasisProof Proof.GreenProof Proof.LimbDarkGreen Proof.LimbDarkArea Proof.Ray Proof.Edge Proof.Occult Proof.Monomial Proof.GreenLine Proof.GreenFamilies.
Import ListNotations.
Open Scope R_scope.

(** ** q_integral *)
Lemma q_low_alg s c p n : n + 1 <> 0 -> s * (s * 1) + c * (c * 1) = 1 -> (2 * s * (s * p) + - 2 * (c * 1) * (n * p * c) + n * (2 * p)) * / (n + 1) = 2 * (s * (s * p)).
Proof.
  intros N Q. apply (Rmult_eq_reg_r (n + 1)); [|exact N]. rewrite Rmult_assoc, Rinv_l, Rmult_1_r by exact N.
  transitivity (2 * s * s * p + 2 * n * p * (1 - c * c)); [ring|]. replace (1 - c * c) with (s * s) by lra. ring.
Qed.
Lemma q_get_alg s c p q m n : m + n <> 0 -> s * (s * 1) + c * (c * 1) = 1 ->
  (2 * (m * q * - s) * (p * s) + 2 * (c * q) * (n * p * c) + m * (2 * (q * p))) * / (m + n) = 2 * (c * (c * q) * p).
Proof.
  intros N Q. apply (Rmult_eq_reg_r (m + n)); [|exact N]. rewrite Rmult_assoc, Rinv_l, Rmult_1_r by exact N.
  transitivity (2 * m * q * p * (1 - s * s) + 2 * n * q * p * c * c); [ring|]. replace (1 - s * s) with (c * c) by lra. ring.
Qed.
Lemma q_low_derive v (lam : R) : is_derive (fun lam : R => q_low lam v) lam (2 * sin lam ^ v).
Proof.
  revert lam. induction v as [v IH] using lt_wf_ind. intros lam. destruct v as [|[|v]].
  - cbn [q_low]. auto_derive; [exact I|]. cbn. ring.
  - cbn [q_low]. auto_derive; [exact I|]. cbn. ring.
  - cbn [q_low Nat.add]. assert (D := IH v ltac:(lia) lam). assert (N : INR (S (S v)) <> 0) by (apply not_0_INR; lia).
    evar_last.
    + unfold Rdiv. apply (is_derive_scal_l (V := R_NormedModule) (fun lam : R => - 2 * cos lam ^ 1 * sin lam ^ S v + INR (S v) * q_low lam v)).
      apply (is_derive_plus (V := R_NormedModule) (fun lam : R => - 2 * cos lam ^ 1 * sin lam ^ S v) (fun lam : R => INR (S v) * q_low lam v)).
      * apply (mul_derive (fun lam : R => - 2 * cos lam ^ 1) (fun lam : R => sin lam ^ S v) lam (2 * sin lam) (INR (S v) * sin lam ^ v * cos lam)).
        -- auto_derive; [exact I|ring].
        -- apply (pow_derive sin (S v)). auto_derive; [exact I|ring].
      * apply (is_derive_scal (fun lam : R => q_low lam v)). exact D.
    + unfold plus, scal; cbn [AbelianGroup.plus ModuleSpace.scal]. single. change ((2 * sin lam * sin lam ^ S v + - 2 * cos lam ^ 1 * (INR (S v) * sin lam ^ v * cos lam) + INR (S v) * (2 * sin lam ^ v)) * / INR (S (S v)) = 2 * sin lam ^ S (S v)).
      assert (Q := limb_sq lam). cbn [pow] in Q |- *. rewrite (S_INR (S v)) in *. apply q_low_alg; assumption.
Qed.
Lemma q_low_0 v : q_low (- (PI / 2)) v = 0.
Proof.
  induction v as [v IH] using lt_wf_ind. destruct v as [|[|v]]; cbn [q_low].
  - field.
  - rewrite cos_neg, cos_PI2. ring.
  - rewrite cos_neg, cos_PI2, IH by lia. unfold Rdiv. ring.
Qed.
Lemma q_get_derive h v (lam : R) : is_derive (fun lam : R => q_get lam (2 * h) v) lam (2 * (cos lam ^ (2 * h) * sin lam ^ v)).
Proof.
  revert lam. induction h as [|h IH]; intros lam.
  - cbn [Nat.mul q_get]. evar_last; [apply q_low_derive|]. single. cbn [pow Nat.add]. ring.
  - replace (2 * S h)%nat with (S (S (2 * h))) by lia. cbn [q_get].
    set (u := (2 * h)%nat) in *. assert (N : INR (S (S u) + v) <> 0) by (apply not_0_INR; lia).
    evar_last.
    + unfold Rdiv. apply (is_derive_scal_l (V := R_NormedModule) (fun lam : R => 2 * cos lam ^ S u * sin lam ^ (v + 1) + INR (S u) * q_get lam u v)).
      apply (is_derive_plus (V := R_NormedModule) (fun lam : R => 2 * cos lam ^ S u * sin lam ^ (v + 1)) (fun lam : R => INR (S u) * q_get lam u v)).
      * apply (mul_derive (fun lam : R => 2 * cos lam ^ S u) (fun lam : R => sin lam ^ (v + 1)) lam (2 * (INR (S u) * cos lam ^ u * - sin lam)) (INR (v + 1) * sin lam ^ v * cos lam)).
        -- apply (is_derive_scal (fun lam : R => cos lam ^ S u)). apply (pow_derive cos (S u)). auto_derive; [exact I|ring].
        -- assert (D : forall n, n = S v -> is_derive (fun lam : R => sin lam ^ n) lam (INR n * sin lam ^ v * cos lam)); [|apply D; lia]. intros n ->. apply (pow_derive sin (S v)). auto_derive; [exact I|ring].
      * apply (is_derive_scal (fun lam : R => q_get lam u v)). apply IH.
    + single. change ((2 * (INR (S u) * cos lam ^ u * - sin lam) * sin lam ^ (v + 1) + 2 * cos lam ^ S u * (INR (v + 1) * sin lam ^ v * cos lam) + INR (S u) * (2 * (cos lam ^ u * sin lam ^ v))) * / INR (S (S u) + v) = 2 * (cos lam ^ S (S u) * sin lam ^ v)).
      assert (Q := limb_sq lam). assert (E : INR (S (S u) + v) = INR (S u) + INR (v + 1)) by (rewrite <- plus_INR; f_equal; lia). rewrite E in *. rewrite pow_add. cbn [pow] in Q |- *. set (m := INR (S u)) in *. set (n := INR (v + 1)) in *. set (p := sin lam ^ v). set (q := cos lam ^ u).
      rewrite Rmult_1_r. apply q_get_alg; assumption.
Qed.
Lemma q_get_0 h v : q_get (- (PI / 2)) (2 * S h) v = 0.
Proof.
  induction h as [|h IH].
  - cbn [Nat.mul Nat.add q_get]. rewrite cos_neg, cos_PI2, q_low_0. unfold Rdiv. cbn [pow]. ring.
  - replace (2 * S (S h))%nat with (S (S (2 * S h))) by lia. cbn [q_get]. rewrite cos_neg, cos_PI2, IH, pow_i by lia. unfold Rdiv. ring.
Qed.
Lemma q_get_limb h v k1 : q_get (/ 2 * PI - k1) (2 * S h) v = 2 * RInt (fun t => sin t ^ (2 * S h) * cos t ^ v) k1 PI.
Proof.
  set (G := fun t => - q_get (/ 2 * PI - t) (2 * S h) v).
  assert (A : is_RInt (fun t => 2 * (sin t ^ (2 * S h) * cos t ^ v)) k1 PI (G PI - G k1)).
  { apply (is_RInt_antider G); [| |reflexivity].
    - assert (D : forall t : R, is_derive G t (2 * (sin t ^ (2 * S h) * cos t ^ v))); [|exact D]. intros t. unfold G. evar_last.
      + apply (is_derive_opp (V := R_NormedModule)). apply (comp_derive (fun lam => q_get lam (2 * S h) v) (fun t : R => / 2 * PI - t) t (2 * (cos (/ 2 * PI - t) ^ (2 * S h) * sin (/ 2 * PI - t) ^ v)) (-1)); [apply q_get_derive|]. auto_derive; [exact I|ring].
      + unfold opp; cbn [AbelianGroup.opp]. single. replace (/ 2 * PI - t) with (PI / 2 - t) by field. rewrite sin_shift, cos_shift. change (- (2 * (sin t ^ (2 * S h) * cos t ^ v) * -1) = 2 * (sin t ^ (2 * S h) * cos t ^ v)). ring.
    - intros t. apply cont_scal. apply (cang_cont (2 * S h) v). }
  assert (B : is_RInt (fun t => 2 * (sin t ^ (2 * S h) * cos t ^ v)) k1 PI (2 * RInt (fun t => sin t ^ (2 * S h) * cos t ^ v) k1 PI)).
  { apply (is_RInt_scal (V := R_NormedModule)). apply rint_cont, (cang_cont (2 * S h) v). }
  rewrite <- (rint_val _ _ k1 PI _ _ A B (fun x _ => eq_refl)). unfold G. replace (/ 2 * PI - PI) with (- (PI / 2)) by field. rewrite q_get_0. ring.
Qed.
(** ** the visible integral of each Green's function *)
Lemma zdisk_p32 x y : zdisk x y ^ 3 = p32 (1 - (x ^ 2 + y ^ 2)).
Proof. rewrite p32_cube. unfold zdisk. do 2 f_equal. ring. Qed.
Lemma even_2h a : Nat.even a = true -> exists h, a = (2 * h)%nat.
Proof. intros H. apply Nat.even_spec in H. destruct H as [h ->]. now exists h. Qed.
Lemma odd_2h a : Nat.even a = false -> exists h, a = (2 * h + 1)%nat.
Proof. intros H. rewrite <- Nat.negb_odd in H. apply negb_false_iff in H. apply Nat.odd_spec in H. destruct H as [h ->]. now exists h. Qed.
Lemma neg_even h : (-1) ^ (2 * h) = 1. Proof. apply pow_1_even. Qed.
Lemma neg_odd h : (-1) ^ (2 * h + 1) = -1. Proof. rewrite Nat.add_1_r. apply pow_1_odd. Qed.
Lemma pow_neg x a : (- x) ^ a = (-1) ^ a * x ^ a.
Proof. replace (- x) with (-1 * x) by ring. apply Rpow_mult_distr. Qed.
(** the Green's fields by case *)
Lemma gf_even i j x y : green_field (i + j) (2 * j) x y = (0, x ^ (i + 1) * y ^ j).
Proof.
  unfold green_field. assert (Ev : Nat.even (2 * j) = true) by (apply Nat.even_spec; now exists j). rewrite Ev.
  replace (2 * (i + j) - 2 * j + 2)%nat with (2 * (i + 1))%nat by lia. rewrite !div2_even. reflexivity.
Qed.
Lemma gf_mu1e h x y : (1 <= h)%nat -> green_field (2 * h) (4 * h - 1) x y = (x ^ (2 * h - 2) * zdisk x y ^ 3, 0).
Proof.
  intros Hh. unfold green_field.
  assert (Ev : Nat.even (4 * h - 1) = false).
  { replace (4 * h - 1)%nat with (S (2 * (2 * h - 1)))%nat by lia. rewrite Nat.even_succ, Nat.odd_mul. reflexivity. }
  rewrite Ev. replace (Nat.eqb (2 * h) 1) with false by (symmetry; apply Nat.eqb_neq; lia). cbn [andb].
  replace (2 * (2 * h) - (4 * h - 1))%nat with 1%nat by lia. rewrite Nat.eqb_refl.
  replace (Nat.even (2 * h)) with true by (symmetry; rewrite Nat.even_mul; reflexivity). reflexivity.
Qed.
Lemma gf_mu1o h x y : (1 <= h)%nat -> green_field (2 * h + 1) (4 * h + 1) x y = (x ^ (2 * h - 2) * y * zdisk x y ^ 3, 0).
Proof.
  intros Hh. unfold green_field.
  assert (Ev : Nat.even (4 * h + 1) = false).
  { replace (4 * h + 1)%nat with (S (2 * (2 * h)))%nat by lia. rewrite Nat.even_succ, Nat.odd_mul. reflexivity. }
  rewrite Ev. replace (Nat.eqb (2 * h + 1) 1) with false by (symmetry; apply Nat.eqb_neq; lia). cbn [andb].
  replace (2 * (2 * h + 1) - (4 * h + 1))%nat with 1%nat by lia. rewrite Nat.eqb_refl.
  replace (Nat.even (2 * h + 1)) with false by (symmetry; rewrite Nat.add_comm; cbn [Nat.add]; rewrite Nat.even_succ, Nat.odd_mul; reflexivity).
  replace (2 * h + 1 - 3)%nat with (2 * h - 2)%nat by lia. reflexivity.
Qed.
Lemma gf_gen a b x y : green_field (a + b + 2) (2 * b + 1) x y = (0, x ^ a * y ^ b * zdisk x y ^ 3).
Proof.
  unfold green_field.
  assert (Ev : Nat.even (2 * b + 1) = false).
  { rewrite Nat.add_comm. cbn [Nat.add]. rewrite Nat.even_succ, Nat.odd_mul. reflexivity. }
  rewrite Ev. replace (Nat.eqb (a + b + 2) 1) with false by (symmetry; apply Nat.eqb_neq; lia). cbn [andb].
  replace (2 * (a + b + 2) - (2 * b + 1))%nat with (2 * a + 3)%nat by lia. replace (Nat.eqb (2 * a + 3) 1) with false by (symmetry; apply Nat.eqb_neq; lia).
  replace (2 * a + 3 - 3)%nat with (2 * a)%nat by lia. replace (2 * b + 1 - 1)%nat with (2 * b)%nat by lia. rewrite !div2_even. reflexivity.
Qed.
(** edge_pair by case *)
Lemma ep_even i j b r t : edge_pair (i + j) (2 * j) b r t = (1 + (-1) ^ i) * ((r * sin t) ^ (i + 2) * (b - r * cos t) ^ j).
Proof.
  unfold edge_pair, edge_component. cbv zeta. rewrite !gf_even. cbn [fst snd]. rewrite sin_neg, cos_neg. replace (r * - sin t) with (- (r * sin t)) by ring. rewrite (pow_neg _ (i + 1)).
  rewrite !pow_add. cbn [pow]. ring.
Qed.
Lemma ep_mu1e h b r t : (1 <= h)%nat -> edge_pair (2 * h) (4 * h - 1) b r t = 2 * ((r * sin t) ^ (2 * h - 2) * p32 (1 - erho2 b r t) * (r * cos t)).
Proof.
  intros Hh. unfold edge_pair, edge_component. cbv zeta. rewrite !gf_mu1e by exact Hh. cbn [fst snd]. rewrite sin_neg, cos_neg. replace (r * - sin t) with (- (r * sin t)) by ring.
  rewrite !zdisk_p32. replace ((- (r * sin t)) ^ 2) with ((r * sin t) ^ 2) by ring. rewrite edge_sq. rewrite pow_neg. replace (2 * h - 2)%nat with (2 * (h - 1))%nat by lia. rewrite neg_even. ring.
Qed.
Lemma ep_mu1o h b r t : (1 <= h)%nat -> edge_pair (2 * h + 1) (4 * h + 1) b r t = 2 * ((r * sin t) ^ (2 * h - 2) * (b - r * cos t) * p32 (1 - erho2 b r t) * (r * cos t)).
Proof.
  intros Hh. unfold edge_pair, edge_component. cbv zeta. rewrite !gf_mu1o by exact Hh. cbn [fst snd]. rewrite sin_neg, cos_neg. replace (r * - sin t) with (- (r * sin t)) by ring.
  rewrite !zdisk_p32. replace ((- (r * sin t)) ^ 2) with ((r * sin t) ^ 2) by ring. rewrite edge_sq. rewrite pow_neg. replace (2 * h - 2)%nat with (2 * (h - 1))%nat by lia. rewrite neg_even. ring.
Qed.
Lemma ep_gen a c b r t : edge_pair (a + c + 2) (2 * c + 1) b r t = (1 - (-1) ^ a) * ((r * sin t) ^ (a + 1) * (b - r * cos t) ^ c * p32 (1 - erho2 b r t)).
Proof.
  unfold edge_pair, edge_component. cbv zeta. rewrite !gf_gen. cbn [fst snd]. rewrite sin_neg, cos_neg. replace (r * - sin t) with (- (r * sin t)) by ring.
  rewrite !zdisk_p32. replace ((- (r * sin t)) ^ 2) with ((r * sin t) ^ 2) by ring. rewrite edge_sq. rewrite pow_neg. rewrite pow_add. cbn [pow]. ring.
Qed.
Lemma ep_10 b r t : 0 < erho2 b r t <= 1 -> edge_pair 1 1 b r t = 2 * (Nint 1 1 (erho2 b r t) * (r ^ 2 - b * r * cos t)).
Proof.
  intros H. unfold edge_pair, edge_component, green_field. cbn [Nat.even Nat.eqb andb fst snd]. cbv zeta. rewrite sin_neg, cos_neg. replace (r * - sin t) with (- (r * sin t)) by ring.
  assert (Z : forall x, x ^ 2 = (r * sin t) ^ 2 -> zdisk x (b - r * cos t) = sqrt (1 - erho2 b r t)). { intros x E. unfold zdisk. rewrite E, <- (edge_sq b r t). f_equal. ring. }
  rewrite !Z; [|ring|reflexivity]. rewrite pow2_sqrt by lra. rewrite <- p32_cube. replace (1 - (1 - erho2 b r t)) with (erho2 b r t) by ring.
  assert (N := N1_closed (erho2 b r t)). rewrite <- N. replace (3 * erho2 b r t * Nint 1 1 (erho2 b r t) / (3 * erho2 b r t)) with (Nint 1 1 (erho2 b r t)) by (field; lra). rewrite <- (edge_cross b r t). ring.
Qed.
(** every entry *)
Lemma contact_lt b r k0 k1 t : 0 <= b -> 0 <= r -> b < 1 + r -> r < 1 + b -> contact b r k0 k1 -> 0 < t < k0 -> erho2 b r t <= 1.
Proof. intros _ _ _ _ (K0 & K1 & I1 & _) H. apply I1. lra. Qed.
Lemma odd_vis b r k0 k1 c i j k : 0 <= b -> 0 <= r -> contact b r k0 k1 -> (-1) ^ i = -1 -> vis b r (fun x y => c * (x ^ i * y ^ j * zdisk x y ^ k)) 0.
Proof.
  intros Hb Hr CT P. destruct (vis_mono b r k0 k1 i j k Hb Hr CT) as (E & _ & V). rewrite P in V. apply (vis_scal b r _ _ c) in V. apply (vis_val _ _ _ _ _ V). ring.
Qed.
Lemma sumsq_0 x y : x ^ 2 + y ^ 2 = 0 -> x = 0 /\ y = 0.
Proof. intros H. assert (A := pow2_ge_0 x). assert (B := pow2_ge_0 y). split; apply Rsqr_0_uniq; unfold Rsqr; cbn in *; lra. Qed.
Lemma rint_0 (f : R -> R) a c : (forall t, f t = 0) -> RInt f a c = 0.
Proof. intros H. apply is_RInt_unique, is_RInt_zero_on. intros; apply H. Qed.
Lemma rint_scal_v c (f : R -> R) a d : (forall t, continuous f t) -> RInt (fun t => c * f t) a d = c * RInt f a d.
Proof. intros H. apply is_RInt_unique, (is_RInt_scal (V := R_NormedModule)), rint_cont, H. Qed.
Theorem green_vis l nu b r k0 k1 : (nu <= 2 * l)%nat -> 0 <= b -> 0 <= r -> contact b r k0 k1 ->
  vis b r (fun x y => dict_eval (gtilde (Z.of_nat (l * l + nu))) x y (zdisk x y)) (q_entry (/ 2 * PI - k1) l nu - RInt (edge_pair l nu b r) 0 k0).
Proof.
  intros Hnu Hb Hr CT. assert (K0 := proj1 CT). assert (I1 := proj1 (proj2 (proj2 CT))).
  destruct (gcase_all l nu Hnu) as [i j| |h Hh|h Hh|a c].
  - (* polynomial *)
    rewrite gt_even. assert (QE : q_entry (/ 2 * PI - k1) (i + j) (2 * j) = if Nat.even i then q_get (/ 2 * PI - k1) (i + 2) j else 0).
    { unfold q_entry. cbv zeta. replace (2 * (i + j) - 2 * j)%nat with (2 * i)%nat by lia.
      replace (((i + j =? 1) && (2 * j =? 1))%nat) with false by (symmetry; apply andb_false_iff; right; apply Nat.eqb_neq; lia).
      replace ((2 * i) mod 2)%nat with 0%nat by (rewrite Nat.mul_comm, Nat.mod_mul; lia). rewrite !div2_even. cbn [Nat.eqb andb].
      destruct (Nat.even i) eqn:Ei; [destruct (even_2h i Ei) as [q ->]; replace ((2 * q) mod 2)%nat with 0%nat by (rewrite Nat.mul_comm, Nat.mod_mul; lia)|destruct (odd_2h i Ei) as [q ->]; replace ((2 * q + 1) mod 2)%nat with 1%nat by (rewrite Nat.add_comm, Nat.mul_comm, Nat.mod_add by lia; reflexivity)]; reflexivity. }
    rewrite QE. destruct (Nat.even i) eqn:Ei.
    + destruct (even_2h i Ei) as [q ->]. assert (V := green_line b r k0 k1 (mQ0 (2 * q) j) _ _ Hb Hr CT ltac:(intros m [<-|[]]; cbn [mono_ok mQ0]; split; [exact Ei|lia]) (pot_Q0 (2 * q) j)).
      apply (vis_ext b r _ (fun x y => dict_eval [((Z.of_nat (2 * q), Z.of_nat j, 0%Z), INR (2 * q + 1))] x y (zdisk x y))) in V.
      2:{ intros x y. unfold psum, mQ0, mval, dict_eval, Rsum. cbn [map fold_right]. rewrite !Nat2Z.id. change (Z.to_nat 0) with 0%nat. replace (S (2 * q)) with (2 * q + 1)%nat by lia. ring. }
      apply (vis_val _ _ _ _ _ V). replace (2 * q + 2)%nat with (2 * S q)%nat by lia. rewrite q_get_limb.
      replace (RInt (edge_pair (2 * q + j) (2 * j) b r) 0 k0) with (2 * RInt (edge_line b r (LQ0 (2 * q) j)) 0 k0).
      2:{ symmetry. rewrite <- rint_scal_v. 2:{ intros t. apply (pot_Q0 (2 * q) j), edge_curve. } apply RInt_ext. intros t _. rewrite ep_even, neg_even. unfold edge_line, LQ0. replace (2 * q + 2)%nat with (S (S (2 * q))) by lia. cbn [pow]. single. ring. }
      replace (RInt (limb_line (LQ0 (2 * q) j)) k1 PI) with (- RInt (fun t => sin t ^ (2 * S q) * cos t ^ j) k1 PI); [ring|].
      symmetry. apply is_RInt_unique. apply (rint_ext_v (fun t => - (sin t ^ (2 * S q) * cos t ^ j))).
      * apply rint_opp, rint_cont, (cang_cont (2 * S q) j).
      * intros t _. unfold limb_line, LQ0. replace (2 * S q)%nat with (S (S (2 * q))) by lia. cbn [pow]. ring.
    + destruct (odd_2h i Ei) as [q ->]. rewrite rint_0 by (intros t; rewrite ep_even, neg_odd; ring). rewrite Rminus_0_r.
      apply (vis_ext b r (fun x y => INR (2 * q + 1 + 1) * (x ^ (2 * q + 1) * y ^ j * zdisk x y ^ 0))); [|apply (odd_vis b r k0 k1); auto using neg_odd].
      intros x y. unfold dict_eval, Rsum. cbn [map fold_right]. rewrite !Nat2Z.id. change (Z.to_nat 0) with 0%nat. ring.
  - (* z *)
    change (Z.of_nat (1 * 1 + 1)) with 2%Z. rewrite gt_10.
    assert (V := green_line b r k0 k1 mZ _ _ Hb Hr CT ltac:(intros m [<-|[]]; cbn [mono_ok mZ]; split; [reflexivity|lia]) pot_Z).
    apply (vis_ext b r _ (fun x y => dict_eval [((0, 0, 1)%Z, 1)] x y (zdisk x y))) in V.
    2:{ intros x y. unfold psum, mZ, mval, dict_eval, Rsum. cbn [map fold_right]. change (Z.to_nat 0) with 0%nat. change (Z.to_nat 1) with 1%nat. ring. }
    apply (vis_val _ _ _ _ _ V). unfold q_entry. cbn [Nat.eqb andb].
    replace (RInt (edge_pair 1 1 b r) 0 k0) with (2 * RInt (edge_line b r LZ) 0 k0).
    2:{ symmetry. rewrite <- rint_scal_v. 2:{ intros t. apply pot_Z, edge_curve. } apply RInt_ext. intros t Ht. rewrite Rmin_left, Rmax_right in Ht by lra.
        destruct (Req_dec (erho2 b r t) 0) as [Z|Z].
        - assert (X0 := edge_sq b r t). rewrite Z in X0. destruct (sumsq_0 _ _ X0) as [A1 A2]. unfold edge_pair, edge_component, edge_line, LZ, green_field. cbn [Nat.even Nat.eqb andb fst snd]. cbv zeta. rewrite sin_neg, cos_neg. replace (r * - sin t) with (- (r * sin t)) by ring. rewrite A1, A2. single. ring.
        - assert (P := rho2_ge b r). unfold edge_line, LZ. rewrite ep_10. + rewrite edge_sq, edge_cross. reflexivity. + split; [|apply I1; lra]. assert (W : 0 <= erho2 b r t) by (rewrite <- edge_sq; apply Rplus_le_le_0_compat; apply pow2_ge_0). lra. }
    replace (RInt (limb_line LZ) k1 PI) with (- / 3 * (PI - k1)); [field|].
    symmetry. apply is_RInt_unique. apply (rint_ext_v (fun _ => - / 3)); [apply rint_const; ring|]. intros t _. unfold limb_line, LZ. rewrite limb_sq.
    assert (N := N1_closed 1). replace (1 - 1) with 0 in N by ring. rewrite p32_neg in N by lra. replace (Nint 1 1 1) with (/ 3) by lra. replace (sin t * - sin t - cos t * cos t) with (- (sin t ^ 2 + cos t ^ 2)) by ring. rewrite limb_sq. ring.
  - (* mu = 1, l even *)
    rewrite gt_mu1_even by exact Hh. assert (QE : q_entry (/ 2 * PI - k1) (2 * h) (4 * h - 1) = 0).
    { unfold q_entry. cbv zeta. replace (2 * (2 * h) - (4 * h - 1))%nat with 1%nat by lia. replace (((2 * h =? 1) && (4 * h - 1 =? 1))%nat) with false by (symmetry; apply andb_false_iff; left; apply Nat.eqb_neq; lia). reflexivity. }
    rewrite QE. assert (Ei : Nat.even (2 * h - 2) = true) by (replace (2 * h - 2)%nat with (2 * (h - 1))%nat by lia; apply Nat.even_spec; eexists; reflexivity).
    assert (V := green_line b r k0 k1 (mP0 (2 * h - 2)) _ _ Hb Hr CT ltac:(intros m [<-|[]]; cbn [mono_ok mP0]; split; [exact Ei|lia]) (pot_P0 (2 * h - 2))).
    apply (vis_ext b r _ (fun x y => dict_eval [((Z.of_nat (2 * h - 2), 1, 1)%Z, 3)] x y (zdisk x y))) in V.
    2:{ intros x y. unfold psum, mP0, mval, dict_eval, Rsum. cbn [map fold_right]. rewrite !Nat2Z.id. change (Z.to_nat 1) with 1%nat. ring. }
    apply (vis_val _ _ _ _ _ V).
    replace (RInt (edge_pair (2 * h) (4 * h - 1) b r) 0 k0) with (2 * RInt (edge_line b r (LP (2 * h - 2) 0)) 0 k0).
    2:{ symmetry. rewrite <- rint_scal_v. 2:{ intros t. apply (pot_P0 (2 * h - 2)), edge_curve. } apply RInt_ext. intros t _. rewrite ep_mu1e by exact Hh. unfold edge_line, LP. rewrite edge_sq. single. ring. }
    rewrite (rint_0 (limb_line _)); [ring|]. intros t. unfold limb_line, LP. rewrite limb_sq. replace (1 - 1) with 0 by ring. rewrite p32_neg by lra. ring.
  - (* mu = 1, l odd *)
    rewrite gt_mu1_odd by exact Hh. assert (QE : q_entry (/ 2 * PI - k1) (2 * h + 1) (4 * h + 1) = 0).
    { unfold q_entry. cbv zeta. replace (2 * (2 * h + 1) - (4 * h + 1))%nat with 1%nat by lia. replace (((2 * h + 1 =? 1) && (4 * h + 1 =? 1))%nat) with false by (symmetry; apply andb_false_iff; left; apply Nat.eqb_neq; lia). reflexivity. }
    rewrite QE. assert (Ei : Nat.even (2 * h - 2) = true) by (replace (2 * h - 2)%nat with (2 * (h - 1))%nat by lia; apply Nat.even_spec; eexists; reflexivity).
    assert (Ei2 : Nat.even (2 * h - 2 + 2) = true) by (replace (2 * h - 2 + 2)%nat with (2 * h)%nat by lia; apply Nat.even_spec; eexists; reflexivity).
    assert (V := green_line b r k0 k1 (mP1 (2 * h - 2)) _ _ Hb Hr CT ltac:(intros m [<-|[<-|[<-|[]]]]; cbn [mono_ok mP1]; (split; [assumption|lia])) (pot_P1 (2 * h - 2))).
    apply (vis_ext b r _ (fun x y => dict_eval [((Z.of_nat (2 * h - 2), 0, 1)%Z, -1); ((Z.of_nat (2 * h), 0, 1)%Z, 1); ((Z.of_nat (2 * h - 2), 2, 1)%Z, 4)] x y (zdisk x y))) in V.
    2:{ intros x y. unfold psum, mP1, mval, dict_eval, Rsum. cbn [map fold_right]. rewrite !Nat2Z.id. change (Z.to_nat 1) with 1%nat. change (Z.to_nat 0) with 0%nat. change (Z.to_nat 2) with 2%nat. replace (2 * h - 2 + 2)%nat with (2 * h)%nat by lia. ring. }
    apply (vis_val _ _ _ _ _ V).
    replace (RInt (edge_pair (2 * h + 1) (4 * h + 1) b r) 0 k0) with (2 * RInt (edge_line b r (LP (2 * h - 2) 1)) 0 k0).
    2:{ symmetry. rewrite <- rint_scal_v. 2:{ intros t. apply (pot_P1 (2 * h - 2)), edge_curve. } apply RInt_ext. intros t _. rewrite ep_mu1o by exact Hh. unfold edge_line, LP. rewrite edge_sq. single. ring. }
    rewrite (rint_0 (limb_line _)); [ring|]. intros t. unfold limb_line, LP. rewrite limb_sq. replace (1 - 1) with 0 by ring. rewrite p32_neg by lra. ring.
  - (* the rest *)
    assert (QE : q_entry (/ 2 * PI - k1) (a + c + 2) (2 * c + 1) = 0).
    { unfold q_entry. cbv zeta. replace (2 * (a + c + 2) - (2 * c + 1))%nat with (1 + (a + 1) * 2)%nat by lia. replace (((a + c + 2 =? 1) && (2 * c + 1 =? 1))%nat) with false by (symmetry; apply andb_false_iff; left; apply Nat.eqb_neq; lia).
      rewrite Nat.mod_add by lia. reflexivity. }
    rewrite QE. destruct (Nat.even a) eqn:Ea.
    + destruct (even_2h a Ea) as [q ->]. rewrite rint_0 by (intros t; rewrite ep_gen, neg_even; ring). rewrite Rminus_0_r. destruct q as [|q].
      * change (2 * 0 + c + 2)%nat with (c + 2)%nat. rewrite gt_gen0. apply (vis_ext b r (fun x y => -3 * (x ^ 1 * y ^ c * zdisk x y ^ 1))); [|apply (odd_vis b r k0 k1); auto; ring].
        intros x y. unfold dict_eval, Rsum. cbn [map fold_right]. rewrite !Nat2Z.id. change (Z.to_nat 1) with 1%nat. ring.
      * rewrite gt_gen by lia. assert (O1 : (-1) ^ (2 * S q - 1) = -1) by (replace (2 * S q - 1)%nat with (2 * q + 1)%nat by lia; apply neg_odd). assert (O2 : (-1) ^ (2 * S q + 1) = -1) by apply neg_odd.
        set (i1 := (2 * S q - 1)%nat) in *. set (i2 := (2 * S q + 1)%nat) in *.
        assert (V1 := odd_vis b r k0 k1 (INR (2 * S q)) i1 c 1 Hb Hr CT O1). assert (V2 := odd_vis b r k0 k1 (- INR (2 * S q)) i1 (c + 2) 1 Hb Hr CT O1). assert (V3 := odd_vis b r k0 k1 (- INR (2 * S q + 3)) i2 c 1 Hb Hr CT O2).
        assert (V := vis_plus _ _ _ _ _ _ V1 (vis_plus _ _ _ _ _ _ V2 V3)). apply (vis_val b r _ (0 + (0 + 0))); [|ring]. eapply vis_ext; [|exact V].
        intros x y. unfold dict_eval, Rsum. cbn [map fold_right]. rewrite !Nat2Z.id. change (Z.to_nat 1) with 1%nat. ring.
    + destruct (odd_2h a Ea) as [q ->]. rewrite gt_gen by lia.
      assert (E1 : Nat.even (2 * q) = true) by (apply Nat.even_spec; eexists; reflexivity). assert (E2 : Nat.even (2 * q + 2) = true) by (replace (2 * q + 2)%nat with (2 * (q + 1))%nat by lia; apply Nat.even_spec; eexists; reflexivity).
      assert (V := green_line b r k0 k1 (mQ (2 * q) c) _ _ Hb Hr CT ltac:(intros m [<-|[<-|[<-|[]]]]; cbn [mono_ok mQ]; (split; [assumption|lia])) (pot_Q (2 * q) c)).
      replace (2 * q + 1 - 1)%nat with (2 * q)%nat by lia. replace (2 * q + 1 + 1)%nat with (2 * q + 2)%nat by lia. replace (2 * q + 1)%nat with (S (2 * q)) by lia.
      apply (vis_ext b r _ (fun x y => dict_eval [((Z.of_nat (2 * q), Z.of_nat c, 1%Z), INR (S (2 * q))); ((Z.of_nat (2 * q), Z.of_nat (c + 2), 1%Z), - INR (S (2 * q))); ((Z.of_nat (2 * q + 2), Z.of_nat c, 1%Z), - INR (S (2 * q) + 3))] x y (zdisk x y))) in V.
      2:{ intros x y. unfold psum, mQ, mval, dict_eval, Rsum. cbn [map fold_right]. rewrite !Nat2Z.id. change (Z.to_nat 1) with 1%nat. rewrite (plus_INR _ 3). replace (INR 3) with 3 by (cbn; ring). ring. }
      apply (vis_val _ _ _ _ _ V).
      replace (RInt (edge_pair (S (2 * q) + c + 2) (2 * c + 1) b r) 0 k0) with (2 * RInt (edge_line b r (LQ (2 * q) c)) 0 k0).
      2:{ symmetry. rewrite <- rint_scal_v. 2:{ intros t. apply (pot_Q (2 * q) c), edge_curve. } apply RInt_ext. intros t _. rewrite ep_gen. replace (S (2 * q)) with (2 * q + 1)%nat by lia. rewrite neg_odd. unfold edge_line, LQ. rewrite edge_sq. rewrite !pow_add. cbn [pow]. single. ring. }
      rewrite (rint_0 (limb_line _)); [ring|]. intros t. unfold limb_line, LQ. rewrite limb_sq. replace (1 - 1) with 0 by ring. rewrite p32_neg by lra. ring.
Qed.
