(** Error of Gauss-Legendre quadrature on trigonometric polynomials. *)
From Coq Require Import Reals Lra Lia List Arith.
From Coquelicot Require Import Coquelicot.
From Verif Require Import Base.RealAux Base.Analysis Spec.HarmonicSpec Spec.OccultSpec Spec.SkySpec Spec.QuadSpec Proof.Polynomials Proof.GaussLegendre Proof.Weierstrass Proof.Chebyshev Proof.SolutionGreen Proof.OrderLimit.
Import ListNotations.
Open Scope R_scope.

(** f is a sum of a cos(k x + phi) with |k| <= d and c is the sum of the |a| *)
Inductive trig (d : R) : R -> (R -> R) -> Prop :=
| trig_zero f : (forall x, f x = 0) -> trig d 0 f
| trig_add a k phi c f g : Rabs k <= d -> trig d c f -> (forall x, g x = a * cos (k * x + phi) + f x) -> trig d (Rabs a + c) g.
Lemma trig_ext d c f g : (forall x, f x = g x) -> trig d c f -> trig d c g.
Proof. intros E H. destruct H as [f H|a k phi c f' f Hk H Ef]; [apply trig_zero; intros; now rewrite <- E|]. apply (trig_add d a k phi c f'); [exact Hk|exact H|]. intros. now rewrite <- E. Qed.
Lemma trig_plus d c f : trig d c f -> forall c' g, trig d c' g -> trig d (c + c') (fun x => f x + g x).
Proof.
  induction 1 as [f H|a k phi c f h Hk H IH E]; intros c' g Hg.
  - rewrite Rplus_0_l. apply (trig_ext _ _ g); [intros; rewrite H; ring|exact Hg].
  - rewrite Rplus_assoc. apply (trig_add d a k phi _ (fun x => f x + g x)); [exact Hk|now apply IH|]. intros x. rewrite E. ring.
Qed.
Lemma trig_le d e c f : d <= e -> trig d c f -> trig e c f.
Proof. intros L. induction 1 as [f H|a k phi c f h Hk H IH E]; [now apply trig_zero|]. apply (trig_add e a k phi c f); [lra|exact IH|exact E]. Qed.
Lemma trig_cos_mul e c g : trig e c g -> forall d a k phi, Rabs k <= d -> trig (d + e) (Rabs a * c) (fun x => a * cos (k * x + phi) * g x).
Proof.
  induction 1 as [g H|a' k' phi' c g h Hk H IH E]; intros d a k phi Hd.
  - rewrite Rmult_0_r. apply trig_zero. intros; rewrite H; ring.
  - replace (Rabs a * (Rabs a' + c)) with (Rabs (a * a' / 2) + (Rabs (a * a' / 2) + Rabs a * c)).
    2:{ unfold Rdiv. rewrite !Rabs_mult, (Rabs_right (/ 2)) by lra. field. }
    apply (trig_add _ (a * a' / 2) (k + k') (phi + phi') _ (fun x => a * a' / 2 * cos ((k - k') * x + (phi - phi')) + a * cos (k * x + phi) * g x)).
    + eapply Rle_trans; [apply Rabs_triang|lra].
    + apply (trig_add _ (a * a' / 2) (k - k') (phi - phi') _ (fun x => a * cos (k * x + phi) * g x)).
      * eapply Rle_trans; [apply Rabs_triang|]. rewrite Rabs_Ropp. lra.
      * now apply IH.
      * reflexivity.
    + intros x. rewrite E. replace ((k + k') * x + (phi + phi')) with ((k * x + phi) + (k' * x + phi')) by ring. replace ((k - k') * x + (phi - phi')) with ((k * x + phi) - (k' * x + phi')) by ring. set (A := k * x + phi). set (B := k' * x + phi'). rewrite (cos_plus A B), (cos_minus A B). field.
Qed.
Lemma trig_mul d c f : trig d c f -> forall e c' g, trig e c' g -> trig (d + e) (c * c') (fun x => f x * g x).
Proof.
  induction 1 as [f H|a k phi c f h Hk H IH E]; intros e c' g Hg.
  - rewrite Rmult_0_l. apply trig_zero. intros; rewrite H; ring.
  - rewrite Rmult_plus_distr_r. apply (trig_ext _ _ (fun x => a * cos (k * x + phi) * g x + f x * g x)); [intros; rewrite E; ring|]. apply trig_plus; [now apply trig_cos_mul|now apply IH].
Qed.
Lemma trig_cos d a k phi : Rabs k <= d -> trig d (Rabs a) (fun x => a * cos (k * x + phi)).
Proof. intros H. rewrite <- (Rplus_0_r (Rabs a)). apply (trig_add d a k phi 0 (fun _ => 0)); [exact H|now apply trig_zero|intros; ring]. Qed.
Lemma trig_const d a : 0 <= d -> trig d (Rabs a) (fun _ => a).
Proof. intros H. apply (trig_ext _ _ (fun x => a * cos (0 * x + 0))); [intros; rewrite Rmult_0_l, Rplus_0_r, cos_0; ring|]. apply trig_cos. rewrite Rabs_R0. exact H. Qed.
Lemma trig_pow d c f n : 0 <= d -> trig d c f -> trig (INR n * d) (c ^ n) (fun x => f x ^ n).
Proof.
  intros Hd H. induction n as [|n IH]; [cbn [pow INR]; rewrite Rmult_0_l; pose proof (trig_const 0 1 ltac:(lra)) as T; rewrite Rabs_R1 in T; exact T|].
  rewrite S_INR. replace ((INR n + 1) * d) with (d + INR n * d) by ring. cbn [pow]. now apply trig_mul.
Qed.
Lemma trig_nonneg d c f : trig d c f -> 0 <= c.
Proof. induction 1; [lra|]. pose proof (Rabs_pos a). lra. Qed.
Lemma trig_approx n lo hi d c f : lo <= hi -> trig d c f -> exists p, polynomial (S n) p /\ forall x, lo <= x <= hi -> Rabs (f x - p x) <= c * ((d * ((hi - lo) / 2)) ^ S n / (INR (fact (S n)) * 2 ^ n)).
Proof.
  intros Hlh. set (B := (d * ((hi - lo) / 2)) ^ S n / (INR (fact (S n)) * 2 ^ n)). induction 1 as [f H|a k phi c f h Hk H (p & Hp & HB) E].
  - exists (fun _ => 0). split; [apply poly_zero|]. intros x _. rewrite H, Rminus_0_r, Rabs_R0. lra.
  - destruct (cos_approx n (k * ((hi - lo) / 2)) (k * ((lo + hi) / 2) + phi)) as (q & Hq & HQ).
    destruct (Req_EM_T lo hi) as [El|El].
    + exists (fun _ => h lo). split; [apply poly_const|]. intros x Hx. replace x with lo by lra. rewrite Rminus_eq_0, Rabs_R0. pose proof (trig_nonneg _ _ _ H). pose proof (Rabs_pos a). apply Rmult_le_pos; [lra|]. unfold B.
      replace ((hi - lo) / 2) with 0 by lra. rewrite Rmult_0_r. cbn [pow]. rewrite Rmult_0_l. unfold Rdiv. rewrite Rmult_0_l. lra.
    + exists (fun x => a * q (2 / (hi - lo) * x + - (lo + hi) / (hi - lo)) + p x). split; [apply poly_plus; [apply poly_scal; now apply poly_affine|exact Hp]|]. intros x Hx. set (t := 2 / (hi - lo) * x + - (lo + hi) / (hi - lo)).
      assert (Ht : -1 <= t <= 1). { replace t with ((2 * x - (lo + hi)) / (hi - lo)) by (unfold t; field; lra). split; apply (Rmult_le_reg_r (hi - lo)); try lra; rewrite divmul by lra; lra. }
      specialize (HQ t Ht). replace (k * ((hi - lo) / 2) * t + (k * ((lo + hi) / 2) + phi)) with (k * x + phi) in HQ by (unfold t; field; lra). rewrite E.
      replace (a * cos (k * x + phi) + f x - (a * q t + p x)) with (a * (cos (k * x + phi) - q t) + (f x - p x)) by ring. eapply Rle_trans; [apply Rabs_triang|]. rewrite Rabs_mult, Rmult_plus_distr_r. apply Rplus_le_compat; [|now apply HB].
      apply Rmult_le_compat_l; [apply Rabs_pos|]. eapply Rle_trans; [exact HQ|]. unfold B, Rdiv. apply Rmult_le_compat_r; [left; apply Rinv_0_lt_compat; apply Rmult_lt_0_compat; [apply INR_fact_lt_0|apply pow_lt; lra]|].
      apply pow_incr. split; [apply Rabs_pos|]. rewrite Rabs_mult, (Rabs_right ((hi - lo) * / 2)) by lra. apply Rmult_le_compat_r; lra.
Qed.
Lemma trig_cont d c f : trig d c f -> forall x : R, continuous f x.
Proof.
  induction 1 as [f H|a k phi c f h Hk H IH E]; intros x.
  - apply (continuous_ext (fun _ => 0)); [intros; now rewrite H|apply cont_const].
  - apply (continuous_ext (fun x => a * cos (k * x + phi) + f x)); [intros; now rewrite E|]. apply cont_plus; [apply cont_scal, cont_cos, cont_plus; [apply cont_scal, cont_id|apply cont_const]|apply IH].
Qed.
(** quadrature error from approximability by polynomials *)
Lemma gauss_error m rule lo hi f p d : lo <= hi -> gauss_legendre m rule -> (0 < m)%nat -> (forall x : R, continuous f x) -> polynomial (2 * m) p -> (forall x, lo <= x <= hi -> Rabs (f x - p x) <= d) ->
  Rabs (RInt f lo hi - quadrature rule lo hi f) <= 2 * (hi - lo) * d.
Proof.
  intros Hlh G Hm Hc P H.
  assert (Q : Rabs (quadrature rule lo hi f - quadrature rule lo hi p) <= (hi - lo) * d).
  { apply quadrature_le; [lra| |exact H|now apply (gauss_total m)]. intros x w I. split; [destruct G as (_ & _ & G & _); destruct (G x w I); lra|now apply (gauss_weights m rule G x w)]. }
  rewrite (quadrature_poly m rule lo hi p G P) in Q. assert (If : ex_RInt f lo hi) by (apply @ex_RInt_continuous; intros; apply Hc). pose proof (poly_ex_RInt _ _ lo hi P) as Ip.
  assert (D : Rabs (RInt f lo hi - RInt p lo hi) <= (hi - lo) * d).
  { pose proof (RInt_minus f p lo hi If Ip) as E. change (RInt (fun x => f x - p x) lo hi = RInt f lo hi - RInt p lo hi) in E. rewrite <- E. apply abs_RInt_le_const; [lra|apply (ex_RInt_minus f p lo hi If Ip)|]. intros t Ht. now apply H. }
  replace (RInt f lo hi - quadrature rule lo hi f) with ((RInt f lo hi - RInt p lo hi) - (quadrature rule lo hi f - RInt p lo hi)) by ring. eapply Rle_trans; [apply Rabs_triang|]. rewrite Rabs_Ropp. lra.
Qed.
Lemma trig_gauss m rule lo hi d c f : lo <= hi -> gauss_legendre m rule -> (0 < m)%nat -> trig d c f -> Rabs (RInt f lo hi - quadrature rule lo hi f) <= 4 * (hi - lo) * c * ((d * (hi - lo) / 4) ^ (2 * m) / INR (fact (2 * m))).
Proof.
  intros Hlh G Hm H. destruct (trig_approx (2 * m - 1) lo hi d c f Hlh H) as (p & Hp & HB). replace (S (2 * m - 1)) with (2 * m)%nat in Hp, HB by lia.
  eapply Rle_trans; [apply (gauss_error m rule lo hi f p _ Hlh G Hm (trig_cont _ _ _ H) Hp HB)|]. right.
  replace (d * ((hi - lo) / 2)) with (d * (hi - lo) / 4 * 2) by field. rewrite Rpow_mult_distr. replace (2 ^ (2 * m)) with (2 * 2 ^ (2 * m - 1)) by (replace (2 * m)%nat with (S (2 * m - 1)) at 2 by lia; reflexivity).
  field. split; [apply INR_fact_neq_0|apply pow_nonzero; lra].
Qed.
(** * The polynomial Green's functions *)
Lemma edge_pair_trig i j b r : 0 <= b -> 0 <= r -> exists c, c <= 2 * r ^ (i + 2) * (b + r) ^ j /\ trig (INR (i + j + 2)) c (edge_pair (i + j) (2 * j) b r).
Proof.
  intros Hb Hr.
  assert (H1 : trig (INR (i + 2)) (r ^ (i + 2)) (fun t => (r * sin t) ^ (i + 2))).
  { rewrite <- (Rmult_1_r (INR (i + 2))). apply (trig_pow 1); [lra|]. rewrite <- (Rabs_right r) at 1 by lra. apply (trig_ext _ _ (fun t => r * cos (1 * t + - (PI / 2)))); [|apply trig_cos; rewrite Rabs_R1; lra].
    intros t. rewrite Rmult_1_l. change (t + - (PI / 2)) with (t - PI / 2). rewrite cos_minus, cos_PI2, sin_PI2. ring. }
  assert (H2 : trig (INR j) ((b + r) ^ j) (fun t => (b - r * cos t) ^ j)).
  { rewrite <- (Rmult_1_r (INR j)). apply (trig_pow 1); [lra|]. apply (trig_ext _ _ (fun t => b + - r * cos (1 * t + 0))); [intros t; rewrite Rmult_1_l, Rplus_0_r; ring|]. replace (b + r) with (Rabs b + Rabs (- r)) by (rewrite Rabs_Ropp, !Rabs_right; lra).
    apply trig_plus; [apply trig_const; lra|apply trig_cos; rewrite Rabs_R1; lra]. }
  pose proof (trig_mul _ _ _ H1 _ _ _ H2) as H3. pose proof (trig_mul _ _ _ (trig_const 0 (1 + (-1) ^ i) ltac:(lra)) _ _ _ H3) as H4.
  exists (Rabs (1 + (-1) ^ i) * (r ^ (i + 2) * (b + r) ^ j)). split.
  - rewrite Rmult_assoc. apply Rmult_le_compat_r; [apply Rmult_le_pos; apply pow_le; lra|]. eapply Rle_trans; [apply Rabs_triang|]. rewrite Rabs_R1, pow_1_abs. lra.
  - replace (INR (i + j + 2)) with (0 + (INR (i + 2) + INR j)) by (rewrite <- plus_INR, Rplus_0_l; f_equal; lia). apply (trig_ext _ _ _ _ (fun t => eq_sym (ep_even i j b r t))). exact H4.
Qed.
Lemma even_error m rule b r l nu : gauss_legendre m rule -> (0 < m)%nat -> 0 <= b -> 0 <= r -> b < 1 + r -> r < 1 + b -> (nu <= 2 * l)%nat -> Nat.even nu = true ->
  Rabs (green_error rule b r l nu) <= 8 * edge_angle b r * r ^ (l - nu / 2 + 2) * (b + r) ^ (nu / 2) * ((INR (l + 2) * edge_angle b r / 4) ^ (2 * m) / INR (fact (2 * m))).
Proof.
  intros G Hm Hb Hr H1 H2 Hnu He. apply Nat.even_spec in He as [j ->]. replace (2 * j / 2)%nat with j by (rewrite Nat.mul_comm, Nat.div_mul; lia). set (i := (l - j)%nat). replace l with (i + j)%nat by (unfold i; lia).
  destruct (edge_pair_trig i j b r Hb Hr) as (c & Hc & T). pose proof (edge_angle_range b r Hb Hr H1 H2) as [K _].
  unfold green_error. eapply Rle_trans; [apply (trig_gauss m rule 0 (edge_angle b r) _ c _ (Rlt_le _ _ K) G Hm T)|]. rewrite Rminus_0_r.
  set (Q := (INR (i + j + 2) * edge_angle b r / 4) ^ (2 * m) / INR (fact (2 * m))). assert (Q0 : 0 <= Q). { apply Rmult_le_pos; [|left; apply Rinv_0_lt_compat, INR_fact_lt_0]. apply pow_le. pose proof (pos_INR (i + j + 2)). apply Rmult_le_pos; [apply Rmult_le_pos; lra|lra]. }
  apply Rmult_le_compat_r; [exact Q0|]. replace (8 * edge_angle b r * r ^ (i + 2) * (b + r) ^ j) with (4 * edge_angle b r * (2 * r ^ (i + 2) * (b + r) ^ j)) by ring. apply Rmult_le_compat_l; lra.
Qed.
