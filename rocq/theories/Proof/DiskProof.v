(** Disk integrals of the polynomial basis. *)
From Coq Require Import Reals Lra Lia ZArith List Bool Arith.
From Coquelicot Require Import Coquelicot.
From Verif Require Import Base.RealAux Base.Analysis Spec.PolySpec Spec.BasisSpec Spec.DiskSpec Model.Basis Proof.LimbDarkGreen.
Import ListNotations.
Open Scope R_scope.

Lemma rint_det (f : R -> R) (a b v w : R) : is_RInt f a b v -> is_RInt f a b w -> v = w.
Proof. intros H1 H2. rewrite <- (is_RInt_unique f a b v H1). exact (is_RInt_unique f a b w H2). Qed.
Lemma rint_scal (f : R -> R) (c a b v w : R) : is_RInt f a b v -> c * v = w -> is_RInt (fun x => c * f x) a b w.
Proof. intros H <-. apply (is_RInt_scal f a b c v H). Qed.
Definition ang (i j : nat) : R := RInt (fun t => cos t ^ i * sin t ^ j) 0 (2 * PI).
Lemma ang_cont i j t : continuous (fun t => cos t ^ i * sin t ^ j) t.
Proof. apply cont_mult; apply cont_pow; [apply cont_cos|apply cont_sin]; apply cont_id. Qed.
Lemma ang_is i j : is_RInt (fun t => cos t ^ i * sin t ^ j) 0 (2 * PI) (ang i j).
Proof. apply (RInt_correct (fun t => cos t ^ i * sin t ^ j)). apply (ex_RInt_continuous (fun t => cos t ^ i * sin t ^ j)). intros; apply ang_cont. Qed.
Lemma ang_split i j : ang (i + 2) j + ang i (j + 2) = ang i j.
Proof.
  symmetry. apply is_RInt_unique. eapply is_RInt_ext; [|apply (is_RInt_plus _ _ _ _ _ _ (ang_is (i + 2) j) (ang_is i (j + 2)))].
  intros t _. unfold plus; cbn. rewrite !Nat.add_comm with (m := 2%nat). cbn [Nat.add pow].
  pose proof (sin2_cos2 t) as H. unfold Rsqr in H. 
  replace (cos t * (cos t * cos t ^ i) * sin t ^ j + cos t ^ i * (sin t * (sin t * sin t ^ j))) with (cos t ^ i * sin t ^ j * (sin t * sin t + cos t * cos t)) by ring. rewrite H. ring.
Qed.
Lemma ang_parts i j : INR (j + 1) * ang (i + 2) j = INR (i + 1) * ang i (j + 2).
Proof.
  assert (H : is_RInt (fun t => INR (j + 1) * (cos t ^ (i + 2) * sin t ^ j) - INR (i + 1) * (cos t ^ i * sin t ^ (j + 2))) 0 (2 * PI) 0).
  { apply (is_RInt_antider (fun t => cos t ^ (i + 1) * sin t ^ (j + 1))).
    - intros t. auto_derive; [auto|]. rewrite !Nat.add_comm with (m := 2%nat), !Nat.add_comm with (m := 1%nat).
      cbn [Nat.add pow Init.Nat.pred]. ring.
    - intros t. apply cont_minus; apply cont_scal; apply ang_cont.
    - rewrite sin_2PI, sin_0. rewrite !Nat.add_comm with (m := 1%nat). cbn [Nat.add pow]. ring. }
  assert (H2 : is_RInt (fun t => INR (j + 1) * (cos t ^ (i + 2) * sin t ^ j) - INR (i + 1) * (cos t ^ i * sin t ^ (j + 2))) 0 (2 * PI)
                (INR (j + 1) * ang (i + 2) j - INR (i + 1) * ang i (j + 2))).
  { apply (is_RInt_minus (fun t => INR (j + 1) * (cos t ^ (i + 2) * sin t ^ j))); apply (is_RInt_scal (fun t => cos t ^ _ * sin t ^ _)); apply ang_is. }
  pose proof (rint_det _ _ _ _ _ H H2). lra.
Qed.
Lemma ang_i i j : INR (i + j + 2) * ang (i + 2) j = INR (i + 1) * ang i j.
Proof. rewrite <- (ang_split i j). pose proof (ang_parts i j) as H. rewrite Rmult_plus_distr_l, <- H, !plus_INR. cbn [INR]. ring. Qed.
Lemma ang_j i j : INR (i + j + 2) * ang i (j + 2) = INR (j + 1) * ang i j.
Proof. rewrite <- (ang_split i j). pose proof (ang_parts i j) as H. rewrite Rmult_plus_distr_l, H, !plus_INR. cbn [INR]. ring. Qed.
Lemma ang00 : ang 0 0 = 2 * PI.
Proof.
  apply is_RInt_unique. apply (is_RInt_antider (fun t => t)); [intros t; auto_derive; [auto|cbn; ring]|intros; apply ang_cont|lra].
Qed.
Lemma ang10 : ang 1 0 = 0.
Proof.
  apply is_RInt_unique. apply (is_RInt_antider sin); [intros t; auto_derive; [auto|cbn; ring]|intros; apply ang_cont|].
  rewrite sin_2PI, sin_0. ring.
Qed.
Lemma ang01 : ang 0 1 = 0.
Proof.
  apply is_RInt_unique. apply (is_RInt_antider (fun t => - cos t)); [intros t; auto_derive; [auto|cbn; ring]|intros; apply ang_cont|].
  rewrite cos_2PI, cos_0. ring.
Qed.
Lemma ang11 : ang 1 1 = 0.
Proof.
  apply is_RInt_unique. apply (is_RInt_antider (fun t => / 2 * sin t ^ 2)); [intros t; auto_derive; [auto|cbn; field]|intros; apply ang_cont|].
  rewrite sin_2PI, sin_0. ring.
Qed.
Lemma INR_pos2 n : INR (n + 2) <> 0.
Proof. apply not_0_INR. lia. Qed.
Lemma ang_step_zero i j : (ang i j = 0 -> ang (i + 2) j = 0) /\ (ang i j = 0 -> ang i (j + 2) = 0).
Proof.
  pose proof (INR_pos2 (i + j)) as Hn. split; intros H.
  - pose proof (ang_i i j) as E. rewrite H in E. apply (Rmult_eq_reg_l (INR (i + j + 2))); [rewrite E; ring|exact Hn].
  - pose proof (ang_j i j) as E. rewrite H in E. apply (Rmult_eq_reg_l (INR (i + j + 2))); [rewrite E; ring|exact Hn].
Qed.
Lemma ang_odd_l i j : ang (2 * i + 1) j = 0.
Proof.
  induction i as [|i IH].
  - change (ang 1 j = 0). assert (H : forall n, ang 1 n = 0 /\ ang 1 (n + 1) = 0).
    { induction n as [|n [H1 H2]]; [split; [apply ang10|apply ang11]|]. split; [replace (S n) with (n + 1)%nat by lia; exact H2|].
      replace (S n + 1)%nat with (n + 2)%nat by lia. apply (proj2 (ang_step_zero 1 n)). exact H1. }
    exact (proj1 (H j)).
  - replace (2 * S i + 1)%nat with (2 * i + 1 + 2)%nat by lia. apply (proj1 (ang_step_zero _ _)). exact IH.
Qed.
Lemma ang_odd_r i j : ang i (2 * j + 1) = 0.
Proof.
  induction j as [|j IH].
  - change (ang i 1 = 0). assert (H : forall n, ang n 1 = 0 /\ ang (n + 1) 1 = 0).
    { induction n as [|n [H1 H2]]; [split; [apply ang01|apply ang11]|]. split; [replace (S n) with (n + 1)%nat by lia; exact H2|].
      replace (S n + 1)%nat with (n + 2)%nat by lia. apply (proj1 (ang_step_zero n 1)). exact H1. }
    exact (proj1 (H i)).
  - replace (2 * S j + 1)%nat with (2 * j + 1 + 2)%nat by lia. apply (proj2 (ang_step_zero _ _)). exact IH.
Qed.
Lemma gamma_up_S n : gamma_up (S n) = (INR n + / 2) * gamma_up n.
Proof. reflexivity. Qed.
Lemma gamma_up_pos n : 0 < gamma_up n.
Proof. induction n as [|n IH]; [apply sqrt_lt_R0; apply PI_RGT_0|]. rewrite gamma_up_S. apply Rmult_lt_0_compat; [|exact IH]. pose proof (pos_INR n). lra. Qed.
Lemma ang_even p q : ang (2 * p) (2 * q) = 2 * gamma_up p * gamma_up q / INR (fact (p + q)).
Proof.
  induction p as [|p IH].
  - induction q as [|q IH].
    + cbn [Nat.mul Nat.add fact]. rewrite ang00. cbn [gamma_up INR]. rewrite Rmult_assoc, sqrt_sqrt by (pose proof PI_RGT_0; lra). field.
    + replace (2 * S q)%nat with (2 * q + 2)%nat by lia. pose proof (ang_j (2 * 0) (2 * q)) as E.
      assert (Hn : INR (2 * 0 + 2 * q + 2) <> 0) by apply INR_pos2.
      apply (Rmult_eq_reg_l (INR (2 * 0 + 2 * q + 2))); [|exact Hn]. rewrite E, IH. rewrite gamma_up_S.
      replace (0 + S q)%nat with (S q) by lia. replace (0 + q)%nat with q by lia. rewrite fact_simpl, mult_INR.
      pose proof (INR_fact_neq_0 q). assert (INR (S q) <> 0) by (apply not_0_INR; lia).
      rewrite (S_INR q) in *. rewrite !plus_INR, !mult_INR in *. cbn [INR] in *. field. split; assumption.
  - replace (2 * S p)%nat with (2 * p + 2)%nat by lia. pose proof (ang_i (2 * p) (2 * q)) as E.
    assert (Hn : INR (2 * p + 2 * q + 2) <> 0) by apply INR_pos2.
    apply (Rmult_eq_reg_l (INR (2 * p + 2 * q + 2))); [|exact Hn]. rewrite E, IH, gamma_up_S.
    replace (S p + q)%nat with (S (p + q)) by lia. rewrite fact_simpl, mult_INR.
    pose proof (INR_fact_neq_0 (p + q)). assert (INR (S (p + q)) <> 0) by (apply not_0_INR; lia).
    rewrite (S_INR (p + q)) in *. rewrite !plus_INR, !mult_INR in *. cbn [INR] in *. field. split; [assumption|lra].
Qed.

(** radial parts *)
Definition rad (k n : nat) : R := RInt (fun rho => rho ^ (n + 1) * sqrt (1 - rho ^ 2) ^ k) 0 1.
Lemma rad_cont k n t : continuous (fun rho => rho ^ (n + 1) * sqrt (1 - rho ^ 2) ^ k) t.
Proof.
  apply cont_mult; apply cont_pow; [apply cont_id|]. apply cont_sqrt. apply cont_minus; [apply cont_const|]. apply cont_pow, cont_id.
Qed.
Lemma rad_is k n : is_RInt (fun rho => rho ^ (n + 1) * sqrt (1 - rho ^ 2) ^ k) 0 1 (rad k n).
Proof. apply (RInt_correct (fun rho => rho ^ (n + 1) * sqrt (1 - rho ^ 2) ^ k)). apply (ex_RInt_continuous (fun rho => rho ^ (n + 1) * sqrt (1 - rho ^ 2) ^ k)). intros; apply rad_cont. Qed.
Lemma rad0 n : rad 0 n = / INR (n + 2).
Proof.
  apply is_RInt_unique. apply (is_RInt_antider (fun r => r ^ (n + 2) / INR (n + 2))); [|intros; apply rad_cont|].
  - intros t. auto_derive; [auto|]. cbn [pow]. replace (Init.Nat.pred (n + 2)) with (n + 1)%nat by lia. field. apply INR_pos2.
  - rewrite pow1. replace (n + 2)%nat with (S (n + 1)) by lia. cbn [pow]. field. replace (S (n + 1)) with (n + 2)%nat by lia. apply INR_pos2.
Qed.
Fixpoint lf2 (n : nat) : R := match n with O => 2 / 3 | S n => lf2 n / (INR n + 5 / 2) end.
Definition zz (N : nat) : R := RInt (fun z => z ^ 2 * (1 - z ^ 2) ^ N) 0 1.
Lemma zz_cont N t : continuous (fun z => z ^ 2 * (1 - z ^ 2) ^ N) t.
Proof. apply cont_mult; apply cont_pow; [apply cont_id|]. apply cont_minus; [apply cont_const|]. apply cont_pow, cont_id. Qed.
Lemma zz_is N : is_RInt (fun z => z ^ 2 * (1 - z ^ 2) ^ N) 0 1 (zz N).
Proof. apply (RInt_correct (fun z => z ^ 2 * (1 - z ^ 2) ^ N)). apply (ex_RInt_continuous (fun z => z ^ 2 * (1 - z ^ 2) ^ N)). intros; apply zz_cont. Qed.
Lemma zz_rec N : (2 * INR N + 5) * zz (S N) = (2 * INR N + 2) * zz N.
Proof.
  assert (H : is_RInt (fun z => (2 * INR N + 5) * (z ^ 2 * (1 - z ^ 2) ^ S N) - (2 * INR N + 2) * (z ^ 2 * (1 - z ^ 2) ^ N)) 0 1 0).
  { apply (is_RInt_antider (fun z => z ^ 3 * (1 - z ^ 2) ^ S N)).
    - intros t. auto_derive; [auto|]. change (match N with O => 1 | S _ => INR N + 1 end) with (INR (S N)). rewrite S_INR. change (1 + - (t * (t * 1))) with (1 - t ^ 2). cbn [pow]. set (w := (1 - t * (t * 1)) ^ N). ring.
    - intros t. apply cont_minus; apply cont_scal; apply zz_cont.
    - cbn [pow]. ring. }
  assert (H2 : is_RInt (fun z => (2 * INR N + 5) * (z ^ 2 * (1 - z ^ 2) ^ S N) - (2 * INR N + 2) * (z ^ 2 * (1 - z ^ 2) ^ N)) 0 1
      ((2 * INR N + 5) * zz (S N) - (2 * INR N + 2) * zz N)).
  { apply (is_RInt_minus (fun z => (2 * INR N + 5) * (z ^ 2 * (1 - z ^ 2) ^ S N))); apply (is_RInt_scal (fun z => z ^ 2 * (1 - z ^ 2) ^ _)); apply zz_is. }
  pose proof (rint_det _ _ _ _ _ H H2). lra.
Qed.
Lemma zz_val N : zz N = INR (fact N) * lf2 N / 2.
Proof.
  induction N as [|N IH].
  - cbn [fact INR lf2]. apply is_RInt_unique. apply (is_RInt_antider (fun z => z ^ 3 / 3)); [|intros; apply zz_cont|field].
    intros t. auto_derive; [auto|]. cbn [pow Init.Nat.pred INR]. field.
  - pose proof (zz_rec N) as E. rewrite IH in E. pose proof (pos_INR N). apply (Rmult_eq_reg_l (2 * INR N + 5)); [|lra].
    rewrite E. rewrite fact_simpl, mult_INR, S_INR. cbn [lf2]. field. lra.
Qed.
Lemma rad1 N : rad 1 (2 * N) = zz N.
Proof.
  pose proof (disk_subst (fun z => z * (1 - z ^ 2) ^ N)) as H. pose proof PI_RGT_0.
  assert (H1 : RInt (fun rho => 2 * PI * rho * (sqrt (1 - rho ^ 2) * (1 - sqrt (1 - rho ^ 2) ^ 2) ^ N)) 0 1 = 2 * PI * rad 1 (2 * N)).
  { apply is_RInt_unique. eapply is_RInt_ext; [|apply (is_RInt_scal _ _ _ (2 * PI) _ (rad_is 1 (2 * N)))].
    intros x Hx. rewrite Rmin_left, Rmax_right in Hx by lra. unfold scal; cbn [fst snd]; unfold mult; cbn.
    replace (sqrt (1 - x * (x * 1)) * (sqrt (1 - x * (x * 1)) * 1)) with (1 - x * (x * 1)).
    2:{ transitivity (sqrt (1 - x * (x * 1)) * sqrt (1 - x * (x * 1))); [rewrite sqrt_sqrt; [reflexivity|nra]|ring]. }
    replace (1 - (1 - x * (x * 1))) with (x ^ 2) by ring. rewrite <- pow_mult.
    replace (N + (N + 0) + 1)%nat with (S (2 * N)) by lia. cbn [pow]. ring. }
  assert (H2 : RInt (fun z => 2 * PI * z * (z * (1 - z ^ 2) ^ N)) 0 1 = 2 * PI * zz N).
  { apply is_RInt_unique. eapply is_RInt_ext; [|apply (is_RInt_scal _ _ _ (2 * PI) _ (zz_is N))].
    intros x Hx. unfold scal; cbn [fst snd]; unfold mult; cbn. ring. }
  cbv beta in H. apply (Rmult_eq_reg_l (2 * PI)); [|lra].
  etransitivity; [symmetry; exact H1|]. etransitivity; [|exact H2]. apply H.
  intros z. apply cont_mult; [apply cont_id|]. apply cont_pow. apply cont_minus; [apply cont_const|]. apply cont_pow, cont_id.
Qed.

(** monomials *)
Lemma disk_monomial i j k : disk_integral (fun x y => x ^ i * y ^ j * zdisk x y ^ k) = ang i j * rad k (i + j).
Proof.
  unfold disk_integral. apply is_RInt_unique.
  eapply is_RInt_ext; [|apply (rint_scal (fun t => cos t ^ i * sin t ^ j) (rad k (i + j)) _ _ _ _ (ang_is i j)); apply Rmult_comm].
  intros t _. symmetry. apply is_RInt_unique.
  eapply is_RInt_ext; [|apply (rint_scal _ (cos t ^ i * sin t ^ j) _ _ _ _ (rad_is k (i + j))); apply Rmult_comm].
  intros rho _. cbv beta. unfold zdisk.
  replace (1 - (rho * cos t) ^ 2 - (rho * sin t) ^ 2) with (1 - rho ^ 2).
  2:{ pose proof (sin2_cos2 t) as H. unfold Rsqr in H. replace (1 - (rho * cos t) ^ 2 - (rho * sin t) ^ 2) with (1 - rho * rho * (sin t * sin t + cos t * cos t)) by ring. rewrite H. ring. }
  rewrite !Rpow_mult_distr, !pow_add. cbn [pow]. match goal with |- ?a = ?b => change (@eq R a b) end. ring.
Qed.
Lemma disk_even0 p q : disk_integral (fun x y => x ^ (2 * p) * y ^ (2 * q) * zdisk x y ^ 0) = gamma_up p * gamma_up q / INR (fact (p + q + 1)).
Proof.
  rewrite disk_monomial, ang_even, rad0. replace (p + q + 1)%nat with (S (p + q)) by lia. rewrite fact_simpl, mult_INR.
  pose proof (INR_fact_neq_0 (p + q)). pose proof (pos_INR p). pose proof (pos_INR q). rewrite S_INR, !plus_INR, !mult_INR. cbn [INR]. field. repeat split; try assumption; lra.
Qed.
Lemma disk_even1 p q : disk_integral (fun x y => x ^ (2 * p) * y ^ (2 * q) * zdisk x y ^ 1) = gamma_up p * gamma_up q * lf2 (p + q).
Proof.
  rewrite disk_monomial, ang_even. replace (2 * p + 2 * q)%nat with (2 * (p + q))%nat by lia. rewrite rad1, zz_val.
  pose proof (INR_fact_neq_0 (p + q)). field. assumption.
Qed.
Lemma disk_odd i j k : (Nat.even i && Nat.even j)%bool = false -> disk_integral (fun x y => x ^ i * y ^ j * zdisk x y ^ k) = 0.
Proof.
  intros H. rewrite disk_monomial. apply andb_false_iff in H.
  assert (Ho : forall n, Nat.even n = false -> exists h, n = (2 * h + 1)%nat).
  { intros n Hn. rewrite <- Nat.negb_odd in Hn. apply negb_false_iff in Hn. apply Nat.odd_spec in Hn. exact Hn. }
  destruct H as [H|H]; apply Ho in H; destruct H as [h ->]; [rewrite ang_odd_l|rewrite ang_odd_r]; ring.
Qed.
(** the disk integral of the basis function of degree l, order nu - l *)
Definition Dm (l nu : nat) : R := disk_integral (fun x y => basis_monomial l nu x y (zdisk x y)).
Lemma disk_ext f g : (forall x y, f x y = g x y) -> disk_integral f = disk_integral g.
Proof. intros H. unfold disk_integral. apply RInt_ext. intros. apply RInt_ext. intros. now rewrite H. Qed.
Lemma Dm_even l nu : Nat.even nu = true -> Dm l nu = disk_integral (fun x y => x ^ ((2 * l - nu) / 2) * y ^ (nu / 2) * zdisk x y ^ 0).
Proof. intros H. apply disk_ext. intros. unfold basis_monomial. rewrite H. cbn [pow]. ring. Qed.
Lemma Dm_odd l nu : Nat.even nu = false -> Dm l nu = disk_integral (fun x y => x ^ ((2 * l - nu - 1) / 2) * y ^ ((nu - 1) / 2) * zdisk x y ^ 1).
Proof. intros H. apply disk_ext. intros. unfold basis_monomial. rewrite H. cbn [pow]. ring. Qed.
