From Coq Require Import Reals Lra Lia List Bool Arith Psatz.
From Coquelicot Require Import Coquelicot.
From Verif.Base Require Import RealAux.
From Verif.Model Require Import LimbDark.
From Verif.Spec Require Import LimbDarkSpec.
From Verif.Proof Require Import LimbDarkProof.
Import ListNotations.
Open Scope R_scope.

Ltac eqR := match goal with |- @eq _ ?a ?b => change (@eq R a b) end.

(** ** The backward recursion *)
Definition gstep (p : nat -> R) (n : nat) (g : nat -> R) : nat -> R :=
  upd g n (p n / (INR n + 2) + g (n + 2)%nat).
Lemma gb_loop_fr u : gb_loop u = fold_right (gstep (gb_p u)) (fun _ => 0) (seq 2 (S (length u) - 2)).
Proof.
  unfold gb_loop. rewrite <- (rev_involutive (seq 2 (S (length u) - 2))) at 2.
  rewrite fold_left_rev_right. reflexivity.
Qed.
Lemma gloop_spec p k : forall s,
  let G := fold_right (gstep p) (fun _ => 0) (seq s k) in
  (forall m, (s <= m < s + k)%nat -> G m = p m / (INR m + 2) + G (m + 2)%nat) /\
  (forall m, (m < s \/ s + k <= m)%nat -> G m = 0).
Proof.
  induction k as [|k IH]; intros s G.
  - split; intros; [lia|reflexivity].
  - destruct (IH (S s)) as [H1 H2]. unfold G. cbn [seq fold_right].
    set (G' := fold_right (gstep p) (fun _ => 0) (seq (S s) k)) in *.
    unfold gstep, upd. split; intros m Hm.
    + replace ((m + 2 =? s)%nat) with false by (symmetry; apply Nat.eqb_neq; lia).
      destruct (Nat.eqb_spec m s) as [->|Hne]; [reflexivity|]. apply H1. lia.
    + replace ((m =? s)%nat) with false by (symmetry; apply Nat.eqb_neq; lia).
      apply H2. lia.
Qed.
Lemma gb_loop_rec u m : (2 <= m < S (length u))%nat ->
  gb_loop u m = gb_p u m / (INR m + 2) + gb_loop u (m + 2)%nat.
Proof. intros H. rewrite gb_loop_fr. apply gloop_spec. lia. Qed.
Lemma gb_loop_zero u m : (S (length u) <= m)%nat -> (2 <= m)%nat -> gb_loop u m = 0.
Proof. intros H H2. rewrite gb_loop_fr. apply gloop_spec. lia. Qed.
Lemma gb_final_ge2 u m : (2 <= m)%nat -> gb_final u m = gb_loop u m.
Proof.
  intros H. unfold gb_final, upd.
  replace ((m =? 0)%nat) with false by (symmetry; apply Nat.eqb_neq; lia).
  replace ((m =? 1)%nat) with false by (symmetry; apply Nat.eqb_neq; lia). reflexivity.
Qed.
Lemma gb_final_0 u : gb_final u 0 = gb_p u 0 + 2 * gb_final u 2.
Proof. rewrite (gb_final_ge2 u 2) by lia. reflexivity. Qed.
Lemma gb_final_1 u : gb_final u 1 = gb_p u 1 + 3 * gb_final u 3.
Proof. rewrite (gb_final_ge2 u 3) by lia. reflexivity. Qed.

(** ** Sums *)
Lemma gsum_bigsum (f : nat -> R) k s z :
  gsum (map f (seq s k)) s z = bigsum k (fun i => f (s + i)%nat * gtilde (s + i) z).
Proof.
  revert s. induction k as [|k IH]; intros s; [reflexivity|].
  cbn [seq map gsum]. rewrite IH, bigsum_split_first, Nat.add_0_r. f_equal.
  apply bigsum_ext. intros. f_equal; f_equal; lia.
Qed.
Lemma ld_sum_bigsum u n z : ld_sum u n z = bigsum (length u) (fun i => nth i u 0 * (1 - z) ^ (n + i)).
Proof.
  revert n. induction u as [|c u IH]; intros n; [reflexivity|].
  cbn [ld_sum length]. rewrite IH, bigsum_split_first. cbn [nth]. rewrite Nat.add_0_r. f_equal.
  apply bigsum_ext. intros. cbn [nth]. f_equal. f_equal. lia.
Qed.
Lemma binom_gt : forall n k, (n < k)%nat -> binom n k = 0.
Proof.
  induction n as [|n IH]; intros [|k] H; try lia; cbn; auto.
  rewrite !IH by lia. lra.
Qed.
Lemma binom_0_r n : binom n 0 = 1.
Proof. destruct n; reflexivity. Qed.
Lemma binomial_thm x i : forall N, (i < N)%nat -> bigsum N (fun n => binom i n * x ^ n) = (1 + x) ^ i.
Proof.
  induction i as [|i IH]; intros N H.
  - destruct N as [|N]; [lia|]. rewrite bigsum_split_first.
    rewrite bigsum_zero_ext by (intros; cbn; lra). cbn. lra.
  - destruct N as [|N]; [lia|]. rewrite bigsum_split_first. rewrite binom_0_r.
    rewrite (bigsum_ext N _ (fun n => x * (binom i n * x ^ n) + binom i (S n) * x ^ (S n)))
      by (intros; cbn; ring).
    rewrite bigsum_plus, bigsum_scal, IH by lia.
    pose proof (IH (S N) ltac:(lia)) as H'. rewrite bigsum_split_first, binom_0_r in H'. cbn [pow] in *.
    lra.
Qed.
Lemma p_poly u z : bigsum (S (length u)) (fun n => gb_p u n * z ^ n) = intensity u z.
Proof.
  unfold gb_p, intensity. rewrite ld_sum_bigsum.
  rewrite (bigsum_ext _ _ (fun n => bigsum (S (length u)) (fun i => - gb_u u i * (binom i n * (- z) ^ n)))).
  2:{ intros n _. rewrite Rmult_comm, <- Rmult_assoc, <- bigsum_scal. apply bigsum_ext. intros i _.
      replace (- z) with (-1 * z) by ring. rewrite Rpow_mult_distr, pow_add. ring. }
  rewrite bigsum_swap.
  rewrite (bigsum_ext _ _ (fun i => - gb_u u i * (1 - z) ^ i)).
  2:{ intros i Hi. rewrite bigsum_scal, binomial_thm by auto. f_equal. }
  rewrite bigsum_split_first. unfold gb_u. cbn [nth pow].
  rewrite (bigsum_ext _ _ (fun i => (-1) * (nth i u 0 * (1 - z) ^ (1 + i)))) by (intros; cbn [nth pow Nat.add]; ring).
  rewrite bigsum_scal. ring.
Qed.
Lemma green_sum u z : u <> [] ->
  bigsum (S (length u)) (fun n => gb_final u n * gtilde n z)
  = bigsum (S (length u)) (fun n => gb_p u n * z ^ n).
Proof.
  intros Hu. destruct u as [|c u]; [congruence|]. set (U := c :: u) in *.
  assert (HL : length U = S (length u)) by reflexivity. rewrite HL. clear Hu.
  set (L := length u) in *.
  assert (Hz : forall m, (S (S L) <= m)%nat -> gb_final U m = 0).
  { intros m Hm. rewrite gb_final_ge2 by lia. apply gb_loop_zero; lia. }
  assert (Hr : forall m, (2 <= m < S (S L))%nat -> (INR m + 2) * gb_final U m - (INR m + 2) * gb_final U (m+2) = gb_p U m).
  { intros m Hm. rewrite !gb_final_ge2 by lia. rewrite (gb_loop_rec U m) by lia. pose proof (pos_INR m). field. lra. }
  set (g := gb_final U) in *.
  rewrite (bigsum_split_first (S L)), (bigsum_split_first L).
  rewrite (bigsum_ext L _ (fun i => (INR (i+2) + 2) * g (i+2)%nat * z ^ (i+2) + (-1) * ((INR i + 2) * g (i+2)%nat * z ^ i))).
  2:{ intros i _. replace (i + 2)%nat with (S (S i)) by lia. cbn [gtilde]. rewrite !S_INR. cbn [pow]. ring. }
  rewrite bigsum_plus, bigsum_scal.
  (* extend the second sum to L+2 terms *)
  assert (HE : bigsum L (fun i => (INR i + 2) * g (i+2)%nat * z ^ i) =
               bigsum (S (S L)) (fun i => (INR i + 2) * g (i+2)%nat * z ^ i)).
  { cbn [bigsum]. rewrite (Hz (L+2)%nat), (Hz (S L + 2)%nat) by lia. ring. }
  rewrite HE. rewrite (bigsum_split_first (S L)), (bigsum_split_first L).
  rewrite (bigsum_split_first (S L)), (bigsum_split_first L).
  rewrite (bigsum_ext L (fun i => gb_p U (S (S i)) * z ^ S (S i))
     (fun i => (INR (i+2) + 2) * g (i+2)%nat * z ^ (i+2) + (-1) * ((INR (S (S i)) + 2) * g (S (S i) + 2)%nat * z ^ (S (S i))))).
  2:{ intros i Hi. rewrite <- Hr by lia. replace (i+2)%nat with (S (S i)) by lia. ring. }
  rewrite bigsum_plus, bigsum_scal.
  pose proof (gb_final_0 U) as G0. pose proof (gb_final_1 U) as G1. fold g in G0, G1.
  cbn [gtilde pow INR Nat.add]. rewrite G0, G1. ring.
Qed.
Lemma green_preserves u z : u <> [] -> gsum (greens_basis_transform u) 0 z = intensity u z.
Proof.
  intros Hu. unfold greens_basis_transform. rewrite gsum_bigsum.
  rewrite <- p_poly, <- green_sum by auto. apply bigsum_ext. reflexivity.
Qed.

(** ** Disk integral *)
Lemma disk_subst (h : R -> R) : (forall z, continuous h z) ->
  RInt (fun rho => 2 * PI * rho * h (sqrt (1 - rho ^ 2))) 0 1 = RInt (fun z => 2 * PI * z * h z) 0 1.
Proof.
  intros Hh. pose proof PI_RGT_0.
  set (f1 := fun rho => 2 * PI * rho * h (sqrt (1 - rho ^ 2))).
  set (f2 := fun z => 2 * PI * z * h z).
  assert (Hc1 : forall x, continuous f1 x).
  { intros x. unfold f1. apply (continuous_mult (fun x => 2 * PI * x) (fun x => h (sqrt (1 - x^2)))).
    - apply (ex_derive_continuous (fun x => 2 * PI * x)). auto_derive. auto.
    - apply continuous_comp; [|apply Hh].
      apply continuous_comp; [|apply continuous_sqrt].
      apply (ex_derive_continuous (fun x => 1 - x^2)). auto_derive. auto. }
  assert (Hc2 : forall x, continuous f2 x).
  { intros x. unfold f2. apply (continuous_mult (fun x => 2 * PI * x) h); [|apply Hh].
    apply (ex_derive_continuous (fun x => 2 * PI * x)). auto_derive. auto. }
  assert (HE1 := RInt_comp f1 sin cos 0 (PI/2)).
  assert (HE2 := RInt_comp f2 cos (fun x => - sin x) 0 (PI/2)).
  rewrite sin_0, sin_PI2 in HE1. rewrite cos_0, cos_PI2 in HE2.
  rewrite <- HE1.
  2:{ intros; apply Hc1. }
  2:{ intros; split; [apply is_derive_cos || (auto_derive; auto; ring)|].
      apply (ex_derive_continuous cos). auto_derive. auto. }
  rewrite <- (opp_RInt_swap f2).
  2:{ apply (ex_RInt_continuous f2). intros; apply Hc2. }
  rewrite <- HE2.
  2:{ intros; apply Hc2. }
  2:{ intros; split; [auto_derive; auto; ring|].
      apply (ex_derive_continuous (fun x => - sin x)). auto_derive. auto. }
  rewrite <- RInt_opp.
  2:{ apply (ex_RInt_continuous (fun y => scal (- sin y) (f2 (cos y)))). intros z _.
      apply (continuous_mult (fun y => - sin y) (fun y => f2 (cos y))).
      - apply (ex_derive_continuous (fun x => - sin x)). auto_derive. auto.
      - apply continuous_comp; [|apply Hc2]. apply (ex_derive_continuous cos). auto_derive. auto. }
  apply RInt_ext. intros x [Hx1 Hx2]. rewrite Rmin_left in Hx1 by lra. rewrite Rmax_right in Hx2 by lra.
  unfold f1, f2, scal, opp; cbn. unfold mult; cbn.
  assert (Hq : sqrt (1 - sin x * (sin x * 1)) = cos x).
  { replace (1 - sin x * (sin x * 1)) with ((cos x)²) by (rewrite cos2; unfold Rsqr; ring).
    apply sqrt_Rsqr. apply cos_ge_0; lra. }
  rewrite Hq. ring.
Qed.

Lemma continuous_bigsum n (f : nat -> R -> R) x :
  (forall i, (i < n)%nat -> continuous (f i) x) -> continuous (fun y => bigsum n (fun i => f i y)) x.
Proof.
  induction n as [|n IH]; intros H; cbn.
  - apply continuous_const.
  - apply (continuous_plus (fun y => bigsum n (fun i => f i y)) (f n)).
    + apply IH. intros; apply H; lia.
    + apply H; lia.
Qed.
Lemma is_RInt_bigsum n (f : nat -> R -> R) (v : nat -> R) a b :
  (forall i, (i < n)%nat -> is_RInt (f i) a b (v i)) ->
  is_RInt (fun y => bigsum n (fun i => f i y)) a b (bigsum n v).
Proof.
  induction n as [|n IH]; intros H; cbn.
  - evar_last; [apply (is_RInt_const a b 0)|]. unfold scal; cbn; unfold mult; cbn; ring.
  - apply (is_RInt_plus (fun y => bigsum n (fun i => f i y)) (f n)).
    + apply IH. intros; apply H; lia.
    + apply H; lia.
Qed.
Lemma is_RInt_antider (F f : R -> R) a b v :
  (forall x, is_derive F x (f x)) -> (forall x, continuous f x) -> F b - F a = v -> is_RInt f a b v.
Proof.
  intros H1 H2 <-. apply (is_RInt_derive F f); auto.
Qed.
Lemma continuous_ex_derive (f : R -> R) x : ex_derive f x -> continuous f x.
Proof. apply (ex_derive_continuous f). Qed.

Lemma int_z_gtilde n : is_RInt (fun z => 2 * PI * z * gtilde n z) 0 1
  (match n with O => PI | S O => 2 * PI / 3 | _ => 0 end).
Proof.
  destruct n as [|[|m]].
  - apply (is_RInt_antider (fun z => PI * z ^ 2)); intros; cbn [gtilde].
    + auto_derive; auto; ring.
    + apply continuous_ex_derive. auto_derive. auto.
    + ring.
  - apply (is_RInt_antider (fun z => 2 * PI / 3 * z ^ 3)); intros; cbn [gtilde].
    + auto_derive; auto; field.
    + apply continuous_ex_derive. auto_derive. auto.
    + field.
  - apply (is_RInt_antider (fun z => 2 * PI * (z ^ (S (S (S (S m)))) - z ^ (S (S m))))); intros; cbn [gtilde].
    + auto_derive; auto. rewrite !S_INR. cbn [pow Init.Nat.pred]. destruct m; cbn [INR pow]; ring.
    + apply continuous_ex_derive. auto_derive. auto.
    + rewrite !pow1, !pow_i by lia. ring.
Qed.
Lemma continuous_intensity u z : continuous (intensity u) z.
Proof.
  apply continuous_ext with (fun z => 1 - bigsum (length u) (fun i => nth i u 0 * (1 - z) ^ (1 + i))).
  { intros y. unfold intensity. now rewrite ld_sum_bigsum. }
  apply (continuous_minus (fun _ => 1) (fun z => bigsum (length u) (fun i => nth i u 0 * (1 - z) ^ (1 + i)))).
  - apply continuous_const.
  - apply (continuous_bigsum (length u) (fun i z => nth i u 0 * (1 - z) ^ (1 + i))). intros.
    apply continuous_ex_derive. auto_derive. auto.
Qed.
Lemma flux_norm_is_disk_flux u : u <> [] -> flux_norm (greens_basis_transform u) = disk_flux u.
Proof.
  intros Hu. unfold disk_flux. rewrite disk_subst by apply continuous_intensity.
  symmetry. apply is_RInt_unique.
  apply is_RInt_ext with (fun z => bigsum (S (length u)) (fun n => gb_final u n * (2 * PI * z * gtilde n z))).
  { intros z _. rewrite (bigsum_ext _ _ (fun n => 2 * PI * z * (gb_final u n * gtilde n z))) by (intros; ring).
    rewrite bigsum_scal, green_sum, p_poly by auto. reflexivity. }
  replace (flux_norm (greens_basis_transform u)) with
    (bigsum (S (length u)) (fun n => gb_final u n * (match n with O => PI | S O => 2 * PI / 3 | _ => 0 end))).
  - apply is_RInt_bigsum. intros i _. apply (is_RInt_scal (fun z => 2 * PI * z * gtilde i z)). apply int_z_gtilde.
  - fold (g_raw u). rewrite flux_norm_gb by auto. destruct u as [|c u]; [congruence|]. cbn [length].
    rewrite 2 bigsum_split_first. rewrite bigsum_zero_ext by (intros; ring).
    replace 1.5 with (3/2) by lra. field.
Qed.
Lemma int_z_pow i : is_RInt (fun z => 2 * PI * z * (1 - z) ^ i) 0 1 (PI * (2 / ((INR i + 1) * (INR i + 2)))).
Proof.
  pose proof (pos_INR i).
  apply (is_RInt_antider (fun z => - 2 * PI * (z * (1 - z) ^ (S i) / (INR i + 1) + (1-z)^(S (S i)) / ((INR i + 1) * (INR i + 2))))).
  - intros x. auto_derive; auto.
    replace (match i with 0%nat => 1 | S _ => INR i + 1 end) with (INR i + 1) by (destruct i; cbn; lra).
    change (x * (- (1))) with (x * (- 1)). replace (1 + - x) with (1 - x) by ring. field. lra.
  - intros x. apply continuous_ex_derive. auto_derive. auto.
  - replace (1 - 1) with 0 by ring. replace (1 - 0) with 1 by ring.
    rewrite !pow1, !pow_i by lia. field. lra.
Qed.
Lemma ld_norm_sum_bigsum u n : ld_norm_sum u n =
  bigsum (length u) (fun i => nth i u 0 * (2 / ((INR (n + i) + 1) * (INR (n + i) + 2)))).
Proof.
  revert n. induction u as [|c u IH]; intros n; [reflexivity|].
  cbn [ld_norm_sum length]. rewrite IH, bigsum_split_first. cbn [nth]. rewrite Nat.add_0_r. f_equal.
  - unfold Rdiv. ring.
  - apply bigsum_ext. intros. cbn [nth]. replace (n + S i)%nat with (S n + i)%nat by lia. reflexivity.
Qed.
Lemma disk_flux_closed u : disk_flux u = PI * (1 - ld_norm_sum u 1).
Proof.
  unfold disk_flux. rewrite disk_subst by apply continuous_intensity. apply is_RInt_unique.
  apply is_RInt_ext with (fun z => 2 * PI * z * (1 - z)^0 - bigsum (length u) (fun i => nth i u 0 * (2 * PI * z * (1 - z) ^ (1 + i)))).
  { intros z _. unfold intensity. rewrite ld_sum_bigsum.
    rewrite (bigsum_ext _ (fun i => nth i u 0 * (2 * PI * z * (1 - z) ^ (1 + i))) (fun i => 2 * PI * z * (nth i u 0 * (1 - z) ^ (1 + i)))) by (intros; ring).
    rewrite bigsum_scal. cbn [pow]. eqR. ring. }
  replace (PI * (1 - ld_norm_sum u 1)) with
    (PI * (2 / ((INR 0 + 1) * (INR 0 + 2))) - bigsum (length u) (fun i => nth i u 0 * (PI * (2 / ((INR (1+i) + 1) * (INR (1+i) + 2)))))).
  - apply (is_RInt_minus (fun z => 2 * PI * z * (1-z)^0) (fun z => bigsum (length u) (fun i => nth i u 0 * (2 * PI * z * (1 - z) ^ (1 + i))))).
    + apply int_z_pow.
    + apply (is_RInt_bigsum (length u) (fun i z => nth i u 0 * (2 * PI * z * (1 - z) ^ (1 + i)))). intros i _.
      apply (is_RInt_scal (fun z => 2 * PI * z * (1 - z) ^ (1+i))). apply int_z_pow.
  - rewrite ld_norm_sum_bigsum.
    rewrite (bigsum_ext _ (fun i => nth i u 0 * (PI * (2 / ((INR (1 + i) + 1) * (INR (1 + i) + 2)))))
        (fun i => PI * (nth i u 0 * (2 / ((INR (1 + i) + 1) * (INR (1 + i) + 2)))))) by (intros; ring).
    rewrite bigsum_scal. cbn [INR]. field.
Qed.
