(** The multiprecision solution vector of a limb-darkened star. *)
From Coq Require Import Reals Lra Lia ZArith List Bool Arith.
From Coquelicot Require Import Coquelicot.
From Verif Require Import Base.RealAux Base.Analysis Model.LimbDark Model.Poly Model.SolutionVector Model.MpSolution
  Spec.LimbDarkSpec Spec.BasisSpec Spec.DiskSpec Spec.OccultSpec Spec.QuadSpec
  Proof.LimbDarkProof Proof.LimbDarkGreen Proof.LimbDarkArea Proof.Ray Proof.Edge Proof.Occult Proof.OccultedSky Proof.MpSolutionProof.
Import ListNotations.
Open Scope R_scope.

Lemma area_0 b r : 0 <= b -> 0 <= r -> ~ partial_occ b r -> kite_area r b 1 = 0.
Proof.
  intros Hb Hr N. unfold kite_area, zero_safe_sqrt. rewrite kite_square_heron. apply sqrt_neg_0. apply Req_le, Rmax_left. unfold heron16.
  destruct (Rle_dec b (Rabs (1 - r))) as [L|L].
  - destruct (Rle_dec r 1); [rewrite Rabs_right in L by lra|rewrite Rabs_left in L by lra].
    + assert (0 <= (r + b + 1) * (1 - r + b) * (1 + r - b)) by (apply Rmult_le_pos; [apply Rmult_le_pos|]; lra). nra.
    + assert (0 <= (r + b + 1) * (r + b - 1) * (1 + r - b)) by (apply Rmult_le_pos; [apply Rmult_le_pos|]; lra). nra.
  - assert (1 + r <= b) by (unfold partial_occ in N; lra). assert (0 <= (r + b + 1) * (r + b - 1) * (1 - r + b)) by (apply Rmult_le_pos; [apply Rmult_le_pos|]; lra). nra.
Qed.
Lemma mp_kappas_core b r : 0 <= b -> 0 <= r -> kappas b r = (kite_area r b 1, fst (mp_kappas b r), snd (mp_kappas b r)).
Proof.
  intros Hb Hr. unfold mp_kappas. cbv zeta. cbn [fst snd]. destruct (Rlt_dec (Rabs (1 - r)) b) as [L1|L1]; [destruct (Rlt_dec b (1 + r)) as [L2|L2]|].
  - unfold kappas, Rgtb, Rltb. destruct (Rlt_dec (Rabs (1 - r)) b); [|lra]. destruct (Rlt_dec b (1 + r)); [|lra]. reflexivity.
  - rewrite kappas_other, area_0 by (auto; unfold partial_occ; lra). reflexivity.
  - rewrite kappas_other, area_0 by (auto; unfold partial_occ; lra). reflexivity.
Qed.
(** what the proof of the entries needs to know about a configuration *)
Lemma config u b r : 0 < b -> 0 < r -> exists A k0 k1, mp_kappas b r = (k0, k1) /\ kite_area r b 1 = A /\ A = 2 * b * r * sin k0 /\ 0 <= k0 <= PI /\ (forall psi, 0 <= psi <= k0 -> 0 < k0 -> erho2 b r psi <= 1) /\
  (1 <= b + r -> A * (2 * b * r * cos k0 - (b ^ 2 + r ^ 2 - 1)) = 0) /\ (b + r < 1 -> k0 = PI /\ k1 = 0) /\
  occulted_flux u b r = bigsum (S (length u)) (fun n => gb_final u n * (2 * (PI - k1) * Hn n 1 - RInt (edge_integrand b r n) 0 k0)).
Proof.
  intros Hb Hr. pose proof PI_RGT_0 as P. assert (E := mp_kappas_core b r (Rlt_le _ _ Hb) (Rlt_le _ _ Hr)). destruct (mp_kappas b r) as [k0 k1] eqn:EK. cbn [fst snd] in E.
  destruct (Rle_dec (1 + r) b) as [L1|L1]; [|destruct (Rle_dec (1 + b) r) as [L2|L2]].
  - assert (N : ~ partial_occ b r) by (unfold partial_occ; lra). rewrite kappas_other in E by exact N. injection E as E1 E2 E3. exists 0, k0, k1. split; [reflexivity|]. 
    assert (k0 = 0) as ->. { rewrite <- E2. apply atan2_0_pos. unfold Rsqr. nra. } assert (k1 = 0) as ->. { rewrite <- E3. apply atan2_0_pos. unfold Rsqr. nra. }
    split; [now rewrite <- E1|]. split; [rewrite sin_0; ring|]. split; [lra|]. split; [intros; lra|]. split; [intros _; ring|]. split; [lra|].
    transitivity (occulted_flux u 0 0).
    + unfold occulted_flux. apply disk_ext_open. intros x y D. unfold unhidden. assert (X : x < 1) by (pose proof (pow2_ge_0 y); nra). pose proof (pow2_ge_0 y). pose proof (pow2_ge_0 x). destruct (Rlt_dec _ _) as [Q|Q]; [exfalso; assert (0 < (b - x - r) * (b - x + r)) by (apply Rmult_lt_0_compat; lra); nra|]. destruct (Rlt_dec _ _) as [Q'|Q']; [exfalso; rewrite !Rminus_0_r in Q'; replace (0 ^ 2) with 0 in Q' by ring; lra|reflexivity].
    + rewrite (occulted_green u 0 0 PI 0 (Rle_refl 0) (Rle_refl 0) contact_00). apply bigsum_ext. intros n _. f_equal. f_equal. transitivity 0; [|symmetry; exact (RInt_point (V := R_CompleteNormedModule) 0 (edge_integrand b r n))]. apply SolutionGreen.rint_0. intros t. unfold edge_integrand. cbv zeta. ring.
  - assert (N : ~ partial_occ b r) by (unfold partial_occ; rewrite Rabs_left by lra; lra). rewrite kappas_other in E by exact N. injection E as E1 E2 E3. exists 0, k0, k1. split; [reflexivity|].
    assert (k0 = 0) as ->. { rewrite <- E2. apply atan2_0_pos. unfold Rsqr. nra. } assert (k1 = PI) as ->. { rewrite <- E3. apply atan2_0_neg. unfold Rsqr. nra. }
    split; [now rewrite <- E1|]. split; [rewrite sin_0; ring|]. split; [lra|]. split; [intros; lra|]. split; [intros _; ring|]. split; [lra|].
    rewrite occulted_full by lra. symmetry. apply bigsum_zero_ext. intros n _. replace (RInt (edge_integrand b r n) 0 0) with 0; [rewrite Rminus_eq_0; ring|]. symmetry. exact (RInt_point (V := R_CompleteNormedModule) 0 (edge_integrand b r n)).
  - destruct (contact_ok b r) as (A & k0' & k1' & EK' & CT & HA & _ & In & C0); [lra|lra|lra|lra|]. rewrite EK' in E. injection E as -> -> ->. exists (kite_area r b 1), k0, k1. split; [reflexivity|]. split; [reflexivity|]. split; [exact HA|]. split; [exact (proj1 CT)|]. split; [intros psi Hp _; now apply CT|].
    split; [|split; [intros; apply In; lra|apply occulted_green; [lra|lra|exact CT]]]. intros L. destruct (Req_dec (b + r) 1) as [L'|L'].
    + destruct In as [-> _]; [lra|]. rewrite HA, sin_PI. ring.
    + rewrite C0 by lra. rewrite HA. field. lra.
Qed.
(** ** the integrals *)
Lemma edge_even b r n t : edge_integrand b r n (- t) = edge_integrand b r n t.
Proof. unfold edge_integrand, edge_z. now rewrite cos_neg. Qed.
Lemma s1_int b r k : 0 < b -> 0 < r -> 0 <= k -> (forall psi, 0 <= psi <= k -> 0 < k -> erho2 b r psi <= 1) -> is_RInt (mp_s1_func b r) (- k / 2) (k / 2) (RInt (edge_integrand b r 1) 0 k).
Proof.
  intros Hb Hr Hk H. apply sub_double; [exact Hk|apply edge_integrand_cont|apply edge_even|]. intros x Hx.
  assert (E : erho2 b r (2 * x) <= 1). { destruct (Rle_dec 0 x) as [L|L]; [apply H; lra|]. replace (erho2 b r (2 * x)) with (erho2 b r (- (2 * x))) by (unfold erho2; now rewrite cos_neg). apply H; lra. }
  unfold mp_s1_func. cbv zeta. set (t := 2 * x) in *. replace (r² + b² - 2 * b * r * cos t) with (erho2 b r t) by (unfold erho2, Rsqr; ring). unfold edge_integrand. cbv zeta. rewrite edge_z_rho.
  assert (E0 : 0 <= erho2 b r t). { unfold erho2. assert (Q := COS_bound t). assert (A := pow2_ge_0 (b - r)). assert (0 <= 2 * (b * r) * (1 - cos t)) by (apply Rmult_le_pos; [apply Rmult_le_pos; [lra|apply Rmult_le_pos; lra]|lra]). nra. }
  unfold Rleb. destruct (Rle_dec (erho2 b r t) 0) as [L|L].
  - assert (Z : erho2 b r t = 0) by lra. assert (Q : r - b * cos t = 0). { unfold erho2 in Z. assert (S := sin2_cos2 t). unfold Rsqr in S. assert (A : (r - b * cos t) ^ 2 + (b * sin t) ^ 2 = 0). { replace ((r - b * cos t) ^ 2 + (b * sin t) ^ 2) with (r ^ 2 - 2 * b * r * cos t + b ^ 2 * (sin t * sin t + cos t * cos t)) by ring. rewrite S. lra. } apply SolutionGreen.sumsq_0 in A. tauto. } rewrite Q. ring.
  - apply Rnot_le_lt in L. set (w := erho2 b r t) in *. rewrite re_pow32_p32. unfold GreenLine.p32. set (z := sqrt (1 - w)). assert (Z0 : 0 <= z) by apply sqrt_pos. assert (Z2 : z * z = 1 - w) by (apply sqrt_sqrt; lra).
    replace w with (1 - z * z) by lra. replace (1 - (1 - z * z)) with (z * z) by ring. assert (z < 1) by nra. field. split; nra.
Qed.
Lemma half_pow n x c : 0 < c -> 0 <= x -> sqrt c ^ n * re_half_pow n x = sqrt (c * x) ^ n.
Proof.
  intros Hc Hx. rewrite sqrt_mult, Rpow_mult_distr by lra. f_equal. unfold re_half_pow. destruct (Nat.even n) eqn:E.
  - destruct (SolutionGreen.even_2h n E) as [h ->]. rewrite BasisProof.div2_even, pow_mult. f_equal. rewrite <- Rsqr_pow2. symmetry. now apply Rsqr_sqrt.
  - unfold Rltb. destruct (Rlt_dec x 0); [lra|reflexivity].
Qed.
Lemma sn_int b r k n : (3 <= n)%nat -> 0 < b -> 0 < r -> 0 <= k -> (forall psi, 0 <= psi <= k -> 0 < k -> erho2 b r psi <= 1) ->
  is_RInt (fun x => let s2 := sin x ^ 2 in re_half_pow n (mp_k2 b r - s2) * (r - b + 2 * b * s2)) (- k / 2) (k / 2) (RInt (edge_integrand b r n) 0 k / (2 * r * sqrt (4 * b * r) ^ n)).
Proof.
  intros Hn Hb Hr Hk H. assert (BR : 0 < 4 * b * r) by (apply Rmult_lt_0_compat; lra). assert (Q0 : 2 * r * sqrt (4 * b * r) ^ n <> 0). { apply Rmult_integral_contrapositive. split; [lra|]. apply pow_nonzero. apply Rgt_not_eq, sqrt_lt_R0, BR. }
  replace (RInt (edge_integrand b r n) 0 k / (2 * r * sqrt (4 * b * r) ^ n)) with (RInt (fun t => / (2 * r * sqrt (4 * b * r) ^ n) * edge_integrand b r n t) 0 k).
  2:{ rewrite SolutionGreen.rint_scal_v by (apply edge_integrand_cont). match goal with |- ?a = ?b => change (@eq R a b) end. unfold Rdiv. ring. }
  apply sub_double; [exact Hk|intros x; apply cont_scal, edge_integrand_cont|intros x; now rewrite edge_even|]. intros x Hx. cbv zeta.
  assert (E : erho2 b r (2 * x) <= 1). { destruct (Rle_dec 0 x) as [L|L]; [apply H; lra|]. replace (erho2 b r (2 * x)) with (erho2 b r (- (2 * x))) by (unfold erho2; now rewrite cos_neg). apply H; lra. }
  assert (Z : 4 * b * r * (mp_k2 b r - sin x ^ 2) = 1 - erho2 b r (2 * x)). { rewrite sin2_half. unfold mp_k2, erho2, Rsqr. field. split; lra. }
  assert (W : 0 <= mp_k2 b r - sin x ^ 2). { apply Rmult_le_reg_l with (4 * b * r); [exact BR|]. rewrite Rmult_0_r, Z. lra. }
  assert (HP := half_pow n _ _ BR W). rewrite Z, <- edge_z_rho in HP. apply Rmult_eq_reg_l with (2 * r * sqrt (4 * b * r) ^ n); [|exact Q0].
  transitivity (2 * r * (sqrt (4 * b * r) ^ n * re_half_pow n (mp_k2 b r - sin x ^ 2)) * (r - b + 2 * b * sin x ^ 2)); [ring|]. rewrite HP, <- Rmult_assoc, Rinv_r, Rmult_1_l by exact Q0. unfold edge_integrand. cbv zeta.
  replace (match n with 0%nat => / 2 | 1%nat => (1 + edge_z b r (2 * x) + edge_z b r (2 * x) ^ 2) / (3 * (1 + edge_z b r (2 * x))) | _ => edge_z b r (2 * x) ^ n end) with (edge_z b r (2 * x) ^ n) by (destruct n as [|[|n]]; [lia|lia|reflexivity]).
  replace (r - b + 2 * b * sin x ^ 2) with (r - b * cos (2 * x)) by (rewrite sin2_half; field). ring.
Qed.
Lemma edge_2' b r k : 0 <= k -> (forall psi, 0 <= psi <= k -> 0 < k -> erho2 b r psi <= 1) ->
  RInt (edge_integrand b r 2) 0 k = 2 * r * (r * (1 - b ^ 2 - r ^ 2) * k + (2 * b * r ^ 2 - b * (1 - b ^ 2 - r ^ 2)) * sin k - b ^ 2 * r * (k + sin k * cos k)).
Proof.
  intros [Hk|<-] H; [apply edge_2; [lra|intros; now apply H]|]. rewrite sin_0. transitivity 0; [|match goal with |- ?a = ?b => change (@eq R a b) end; ring]. exact (RInt_point (V := R_CompleteNormedModule) 0 (edge_integrand b r 2)).
Qed.
Theorem mp_limb_dark_flux quad u b r : exact_quad quad -> 0 < b -> 0 < r ->
  exists s, mp_limb_dark quad (length u) b r = Ok s /\ length s = S (length u) /\ bigsum (S (length u)) (fun n => nth n (greens_basis_transform u) 0 * nth n s 0) = occulted_flux u b r.
Proof.
  intros HQ Hb Hr. pose proof PI_RGT_0 as P. assert (BR : 0 < 4 * b * r) by (apply Rmult_lt_0_compat; lra). destruct (config u b r Hb Hr) as (A & k0 & k1 & EK & EA & HA & K0 & I1 & C0 & In & EO).
  unfold mp_limb_dark. assert (EZ : Reqb (4 * b * r) 0 = false) by (unfold Reqb; destruct (Req_EM_T _ _); [lra|reflexivity]). rewrite EZ, andb_false_r. eexists. split; [reflexivity|]. split; [rewrite map_length, seq_length; lia|].
  rewrite EO. apply bigsum_ext. intros n Hn. rewrite nth_greens by exact Hn. f_equal. set (F := fun n => match n with 0%nat => mp_s0 b r | 1%nat => mp_s1 quad b r | 2%nat => mp_s2 b r | _ => mp_sn quad b r n end).
  rewrite nth_indep with (d' := F 0%nat) by (rewrite map_length, seq_length; lia). rewrite (map_nth F), seq_nth by lia. cbn [Nat.add]. unfold F. clear F.
  assert (S0 : mp_s0 b r = PI - k1 - r ^ 2 * k0 + A / 2) by (unfold mp_s0; rewrite EK, EA; unfold Rsqr; lra).
  destruct n as [|[|[|n]]].
  - rewrite S0, edge_0, hn_1, HA. field.
  - unfold mp_s1. rewrite EK, hn_1. rewrite (HQ _ _ _ _ (s1_int b r k0 Hb Hr (proj1 K0) I1)). field.
  - unfold mp_s2. rewrite EK, S0, hn_1, edge_2' by (tauto || apply K0). rewrite EA.
    assert (K2 : mp_k2 b r <= 1 <-> 1 <= b + r).
    { unfold mp_k2. split; intros L.
      - apply Rnot_lt_le. intros L'. apply (Rmult_le_compat_r (4 * b * r)) in L; [|lra]. unfold Rdiv in L. rewrite Rmult_assoc, Rinv_l, Rmult_1_r, Rmult_1_l in L by lra. unfold Rsqr in L. nra.
      - apply Rmult_le_reg_r with (4 * b * r); [exact BR|]. unfold Rdiv. rewrite Rmult_assoc, Rinv_l, Rmult_1_r, Rmult_1_l by lra. unfold Rsqr. nra. }
    unfold Rleb. destruct (Rle_dec (mp_k2 b r) 1) as [L|L].
    + apply K2 in L. specialize (C0 L). rewrite HA in C0 |- *. set (s := sin k0) in *. set (c := cos k0) in *. 
      transitivity (2 * (PI - k1 - r ^ 2 * k0 + 2 * b * r * s / 2) + 2 * (k1 + r ^ 2 * (r ^ 2 + 2 * b ^ 2) * k0 - / 4 * (1 + 5 * r ^ 2 + b ^ 2) * (2 * b * r * s)) - 2 * PI); [unfold Rsqr; field; lra|].
      assert (SC : s * c = s * ((b ^ 2 + r ^ 2 - 1) / (2 * b * r))). { apply Rmult_eq_reg_l with ((2 * b * r) * (2 * b * r)); [|apply Rgt_not_eq; apply Rmult_lt_0_compat; lra]. replace (2 * b * r * (2 * b * r) * (s * ((b ^ 2 + r ^ 2 - 1) / (2 * b * r)))) with (2 * b * r * s * (b ^ 2 + r ^ 2 - 1)) by (field; lra). lra. }
      rewrite SC. field. lra.
    + assert (L' : b + r < 1) by (apply Rnot_le_lt; intros L'; apply L, K2, L'). destruct (In L') as [-> ->]. rewrite HA, sin_PI. unfold Rsqr. field.
  - unfold mp_sn. rewrite EK, hn_1. assert (I := sn_int b r k0 (S (S (S n))) ltac:(lia) Hb Hr (proj1 K0) I1). erewrite HQ; [|exact I]. field. split; [apply pow_nonzero, Rgt_not_eq, sqrt_lt_R0, BR|lra].
Qed.
Lemma mp_limb_dark_zero quad n r b : (2 <= n)%nat -> b = 0 \/ r = 0 -> mp_limb_dark quad n b r = Err ZeroDivisionError.
Proof.
  intros Hn H. unfold mp_limb_dark. replace (2 <=? n)%nat with true by (symmetry; now apply Nat.leb_le). assert (E : 4 * b * r = 0) by (destruct H as [-> | ->]; ring). rewrite E. unfold Reqb. destruct (Req_EM_T 0 0); [reflexivity|lra].
Qed.
(** ** outside of the range that the callers keep to: the whole edge of the occultor is integrated over *)
Lemma rint_sincos : is_RInt (fun x => sin x ^ 2 - (sin x ^ 2) ^ 2) (- PI / 2) (PI / 2) (PI / 8).
Proof.
  assert (D : forall x : R, is_derive (fun x : R => x / 8 - sin (4 * x) / 32) x (sin x ^ 2 - (sin x ^ 2) ^ 2)).
  { intros x. auto_derive; [exact I|]. rewrite sin4_half. assert (Q := cos_2a_sin (2 * x)). replace (2 * (2 * x)) with (4 * x) in Q by ring. rewrite Q. field. }
  assert (A := is_RInt_derive (fun x : R => x / 8 - sin (4 * x) / 32) (fun x => sin x ^ 2 - (sin x ^ 2) ^ 2) (- PI / 2) (PI / 2) (fun x _ => D x)).
  match type of A with _ -> is_RInt _ _ _ ?v => replace (PI / 8) with v end.
  - apply A. intros x _. apply (ex_derive_continuous (fun x : R => sin x ^ 2 - (sin x ^ 2) ^ 2)). auto_derive. exact I.
  - change (@eq R (PI / 2 / 8 - sin (4 * (PI / 2)) / 32 - (- PI / 2 / 8 - sin (4 * (- PI / 2)) / 32)) (PI / 8)). replace (4 * (PI / 2)) with (2 * PI) by field. replace (4 * (- PI / 2)) with (- (2 * PI)) by field. rewrite sin_neg, sin_2PI. field.
Qed.
Lemma mp_outside quad lmax b r : exact_quad quad -> b <> 0 -> r <> 0 -> 1 + Rabs r <= Rabs b \/ 1 + Rabs b <= Rabs r -> exists s, mp_sT quad lmax b r = Ok s /\ nth 0 s 0 = PI * (1 - r ^ 2).
Proof.
  intros HQ Nb Nr H. assert (Hb : 0 < Rabs b) by now apply Rabs_pos_lt. assert (Hr : 0 < Rabs r) by now apply Rabs_pos_lt. unfold mp_sT. cbv zeta. rewrite <- (pow2_abs r). set (b' := Rabs b) in *. set (r' := Rabs r) in *.
  assert (M : mp_meet b' r' = false). { unfold mp_meet, Rltb. destruct (Rlt_dec (Rabs (1 - r')) b') as [L1|L1]; [destruct (Rlt_dec b' (1 + r')) as [L2|L2]|]; try reflexivity. exfalso. destruct H as [H|H]; [lra|]. rewrite Rabs_left1 in L1 by lra. lra. }
  assert (K : mp_kappa b' r' = PI) by (unfold mp_kappa; rewrite M; field).
  assert (OK : forall l nu, exists v, mp_P quad l nu b' r' = Ok v). { intros l nu. unfold mp_P, Reqb. destruct (Req_EM_T (2 * r') 0); [lra|]. destruct (Req_EM_T (4 * b' * r') 0) as [Z|_]; [assert (0 < 4 * b' * r') by (apply Rmult_lt_0_compat; lra); lra|]. destruct (mp_func b' r' l nu); eexists; reflexivity. }
  assert (OKs : forall L, exists vs, map_result (fun ln => mp_P quad (fst ln) (snd ln) b' r') L = Ok vs). { induction L as [|[l nu] L (vs & IH)]; [eexists; reflexivity|]. cbn [map_result fst snd]. destruct (OK l nu) as (v & ->). rewrite IH. eexists; reflexivity. }
  unfold mp_p, mp_q. cbv zeta. rewrite M. unfold lnus. replace (lmax + 1)%nat with (S lmax) by lia. cbn [seq flat_map map app Nat.mul Nat.add fst snd]. set (L := flat_map _ _). cbn [map_result fst snd]. destruct (OKs L) as (vs & ->).
  assert (P0 : mp_P quad 0 0 b' r' = Ok (PI * r' ^ 2)).
  { unfold mp_P, Reqb. destruct (Req_EM_T (2 * r') 0); [lra|]. destruct (Req_EM_T (4 * b' * r') 0) as [Z|_]; [assert (0 < 4 * b' * r') by (apply Rmult_lt_0_compat; lra); lra|]. rewrite K. unfold mp_func. change (2 * 0 - 0)%nat with 0%nat. cbn [Nat.modulo Nat.div Nat.divmod Nat.sub Nat.eqb andb fst snd Nat.add]. apply (f_equal (@Ok R)). apply HQ.
    assert (B := is_RInt_scal (V := R_NormedModule) _ _ _ (2 * (2 * r') ^ 2) _ rint_sincos). replace (PI * r' ^ 2) with (2 * (2 * r') ^ 2 * (PI / 8)) by field. apply (rint_ext_v _ _ _ _ _ B). intros x _. cbv beta. change (@eq R (2 * (2 * r') ^ 2 * (sin x ^ 2 - (sin x ^ 2) ^ 2)) (2 * (2 * r') ^ 2 * (sin x ^ 2 - (sin x ^ 2) ^ 2) ^ 1 * ((b' - r') / (2 * r') + sin x ^ 2) ^ 0)). ring. }
  rewrite P0. eexists. split; [reflexivity|]. cbn [map combine nth fst snd]. unfold q_entry. change (2 * 0 - 0)%nat with 0%nat. cbn [Nat.modulo Nat.div Nat.divmod Nat.sub Nat.eqb andb fst snd Nat.add]. cbn [SolutionVector.q_get SolutionVector.q_low]. cbn [pow INR Nat.add]. rewrite cos_PI2. field.
Qed.
(** ** the cache *)
Definition cache_ok quad (c : sT_cache) : Prop := forall l b r s, In (l, b, r, s) c -> mp_sT quad l b r = Ok s.
Lemma get_sT_step quad c l b r : cache_ok quad c -> fst (mp_get_sT quad c l b r) = mp_sT quad l b r /\ cache_ok quad (snd (mp_get_sT quad c l b r)).
Proof.
  intros H. unfold mp_get_sT, cache_find. destruct (find _ c) as [[[[l' b'] r'] s]|] eqn:E.
  - cbn [option_map snd fst]. split; [|exact H]. apply find_some in E as [I E]. apply andb_prop in E as [E E3]. apply andb_prop in E as [E1 E2]. apply Nat.eqb_eq in E1. unfold Reqb in *. destruct (Req_EM_T b' b); [|discriminate]. destruct (Req_EM_T r' r); [|discriminate]. subst. symmetry. now apply H.
  - cbn [option_map]. destruct (mp_sT quad l b r) as [s|e] eqn:Es; cbn [fst snd]; (split; [reflexivity|]); [|exact H]. intros l0 b0 r0 s0 [I|I]; [injection I as <- <- <- <-; exact Es|now apply H].
Qed.
Lemma get_sT_history quad calls l b r : fst (mp_get_sT quad (fold_left (fun c lbr => let '(l, b, r) := lbr in snd (mp_get_sT quad c l b r)) calls []) l b r) = mp_sT quad l b r.
Proof.
  apply get_sT_step. assert (G : forall c, cache_ok quad c -> cache_ok quad (fold_left (fun c lbr => let '(l, b, r) := lbr in snd (mp_get_sT quad c l b r)) calls c)); [|apply G; intros ? ? ? ? []].
  induction calls as [|[[l0 b0] r0] calls IH]; intros c H; [exact H|]. cbn [fold_left]. apply IH. now apply get_sT_step.
Qed.
