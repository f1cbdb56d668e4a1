From Coq Require Import Reals Lra Lia List Bool Arith Psatz.
From Coquelicot Require Import Coquelicot.
From Verif.Base Require Import RealAux.
From Verif.Model Require Import LimbDark.
From Verif.Spec Require Import LimbDarkSpec.
Import ListNotations.
Open Scope R_scope.

(** ** kite_area *)
Definition heron16 (a b c : R) : R :=
  (a + b + c) * (a + b - c) * (a - b + c) * (- a + b + c).

Lemma kite_square_heron a b c : kite_square a b c = heron16 a b c.
Proof.
  unfold kite_square, sort2, heron16.
  repeat (unfold Rmin, Rmax; repeat destruct (Rle_dec _ _)); ring.
Qed.
Lemma heron16_pos_sides a b c : 0 <= a -> 0 <= b -> 0 <= c ->
  a <= b + c -> b <= a + c -> c <= a + b -> 0 <= heron16 a b c.
Proof.
  intros. unfold heron16.
  repeat apply Rmult_le_pos; lra.
Qed.
Lemma kite_area_sqr a b c : kite_area a b c ^ 2 = Rmax 0 (heron16 a b c).
Proof.
  unfold kite_area, zero_safe_sqrt. rewrite kite_square_heron.
  rewrite <- Rsqr_pow2. apply Rsqr_sqrt. apply Rmax_l.
Qed.
Lemma kite_area_nonneg a b c : 0 <= kite_area a b c.
Proof. apply sqrt_pos. Qed.
Lemma kite_area_heron a b c : 0 <= a -> 0 <= b -> 0 <= c ->
  a <= b + c -> b <= a + c -> c <= a + b ->
  0 <= heron16 a b c /\ kite_area a b c = 4 * sqrt (heron16 a b c / 16) /\ kite_area a b c ^ 2 = heron16 a b c.
Proof.
  intros Ha Hb Hc H1 H2 H3. pose proof (heron16_pos_sides a b c Ha Hb Hc H1 H2 H3) as Hp.
  split; [exact Hp|]. split.
  - unfold kite_area, zero_safe_sqrt. rewrite kite_square_heron, Rmax_right by auto.
    rewrite sqrt_div_alt by lra. replace 16 with (4*4) by ring. rewrite sqrt_square by lra. field.
  - rewrite kite_area_sqr. now apply Rmax_right.
Qed.
Lemma kite_area_sym12 a b c : kite_area a b c = kite_area b a c.
Proof. unfold kite_area. rewrite !kite_square_heron. f_equal. f_equal. unfold heron16. ring. Qed.
Lemma kite_area_sym23 a b c : kite_area a b c = kite_area a c b.
Proof. unfold kite_area. rewrite !kite_square_heron. f_equal. f_equal. unfold heron16. ring. Qed.
(** base times height: the triangle with vertices (0,0), (a,0), (x,y) *)
Lemma kite_area_base_height a x y : 0 <= a ->
  kite_area a (sqrt (x^2 + y^2)) (sqrt ((x - a)^2 + y^2)) = 4 * (a * Rabs y / 2).
Proof.
  intros Ha. set (p := sqrt (x^2+y^2)). set (q := sqrt ((x-a)^2 + y^2)).
  assert (Hp2 : p * p = x^2 + y^2) by (apply sqrt_sqrt; apply Rplus_le_le_0_compat; apply pow2_ge_0).
  assert (Hq2 : q * q = (x-a)^2 + y^2) by (apply sqrt_sqrt; apply Rplus_le_le_0_compat; apply pow2_ge_0).
  unfold kite_area, zero_safe_sqrt. rewrite kite_square_heron.
  assert (heron16 a p q = (2 * a * Rabs y)²) as ->.
  { unfold heron16, Rsqr.
    replace ((a+p+q)*(a+p-q)*(a-p+q)*(-a+p+q)) with
      (4 * a^2 * (p*p) - (a^2 + p*p - q*q)^2) by ring.
    rewrite Hp2, Hq2. replace (2 * a * Rabs y * (2 * a * Rabs y)) with (4*a*a*(Rabs y * Rabs y)) by ring.
    rewrite <- Rabs_mult, (Rabs_right (y*y)) by nra. ring. }
  rewrite Rmax_right by apply Rle_0_sqr. rewrite sqrt_Rsqr.
  - field.
  - pose proof (Rabs_pos y). nra.
Qed.

(** ** kappas *)
Definition partial_occ (b r : R) : Prop := Rabs (1 - r) < b < 1 + r.

Lemma kappas_partial b r : partial_occ b r ->
  let A := sqrt (heron16 r b 1) in
  0 < heron16 r b 1 /\
  kappas b r = (A, atan2 A (b² + (r-1)*(r+1)), atan2 A (b² - (r-1)*(r+1))).
Proof.
  intros [H1 H2] A.
  assert (Hh : 0 < heron16 r b 1).
  { apply Rabs_def2 in H1. unfold heron16.
    repeat apply Rmult_lt_0_compat; lra. }
  split; [exact Hh|].
  unfold kappas.
  replace (Rgtb b (Rabs (1 - r)) && Rltb b (1 + r)) with true.
  2:{ symmetry. apply andb_true_intro. split; apply Rltb_true; lra. }
  replace (kite_area r b 1) with A; [reflexivity|].
  unfold A, kite_area, zero_safe_sqrt. rewrite kite_square_heron, Rmax_right by lra. reflexivity.
Qed.
Lemma kappas_other b r : ~ partial_occ b r ->
  kappas b r = (0, atan2 0 (b² + (r-1)*(r+1)), atan2 0 (b² - (r-1)*(r+1))).
Proof.
  intros H. unfold kappas.
  replace (Rgtb b (Rabs (1 - r)) && Rltb b (1 + r)) with false; [reflexivity|].
  symmetry. apply andb_false_iff. unfold partial_occ in H. unfold Rgtb.
  destruct (Rlt_dec (Rabs (1-r)) b).
  - right. apply Rltb_false. lra.
  - left. apply Rltb_false. lra.
Qed.

Lemma partial_pos b r : partial_occ b r -> 0 < b /\ 0 < r.
Proof.
  intros [H1 H2]. pose proof (Rabs_pos (1-r)). split; [lra|].
  apply Rabs_def2 in H1. lra.
Qed.

Lemma kappas_spec b r : partial_occ b r -> 
  exists A k0 k1, kappas b r = (A, k0, k1) /\
    0 < k0 < PI /\ 0 < k1 < PI /\
    cos k0 = (b^2 + r^2 - 1) / (2*b*r) /\ cos k1 = (1 + b^2 - r^2)/(2*b) /\
    A = 2 * b * r * sin k0 /\ A = 2 * b * sin k1.
Proof.
  intros Hp. destruct (partial_pos b r Hp) as [Hb Hr].
  destruct (kappas_partial b r Hp) as [Hh HK]. set (A := sqrt (heron16 r b 1)) in *.
  assert (HA : 0 < A) by (now apply sqrt_lt_R0).
  assert (HA2 : A * A = heron16 r b 1) by (apply sqrt_sqrt; lra).
  exists A, (atan2 A (b² + (r-1)*(r+1))), (atan2 A (b² - (r-1)*(r+1))).
  split; [exact HK|].
  assert (Hs0 : sqrt ((b² + (r-1)*(r+1))² + A²) = 2*b*r).
  { unfold Rsqr. rewrite HA2. replace ((b*b + (r-1)*(r+1))*(b*b + (r-1)*(r+1)) + heron16 r b 1) with ((2*b*r)*(2*b*r)) by (unfold heron16; ring).
    apply sqrt_square. nra. }
  assert (Hs1 : sqrt ((b² - (r-1)*(r+1))² + A²) = 2*b).
  { unfold Rsqr. rewrite HA2. replace ((b*b - (r-1)*(r+1))*(b*b - (r-1)*(r+1)) + heron16 r b 1) with ((2*b)*(2*b)) by (unfold heron16; ring).
    apply sqrt_square. nra. }
  assert (HAn : A <> 0) by lra.
  repeat split; try (apply atan2_pos_y; auto).
  - rewrite cos_atan2 by auto. rewrite Hs0. unfold Rsqr. field. lra.
  - rewrite cos_atan2 by auto. rewrite Hs1. unfold Rsqr. field. lra.
  - rewrite sin_atan2 by auto. rewrite Hs0. field. lra.
  - rewrite sin_atan2 by auto. rewrite Hs1. field. lra.
Qed.

(** ** solution vector in the trivial regimes *)
Lemma solution_no_occ eps quad b r n : 1 + Rabs r <= Rabs b ->
  solution eps quad b r n =
    match n with O => PI | S O => 2 * PI / 3 | _ => 0 end.
Proof.
  intros H. unfold solution.
  pose proof (Rabs_pos r) as Hr0. pose proof (Rabs_pos b) as Hb0.
  rewrite kappas_other.
  2:{ intros [_ H2]. lra. }
  replace (Rgeb (Rabs b) (1 + Rabs r)) with true by (symmetry; apply Rleb_true; lra).
  replace (Rleb (1 + Rabs b) (Rabs r)) with false by (symmetry; apply Rleb_false; lra).
  cbn [orb].
  destruct (s0s2 _ _ _ _ _ _ _) as [s0 s2].
  destruct n as [|[|[|n]]]; try lra.
  rewrite atan2_0_pos; [lra|]. unfold Rsqr. nra.
Qed.
Lemma solution_full_occ eps quad b r n : 1 + Rabs b <= Rabs r -> ~ (Rabs b = 0 /\ Rabs r = 1) ->
  solution eps quad b r n = 0.
Proof.
  intros H Hx. unfold solution.
  pose proof (Rabs_pos r) as Hr0. pose proof (Rabs_pos b) as Hb0.
  rewrite kappas_other.
  2:{ intros [H1 _]. rewrite Rabs_minus_sym in H1. rewrite Rabs_right in H1; lra. }
  replace (Rleb (1 + Rabs b) (Rabs r)) with true by (symmetry; apply Rleb_true; lra).
  rewrite orb_true_r.
  destruct (s0s2 _ _ _ _ _ _ _) as [s0 s2].
  destruct n as [|[|[|n]]]; try lra.
  rewrite atan2_0_neg; [lra|]. unfold Rsqr.
  assert (Rabs b * Rabs b < Rabs r * Rabs r - 1).
  { destruct (Req_dec (Rabs b) 0) as [E|E].
    - rewrite E in *. assert (1 < Rabs r) by (destruct (Req_dec (Rabs r) 1); [exfalso; apply Hx; auto|lra]). nra.
    - nra. }
  nra.
Qed.
(** the exception: concentric occultor of exactly the same radius *)
Lemma solution_b0_r1 eps quad n : solution eps quad 0 1 n = match n with 1%nat => 2 * PI / 3 | _ => 0 end.
Proof.
  unfold solution. rewrite Rabs_R0, Rabs_R1. rewrite kappas_other.
  2:{ intros [H1 _]. replace (1 - 1) with 0 in H1 by ring. rewrite Rabs_R0 in H1. lra. }
  replace (Rleb (1 + 0) 1) with true by (symmetry; apply Rleb_true; lra).
  rewrite orb_true_r. destruct (s0s2 _ _ _ _ _ _ _) as [s0 s2].
  destruct n as [|[|[|n]]]; try lra.
  replace (0² - (1 - 1) * (1 + 1)) with 0 by (unfold Rsqr; ring). rewrite atan2_0_0. lra.
Qed.
Lemma solution_even_b eps quad b r n : solution eps quad (- b) r n = solution eps quad b r n.
Proof. unfold solution. now rewrite Rabs_Ropp. Qed.
Lemma solution_even_r eps quad b r n : solution eps quad b (- r) n = solution eps quad b r n.
Proof. unfold solution. now rewrite Rabs_Ropp. Qed.

(** ** dot product with the coefficients *)
Lemma dotp_map_seq f s (g : list R) :
  dotp (map f (seq s (length g))) g = bigsum (length g) (fun i => f (s + i)%nat * nth i g 0).
Proof.
  unfold dotp. revert s. induction g as [|x g IH]; intros s; [reflexivity|].
  cbn [length seq map combine]. cbn [Rsum fold_right]. fold (Rsum (map (fun p : R * R => fst p * snd p) (combine (map f (seq (S s) (length g))) g))).
  rewrite IH. rewrite bigsum_split_first. cbn [fst snd nth]. rewrite Nat.add_0_r. f_equal.
  apply bigsum_ext. intros. cbn [nth]. f_equal. f_equal. lia.
Qed.
Lemma norm_coeffs_length u : length (norm_coeffs u) = S (length u).
Proof.
  destruct u as [|c u]; [reflexivity|]. cbv zeta beta iota delta [norm_coeffs].
  rewrite map_length. unfold greens_basis_transform. now rewrite map_length, seq_length.
Qed.
Lemma light_curve_sum eps quad u b r :
  light_curve eps quad u b r =
  bigsum (S (length u)) (fun n => solution eps quad b r n * nth n (norm_coeffs u) 0) - 1.
Proof.
  unfold light_curve, solution_vector.
  assert (Hl : (length (norm_coeffs u) - 1 + 1)%nat = length (norm_coeffs u)) by (rewrite norm_coeffs_length; lia).
  cbv zeta. rewrite Hl. rewrite dotp_map_seq. rewrite norm_coeffs_length. reflexivity.
Qed.
Definition g_raw (u : list R) : list R := greens_basis_transform u.
Lemma nth_norm_coeffs c u n : (n < S (length (c :: u)))%nat ->
  nth n (norm_coeffs (c :: u)) 0 = gb_final (c :: u) n / flux_norm (g_raw (c :: u)).
Proof.
  intros H. unfold norm_coeffs. fold (g_raw (c :: u)). set (F := flux_norm _).
  unfold g_raw, greens_basis_transform. rewrite map_map.
  rewrite nth_indep with (d' := (fun x => gb_final (c :: u) x / F) 0%nat)
    by (rewrite map_length, seq_length; exact H).
  rewrite (map_nth (fun x => gb_final (c :: u) x / F)). rewrite seq_nth by exact H. reflexivity.
Qed.
Lemma flux_norm_gb u : u <> [] -> flux_norm (g_raw u) = PI * (gb_final u 0 + gb_final u 1 / 1.5).
Proof. destruct u; [congruence|]. reflexivity. Qed.

Lemma light_curve_no_occ eps quad u b r :
  (u <> [] -> flux_norm (greens_basis_transform u) <> 0) ->
  1 + Rabs r <= Rabs b -> light_curve eps quad u b r = 0.
Proof.
  intros HF H. rewrite light_curve_sum. pose proof PI_RGT_0.
  destruct u as [|c u].
  - cbn [length bigsum norm_coeffs nth]. rewrite solution_no_occ by auto. cbn [norm_coeffs nth]. field. lra.
  - specialize (HF ltac:(congruence)). fold (g_raw (c::u)) in HF.
    pose proof (flux_norm_gb (c :: u) ltac:(congruence)) as HG.
    cbn [length]. rewrite bigsum_split_first. rewrite bigsum_split_first.
    rewrite bigsum_zero_ext.
    2:{ intros i Hi. rewrite solution_no_occ by auto. lra. }
    rewrite !solution_no_occ by auto.
    rewrite !nth_norm_coeffs by (cbn [length]; lia).
    set (F := flux_norm (g_raw (c :: u))) in *. set (a := gb_final _ 0) in *. set (d := gb_final _ 1) in *.
    transitivity (PI * (a + 2 / 3 * d) / F - 1); [field; auto|].
    replace (PI * (a + 2 / 3 * d)) with F; [field; auto|]. rewrite HG. f_equal. lra.
Qed.
Lemma light_curve_full_occ eps quad u b r :
  1 + Rabs b <= Rabs r -> ~ (Rabs b = 0 /\ Rabs r = 1) -> light_curve eps quad u b r = -1.
Proof.
  intros H Hx. rewrite light_curve_sum. rewrite bigsum_zero_ext; [lra|].
  intros. rewrite solution_full_occ by auto. lra.
Qed.
Lemma light_curve_even eps quad u b r :
  light_curve eps quad u (- b) r = light_curve eps quad u b r /\
  light_curve eps quad u b (- r) = light_curve eps quad u b r.
Proof.
  rewrite !light_curve_sum. split; f_equal; apply bigsum_ext; intros.
  - now rewrite solution_even_b.
  - now rewrite solution_even_r.
Qed.
