From Coq Require Import Reals Lra Lia List Bool Arith Psatz.
From Coquelicot Require Import Coquelicot.
From Verif.Base Require Import RealAux Analysis.
From Verif.Model Require Import LimbDark.
From Verif.Spec Require Import LimbDarkSpec.
From Verif.Proof Require Import LimbDarkProof LimbDarkGreen.
Import ListNotations.
Open Scope R_scope.

Lemma Rmax_abs y : Rmax 0 y = (y + Rabs y) / 2.
Proof. unfold Rmax, Rabs. destruct (Rle_dec 0 y), (Rcase_abs y); lra. Qed.
Lemma half_chord_cont c R0 x : continuous (half_chord c R0) x.
Proof.
  unfold half_chord. apply cont_sqrt, cont_Rmax; [apply cont_const|].
  apply continuous_ex_derive. auto_derive. auto.
Qed.
Lemma half_chord_nonneg c R0 x : 0 <= half_chord c R0 x.
Proof. apply sqrt_pos. Qed.
Lemma half_chord_out c R0 x : 0 <= R0 -> x <= c - R0 \/ c + R0 <= x -> half_chord c R0 x = 0.
Proof.
  intros HR H. unfold half_chord. rewrite Rmax_left; [apply sqrt_0|].
  destruct H; nra.
Qed.
Lemma half_chord_le c R0 c' R0' x :
  R0^2 - (x-c)^2 <= R0'^2 - (x-c')^2 -> half_chord c R0 x <= half_chord c' R0' x.
Proof.
  intros H. unfold half_chord. apply sqrt_le_1_alt. apply Rle_max_compat_l. exact H.
Qed.

Lemma segment c R0 th : 0 <= R0 -> 0 <= th <= PI ->
  is_RInt (fun x => 2 * half_chord c R0 x) (c - R0) (c - R0 * cos th) (R0^2 * (th - sin th * cos th)).
Proof.
  intros HR Hth.
  set (f := fun x => 2 * half_chord c R0 x).
  assert (Hc : forall x, continuous f x).
  { intros x. unfold f. apply cont_scal, half_chord_cont. }
  assert (HE := RInt_comp f (fun t => c - R0 * cos t) (fun t => R0 * sin t) 0 th).
  cbv beta in HE. rewrite cos_0, Rmult_1_r in HE.
  evar_last.
  - apply (RInt_correct f). apply (ex_RInt_continuous f). intros; apply Hc.
  - rewrite <- HE; clear HE.
    2:{ intros; apply Hc. }
    2:{ intros; split; [auto_derive; auto; ring|]. apply continuous_ex_derive. auto_derive. auto. }
    apply is_RInt_unique.
    apply is_RInt_ext with (fun t => 2 * R0^2 * (sin t)^2).
    + intros t [H1 H2]. rewrite Rmin_left in H1 by lra. rewrite Rmax_right in H2 by lra.
      unfold f, half_chord, scal; cbn; unfold mult; cbn.
      replace (R0 * (R0 * 1) - (c - R0 * cos t - c) * ((c - R0 * cos t - c) * 1)) with ((R0 * sin t)²).
      2:{ unfold Rsqr. pose proof (sin2_cos2 t) as Hsc. unfold Rsqr in Hsc.
          replace (R0 * sin t * (R0 * sin t)) with (R0 * R0 * (sin t * sin t)) by ring.
          replace (sin t * sin t) with (1 - cos t * cos t) by lra. ring. }
      assert (0 <= sin t) by (apply sin_ge_0; lra).
      rewrite Rmax_right by apply Rle_0_sqr. rewrite sqrt_Rsqr by nra. ring.
    + apply (is_RInt_antider (fun t => R0^2 * (t - sin t * cos t))).
      * intros t. auto_derive; auto. pose proof (sin2_cos2 t) as Hsc. unfold Rsqr in Hsc.
        replace (cos t * cos t) with (1 - sin t * sin t) by lra. 
        match goal with |- ?a = ?b => replace a with (R0*R0*(1 + sin t * sin t - cos t * cos t)) by ring end.
        replace (cos t * cos t) with (1 - sin t * sin t) by lra. ring.
      * intros. apply continuous_ex_derive. auto_derive. auto.
      * rewrite sin_0. ring.
Qed.
Lemma full_chord c R0 : 0 <= R0 -> is_RInt (fun x => 2 * half_chord c R0 x) (c - R0) (c + R0) (PI * R0^2).
Proof.
  intros H. pose proof PI_RGT_0. pose proof (segment c R0 PI H ltac:(lra)) as S.
  rewrite cos_PI, sin_PI in S. replace (c - R0 * -1) with (c + R0) in S by ring.
  replace (R0^2 * (PI - 0 * -1)) with (PI * R0^2) in S by ring. exact S.
Qed.

Definition mn b r x := 2 * Rmin (half_chord 0 1 x) (half_chord b r x).

Lemma is_RInt_zero_on a b (f : R -> R) :
  (forall x, Rmin a b < x < Rmax a b -> f x = 0) -> is_RInt f a b 0.
Proof.
  intros H. apply is_RInt_ext with (fun _ => 0).
  - intros x Hx. symmetry. now apply H.
  - evar_last; [apply (is_RInt_const a b 0)|]. unfold scal; cbn; unfold mult; cbn; ring.
Qed.

Lemma overlap_none b r : 0 <= r -> 1 + r <= b -> overlap_area b r = 0.
Proof.
  intros Hr H. apply is_RInt_unique. apply is_RInt_zero_on. intros x [H1 H2].
  rewrite Rmax_right in H2 by lra.
  rewrite (half_chord_out b r x) by lra. rewrite Rmin_right by apply half_chord_nonneg. ring.
Qed.
Lemma overlap_full b r : 0 <= b -> 1 + b <= r -> overlap_area b r = PI.
Proof.
  intros Hb H. apply is_RInt_unique.
  apply is_RInt_ext with (fun x => 2 * half_chord 0 1 x).
  - intros x [H1 H2]. rewrite Rmin_left in H1 by lra. rewrite Rmax_right in H2 by lra.
    rewrite Rmin_left; [reflexivity|]. apply half_chord_le. nra.
  - pose proof (full_chord 0 1 ltac:(lra)) as S. replace (0 - 1) with (-1) in S by ring.
    replace (0 + 1) with 1 in S by ring. replace (PI * 1^2) with PI in S by ring. exact S.
Qed.
Lemma overlap_inside b r : 0 <= b -> 0 <= r -> b + r <= 1 -> overlap_area b r = PI * r^2.
Proof.
  intros Hb Hr H. apply is_RInt_unique.
  apply (rint_chasles _ (-1) (b - r) 1 0 (PI * r^2)); [| |ring].
  { apply is_RInt_zero_on. intros x [H1 H2]. rewrite Rmax_right in H2 by lra.
    rewrite (half_chord_out b r x) by lra. rewrite Rmin_right by apply half_chord_nonneg. ring. }
  apply (rint_chasles _ (b - r) (b + r) 1 (PI * r^2) 0); [| |ring].
  - apply is_RInt_ext with (fun x => 2 * half_chord b r x); [|now apply full_chord].
    intros x [H1 H2]. rewrite Rmin_left in H1 by lra. rewrite Rmax_right in H2 by lra.
    rewrite Rmin_right; [reflexivity|]. apply half_chord_le. nra.
  - apply is_RInt_zero_on. intros x [H1 H2]. rewrite Rmin_left in H1 by lra.
    rewrite (half_chord_out b r x) by lra. rewrite Rmin_right by apply half_chord_nonneg. ring.
Qed.
Lemma overlap_partial b r k0 k1 : partial_occ b r -> 0 < k0 < PI -> 0 < k1 < PI ->
  cos k0 = (b^2 + r^2 - 1) / (2*b*r) -> cos k1 = (1 + b^2 - r^2)/(2*b) ->
  overlap_area b r = (k1 - sin k1 * cos k1) + r^2 * (k0 - sin k0 * cos k0).
Proof.
  intros Hp Hk0 Hk1 C0 C1. destruct (partial_pos b r Hp) as [Hb Hr].
  destruct Hp as [Hp1 Hp2]. apply Rabs_def2 in Hp1.
  set (x0 := cos k1).
  assert (Hx0 : x0 = b - r * cos k0) by (unfold x0; rewrite C0, C1; field; lra).
  pose proof (COS_bound k0) as B0. pose proof (COS_bound k1) as B1. fold x0 in B1.
  apply is_RInt_unique.
  apply (rint_chasles _ (-1) (b - r) 1 0 (k1 - sin k1 * x0 + r^2 * (k0 - sin k0 * cos k0))); [| |ring].
  { apply is_RInt_zero_on. intros x [H1 H2]. rewrite Rmax_right in H2 by lra.
    rewrite (half_chord_out b r x) by lra. rewrite Rmin_right by apply half_chord_nonneg. ring. }
  assert (Hbx : b * x0 = (1 + b^2 - r^2) / 2) by (unfold x0; rewrite C1; field; lra).
  assert (Hbr : b - r <= x0) by (rewrite Hx0; nra).
  apply (rint_chasles _ (b - r) x0 1 (r^2 * (k0 - sin k0 * cos k0)) (k1 - sin k1 * x0)); [| |ring].
  - apply is_RInt_ext with (fun x => 2 * half_chord b r x).
    + intros x [H1 H2]. rewrite Rmin_left in H1 by lra. rewrite Rmax_right in H2 by lra.
      rewrite Rmin_right; [reflexivity|]. apply half_chord_le. nra.
    + rewrite Hx0. apply segment; lra.
  - apply is_RInt_ext with (fun x => 2 * half_chord 0 1 x).
    + intros x [H1 H2]. rewrite Rmin_left in H1 by lra. rewrite Rmax_right in H2 by lra.
      rewrite Rmin_left; [reflexivity|]. apply half_chord_le. nra.
    + pose proof (full_chord 0 1 ltac:(lra)) as SF.
      pose proof (segment 0 1 (PI - k1) ltac:(lra) ltac:(lra)) as SS.
      rewrite Rtrigo_facts.cos_pi_minus, Rtrigo_facts.sin_pi_minus in SS. fold x0 in SS.
      replace (0 - 1 * - x0) with x0 in SS by ring. replace (0 + 1) with 1 in SF by ring.
      apply (rint_chasles _ x0 (0-1) 1 (- (1^2 * (PI - k1 - sin k1 * - x0))) (PI * 1^2)); [|exact SF|ring].
      apply rint_swap. rewrite Ropp_involutive. exact SS.
Qed.

(** ** The uniform light curve *)
Lemma solution0_abs eps quad b r : 
  solution eps quad b r 0 = solution eps quad (Rabs b) (Rabs r) 0.
Proof. unfold solution. now rewrite !Rabs_Rabsolu. Qed.

Lemma solution_zero_overlap eps quad b r : 0 <= b -> 0 <= r ->
  solution eps quad b r 0 = PI - overlap_area b r.
Proof.
  intros Hb Hr.
  destruct (Rle_dec (1 + r) b) as [Hno|Hno].
  { rewrite overlap_none by auto. rewrite solution_no_occ; [ring|]. rewrite !Rabs_right by lra. lra. }
  destruct (Rle_dec (1 + b) r) as [Hfu|Hfu].
  { rewrite overlap_full by auto.
    destruct (Req_dec b 0) as [Eb|Eb].
    - subst b. destruct (Req_dec r 1) as [Er|Er].
      + subst r. rewrite solution_b0_r1. ring.
      + rewrite solution_full_occ; [ring| |]; rewrite ?Rabs_R0, ?(Rabs_right r) by lra; lra.
    - rewrite solution_full_occ; [ring| |]; rewrite ?(Rabs_right b), ?(Rabs_right r) by lra; lra. }
  unfold solution. rewrite !Rabs_right by lra.
  replace (Rgeb b (1 + r)) with false by (symmetry; apply Rleb_false; lra).
  replace (Rleb (1 + b) r) with false by (symmetry; apply Rleb_false; lra).
  cbn [orb].
  destruct (Rlt_dec (b + r) 1) as [Hin|Hin].
  { rewrite overlap_inside by lra.
    destruct (kappas b r) as [[A k0] k1]. unfold s0s2.
    replace (Rgtb ((1 + (b + r)) * (1 - (b + r)) + 4 * b * r) (4 * b * r)) with true.
    - unfold Rsqr. ring.
    - symmetry. apply Rltb_true. nra. }
  assert (Hcond : Rgtb ((1 + (b + r)) * (1 - (b + r)) + 4 * b * r) (4 * b * r) = false).
  { apply Rltb_false. nra. }
  destruct (Req_dec (b + r) 1) as [He|He].
  { rewrite overlap_inside by lra. rewrite kappas_other.
    2:{ intros [H1 _]. replace (1 - r) with b in H1 by lra. rewrite Rabs_right in H1; lra. }
    unfold s0s2. rewrite Hcond.
    assert (b = 1 - r) by lra. subst b.
    assert (0 < r < 1) by lra.
    rewrite (atan2_0_neg ((1 - r)² + (r - 1) * (r + 1))), (atan2_0_pos ((1 - r)² - (r - 1) * (r + 1))); unfold Rsqr; [lra|nra|nra]. }
  assert (Hp : partial_occ b r).
  { split; [|lra]. apply Rabs_def1; lra. }
  destruct (kappas_spec b r Hp) as (A & k0 & k1 & HK & Hk0 & Hk1 & C0 & C1 & A0 & A1).
  rewrite (overlap_partial b r k0 k1) by auto.
  rewrite HK. unfold s0s2. rewrite Hcond.
  assert (Heq : sin k1 * cos k1 + r^2 * (sin k0 * cos k0) = A / 2).
  { rewrite C0, C1. replace (sin k1) with (A / (2*b)) by (rewrite A1; field; lra).
    replace (sin k0) with (A / (2*b*r)) by (rewrite A0; field; lra). field. lra. }
  unfold Rsqr. lra.
Qed.
Lemma uniform_light_curve eps quad b r : light_curve eps quad [] b r = solution eps quad b r 0 / PI - 1.
Proof.
  rewrite light_curve_sum. cbn [length bigsum norm_coeffs nth]. pose proof PI_RGT_0. field. lra.
Qed.
Lemma uniform_overlap eps quad b r :
  light_curve eps quad [] b r = - overlap_area (Rabs b) (Rabs r) / PI.
Proof.
  rewrite uniform_light_curve, solution0_abs, solution_zero_overlap by apply Rabs_pos.
  pose proof PI_RGT_0. field. lra.
Qed.
Lemma mn_cont b r x : continuous (fun x => 2 * Rmin (half_chord 0 1 x) (half_chord b r x)) x.
Proof.
  apply cont_scal, cont_Rmin; apply half_chord_cont.
Qed.
Lemma overlap_bounds b r : 0 <= overlap_area b r <= PI.
Proof.
  pose proof (full_chord 0 1 ltac:(lra)) as S. replace (0 - 1) with (-1) in S by ring.
  replace (0 + 1) with 1 in S by ring. replace (PI * 1^2) with PI in S by ring.
  assert (E : ex_RInt (fun x => 2 * Rmin (half_chord 0 1 x) (half_chord b r x)) (-1) 1).
  { apply (ex_RInt_continuous (V := R_CompleteNormedModule)). intros; apply mn_cont. }
  split.
  - apply RInt_ge_0; [lra|exact E|]. intros x _.
    pose proof (half_chord_nonneg 0 1 x). pose proof (half_chord_nonneg b r x).
    pose proof (Rmin_glb _ _ _ H H0). lra.
  - rewrite <- (is_RInt_unique _ _ _ _ S). unfold overlap_area.
    apply RInt_le; [lra|exact E|eexists; exact S|]. intros x _.
    pose proof (Rmin_l (half_chord 0 1 x) (half_chord b r x)). lra.
Qed.
Lemma uniform_bounds eps quad b r : -1 <= light_curve eps quad [] b r <= 0.
Proof.
  rewrite uniform_overlap. pose proof PI_RGT_0.
  pose proof (overlap_bounds (Rabs b) (Rabs r)) as [H1 H2].
  split.
  - apply Rmult_le_reg_r with PI; [lra|]. replace (- overlap_area (Rabs b) (Rabs r) / PI * PI) with (- overlap_area (Rabs b) (Rabs r)) by (field; lra). lra.
  - apply Rmult_le_reg_r with PI; [lra|]. replace (- overlap_area (Rabs b) (Rabs r) / PI * PI) with (- overlap_area (Rabs b) (Rabs r)) by (field; lra). lra.
Qed.

(** ** satisfiability witnesses and the exceptional point *)
Lemma b0r1_value eps quad : light_curve eps quad [0.5] 0 1 = - 0.6.
Proof.
  rewrite light_curve_sum. cbn [length bigsum]. rewrite !solution_b0_r1.
  rewrite !nth_norm_coeffs by (cbn; lia). rewrite flux_norm_gb by congruence.
  cbn. unfold gb_final, upd, gb_loop, gb_p, gb_u. cbn. pose proof PI_RGT_0.
  match goal with |- context [PI * ?x] => idtac end.
  field_simplify_eq; [lra|lra].
Qed.
Lemma light_curve_no_occ' eps quad u b r : disk_flux u <> 0 -> 1 + Rabs r <= Rabs b ->
  light_curve eps quad u b r = 0.
Proof.
  intros HF. apply light_curve_no_occ. intros Hu. now rewrite flux_norm_is_disk_flux.
Qed.
Lemma no_occ_sat : disk_flux [0.4; 0.3] <> 0 /\ 1 + Rabs 0.1 <= Rabs (-1.2).
Proof.
  split.
  - rewrite disk_flux_closed. cbn. pose proof PI_RGT_0. apply Rgt_not_eq. apply Rmult_lt_0_compat; [lra|]. lra.
  - rewrite Rabs_right, Rabs_left by lra. lra.
Qed.
Lemma full_occ_sat : 1 + Rabs 0.3 <= Rabs 1.5 /\ ~ (Rabs 0.3 = 0 /\ Rabs 1.5 = 1).
Proof. rewrite !Rabs_right by lra. lra. Qed.
Lemma kappas_sat : Rabs (1 - 0.1) < 1 < 1 + 0.1.
Proof. rewrite Rabs_right; lra. Qed.
Lemma kite_props a b c : 0 <= a -> 0 <= b -> 0 <= c -> a <= b + c -> b <= a + c -> c <= a + b ->
  0 <= kite_square a b c /\
  kite_area a b c = 4 * sqrt ((a+b+c)/2 * ((a+b+c)/2 - a) * ((a+b+c)/2 - b) * ((a+b+c)/2 - c)).
Proof.
  intros. destruct (kite_area_heron a b c) as (H5 & H6 & _); auto.
  rewrite kite_square_heron. split; [exact H5|]. rewrite H6. f_equal. f_equal. unfold heron16. field.
Qed.
Lemma kite_perm a b c :
  kite_area a b c = kite_area b a c /\ kite_area a b c = kite_area a c b /\ kite_area a b c = kite_area c b a
  /\ kite_area a b c = kite_area b c a /\ kite_area a b c = kite_area c a b.
Proof.
  repeat split; unfold kite_area; rewrite !kite_square_heron; do 2 f_equal; unfold heron16; ring.
Qed.
Lemma kappas_thm b r : 0 <= r -> Rabs (1 - r) < b < 1 + r ->
  let '(_, kappa0, kappa1) := kappas b r in
  0 < kappa0 < PI /\ 0 < kappa1 < PI /\
  cos kappa0 = (b^2 + r^2 - 1) / (2*b*r) /\ cos kappa1 = (1 + b^2 - r^2)/(2*b).
Proof.
  intros _ H. destruct (kappas_spec b r H) as (A & k0 & k1 & HK & Hk0 & Hk1 & C0 & C1 & _).
  rewrite HK. auto.
Qed.
Lemma kappas_area b r : 0 <= r -> Rabs (1 - r) < b < 1 + r ->
  let '(area, kappa0, kappa1) := kappas b r in
  area = kite_area r b 1 /\ area = 2 * b * r * sin kappa0 /\ area = 2 * b * sin kappa1.
Proof.
  intros _ H. destruct (kappas_spec b r H) as (A & k0 & k1 & HK & Hk0 & Hk1 & C0 & C1 & A0 & A1).
  destruct (kappas_partial b r H) as [Hh HK']. rewrite HK in *. injection HK' as E1 E2 E3.
  repeat split; auto. unfold kite_area, zero_safe_sqrt. rewrite kite_square_heron, Rmax_right by lra. exact E1.
Qed.
Lemma zss_derive eps x : 0 < eps -> 10 * eps <= x ->
  is_derive zero_safe_sqrt x (snd (zero_safe_sqrt_jvp eps x 1)).
Proof.
  intros He Hx. assert (0 < x) by lra. unfold zero_safe_sqrt, zero_safe_sqrt_jvp, zero_safe_sqrt_denom.
  replace (Rltb x (10 * eps)) with false by (symmetry; apply Rltb_false; lra). cbn [snd].
  evar_last; [apply (is_derive_sqrt (fun x => x) x 1); [apply (is_derive_id (K := R_AbsRing))|auto]|].
  assert (Hs := sqrt_lt_R0 x H). assert (Hss : sqrt x * sqrt x = x) by (apply sqrt_sqrt; lra).
  assert (HH : forall s, 0 < s -> 1 / (2 * s) = / 2 * 1 * s / (s * s)) by (intros; field; lra).
  cbn. replace 0.5 with (/ 2) by lra. rewrite (HH (sqrt x) Hs), Hss. reflexivity.
Qed.
Lemma zss_linear eps x a v : snd (zero_safe_sqrt_jvp eps x (a * v)) = a * snd (zero_safe_sqrt_jvp eps x v).
Proof. unfold zero_safe_sqrt_jvp, zero_safe_sqrt_denom. cbn [snd]. unfold Rdiv. ring. Qed.
Lemma zss_bounded eps x v : 0 <= x < 10 * eps ->
  Rabs (snd (zero_safe_sqrt_jvp eps x v)) <= 0.5 * Rabs v * sqrt (10 * eps).
Proof.
  intros [H1 H2]. unfold zero_safe_sqrt_jvp, zero_safe_sqrt_denom.
  replace (Rltb x (10 * eps)) with true by (symmetry; apply Rltb_true; lra). cbn [snd].
  unfold Rdiv. rewrite Rinv_1, Rmult_1_r, !Rabs_mult.
  rewrite (Rabs_right 0.5), (Rabs_right (sqrt x)) by (try lra; apply Rle_ge, sqrt_pos).
  apply Rmult_le_compat_l; [pose proof (Rabs_pos v); lra|]. apply sqrt_le_1_alt. lra.
Qed.
Lemma zss_primal eps x v : fst (zero_safe_sqrt_jvp eps x v) = zero_safe_sqrt x.
Proof. reflexivity. Qed.
Lemma zss_denom eps x : 0 < eps -> zero_safe_sqrt_denom eps x <> 0.
Proof. intros H. unfold zero_safe_sqrt_denom. destruct (Rltb x (10 * eps)) eqn:E; [lra|]. apply Rltb_false in E. lra. Qed.
Lemma zss_zero eps v : 0 < eps -> zero_safe_sqrt_jvp eps 0 v = (0, 0).
Proof.
  intros. unfold zero_safe_sqrt_jvp, zero_safe_sqrt_denom. rewrite sqrt_0. f_equal. unfold Rdiv. ring.
Qed.
Lemma zss_value x : 0 <= x -> 0 <= zero_safe_sqrt x /\ zero_safe_sqrt x ^ 2 = x.
Proof. intros. split; [apply sqrt_pos|]. unfold zero_safe_sqrt. rewrite <- Rsqr_pow2. now apply Rsqr_sqrt. Qed.
