(** The limb-darkened light curve is the visible flux. *)
From Coq Require Import Reals Lra Lia List Bool Arith Psatz.
From Coquelicot Require Import Coquelicot.
From Verif Require Import Base.RealAux Base.Analysis Spec.BasisSpec Spec.DiskSpec Spec.LimbDarkSpec Spec.OccultSpec Model.LimbDark
  Proof.LimbDarkProof Proof.LimbDarkGreen Proof.LimbDarkArea Proof.Ray Proof.Edge.
Import ListNotations.
Open Scope R_scope.

(** the radial integrals of Green's basis, x^2 hn (sqrt (1 - x^2)) *)
Definition hn (n : nat) (z : R) : R := match n with 0%nat => / 2 | 1%nat => (1 + z + z ^ 2) / (3 * (1 + Rabs z)) | _ => z ^ n end.
Definition Hn (n : nat) (x : R) : R := x ^ 2 * hn n (sqrt (1 - x ^ 2)).
Lemma hn_cont n z : continuous (hn n) z.
Proof.
  destruct n as [|[|n]]; cbn [hn].
  - apply cont_const.
  - apply cont_div.
    + apply (ex_derive_continuous (fun z : R => 1 + z + z ^ 2)). auto_derive. exact I.
    + apply cont_scal, cont_plus; [apply cont_const|apply cont_abs, cont_id].
    + pose proof (Rabs_pos z). lra.
  - apply (cont_pow (fun z => z) (S (S n))). apply cont_id.
Qed.
Lemma sqrt_omx2_cont x : continuous (fun x => sqrt (1 - x ^ 2)) x.
Proof. apply cont_sqrt. apply (ex_derive_continuous (fun x : R => 1 - x ^ 2)). auto_derive. exact I. Qed.
Lemma Hn_cont n x : continuous (Hn n) x.
Proof.
  unfold Hn. apply cont_mult.
  - apply (cont_pow (fun x => x) 2), cont_id.
  - apply (cont_comp (fun x => sqrt (1 - x ^ 2)) (hn n)); [apply sqrt_omx2_cont|apply hn_cont].
Qed.
Lemma gtilde_cont n z : continuous (gtilde n) z.
Proof. destruct n as [|[|n]]; cbn [gtilde]; [apply cont_const|apply cont_id|]. apply (cont_minus (fun z => (INR (S (S n)) + 2) * z ^ S (S n)) (fun z => INR (S (S n)) * z ^ n)); apply cont_scal, (cont_pow (fun z => z)), cont_id. Qed.
(** antiderivative in the polar angle *)
Definition Gn (n : nat) (t : R) : R := match n with 0%nat => sin t ^ 2 / 2 | 1%nat => - (cos t ^ 3) / 3 | _ => sin t ^ 2 * cos t ^ n end.
Lemma Gn_derive n (x : R) : is_derive (Gn n) x (cos x * (gtilde n (cos x) * sin x)).
Proof.
  unfold Gn. destruct n as [|[|m]]; cbn [gtilde].
  - auto_derive; [exact I|]. field.
  - auto_derive; [exact I|]. field.
  - auto_derive; [exact I|]. pose proof (sin2_cos2 x) as C. unfold Rsqr in C. assert (S2 : sin x * sin x = 1 - cos x * cos x) by lra.
    destruct m as [|m].
    + cbn [pow Init.Nat.pred INR]. transitivity (2 * sin x * cos x * (cos x * cos x) - 2 * (sin x * sin x) * sin x * cos x); [ring|]. rewrite S2. ring.
    + rewrite !S_INR. cbn [pow Init.Nat.pred]. set (c := cos x ^ m).
      transitivity (2 * sin x * (cos x * (cos x * (cos x * c))) * cos x - (INR m + 1 + 1 + 1) * (sin x * sin x) * sin x * (cos x * (cos x * c))); [ring|]. rewrite S2. ring.
Qed.
Lemma Gn_int n t : is_RInt (fun y => cos y * (gtilde n (cos y) * sin y)) 0 t (Gn n t - Gn n 0).
Proof.
  apply (is_RInt_antider (Gn n)); [| |reflexivity].
  - intros x. apply Gn_derive.
  - intros x. apply (cont_mult cos (fun y => gtilde n (cos y) * sin y)); [apply (cont_cos (fun x => x)), cont_id|].
    apply (cont_mult (fun y => gtilde n (cos y)) sin); [|apply (cont_sin (fun x => x)), cont_id].
    apply (cont_comp cos (gtilde n)); [apply (cont_cos (fun x => x)), cont_id|apply gtilde_cont].
Qed.
Lemma Hn_int n x : 0 <= x <= 1 -> is_RInt (fun s => gtilde n (sqrt (1 - s ^ 2)) * s) 0 x (Hn n x).
Proof.
  intros Hx. set (f := fun s => gtilde n (sqrt (1 - s ^ 2)) * s).
  assert (Cf : forall s, continuous f s).
  { intros s. apply (cont_mult (fun s => gtilde n (sqrt (1 - s ^ 2))) (fun s => s)); [|apply cont_id]. apply (cont_comp (fun s => sqrt (1 - s ^ 2)) (gtilde n)); [apply sqrt_omx2_cont|apply gtilde_cont]. }
  set (t := asin x). assert (Ht : 0 <= t <= PI / 2).
  { unfold t. pose proof (asin_bound x) as [B1 B2]. split; [|exact B2]. destruct (Rle_lt_dec 0 (asin x)) as [|N]; [assumption|exfalso]. assert (S := sin_lt_0_var (asin x)). rewrite sin_asin in S by lra. pose proof PI_RGT_0. lra. }
  assert (St : sin t = x) by (unfold t; apply sin_asin; lra).
  assert (Ct : cos t = sqrt (1 - x ^ 2)). { rewrite <- St. replace (1 - sin t ^ 2) with ((cos t)²) by (rewrite cos2; unfold Rsqr; ring). symmetry. apply sqrt_Rsqr. apply cos_ge_0; lra. }
  assert (S := rint_comp f sin cos 0 t Cf (fun x => ltac:(auto_derive; [exact I|ring])) (fun x => cont_cos (fun x => x) x (cont_id x))). rewrite sin_0, St in S.
  assert (E : RInt f 0 x = Gn n t - Gn n 0).
  { apply (rint_val _ _ 0 t _ _ S (Gn_int n t)). intros y Hy. rewrite Rmin_left, Rmax_right in Hy by lra. unfold f.
    replace (sqrt (1 - sin y ^ 2)) with (cos y); [reflexivity|]. symmetry. replace (1 - sin y ^ 2) with ((cos y)²) by (rewrite cos2; unfold Rsqr; ring). apply sqrt_Rsqr. apply cos_ge_0; lra. }
  replace (Hn n x) with (RInt f 0 x); [apply rint_cont, Cf|]. rewrite E. unfold Hn. rewrite <- Ct, <- St.
  assert (C0 : 0 <= cos t) by (apply cos_ge_0; lra). match goal with |- ?a = ?b => change (@eq R a b) end. unfold Gn. destruct n as [|[|n]]; cbn [hn].
  - rewrite sin_0. field.
  - rewrite cos_0, Rabs_right by lra. pose proof (sin2_cos2 t) as C. unfold Rsqr in C. replace (sin t ^ 2) with (1 - cos t * cos t) by (rewrite <- C; ring). field. lra.
  - rewrite sin_0. replace (0 ^ 2) with 0 by ring. ring.
Qed.
Lemma hn_1 n : Hn n 1 = match n with 0%nat => / 2 | 1%nat => / 3 | _ => 0 end.
Proof.
  unfold Hn. replace (1 - 1 ^ 2) with 0 by ring. rewrite sqrt_0. destruct n as [|[|n]]; cbn [hn]; [ring|rewrite Rabs_R0; field|rewrite pow_i by lia; ring].
Qed.
Lemma Hn_0 n : Hn n 0 = 0. Proof. unfold Hn. ring. Qed.

Lemma edge_z_rho b r psi : edge_z b r psi = sqrt (1 - erho2 b r psi).
Proof. unfold edge_z, erho2. f_equal. ring. Qed.
Lemma edge_integrand_hn b r n psi : edge_integrand b r n psi = 2 * ((r ^ 2 - b * r * cos psi) * hn n (edge_z b r psi)).
Proof.
  unfold edge_integrand. assert (0 <= edge_z b r psi) by apply sqrt_pos. destruct n as [|[|n]]; cbn [hn].
  - field.
  - rewrite Rabs_right by lra. field. lra.
  - ring.
Qed.
Lemma edge_integrand_cont b r n psi : continuous (edge_integrand b r n) psi.
Proof.
  apply continuous_ext with (fun psi => 2 * ((r ^ 2 - b * r * cos psi) * hn n (edge_z b r psi))); [intros; symmetry; apply edge_integrand_hn|].
  apply cont_scal, cont_mult.
  - apply (ex_derive_continuous (fun psi : R => r ^ 2 - b * r * cos psi)). auto_derive. exact I.
  - apply (cont_comp (edge_z b r) (hn n)); [|apply hn_cont]. unfold edge_z. apply cont_sqrt.
    apply (ex_derive_continuous (fun psi : R => 1 - b ^ 2 - r ^ 2 + 2 * b * r * cos psi)). auto_derive. exact I.
Qed.
(** the configuration of the two disks *)
Definition contact (b r k0 k1 : R) : Prop :=
  0 <= k0 <= PI /\ 0 <= k1 <= PI /\ (forall psi, 0 <= psi <= k0 -> erho2 b r psi <= 1) /\ (forall psi, k0 <= psi <= PI -> k0 < PI -> 1 <= erho2 b r psi) /\
  (k0 = PI /\ k1 = 0 \/ (0 < r /\ erho2 b r k0 = 1 /\ cos k1 = b - r * cos k0)).
Lemma shadow_edge b r k0 k1 n : 0 <= b -> 0 <= r -> contact b r k0 k1 ->
  is_RInt (shadow b r (Hn n)) 0 PI (/ 2 * RInt (edge_integrand b r n) 0 k0 + k1 * Hn n 1).
Proof.
  intros Hb Hr0 (K0 & K1 & I1 & I2 & K). destruct Hr0 as [Hr|<-].
  2:{ destruct K as [[-> ->]|[K _]]; [|lra]. replace (RInt (edge_integrand b 0 n) 0 PI) with 0.
      - replace (/ 2 * 0 + 0 * Hn n 1) with 0 by ring. apply is_RInt_zero_on. intros phi _. unfold shadow. replace (ray_in b 0 phi) with (ray_out b 0 phi); [ring|].
        unfold ray_in, ray_out, ray_d. rewrite sqrt_neg_0; [ring|]. pose proof (pow2_ge_0 (b * sin phi)). lra.
      - symmetry. apply is_RInt_unique. apply is_RInt_zero_on. intros psi _. unfold edge_integrand. cbv zeta. ring. }
  destruct (polar_ok b r Hb Hr) as (w & th & D & C & W & T & O & S). specialize (S (fun _ => 1) (Hn n) (cont_const 1) (Hn_cont n) (Hn_0 n)).
  apply (rint_ext_v _ (shadow b r (Hn n))) in S; [|intros; ring]. rewrite (RInt_ext _ (fun psi => Hn n (clip (erho b r psi)) * w psi)) in S by (intros; apply Rmult_1_l).
  assert (RP : forall psi, 0 <= erho b r psi) by (intros; apply sqrt_pos).
  replace (/ 2 * RInt (edge_integrand b r n) 0 k0 + k1 * Hn n 1) with (RInt (fun psi => Hn n (clip (erho b r psi)) * w psi) 0 PI); [exact S|].
  apply is_RInt_unique. apply (rint_chasles _ 0 k0 PI (/ 2 * RInt (edge_integrand b r n) 0 k0) (k1 * Hn n 1)); [| |ring].
  - assert (A : is_RInt (fun psi => / 2 * edge_integrand b r n psi) 0 k0 (/ 2 * RInt (edge_integrand b r n) 0 k0)).
    { apply (is_RInt_scal (V := R_NormedModule)). apply rint_cont, edge_integrand_cont. }
    apply (rint_ext_v _ _ _ _ _ A). intros psi Hp. rewrite Rmin_left, Rmax_right in Hp by lra. rewrite edge_integrand_hn.
    specialize (I1 psi ltac:(lra)). assert (Q := rho_sq b r Hb Hr psi). specialize (RP psi). rewrite clip_id by nra. unfold Hn. replace (erho b r psi ^ 2) with (erho2 b r psi) by (rewrite <- Q; ring).
    rewrite edge_z_rho, <- W. field.
  - destruct (Req_dec k0 PI) as [E|NE].
    + subst k0. assert (k1 = 0) as ->.
      { destruct K as [[_ K]|(_ & R1 & K)]; [exact K|]. destruct (O PI ltac:(pose proof PI_RGT_0; lra)) as [_ [O1 _]]. rewrite T, cos_0 in O1. unfold erho in O1. rewrite R1, sqrt_1 in O1. rewrite <- K in O1.
        rewrite <- (acos_cos k1 K1). replace (cos k1) with 1 by lra. apply acos_1. }
      rewrite Rmult_0_l. apply is_RInt_zero_on. intros x Hx. rewrite Rmin_left, Rmax_left in Hx by lra. lra.
    + assert (TH : th k0 = k1).
      { destruct K as [[K _]|(_ & R1 & K)]; [lra|]. destruct (O k0 ltac:(lra)) as [B [O1 _]]. unfold erho in O1. rewrite R1, sqrt_1, <- K in O1. rewrite <- (acos_cos k1 K1), <- (acos_cos (th k0) B). f_equal. lra. }
      assert (A : is_RInt (fun psi => w psi * Hn n 1) k0 PI (k1 * Hn n 1)).
      { apply (is_RInt_antider (fun psi => - (th psi * Hn n 1))).
        - intros x. assert (Dx := D x). evar_last; [apply (is_derive_opp (V := R_NormedModule)); apply (is_derive_scal_l (V := R_NormedModule)); exact Dx|]. change (- (- w x * Hn n 1) = w x * Hn n 1). ring.
        - intros x. apply (cont_mult w (fun _ => Hn n 1)); [apply C|apply cont_const].
        - rewrite T, TH. ring. }
      apply (rint_ext_v _ _ _ _ _ A). intros psi Hp. rewrite Rmin_left, Rmax_right in Hp by lra. specialize (I2 psi ltac:(lra) ltac:(lra)). assert (Q := rho_sq b r Hb Hr psi). specialize (RP psi).
      rewrite clip_1 by nra. ring.
Qed.
Lemma disk_ext (f g : R -> R -> R) : (forall x y, f x y = g x y) -> disk_integral f = disk_integral g.
Proof. intros E. unfold disk_integral. apply RInt_ext. intros phi _. apply RInt_ext. intros rho _. rewrite E. reflexivity. Qed.
Lemma visible_green N (g : nat -> R) b r k0 k1 : 0 <= b -> 0 <= r -> contact b r k0 k1 ->
  disk_integral (unhidden b r (fun x y => bigsum N (fun n => g n * gtilde n (zdisk x y)))) =
  bigsum N (fun n => g n * (2 * (PI - k1) * Hn n 1 - RInt (edge_integrand b r n) 0 k0)).
Proof.
  intros Hb Hr K. set (H := fun x => bigsum N (fun n => g n * Hn n x)).
  rewrite (visible_radial b r (fun z => bigsum N (fun n => g n * gtilde n z)) H) with (S := bigsum N (fun n => g n * (/ 2 * RInt (edge_integrand b r n) 0 k0 + k1 * Hn n 1))).
  - unfold H. transitivity (bigsum N (fun n => (2 * PI) * (g n * Hn n 1) + (- 2) * (g n * (/ 2 * RInt (edge_integrand b r n) 0 k0 + k1 * Hn n 1)))).
    + rewrite bigsum_plus, !bigsum_scal. ring.
    + apply bigsum_ext. intros n _. field.
  - intros x Hx. unfold H. apply is_RInt_ext with (fun s => bigsum N (fun n => g n * (gtilde n (sqrt (1 - s ^ 2)) * s))).
    + intros s _. transitivity (bigsum N (fun n => s * (g n * gtilde n (sqrt (1 - s ^ 2))))); [apply bigsum_ext; intros; ring|]. rewrite bigsum_scal. match goal with |- ?a = ?b => change (@eq R a b) end. ring.
    + apply is_RInt_bigsum. intros n _. apply (is_RInt_scal (V := R_NormedModule)). apply Hn_int, Hx.
  - intros x. unfold H. apply (continuous_bigsum N (fun n x => g n * Hn n x)). intros n _. apply cont_scal, Hn_cont.
  - apply is_RInt_ext with (fun phi => bigsum N (fun n => g n * shadow b r (Hn n) phi)).
    + intros phi _. unfold shadow, H. match goal with |- ?a = ?b => change (@eq R a b) end.
      transitivity (bigsum N (fun n => g n * Hn n (clip (ray_out b r phi)) + (- 1) * (g n * Hn n (clip (ray_in b r phi))))); [apply bigsum_ext; intros; ring|]. rewrite bigsum_plus, bigsum_scal. ring.
    + apply is_RInt_bigsum. intros n _. apply (is_RInt_scal (V := R_NormedModule)). apply shadow_edge; assumption.
Qed.
Lemma intensity_green u z : intensity u z = bigsum (S (length u)) (fun n => gb_final u n * gtilde n z).
Proof.
  destruct u as [|c u].
  - cbn. unfold gb_final, upd, gb_loop, gb_p, gb_u, intensity. cbn. ring.
  - rewrite green_sum, p_poly by congruence. reflexivity.
Qed.
Lemma occulted_green u b r k0 k1 : 0 <= b -> 0 <= r -> contact b r k0 k1 ->
  occulted_flux u b r = bigsum (S (length u)) (fun n => gb_final u n * (2 * (PI - k1) * Hn n 1 - RInt (edge_integrand b r n) 0 k0)).
Proof.
  intros Hb Hr K. rewrite <- (visible_green _ _ b r k0 k1 Hb Hr K). unfold occulted_flux. apply disk_ext. intros x y. unfold unhidden. destruct (Rlt_dec _ _); [reflexivity|apply intensity_green].
Qed.
(** the code's angles *)
Lemma contact_ok b r : 0 <= b -> 0 <= r -> b < 1 + r -> r < 1 + b ->
  exists A k0 k1, kappas b r = (A, k0, k1) /\ contact b r k0 k1 /\ A = 2 * b * r * sin k0 /\ k0 = edge_angle b r /\ (b + r <= 1 -> k0 = PI /\ k1 = 0) /\
    (1 < b + r -> cos k0 = (b^2 + r^2 - 1) / (2*b*r)).
Proof.
  intros Hb Hr H1 H2. pose proof PI_RGT_0 as P. destruct (Rle_dec (b + r) 1) as [L|L].
  - rewrite kappas_other.
    2:{ intros [N _]. rewrite Rabs_right in N by lra. lra. }
    rewrite (atan2_0_neg (b² + (r - 1) * (r + 1))), (atan2_0_pos (b² - (r - 1) * (r + 1))); unfold Rsqr; [|nra|nra].
    exists 0, PI, 0. split; [reflexivity|]. split; [|split; [rewrite sin_PI; ring|split; [unfold edge_angle; destruct (Rle_dec _ _); [reflexivity|lra]|split; [intros _; split; reflexivity|lra]]]].
    split; [lra|split; [lra|split; [|split; [intros; lra|left; split; reflexivity]]]].
    intros psi _. unfold erho2. pose proof (COS_bound psi). assert (0 <= 2 * (b * r) * (1 + cos psi)) by (apply Rmult_le_pos; [nra|lra]). nra.
  - assert (Hp : partial_occ b r) by (split; [apply Rabs_def1; lra|lra]). destruct (partial_pos b r Hp) as [Pb Pr].
    destruct (kappas_spec b r Hp) as (A & k0 & k1 & HK & Hk0 & Hk1 & C0 & C1 & A0 & A1). exists A, k0, k1.
    assert (E0 : erho2 b r k0 = 1) by (unfold erho2; rewrite C0; field; lra).
    assert (PBR : 0 < b * r) by nra.
    split; [exact HK|split; [|split; [exact A0|split; [|split; [lra|intros _; exact C0]]]]].
    + split; [lra|split; [lra|split; [|split; [|]]]].
      * intros psi Hs. rewrite <- E0. unfold erho2. assert (cos k0 <= cos psi) by (destruct (proj2 Hs) as [N| ->]; [apply Rlt_le, cos_decreasing_1; lra|lra]). nra.
      * intros psi Hs _. rewrite <- E0. unfold erho2. assert (cos psi <= cos k0) by (destruct (proj1 Hs) as [N| <-]; [apply Rlt_le, cos_decreasing_1; lra|lra]). nra.
      * right. split; [exact Pr|split; [exact E0|]]. rewrite C0, C1. field. lra.
    + unfold edge_angle. destruct (Rle_dec _ _); [lra|]. rewrite <- C0. symmetry. apply acos_cos. lra.
Qed.
(** the closed forms of the code *)
Lemma edge_0 b r k : RInt (edge_integrand b r 0) 0 k = r ^ 2 * k - b * r * sin k.
Proof.
  apply is_RInt_unique. apply (is_RInt_antider (fun psi => r ^ 2 * psi - b * r * sin psi)); [|apply edge_integrand_cont|rewrite sin_0; ring].
  assert (D : forall x : R, is_derive (fun psi : R => r ^ 2 * psi - b * r * sin psi) x (edge_integrand b r 0 x)); [|exact D].
  intros x. unfold edge_integrand. cbv zeta. auto_derive; [exact I|]. field.
Qed.
Lemma edge_2 b r k : 0 <= k -> (forall psi, 0 <= psi <= k -> erho2 b r psi <= 1) ->
  RInt (edge_integrand b r 2) 0 k = 2 * r * (r * (1 - b ^ 2 - r ^ 2) * k + (2 * b * r ^ 2 - b * (1 - b ^ 2 - r ^ 2)) * sin k - b ^ 2 * r * (k + sin k * cos k)).
Proof.
  intros Hk H. apply is_RInt_unique.
  set (F := fun psi : R => 2 * r * (r * (1 - b ^ 2 - r ^ 2) * psi + (2 * b * r ^ 2 - b * (1 - b ^ 2 - r ^ 2)) * sin psi - b ^ 2 * r * (psi + sin psi * cos psi))).
  set (f := fun psi : R => 2 * r * (r - b * cos psi) * (1 - b ^ 2 - r ^ 2 + 2 * b * r * cos psi)).
  assert (A : is_RInt f 0 k (F k)).
  { apply (is_RInt_antider F f).
    - assert (D : forall x : R, is_derive F x (f x)); [|exact D]. intros x. unfold F, f. auto_derive; [exact I|]. pose proof (sin2_cos2 x) as C. unfold Rsqr in C. assert (S2 : sin x * sin x = 1 - cos x * cos x) by lra.
      match goal with |- ?a = _ => replace a with (2 * r * (r * (1 - b^2 - r ^ 2) + (2 * b * r ^ 2 - b * (1 - b ^ 2 - r ^ 2)) * cos x - b ^ 2 * r * (1 + cos x * cos x - sin x * sin x))) by ring end. rewrite S2. ring.
    - intros x. unfold f. apply continuous_ex_derive. assert (D : forall x : R, ex_derive (fun psi : R => 2 * r * (r - b * cos psi) * (1 - b ^ 2 - r ^ 2 + 2 * b * r * cos psi)) x) by (intros y; auto_derive; exact I). apply D.
    - unfold F. rewrite sin_0. ring. }
  apply (rint_ext_v _ _ _ _ _ A). intros psi Hp. rewrite Rmin_left, Rmax_right in Hp by lra. unfold f, edge_integrand. cbv zeta. f_equal. specialize (H psi ltac:(lra)). unfold edge_z. unfold erho2 in H.
  rewrite <- (sqrt_sqrt (1 - b ^ 2 - r ^ 2 + 2 * b * r * cos psi)) at 1 by lra. ring.
Qed.
Definition quad_gap (eps : R) (quad : list (R * R)) (b r k0 : R) (n : nat) : R :=
  match n with 0%nat | 2%nat => 0 | _ => RInt (edge_integrand b r n) 0 k0 - p_entry eps quad b r (b²) (r²) k0 n end.
Lemma solution_edge eps quad b r n : 0 <= b -> 0 <= r -> b < 1 + r -> r < 1 + b -> exists k1,
  contact b r (edge_angle b r) k1 /\
  solution eps quad b r n = 2 * (PI - k1) * Hn n 1 - RInt (edge_integrand b r n) 0 (edge_angle b r) + quad_gap eps quad b r (edge_angle b r) n.
Proof.
  intros Hb Hr H1 H2. destruct (contact_ok b r Hb Hr H1 H2) as (A & k0 & k1 & HK & K & HA & E & In & C0). exists k1. rewrite <- E. split; [exact K|].
  unfold solution. rewrite !Rabs_right by lra. replace (Rgeb b (1 + r)) with false by (symmetry; apply Rleb_false; lra). replace (Rleb (1 + b) r) with false by (symmetry; apply Rleb_false; lra).
  cbn [orb]. rewrite HK. destruct K as (K0 & K1 & I1 & _).
  destruct n as [|[|[|n]]].
  - rewrite edge_0, hn_1. cbn [quad_gap]. unfold s0s2. destruct (Rlt_dec (b + r) 1) as [L|L].
    + replace (Rgtb ((1 + (b + r)) * (1 - (b + r)) + 4 * b * r) (4 * b * r)) with true by (symmetry; apply Rltb_true; nra).
      destruct (In ltac:(lra)) as [-> ->]. rewrite sin_PI. unfold Rsqr. field.
    + replace (Rgtb ((1 + (b + r)) * (1 - (b + r)) + 4 * b * r) (4 * b * r)) with false by (symmetry; apply Rltb_false; nra).
      rewrite HA. unfold Rsqr. lra.
  - rewrite hn_1. cbn [quad_gap]. destruct (s0s2 _ _ _ _ _ _ _). lra.
  - rewrite edge_2 by (assumption || lra). rewrite hn_1. cbn [quad_gap]. unfold s0s2. destruct (Rlt_dec (b + r) 1) as [L|L].
    + replace (Rgtb ((1 + (b + r)) * (1 - (b + r)) + 4 * b * r) (4 * b * r)) with true by (symmetry; apply Rltb_true; nra).
      destruct (In ltac:(lra)) as [-> ->]. rewrite sin_PI. unfold Rsqr. lra.
    + replace (Rgtb ((1 + (b + r)) * (1 - (b + r)) + 4 * b * r) (4 * b * r)) with false by (symmetry; apply Rltb_false; nra).
      destruct (Req_dec (b + r) 1) as [L1|L1].
      * destruct (In ltac:(lra)) as [-> ->]. rewrite HA. rewrite sin_PI. unfold Rsqr. lra.
      * rewrite HA. specialize (C0 ltac:(lra)). destruct (Req_dec (b * r) 0) as [Z|Z].
        { exfalso. apply Rmult_integral in Z. lra. }
        assert (BR : 2 * b * r * cos k0 = b ^ 2 + r ^ 2 - 1). { rewrite C0. field. split; intros ->; apply Z; ring. }
        transitivity (2 * (PI - (k1 + r ^ 2 * k0 - 2 * b * r * sin k0 / 2)) + 2 * (- (PI - k1) + (r ^ 2 * (r ^ 2 + 2 * b ^ 2)) * k0 - / 4 * (2 * b * r * sin k0) * (1 + 5 * r ^ 2 + b ^ 2))); [unfold Rsqr; lra|].
        replace (b ^ 2 * r * (k0 + sin k0 * cos k0)) with (b ^ 2 * r * k0 + / 2 * b * sin k0 * (2 * b * r * cos k0)) by field. rewrite BR. field.
  - rewrite hn_1. cbn [quad_gap]. destruct (s0s2 _ _ _ _ _ _ _). lra.
Qed.
Lemma p_entry_quadrature eps quad b r k0 n : 0 < eps -> 0 <= b -> 0 <= r -> b < 1 + r -> r < 1 + b ->
  (10 * eps <= 4 * b * r \/ b = 0 \/ r = 0) -> (n = 1%nat \/ (3 <= n)%nat) ->
  (forall x w, In (x, w) quad -> clear_of_eps eps b r (node_at 0 k0 x)) ->
  p_entry eps quad b r (b²) (r²) k0 n = quadrature quad 0 k0 (edge_integrand b r n).
Proof.
  intros He Hb Hr H1 H2 HB Hn HQ. unfold p_entry, quadrature. replace (0.5 * k0) with ((k0 - 0) / 2) by lra. f_equal. f_equal. apply map_ext_in. intros [x w] Hx. specialize (HQ x w Hx). cbn [fst snd]. f_equal.
  set (psi := node_at 0 k0 x) in *. assert (EP : p_phi k0 x + 0.5 * k0 = psi) by (unfold p_phi, psi, node_at; lra).
  unfold clear_of_eps in HQ. set (z := edge_z b r psi) in *. assert (Z0 : 0 <= z) by apply sqrt_pos.
  assert (ZP : 0 < z) by (destruct Z0 as [|<-]; [assumption|lra]).
  assert (Z2 : z ^ 2 = 1 - b ^ 2 - r ^ 2 + 2 * b * r * cos psi).
  { unfold z, edge_z. unfold z, edge_z in ZP. destruct (Rle_lt_dec (1 - b ^ 2 - r ^ 2 + 2 * b * r * cos psi) 0) as [N|N]; [rewrite sqrt_neg_0 in ZP by exact N; lra|]. rewrite <- Rsqr_pow2. apply Rsqr_sqrt. lra. }
  destruct Hn as [->|Hn].
  - cbn [Nat.eqb]. unfold p_arg1, p_cos. rewrite EP. rewrite (Rmax_right 0) by (unfold Rsqr; lra).
    replace (1 - (r² + b² - 2 * b * r * cos psi)) with (z ^ 2) by (rewrite Z2; unfold Rsqr; ring).
    replace (r² + b² - 2 * b * r * cos psi) with (1 - z ^ 2) by (rewrite Z2; unfold Rsqr; ring).
    replace (Rltb (z ^ 2) (10 * eps)) with false by (symmetry; apply Rltb_false; lra). replace (Rltb (1 - z ^ 2) (10 * eps)) with false by (symmetry; apply Rltb_false; lra).
    cbv zeta. unfold zero_safe_sqrt. replace (sqrt (z ^ 2)) with z by (rewrite <- Rsqr_pow2; symmetry; apply sqrt_Rsqr, Z0). unfold edge_integrand. fold z. cbv zeta.
    assert (1 - z <> 0) by (intros E; replace z with 1 in HQ by lra; lra). assert (1 - z ^ 2 <> 0) by (intros E; lra). field. split; [lra|exact H0].
  - replace (n =? 1)%nat with false by (symmetry; apply Nat.eqb_neq; lia). unfold p_argn, p_s2. rewrite EP.
    assert (S2 : (sin (psi / 2))² = (1 - cos psi) / 2). { replace (cos psi) with (cos (2 * (psi / 2))) by (f_equal; field). rewrite cos_2a_sin. unfold Rsqr. field. }
    rewrite S2. unfold edge_integrand. fold z. cbv zeta. assert (E2 : 2 * r * (r - b + 2 * b * ((1 - cos psi) / 2)) = 2 * r * (r - b * cos psi)) by field. rewrite E2.
    replace (match n with 0%nat => / 2 | 1%nat => (1 + z + z ^ 2) / (3 * (1 + z)) | _ => z ^ n end) with (z ^ n) by (destruct n as [|[|n]]; [lia|lia|reflexivity]).
    destruct HB as [HB|HB].
    + unfold p_k2cond, p_k2, p_factor. replace (p_k2cond eps b r) with false by (symmetry; apply Rltb_false; lra). replace (Rltb (4 * b * r) (10 * eps)) with false by (symmetry; apply Rltb_false; lra).
      assert (BR : 0 < b * r) by lra. assert (b <> 0 /\ r <> 0) as [N1 N2] by (split; intros ->; lra).
      rewrite (Rmax_right 0 ((1 - r² - b² + 2 * b * r) / (4 * b * r))).
      * replace (4 * b * r * ((1 - r² - b² + 2 * b * r) / (4 * b * r) - (1 - cos psi) / 2)) with (z ^ 2) by (rewrite Z2; unfold Rsqr; field; split; assumption).
        rewrite Rmax_right by lra. rewrite fpow_half_nat by (lra || lia). replace (sqrt (z ^ 2)) with z by (rewrite <- Rsqr_pow2; symmetry; apply sqrt_Rsqr, Z0). ring.
      * apply Rmult_le_pos; [unfold Rsqr; nra|apply Rlt_le, Rinv_0_lt_compat; lra].
    + destruct HB as [->| ->]; [|ring]. unfold p_k2cond. replace (Rltb (4 * 0 * r) (10 * eps)) with true by (symmetry; apply Rltb_true; lra).
      replace (1 - r²) with (z ^ 2) by (rewrite Z2; unfold Rsqr; ring). rewrite Rmax_right by lra. rewrite fpow_half_nat by (lra || lia). replace (sqrt (z ^ 2)) with z by (rewrite <- Rsqr_pow2; symmetry; apply sqrt_Rsqr, Z0). ring.
Qed.
(** ** The light curve *)
Lemma norm_coeffs_flux u n : (n < S (length u))%nat -> nth n (norm_coeffs u) 0 = gb_final u n / disk_flux u.
Proof.
  intros Hn. destruct u as [|c u].
  - assert (n = 0%nat) as -> by (cbn in Hn; lia). rewrite disk_flux_closed. cbn. unfold gb_final, upd, gb_loop, gb_p, gb_u. cbn. pose proof PI_RGT_0. field. lra.
  - rewrite nth_norm_coeffs by exact Hn. unfold g_raw. rewrite flux_norm_is_disk_flux by congruence. reflexivity.
Qed.
Lemma light_curve_partial eps quad u b r : disk_flux u <> 0 -> 0 <= b -> 0 <= r -> b < 1 + r -> r < 1 + b ->
  light_curve eps quad u b r = occulted_flux u b r / disk_flux u - 1 + bigsum (S (length u)) (fun n => gb_final u n / disk_flux u * quad_gap eps quad b r (edge_angle b r) n).
Proof.
  intros HF Hb Hr H1 H2. rewrite light_curve_sum. destruct (solution_edge eps quad b r 0 Hb Hr H1 H2) as (k1 & K & _). rewrite (occulted_green u b r _ k1 Hb Hr K).
  set (N := S (length u)). transitivity (bigsum N (fun n => / disk_flux u * (gb_final u n * (2 * (PI - k1) * Hn n 1 - RInt (edge_integrand b r n) 0 (edge_angle b r))) + gb_final u n / disk_flux u * quad_gap eps quad b r (edge_angle b r) n) - 1).
  - f_equal. apply bigsum_ext. intros n Hn. rewrite norm_coeffs_flux by exact Hn. destruct (solution_edge eps quad b r n Hb Hr H1 H2) as (k1' & K' & E).
    assert (k1' = k1) as ->. { destruct K as (? & B1 & _ & _ & [[X1 X2]|(X0 & X1 & X2)]); destruct K' as (? & B2 & _ & _ & [[Y1 Y2]|(Y0 & Y1 & Y2)]).
      - lra.
      - rewrite X2. rewrite X1 in Y1, Y2. unfold erho2 in Y1. rewrite cos_PI in Y1, Y2. assert (b + r = 1) by nra. rewrite <- (acos_cos k1' B2), Y2. replace (b - r * -1) with 1 by lra. apply acos_1.
      - rewrite Y2. rewrite Y1 in X1, X2. unfold erho2 in X1. rewrite cos_PI in X1, X2. assert (b + r = 1) by nra. symmetry. rewrite <- (acos_cos k1 B1), X2. replace (b - r * -1) with 1 by lra. apply acos_1.
      - rewrite <- (acos_cos k1 B1), <- (acos_cos k1' B2). f_equal. lra. }
    rewrite E. field. exact HF.
  - rewrite bigsum_plus, bigsum_scal. field. exact HF.
Qed.
Lemma disk_ext_open (f g : R -> R -> R) : (forall x y, x ^ 2 + y ^ 2 < 1 -> f x y = g x y) -> disk_integral f = disk_integral g.
Proof.
  intros E. unfold disk_integral. apply RInt_ext. intros phi _. apply RInt_ext. intros rho Hr. rewrite Rmin_left, Rmax_right in Hr by lra. f_equal. apply E.
  pose proof (sin2_cos2 phi) as C. unfold Rsqr in C. replace ((rho * cos phi) ^ 2 + (rho * sin phi) ^ 2) with (rho ^ 2 * (sin phi * sin phi + cos phi * cos phi)) by ring. rewrite C. nra.
Qed.
(** the radial integral of the intensity *)
Definition Hu (u : list R) (x : R) : R := bigsum (S (length u)) (fun n => gb_final u n * Hn n x).
Lemma Hu_int u x : 0 <= x <= 1 -> is_RInt (fun s => intensity u (sqrt (1 - s ^ 2)) * s) 0 x (Hu u x).
Proof.
  intros Hx. unfold Hu. set (N := S (length u)). apply is_RInt_ext with (fun s => bigsum N (fun n => gb_final u n * (gtilde n (sqrt (1 - s ^ 2)) * s))).
  - intros s _. rewrite intensity_green. fold N. transitivity (bigsum N (fun n => s * (gb_final u n * gtilde n (sqrt (1 - s ^ 2))))); [apply bigsum_ext; intros; ring|]. rewrite bigsum_scal. match goal with |- ?a = ?b => change (@eq R a b) end. ring.
  - apply is_RInt_bigsum. intros n _. apply (is_RInt_scal (V := R_NormedModule)). apply Hn_int, Hx.
Qed.
Lemma Hu_cont u x : continuous (Hu u) x.
Proof. unfold Hu. apply (continuous_bigsum (S (length u)) (fun n x => gb_final u n * Hn n x)). intros n _. apply cont_scal, Hn_cont. Qed.
Lemma disk_flux_Hu u : disk_flux u = 2 * PI * Hu u 1.
Proof.
  unfold disk_flux. apply is_RInt_unique. apply is_RInt_ext with (fun s => 2 * PI * (intensity u (sqrt (1 - s ^ 2)) * s)).
  - intros s _. match goal with |- ?a = ?b => change (@eq R a b) end. ring.
  - apply (is_RInt_scal (V := R_NormedModule)). apply Hu_int. lra.
Qed.
Lemma occulted_Hu u b r : occulted_flux u b r = 2 * PI * Hu u 1 - 2 * RInt (shadow b r (Hu u)) 0 PI.
Proof. unfold occulted_flux. apply (visible_radial b r (intensity u) (Hu u) (Hu_int u) (Hu_cont u)). apply rint_cont, shadow_cont, Hu_cont. Qed.
Lemma occulted_none u b r : 0 <= r -> 1 + r <= b -> occulted_flux u b r = disk_flux u.
Proof.
  intros Hr Hb. rewrite disk_flux_Hu. transitivity (occulted_flux u b 0).
  - unfold occulted_flux. apply disk_ext_open. intros x y H. unfold unhidden. destruct (Rlt_dec _ _) as [L|L]; [exfalso|].
    + assert (-1 < x < 1) by (pose proof (pow2_ge_0 y); split; nra). assert (0 <= y ^ 2) by apply pow2_ge_0. assert (r < b - x) by lra. nra.
    + destruct (Rlt_dec _ _) as [L'|L']; [|reflexivity]. exfalso. pose proof (pow2_ge_0 y). pose proof (pow2_ge_0 (x - b)). lra.
  - rewrite occulted_Hu. replace (RInt (shadow b 0 (Hu u)) 0 PI) with 0; [ring|]. symmetry. apply is_RInt_unique. apply is_RInt_zero_on. intros phi _. unfold shadow. replace (ray_in b 0 phi) with (ray_out b 0 phi); [ring|].
    unfold ray_in, ray_out, ray_d. rewrite sqrt_neg_0; [ring|]. pose proof (pow2_ge_0 (b * sin phi)). lra.
Qed.
Lemma occulted_full u b r : 0 <= b -> 1 + b <= r -> occulted_flux u b r = 0.
Proof.
  intros Hb Hr. transitivity (disk_integral (fun _ _ => 0)).
  - unfold occulted_flux. apply disk_ext_open. intros x y H. unfold unhidden. destruct (Rlt_dec _ _) as [L|L]; [reflexivity|exfalso]. apply L.
    assert (-1 < x < 1) by (pose proof (pow2_ge_0 y); split; nra). assert (r ^ 2 >= (1 + b) ^ 2) by nra. nra.
  - unfold disk_integral. apply is_RInt_unique. apply is_RInt_zero_on. intros phi _. apply is_RInt_unique. apply is_RInt_zero_on. intros rho _. ring.
Qed.
Lemma Hu_mono u : (forall z, 0 <= z <= 1 -> 0 <= intensity u z) -> forall x y, 0 <= x -> x <= y -> y <= 1 -> Hu u x <= Hu u y.
Proof.
  intros HI x y Hx Hxy Hy. assert (A : is_RInt (fun s => intensity u (sqrt (1 - s ^ 2)) * s) x y (Hu u y - Hu u x)).
  { apply (rint_chasles _ x 0 y (- Hu u x) (Hu u y)); [apply rint_swap; rewrite Ropp_involutive; apply Hu_int; lra|apply Hu_int; lra|ring]. }
  assert (0 <= Hu u y - Hu u x); [|lra]. rewrite <- (is_RInt_unique _ _ _ _ A). apply RInt_ge_0; [exact Hxy|eexists; exact A|]. intros s Hs. apply Rmult_le_pos; [|lra]. apply HI.
  split; [apply sqrt_pos|]. apply Rle_trans with (sqrt 1); [apply sqrt_le_1_alt; nra|rewrite sqrt_1; lra].
Qed.
Lemma occulted_bounds u b r : (forall z, 0 <= z <= 1 -> 0 <= intensity u z) -> 0 <= occulted_flux u b r <= disk_flux u.
Proof.
  intros HI. assert (M := Hu_mono u HI). rewrite disk_flux_Hu, occulted_Hu. pose proof PI_RGT_0 as P.
  assert (Z : Hu u 0 = 0). { unfold Hu. apply bigsum_zero_ext. intros i _. rewrite Hn_0. ring. }
  assert (B : forall phi, 0 <= shadow b r (Hu u) phi <= Hu u 1).
  { intros phi. unfold shadow. assert (C1 := clip_range (ray_in b r phi)). assert (C2 := clip_range (ray_out b r phi)). assert (C3 := clip_mono _ _ (ray_in_out b r phi)).
    assert (Hu u (clip (ray_in b r phi)) <= Hu u (clip (ray_out b r phi))) by (apply M; lra). assert (Hu u (clip (ray_out b r phi)) <= Hu u 1) by (apply M; lra). assert (Hu u 0 <= Hu u (clip (ray_in b r phi))) by (apply M; lra). lra. }
  assert (X : ex_RInt (shadow b r (Hu u)) 0 PI) by (eexists; apply rint_cont, shadow_cont, Hu_cont).
  assert (L : 0 <= RInt (shadow b r (Hu u)) 0 PI) by (apply RInt_ge_0; [lra|exact X|intros; apply B]).
  assert (T : RInt (shadow b r (Hu u)) 0 PI <= RInt (fun _ => Hu u 1) 0 PI) by (apply RInt_le; [lra|exact X|apply ex_RInt_const|intros; apply B]).
  rewrite RInt_const in T. change (scal (PI - 0) (Hu u 1)) with ((PI - 0) * Hu u 1) in T. lra.
Qed.
Lemma light_curve_abs eps quad u b r : light_curve eps quad u b r = light_curve eps quad u (Rabs b) (Rabs r).
Proof. rewrite !light_curve_sum. f_equal. apply bigsum_ext. intros i _. unfold solution. rewrite !Rabs_Rabsolu. reflexivity. Qed.
Lemma nth_greens u n : (n < S (length u))%nat -> nth n (greens_basis_transform u) 0 = gb_final u n.
Proof.
  intros H. unfold greens_basis_transform. rewrite nth_indep with (d' := gb_final u 0) by (rewrite map_length, seq_length; exact H). rewrite map_nth, seq_nth by exact H. reflexivity.
Qed.
Lemma occ_general eps quad u b r : disk_flux u <> 0 -> Rabs b < 1 + Rabs r -> Rabs r < 1 + Rabs b ->
  light_curve eps quad u b r = occulted_flux u (Rabs b) (Rabs r) / disk_flux u - 1 +
    bigsum (S (length u)) (fun n => nth n (greens_basis_transform u) 0 / disk_flux u *
      (match n with 0%nat | 2%nat => 0 | _ => RInt (edge_integrand (Rabs b) (Rabs r) n) 0 (edge_angle (Rabs b) (Rabs r)) - p_entry eps quad (Rabs b) (Rabs r) ((Rabs b)²) ((Rabs r)²) (edge_angle (Rabs b) (Rabs r)) n end)).
Proof.
  intros HF H1 H2. rewrite light_curve_abs, light_curve_partial by (assumption || apply Rabs_pos). f_equal. apply bigsum_ext. intros n Hn. rewrite nth_greens by exact Hn. reflexivity.
Qed.
Lemma Rsum_zero l : (forall x, In x l -> x = 0) -> Rsum l = 0.
Proof. intros H. induction l as [|a l IH]; [reflexivity|]. cbn. rewrite (H a) by (left; reflexivity). fold (Rsum l). rewrite IH by (intros; apply H; right; assumption). ring. Qed.
Lemma p_entry_quad eps quad b r n : 0 < eps -> 0 <= b -> 0 <= r -> b < 1 + r -> r < 1 + b -> clear_of_branches eps quad b r -> (n = 1%nat \/ (3 <= n)%nat) ->
  p_entry eps quad b r (b²) (r²) (edge_angle b r) n = quadrature quad 0 (edge_angle b r) (edge_integrand b r n).
Proof.
  intros He Hb Hr H1 H2 [->|[HB HQ]] Hn.
  - unfold p_entry, quadrature. rewrite !Rsum_zero; [ring| |]; intros x Hx; apply in_map_iff in Hx; destruct Hx as ([y w] & <- & _); cbn [fst snd].
    + unfold edge_integrand. cbv zeta. ring.
    + destruct (n =? 1)%nat; [unfold p_arg1|unfold p_argn; ring]. cbv zeta. destruct (Rltb _ _); [ring|]. unfold Rdiv. rewrite !Rmult_0_r, !Rmult_0_l. ring.
  - apply p_entry_quadrature; try assumption. destruct HB as [HB| ->]; [left; exact HB|right; left; reflexivity].
Qed.
Lemma occ_quadrature eps quad u b r : 0 < eps -> disk_flux u <> 0 -> Rabs b < 1 + Rabs r -> Rabs r < 1 + Rabs b -> clear_of_branches eps quad (Rabs b) (Rabs r) ->
  light_curve eps quad u b r = occulted_flux u (Rabs b) (Rabs r) / disk_flux u - 1 +
    bigsum (S (length u)) (fun n => match n with 0%nat | 2%nat => 0 | _ => nth n (greens_basis_transform u) 0 / disk_flux u * edge_error quad (Rabs b) (Rabs r) n end).
Proof.
  intros He HF H1 H2 HA. rewrite occ_general by assumption. f_equal. apply bigsum_ext. intros n Hn. unfold edge_error.
  destruct n as [|[|[|n]]]; [ring| |ring|]; rewrite p_entry_quad; try assumption; try apply Rabs_pos; try reflexivity; [left; reflexivity|right; lia].
Qed.
Lemma occ_exact eps quad u b r : 0 < eps -> disk_flux u <> 0 -> Rabs b < 1 + Rabs r -> Rabs r < 1 + Rabs b -> clear_of_branches eps quad (Rabs b) (Rabs r) ->
  (forall n, (n <= length u)%nat -> n = 1%nat \/ (3 <= n)%nat -> edge_error quad (Rabs b) (Rabs r) n = 0) ->
  light_curve eps quad u b r = occulted_flux u (Rabs b) (Rabs r) / disk_flux u - 1.
Proof.
  intros He HF H1 H2 HA HE. rewrite occ_quadrature by assumption. rewrite bigsum_zero_ext; [ring|]. intros n Hn. destruct n as [|[|[|n]]]; try reflexivity; rewrite HE by lia; ring.
Qed.
Lemma bigsum_abs n f : Rabs (bigsum n f) <= bigsum n (fun i => Rabs (f i)).
Proof. induction n as [|n IH]; cbn; [rewrite Rabs_R0; lra|]. pose proof (Rabs_triang (bigsum n f) (f n)). lra. Qed.
Lemma bigsum_le n f g : (forall i, (i < n)%nat -> f i <= g i) -> bigsum n f <= bigsum n g.
Proof. induction n as [|n IH]; cbn; intros H; [lra|]. specialize (H n ltac:(lia)) as H1. assert (bigsum n f <= bigsum n g) by (apply IH; intros; apply H; lia). lra. Qed.
Lemma occ_error eps quad u b r delta : 0 < eps -> disk_flux u <> 0 -> Rabs b < 1 + Rabs r -> Rabs r < 1 + Rabs b -> clear_of_branches eps quad (Rabs b) (Rabs r) -> 0 <= delta ->
  (forall n, (n <= length u)%nat -> n = 1%nat \/ (3 <= n)%nat -> Rabs (edge_error quad (Rabs b) (Rabs r) n) <= delta) ->
  Rabs (light_curve eps quad u b r - (occulted_flux u (Rabs b) (Rabs r) / disk_flux u - 1)) <= bigsum (S (length u)) (fun n => Rabs (nth n (greens_basis_transform u) 0)) / Rabs (disk_flux u) * delta.
Proof.
  intros He HF H1 H2 HA HD HE. rewrite occ_quadrature by assumption. set (s := bigsum _ (fun n => match n with 0%nat | 2%nat => 0 | _ => _ end)). replace (occulted_flux u (Rabs b) (Rabs r) / disk_flux u - 1 + s - (occulted_flux u (Rabs b) (Rabs r) / disk_flux u - 1)) with s by ring.
  apply Rle_trans with (1 := bigsum_abs _ _). unfold Rdiv. rewrite Rmult_assoc, (Rmult_comm (bigsum _ _)). rewrite <- bigsum_scal. apply bigsum_le. intros n Hn.
  set (c := nth n (greens_basis_transform u) 0). assert (FP : 0 < / Rabs (disk_flux u)) by (apply Rinv_0_lt_compat, Rabs_pos_lt, HF). pose proof (Rabs_pos c) as CP.
  assert (Z : 0 <= / Rabs (disk_flux u) * delta * Rabs c) by (apply Rmult_le_pos; [apply Rmult_le_pos; lra|exact CP]).
  assert (G : forall e, Rabs e <= delta -> Rabs (c * / disk_flux u * e) <= / Rabs (disk_flux u) * delta * Rabs c).
  { intros e Hd. rewrite !Rabs_mult, Rabs_inv. replace (/ Rabs (disk_flux u) * delta * Rabs c) with (Rabs c * / Rabs (disk_flux u) * delta) by ring. apply Rmult_le_compat_l; [apply Rmult_le_pos; lra|exact Hd]. }
  destruct n as [|[|[|n]]]; [rewrite Rabs_R0; exact Z|apply G, HE; [lia|left; reflexivity]|rewrite Rabs_R0; exact Z|apply G, HE; lia].
Qed.
Lemma occ_trivial eps quad u b r : disk_flux u <> 0 -> ~ (Rabs b = 0 /\ Rabs r = 1) -> 1 + Rabs r <= Rabs b \/ 1 + Rabs b <= Rabs r ->
  light_curve eps quad u b r = occulted_flux u (Rabs b) (Rabs r) / disk_flux u - 1.
Proof.
  intros HF HX [H|H].
  - rewrite occulted_none, light_curve_no_occ' by (assumption || apply Rabs_pos). field. exact HF.
  - rewrite occulted_full, light_curve_full_occ by (assumption || apply Rabs_pos). field. exact HF.
Qed.
(** concentric occultors: the integrands are constant *)
Lemma edge_z_0 r psi : edge_z 0 r psi = sqrt (1 - r ^ 2).
Proof. unfold edge_z. f_equal. ring. Qed.
Lemma concentric_error quad r n : Rsum (map snd quad) = 2 -> 0 <= r < 1 -> edge_error quad 0 r n = 0.
Proof.
  intros HS Hr. unfold edge_error. set (K := edge_integrand 0 r n 0). assert (E : forall psi, edge_integrand 0 r n psi = K).
  { intros psi. unfold K, edge_integrand. rewrite !edge_z_0. cbv zeta. ring. }
  replace (RInt (edge_integrand 0 r n) 0 (edge_angle 0 r)) with (edge_angle 0 r * K).
  - unfold quadrature. replace (Rsum _) with (K * Rsum (map snd quad)); [rewrite HS; field|]. clear HS. induction quad as [|[x w] q IH]; cbn; [ring|]. fold (Rsum (map snd q)). rewrite Rmult_plus_distr_l, IH, E. unfold Rsum. reflexivity.
  - symmetry. apply is_RInt_unique. apply is_RInt_ext with (fun _ => K); [intros; symmetry; apply E|]. apply rint_const. ring.
Qed.
Lemma occ_concentric eps quad u r : 0 < eps -> disk_flux u <> 0 -> Rabs r < 1 -> r = 0 \/ 10 * eps <= r ^ 2 <= 1 - 10 * eps -> Rsum (map snd quad) = 2 ->
  light_curve eps quad u 0 r = occulted_flux u 0 (Rabs r) / disk_flux u - 1.
Proof.
  intros He HF Hr HA HS. pose proof (Rabs_pos r). rewrite <- Rabs_R0 at 2. apply occ_exact; rewrite ?Rabs_R0; try assumption; try lra.
  - destruct HA as [->|HA]; [left; apply Rabs_R0|]. right. split; [right; reflexivity|]. intros x w _. unfold clear_of_eps. rewrite edge_z_0, pow2_abs. rewrite <- Rsqr_pow2, Rsqr_sqrt by lra. lra.
  - intros n _ _. apply concentric_error; [exact HS|lra].
Qed.
