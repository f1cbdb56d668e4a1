(** The shadow of an occultor as an integral along its edge. *)
From Coq Require Import Reals Lra Lia List Bool Arith Psatz.
From Coquelicot Require Import Coquelicot.
From Verif Require Import Base.RealAux Base.Analysis Spec.BasisSpec Spec.DiskSpec Spec.LimbDarkSpec Spec.OccultSpec Proof.LimbDarkArea Proof.Ray.
Import ListNotations.
Open Scope R_scope.

Lemma rint_comp (f g dg : R -> R) a b : (forall x, continuous f x) -> (forall x, is_derive g x (dg x)) -> (forall x, continuous dg x) ->
  is_RInt (fun y => dg y * f (g y)) a b (RInt f (g a) (g b)).
Proof. intros H1 H2 H3. exact (is_RInt_comp (V := R_CompleteNormedModule) f g dg a b (fun x _ => H1 (g x)) (fun x _ => conj (H2 x) (H3 x))). Qed.
Lemma rint_cont (f : R -> R) a b : (forall x, continuous f x) -> is_RInt f a b (RInt f a b).
Proof. intros H. apply (RInt_correct (V := R_CompleteNormedModule)), (ex_RInt_continuous (V := R_CompleteNormedModule)). intros x _. apply H. Qed.
Lemma rint_val (f g : R -> R) a b v w : is_RInt f a b v -> is_RInt g a b w -> (forall x, Rmin a b < x < Rmax a b -> f x = g x) -> v = w.
Proof.
  intros H1 H2 E. rewrite <- (is_RInt_unique f a b v H1). symmetry. rewrite <- (is_RInt_unique g a b w H2). symmetry. apply RInt_ext. exact E.
Qed.
Lemma rint_ext_v (f g : R -> R) a b v : is_RInt f a b v -> (forall x, Rmin a b < x < Rmax a b -> f x = g x) -> is_RInt g a b v.
Proof. intros H E. exact (is_RInt_ext f g a b v E H). Qed.

Definition erho2 (b r psi : R) : R := b ^ 2 + r ^ 2 - 2 * b * r * cos psi.
Definition erho (b r psi : R) : R := sqrt (erho2 b r psi).
Section Edge.
Variables b r : R.
Hypotheses (Hb : 0 <= b) (Hr : 0 < r).
Notation rho2 := (erho2 b r).
Notation rho := (erho b r).
Lemma cos_1 psi : -1 <= cos psi <= 1. Proof. apply COS_bound. Qed.
Lemma rho2_ge psi : (b - r) ^ 2 <= rho2 psi.
Proof using Hb Hr. unfold erho2. pose proof (cos_1 psi). assert (0 <= 2 * b * r * (1 - cos psi)) by (apply Rmult_le_pos; [nra|lra]). nra. Qed.
Lemma rho2_pos psi : b <> r -> 0 < rho2 psi.
Proof using Hb Hr. intros H. pose proof (rho2_ge psi). assert (0 < (b - r) ^ 2) by (apply pow2_gt_0; lra). lra. Qed.
Lemma rho_sq psi : rho psi * rho psi = rho2 psi.
Proof using Hb Hr. unfold erho. apply sqrt_sqrt. pose proof (rho2_ge psi). pose proof (pow2_ge_0 (b - r)). lra. Qed.
Lemma rho_cont psi : continuous rho psi.
Proof. unfold erho. apply cont_sqrt. apply (ex_derive_continuous (fun psi : R => b ^ 2 + r ^ 2 - 2 * b * r * cos psi)). auto_derive. exact I. Qed.
Lemma rho_nonneg psi : 0 <= rho psi. Proof. apply sqrt_pos. Qed.
Lemma rho_in psi : 0 < psi < PI -> 0 < rho psi.
Proof using Hb Hr.
  intros H. unfold erho. apply sqrt_lt_R0. destruct (Req_dec b r) as [->|N]; [|apply rho2_pos, N]. unfold erho2.
  assert (cos psi < cos 0) by (apply cos_decreasing_1; lra). rewrite cos_0 in *. assert (0 < 2 * (r * r) * (1 - cos psi)) by (apply Rmult_lt_0_compat; nra). nra.
Qed.
Lemma ray_root phi q : 0 <= q -> q * q = r ^ 2 - (b * sin phi) ^ 2 -> ray_d b r phi = q.
Proof. intros H E. unfold ray_d. rewrite <- E. apply sqrt_square, H. Qed.
(** the edge point of angle psi on the ray of direction phi *)
Definition on_ray phi psi : Prop := rho psi * cos phi = b - r * cos psi /\ rho psi * sin phi = r * sin psi.
Lemma on_ray_sq phi psi : on_ray phi psi -> (rho psi - b * cos phi) * (rho psi - b * cos phi) = r ^ 2 - (b * sin phi) ^ 2.
Proof.
  intros [E1 E2]. pose proof (dist_ray b phi (rho psi)) as D. rewrite E1, E2 in D. pose proof (sin2_cos2 psi) as C. unfold Rsqr in C.
  assert (A : (b - r * cos psi - b) ^ 2 + (r * sin psi) ^ 2 = r ^ 2 * (sin psi * sin psi + cos psi * cos psi)) by ring. rewrite A, C in D. lra.
Qed.
Lemma on_ray_out phi psi : on_ray phi psi -> 0 < rho psi -> b * r * cos psi <= r ^ 2 -> ray_out b r phi = rho psi.
Proof using Hb Hr.
  intros O P H. assert (E := on_ray_sq phi psi O). destruct O as [E1 _]. assert (Q : 0 <= rho psi - b * cos phi).
  { apply Rmult_le_reg_l with (rho psi); [exact P|]. rewrite Rmult_0_r, Rmult_minus_distr_l, rho_sq. replace (rho psi * (b * cos phi)) with (b * (rho psi * cos phi)) by ring. rewrite E1. unfold erho2. nra. }
  unfold ray_out. rewrite (ray_root phi (rho psi - b * cos phi) Q E). ring.
Qed.
Lemma on_ray_in phi psi : on_ray phi psi -> 0 < rho psi -> r ^ 2 <= b * r * cos psi -> ray_in b r phi = rho psi.
Proof using Hb Hr.
  intros O P H. assert (E := on_ray_sq phi psi O). destruct O as [E1 _]. assert (Q : 0 <= b * cos phi - rho psi).
  { apply Rmult_le_reg_l with (rho psi); [exact P|]. rewrite Rmult_0_r, Rmult_minus_distr_l, rho_sq. replace (rho psi * (b * cos phi)) with (b * (rho psi * cos phi)) by ring. rewrite E1. unfold erho2. nra. }
  unfold ray_in. rewrite (ray_root phi (b * cos phi - rho psi) Q); [ring|]. rewrite <- E. ring.
Qed.
Lemma ray_in_neg phi : b <= r -> ray_in b r phi <= 0.
Proof using Hb Hr.
  intros H. unfold ray_in, ray_d. pose proof (sin2_cos2 phi) as C. unfold Rsqr in C. apply Rle_trans with (b * cos phi - sqrt ((b * cos phi) ^ 2)).
  - assert (sqrt ((b * cos phi) ^ 2) <= sqrt (r ^ 2 - (b * sin phi) ^ 2)); [|lra]. apply sqrt_le_1_alt.
    assert ((b * cos phi) ^ 2 + (b * sin phi) ^ 2 = b ^ 2 * (sin phi * sin phi + cos phi * cos phi)) by ring. rewrite C in H0. nra.
  - replace ((b * cos phi) ^ 2) with (Rsqr (b * cos phi)) by (unfold Rsqr; ring). rewrite sqrt_Rsqr_abs. pose proof (Rle_abs (b * cos phi)). lra.
Qed.
Section H.
Variable H : R -> R.
Hypotheses (HC : forall x, continuous H x) (H0 : H 0 = 0).
Variable c : R -> R.
Hypothesis Cc : forall x, continuous c x.
Notation Hc := (fun t => H (clip t)).
Lemma Hc_cont (f : R -> R) x : continuous f x -> continuous (fun x => H (clip (f x))) x.
Proof using HC. intros C. apply (cont_comp (fun x => clip (f x)) H); [|apply HC]. apply (cont_comp f clip); [exact C|apply clip_cont]. Qed.
Lemma edge_cont (w : R -> R) : (forall x, continuous w x) -> forall x, continuous (fun psi => H (clip (rho psi)) * w psi) x.
Proof using HC. intros C x. apply cont_mult; [apply Hc_cont, rho_cont|apply C]. Qed.
(** b <= r: every ray leaves the occultor once *)
Lemma sub_out (w th : R -> R) : (forall psi, is_derive th psi (- w psi)) -> (forall psi, continuous w psi) -> th PI = 0 ->
  (forall psi, 0 < psi < PI -> on_ray (th psi) psi) -> b <= r ->
  is_RInt (fun phi => c phi * shadow b r H phi) 0 (th 0) (RInt (fun psi => c (th psi) * (H (clip (rho psi)) * w psi)) 0 PI).
Proof using Hb Hr HC H0 Cc.
  intros D C E O L. pose proof PI_RGT_0 as P.
  assert (S := rint_comp (fun phi => c phi * shadow b r H phi) th (fun psi => - w psi) PI 0 (fun x => cont_mult _ _ x (Cc x) (shadow_cont b r H HC x)) D (fun x => cont_opp w x (C x))). rewrite E in S.
  assert (T : is_RInt (fun psi => c (th psi) * (H (clip (rho psi)) * w psi)) 0 PI (RInt (fun phi => c phi * shadow b r H phi) 0 (th 0))).
  { apply rint_swap. apply rint_ext_v with (2 := fun x Hx => eq_refl) in S. apply (rint_opp _ _ _ _) in S. apply (rint_ext_v _ _ _ _ _ S). intros psi Hp. rewrite Rmin_right, Rmax_left in Hp by lra.
    unfold shadow. rewrite (clip_0 (ray_in b r (th psi))) by (apply ray_in_neg, L). rewrite H0. rewrite (on_ray_out (th psi) psi (O psi Hp) (rho_in psi Hp)); [ring|].
    pose proof (cos_1 psi). assert (b * r * cos psi <= b * r * 1) by (apply Rmult_le_compat_l; nra). nra. }
  rewrite (is_RInt_unique _ _ _ _ T). apply rint_cont. intros x. apply cont_mult; [apply Cc|apply shadow_cont, HC].
Qed.
End H.

(** the polar angle of the edge point, and minus its derivative *)
Definition edge_polar (w th : R -> R) : Prop :=
  (forall psi, is_derive th psi (- w psi)) /\ (forall psi, continuous w psi) /\ (forall psi, w psi * rho2 psi = r ^ 2 - b * r * cos psi) /\ th PI = 0 /\
  (forall psi, 0 <= psi <= PI -> 0 <= th psi <= PI /\ on_ray (th psi) psi) /\
  forall c H : R -> R, (forall x, continuous c x) -> (forall x, continuous H x) -> H 0 = 0 ->
    is_RInt (fun phi => c phi * shadow b r H phi) 0 PI (RInt (fun psi => c (th psi) * (H (clip (rho psi)) * w psi)) 0 PI).
Lemma w_cont : b <> r -> forall psi, continuous (fun psi => (r ^ 2 - b * r * cos psi) / rho2 psi) psi.
Proof using Hb Hr.
  intros N psi. apply cont_div; [| |pose proof (rho2_pos psi N); lra].
  - apply (ex_derive_continuous (fun psi : R => r ^ 2 - b * r * cos psi)). auto_derive. exact I.
  - apply (ex_derive_continuous (fun psi : R => b ^ 2 + r ^ 2 - 2 * b * r * cos psi)). auto_derive. exact I.
Qed.
Lemma atan_frac n d q : 0 < d -> 0 < q -> q * q = n * n + d * d -> q * cos (atan (n / d)) = d /\ q * sin (atan (n / d)) = n.
Proof.
  intros Hd Hq E. rewrite cos_atan, sin_atan. assert (A : sqrt (1 + (n / d)²) = q / d).
  { replace (1 + (n / d)²) with ((q / d) * (q / d)). - apply sqrt_square. apply Rlt_le, Rdiv_lt_0_compat; lra. - unfold Rsqr. transitivity (q * q / (d * d)); [field; lra|]. rewrite E. field. lra. }
  rewrite A. split; field; lra.
Qed.
Lemma polar_lt : b < r -> exists w th, edge_polar w th.
Proof using Hb Hr.
  intros L. pose proof PI_RGT_0 as P. assert (DP : forall psi, 0 < r - b * cos psi) by (intros psi; pose proof (cos_1 psi); nra).
  set (w := fun psi => (r ^ 2 - b * r * cos psi) / rho2 psi). set (th := fun psi => PI - psi - atan (b * sin psi / (r - b * cos psi))).
  assert (D : forall psi, is_derive th psi (- w psi)).
  { intros psi. assert (DP' := DP psi). pose proof (rho2_pos psi ltac:(lra)) as Q. unfold th. auto_derive.
    - lra.
    - unfold w. assert (A : rho2 psi = (r - b * cos psi) * (r - b * cos psi) + (b * sin psi) * (b * sin psi)).
      { unfold erho2. pose proof (sin2_cos2 psi) as C. unfold Rsqr in C. transitivity (r * r - 2 * r * b * cos psi + b * b * (sin psi * sin psi + cos psi * cos psi)); [rewrite C; ring|ring]. }
      change (r + - (b * cos psi)) with (r - b * cos psi). set (d := r - b * cos psi) in *. set (n := b * sin psi) in *.
      assert (B : b * cos psi * d - n * (b * sin psi) = b * r * cos psi - b ^ 2).
      { unfold d, n. pose proof (sin2_cos2 psi) as C. unfold Rsqr in C. transitivity (b * r * cos psi - b ^ 2 * (sin psi * sin psi + cos psi * cos psi)); [ring|rewrite C; ring]. }
      transitivity (- 1 - (b * cos psi * d - n * (b * sin psi)) / rho2 psi); [rewrite A; field; rewrite A in Q; split; lra|]. rewrite B.
      replace (r ^ 2 - b * r * cos psi) with (rho2 psi + (b * r * cos psi - b ^ 2)) by (unfold erho2; ring). field. lra. }
  assert (R0 : forall psi, on_ray (th psi) psi).
  { intros psi. assert (DP' := DP psi). pose proof (rho2_pos psi ltac:(lra)) as Q. assert (RP : 0 < rho psi) by (apply sqrt_lt_R0, Q).
    assert (A : rho psi * rho psi = (b * sin psi) * (b * sin psi) + (r - b * cos psi) * (r - b * cos psi)).
    { rewrite rho_sq. unfold erho2. pose proof (sin2_cos2 psi) as C. unfold Rsqr in C. transitivity (r * r - 2 * r * b * cos psi + b * b * (sin psi * sin psi + cos psi * cos psi)); [rewrite C; ring|ring]. }
    destruct (atan_frac (b * sin psi) (r - b * cos psi) (rho psi) DP' RP A) as [E1 E2]. unfold on_ray, th. set (a := atan _) in *. pose proof (sin2_cos2 psi) as C. unfold Rsqr in C.
    replace (PI - psi - a) with (PI - (psi + a)) by ring. rewrite Rtrigo_facts.cos_pi_minus, Rtrigo_facts.sin_pi_minus, cos_plus, sin_plus. split.
    - transitivity (sin psi * (rho psi * sin a) - cos psi * (rho psi * cos a)); [ring|]. rewrite E1, E2. transitivity (b * (sin psi * sin psi + cos psi * cos psi) - r * cos psi); [ring|rewrite C; ring].
    - transitivity (sin psi * (rho psi * cos a) + cos psi * (rho psi * sin a)); [ring|]. rewrite E1, E2. ring. }
  assert (T0 : th PI = 0) by (unfold th; rewrite sin_PI; replace (b * 0 / (r - b * cos PI)) with 0 by (unfold Rdiv; ring); rewrite atan_0; ring).
  assert (T1 : th 0 = PI) by (unfold th; rewrite sin_0; replace (b * 0 / (r - b * cos 0)) with 0 by (unfold Rdiv; ring); rewrite atan_0; ring).
  exists w, th. split; [exact D|split; [apply w_cont; lra|split; [|split; [exact T0|split; [|]]]]].
  - intros psi. unfold w. pose proof (rho2_pos psi ltac:(lra)). field. lra.
  - intros psi Hp. split; [|apply R0]. assert (SP : 0 <= sin psi) by (apply sin_ge_0; lra). assert (DP' := DP psi).
    assert (A0 : 0 <= b * sin psi / (r - b * cos psi)). { apply Rmult_le_pos; [nra|apply Rlt_le, Rinv_0_lt_compat, DP']. }
    assert (A1 : 0 <= atan (b * sin psi / (r - b * cos psi))). { destruct A0 as [A0|A0]; [apply Rlt_le; rewrite <- atan_0; apply atan_increasing, A0|rewrite <- A0, atan_0; lra]. }
    pose proof (atan_bound (b * sin psi / (r - b * cos psi))) as [_ A2]. destruct (R0 psi) as [_ E2]. unfold th in E2 |- *. set (a := atan (b * sin psi / (r - b * cos psi))) in *. split; [|lra].
    destruct (Rle_lt_dec 0 (PI - psi - a)) as [|N]; [assumption|exfalso]. assert (S : sin (PI - psi - a) < 0) by (apply sin_lt_0_var; lra).
    pose proof (rho2_pos psi ltac:(lra)) as Q. assert (RP : 0 < rho psi) by (apply sqrt_lt_R0, Q). assert (rho psi * sin (PI - psi - a) < 0) by nra. assert (0 <= r * sin psi) by nra. lra.
  - intros c H Cc HC H0. rewrite <- T1 at 1. apply sub_out; [exact HC|exact H0|exact Cc|exact D|apply w_cont; lra|exact T0|intros psi _; apply R0|lra].
Qed.
Lemma polar_eq : b = r -> exists w th, edge_polar w th.
Proof using Hb Hr.
  intros L. pose proof PI_RGT_0 as P. set (w := fun _ : R => 1 / 2). set (th := fun psi : R => PI / 2 - psi / 2).
  assert (D : forall psi, is_derive th psi (- w psi)) by (intros psi; unfold th, w; auto_derive; [exact I|field]).
  assert (CW : forall psi, continuous w psi) by (intros; apply cont_const).
  assert (RH : forall psi, 0 <= psi <= PI -> rho psi = 2 * r * sin (psi / 2)).
  { intros psi Hp. unfold erho, erho2. assert (S0 : 0 <= sin (psi / 2)) by (apply sin_ge_0; lra). replace (cos psi) with (cos (2 * (psi / 2))) by (f_equal; field). rewrite cos_2a_sin, L.
    replace (r ^ 2 + r ^ 2 - 2 * r * r * (1 - 2 * sin (psi / 2) * sin (psi / 2))) with ((2 * r * sin (psi / 2)) * (2 * r * sin (psi / 2))) by ring. apply sqrt_square. nra. }
  assert (R0 : forall psi, 0 <= psi <= PI -> on_ray (th psi) psi).
  { intros psi Hp. unfold on_ray, th. rewrite (RH psi Hp). rewrite cos_minus, sin_minus, cos_PI2, sin_PI2. replace (cos psi) with (cos (2 * (psi / 2))) by (f_equal; field). replace (sin psi) with (sin (2 * (psi / 2))) by (f_equal; field).
    rewrite cos_2a_sin, sin_2a, L. split; ring. }
  assert (T0 : th PI = 0) by (unfold th; field). assert (T1 : th 0 = PI / 2) by (unfold th; field).
  exists w, th. split; [exact D|split; [exact CW|split; [|split; [exact T0|split; [|]]]]].
  - intros psi. unfold w, erho2. rewrite L. field.
  - intros psi Hp. split; [unfold th; lra|apply R0, Hp].
  - intros c H Cc HC H0. apply (rint_chasles _ 0 (th 0) PI (RInt (fun psi => c (th psi) * (H (clip (rho psi)) * w psi)) 0 PI) 0); [| |ring].
    + apply sub_out; [exact HC|exact H0|exact Cc|exact D|exact CW|exact T0|intros psi Hp; apply R0; lra|lra].
    + apply is_RInt_zero_on. intros phi Hp. rewrite T1, Rmin_left, Rmax_right in Hp by lra. unfold shadow. rewrite (clip_0 (ray_in b r phi)) by (apply ray_in_neg; lra). rewrite clip_0; [ring|].
      unfold ray_out, ray_d. assert (CN : cos phi < 0) by (apply cos_lt_0; lra). pose proof (sin2_cos2 phi) as C. unfold Rsqr in C. rewrite L.
      replace (r ^ 2 - (r * sin phi) ^ 2) with ((r * - cos phi) * (r * - cos phi)) by (transitivity (r ^ 2 * (sin phi * sin phi + cos phi * cos phi) - r ^ 2 * (sin phi * sin phi)); [ring|rewrite C; ring]).
      rewrite sqrt_square by nra. lra.
Qed.
Lemma polar_gt : r < b -> exists w th, edge_polar w th.
Proof using Hb Hr.
  intros L. pose proof PI_RGT_0 as P. assert (DP : forall psi, 0 < b - r * cos psi) by (intros psi; pose proof (cos_1 psi); nra).
  set (w := fun psi => (r ^ 2 - b * r * cos psi) / rho2 psi). set (th := fun psi => atan (r * sin psi / (b - r * cos psi))).
  assert (A : forall psi, rho2 psi = (b - r * cos psi) * (b - r * cos psi) + (r * sin psi) * (r * sin psi)).
  { intros psi. unfold erho2. pose proof (sin2_cos2 psi) as C. unfold Rsqr in C. transitivity (b * b - 2 * r * b * cos psi + r * r * (sin psi * sin psi + cos psi * cos psi)); [rewrite C; ring|ring]. }
  assert (D : forall psi, is_derive th psi (- w psi)).
  { intros psi. assert (DP' := DP psi). pose proof (rho2_pos psi ltac:(lra)) as Q. assert (A' := A psi). unfold th. auto_derive.
    - lra.
    - unfold w. change (b + - (r * cos psi)) with (b - r * cos psi). set (d := b - r * cos psi) in *. set (n := r * sin psi) in *.
      assert (B : r * cos psi * d - n * (r * sin psi) = - (r ^ 2 - b * r * cos psi)).
      { unfold d, n. pose proof (sin2_cos2 psi) as C. unfold Rsqr in C. transitivity (b * r * cos psi - r ^ 2 * (sin psi * sin psi + cos psi * cos psi)); [ring|rewrite C; ring]. }
      transitivity ((r * cos psi * d - n * (r * sin psi)) / rho2 psi); [rewrite A'; field; rewrite A' in Q; split; lra|]. rewrite B. field. lra. }
  assert (R0 : forall psi, on_ray (th psi) psi).
  { intros psi. assert (DP' := DP psi). pose proof (rho2_pos psi ltac:(lra)) as Q. assert (RP : 0 < rho psi) by (apply sqrt_lt_R0, Q).
    destruct (atan_frac (r * sin psi) (b - r * cos psi) (rho psi) DP' RP) as [E1 E2]; [rewrite rho_sq, A; ring|]. split; assumption. }
  assert (T0 : th PI = 0) by (unfold th; rewrite sin_PI; replace (r * 0 / (b - r * cos PI)) with 0 by (unfold Rdiv; ring); apply atan_0).
  assert (T1 : th 0 = 0) by (unfold th; rewrite sin_0; replace (r * 0 / (b - r * cos 0)) with 0 by (unfold Rdiv; ring); apply atan_0).
  assert (TR : forall psi, 0 <= psi <= PI -> 0 <= th psi < PI / 2).
  { intros psi Hp. assert (SP : 0 <= sin psi) by (apply sin_ge_0; lra). assert (DP' := DP psi). split; [|apply atan_bound].
    assert (A0 : 0 <= r * sin psi / (b - r * cos psi)). { apply Rmult_le_pos; [nra|apply Rlt_le, Rinv_0_lt_compat, DP']. }
    unfold th. destruct A0 as [A0|A0]; [apply Rlt_le; rewrite <- atan_0; apply atan_increasing, A0|rewrite <- A0, atan_0; lra]. }
  exists w, th. split; [exact D|split; [apply w_cont; lra|split; [|split; [exact T0|split; [|]]]]].
  - intros psi. unfold w. pose proof (rho2_pos psi ltac:(lra)). field. lra.
  - intros psi Hp. split; [pose proof (TR psi Hp); lra|apply R0].
  - intros c H Cc HC H0. set (pt := acos (r / b)).
    assert (RB : 0 < r / b < 1). { split; [apply Rdiv_lt_0_compat; lra|]. apply Rmult_lt_reg_r with b; [lra|]. unfold Rdiv. rewrite Rmult_assoc, Rinv_l by lra. lra. }
    assert (PT : 0 < pt < PI). { unfold pt. destruct (acos_bound (r / b)) as [A1 A2]. split.
      - destruct A1 as [|A1]; [assumption|]. exfalso. assert (cos 0 = r / b) by (rewrite A1; apply cos_acos; lra). rewrite cos_0 in *. lra.
      - destruct A2 as [|A2]; [assumption|]. exfalso. assert (cos PI = r / b) by (rewrite <- A2; apply cos_acos; lra). rewrite cos_PI in *. lra. }
    assert (CT : cos pt = r / b) by (apply cos_acos; lra).
    assert (CB : b * cos pt = r) by (rewrite CT; field; lra).
    assert (W : forall x, continuous w x) by (apply w_cont; lra).
    assert (C1 : forall x, continuous (fun phi => c phi * H (clip (ray_out b r phi))) x) by (intros x; apply cont_mult; [apply Cc|]; apply Hc_cont; [exact HC|apply ray_cont]).
    assert (C2 : forall x, continuous (fun phi => c phi * H (clip (ray_in b r phi))) x) by (intros x; apply cont_mult; [apply Cc|]; apply Hc_cont; [exact HC|apply ray_cont]).
    assert (S1 := rint_comp _ th (fun psi => - w psi) PI pt C1 D (fun x => cont_opp w x (W x))). rewrite T0 in S1.
    assert (S2 := rint_comp _ th (fun psi => - w psi) 0 pt C2 D (fun x => cont_opp w x (W x))). rewrite T1 in S2. cbv beta in S1, S2.
    set (V1 := RInt (fun phi => c phi * H (clip (ray_out b r phi))) 0 (th pt)) in *. set (V2 := RInt (fun phi => c phi * H (clip (ray_in b r phi))) 0 (th pt)) in *.
    assert (TP : 0 <= th pt < PI / 2) by (apply TR; lra).
    assert (E1 : is_RInt (fun psi => c (th psi) * (H (clip (rho psi)) * w psi)) pt PI V1).
    { apply rint_swap. apply rint_opp in S1. apply (rint_ext_v _ _ _ _ _ S1). intros psi Hp. rewrite Rmin_right, Rmax_left in Hp by lra.
      rewrite (on_ray_out (th psi) psi (R0 psi) (rho_in psi ltac:(lra))); [ring|]. assert (cos psi < cos pt) by (apply cos_decreasing_1; lra). assert (b * cos psi <= b * cos pt) by nra. nra. }
    assert (E2 : is_RInt (fun psi => c (th psi) * (H (clip (rho psi)) * w psi)) 0 pt (- V2)).
    { apply rint_opp in S2. apply (rint_ext_v _ _ _ _ _ S2). intros psi Hp. rewrite Rmin_left, Rmax_right in Hp by lra.
      rewrite (on_ray_in (th psi) psi (R0 psi) (rho_in psi ltac:(lra))); [ring|]. assert (cos pt < cos psi) by (apply cos_decreasing_1; lra). assert (b * cos pt <= b * cos psi) by nra. nra. }
    rewrite (is_RInt_unique _ _ _ _ (rint_chasles _ _ _ _ _ _ (- V2 + V1) E2 E1 eq_refl)).
    apply (rint_chasles _ 0 (th pt) PI (V1 - V2) 0); [| |ring].
    + unfold shadow. apply (rint_ext_v (fun phi => c phi * H (clip (ray_out b r phi)) - c phi * H (clip (ray_in b r phi)))); [|intros; ring]. apply rint_minus; apply rint_cont; assumption.
    + apply is_RInt_zero_on. intros phi Hp. rewrite Rmin_left, Rmax_right in Hp by lra. unfold shadow. destruct (Rle_lt_dec phi (PI / 2)) as [Q|Q].
      * assert (Z : ray_d b r phi = 0); [|unfold ray_in, ray_out; rewrite Z, Rplus_0_r, Rminus_0_r; ring].
        unfold ray_d. apply sqrt_neg_0. assert (SI : sin (th pt) <= sin phi) by (apply sin_incr_1; lra).
        assert (SE : b * sin (th pt) = r).
        { destruct (R0 pt) as [_ E]. assert (RP : 0 < rho pt) by (apply rho_in; lra). assert (SP : 0 < sin pt) by (apply sin_gt_0; lra).
          assert (Q2 : rho pt = b * sin pt). { apply Rsqr_inj; [apply rho_nonneg|nra|]. unfold Rsqr. rewrite rho_sq. unfold erho2. pose proof (sin2_cos2 pt) as C. unfold Rsqr in C.
            replace (2 * b * r * cos pt) with (2 * r * (b * cos pt)) by ring. rewrite CB. replace (b * sin pt * (b * sin pt)) with (b * b * (sin pt * sin pt + cos pt * cos pt) - (b * cos pt) * (b * cos pt)) by ring. rewrite C, CB. ring. }
          rewrite Q2 in E. apply Rmult_eq_reg_l with (sin pt); [|lra]. lra. }
        assert (r <= b * sin phi) by nra. nra.
      * assert (CN : cos phi < 0) by (apply cos_lt_0; lra). assert (Z : ray_out b r phi <= 0).
        { unfold ray_out, ray_d. pose proof (sin2_cos2 phi) as C. unfold Rsqr in C. apply Rle_trans with (b * cos phi + sqrt ((b * - cos phi) * (b * - cos phi))).
          - apply Rplus_le_compat_l, sqrt_le_1_alt. replace (b * - cos phi * (b * - cos phi)) with (b ^ 2 * (sin phi * sin phi + cos phi * cos phi) - (b * sin phi) ^ 2) by ring. rewrite C. nra.
          - rewrite sqrt_square by nra. lra. }
        rewrite !clip_0; [ring| |exact Z]. pose proof (ray_in_out b r phi). lra.
Qed.
Lemma polar_ok : exists w th, edge_polar w th.
Proof using Hb Hr. destruct (Rtotal_order b r) as [H|[H|H]]; [apply polar_lt|apply polar_eq|apply polar_gt]; assumption. Qed.
End Edge.
