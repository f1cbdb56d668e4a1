(** Approximation of continuous functions by polynomials (Bernstein), and convergence of Gauss-Legendre quadrature. *)
From Coq Require Import Reals Lra Lia List Arith.
From Coquelicot Require Import Coquelicot.
From Verif Require Import Base.RealAux Base.Analysis Spec.HarmonicSpec Spec.OccultSpec Spec.QuadSpec Proof.Polynomials Proof.GaussLegendre.
Import ListNotations.
Open Scope R_scope.

(** mean of g(k), k binomial of parameters n and x *)
Fixpoint binom_mean (n : nat) (g : nat -> R) (x : R) : R :=
  match n with O => g O | S n => x * binom_mean n (fun k => g (S k)) x + (1 - x) * binom_mean n g x end.
Lemma binom_mean_ext n : forall g h x, (forall k, (k <= n)%nat -> g k = h k) -> binom_mean n g x = binom_mean n h x.
Proof. induction n as [|n IH]; intros g h x H; cbn [binom_mean]; [apply H; lia|]. rewrite (IH g h), (IH (fun k => g (S k)) (fun k => h (S k))); [reflexivity|intros; apply H; lia|intros; apply H; lia]. Qed.
Lemma binom_mean_lin n : forall a g c h x, binom_mean n (fun k => a * g k + c * h k) x = a * binom_mean n g x + c * binom_mean n h x.
Proof. induction n as [|n IH]; intros; cbn [binom_mean]; [ring|]. rewrite (IH a g c h), (IH a (fun k => g (S k)) c (fun k => h (S k))). ring. Qed.
Lemma binom_mean_const n c x : binom_mean n (fun _ => c) x = c.
Proof. induction n as [|n IH]; cbn [binom_mean]; [reflexivity|]. rewrite IH. ring. Qed.
Lemma binom_mean_le n : forall g h x, 0 <= x <= 1 -> (forall k, (k <= n)%nat -> g k <= h k) -> binom_mean n g x <= binom_mean n h x.
Proof.
  induction n as [|n IH]; intros g h x Hx H; cbn [binom_mean]; [apply H; lia|]. assert (A := IH g h x Hx ltac:(intros; apply H; lia)). assert (B := IH (fun k => g (S k)) (fun k => h (S k)) x Hx ltac:(intros; apply H; lia)).
  apply Rplus_le_compat; apply Rmult_le_compat_l; lra.
Qed.
Lemma binom_mean_sq n : forall a x, binom_mean n (fun k => (INR k + a) ^ 2) x = INR n * x * (1 - x) + (INR n * x + a) ^ 2.
Proof.
  induction n as [|n IH]; intros a x; [cbn; ring|]. change (binom_mean (S n) (fun k => (INR k + a) ^ 2) x) with (x * binom_mean n (fun k => (INR (S k) + a) ^ 2) x + (1 - x) * binom_mean n (fun k => (INR k + a) ^ 2) x).
  rewrite (binom_mean_ext n (fun k => (INR (S k) + a) ^ 2) (fun k => (INR k + (a + 1)) ^ 2)) by (intros; rewrite S_INR; f_equal; ring). rewrite !IH, S_INR. ring.
Qed.
Lemma binom_mean_poly n : forall g, polynomial (S n) (binom_mean n g).
Proof.
  induction n as [|n IH]; intros g; cbn [binom_mean]; [apply (poly_const 0)|]. apply (poly_ext _ (fun x => x * binom_mean n (fun k => g (S k)) x + (binom_mean n g x - x * binom_mean n g x))); [intros; ring|].
  apply poly_plus; [apply poly_mulx, IH|]. apply poly_minus; [apply (poly_mono (S n)); [lia|apply IH]|apply poly_mulx, IH].
Qed.

Lemma weierstrass01 f : (forall x : R, 0 <= x <= 1 -> continuous f x) -> forall eps, 0 < eps -> exists n p, polynomial n p /\ forall x, 0 <= x <= 1 -> Rabs (p x - f x) <= eps.
Proof.
  intros Hc eps He.
  destruct (Heine_cor2 (f := f) (a := 0) (b := 1)) with (eps := mkposreal (eps / 2) ltac:(lra)) as [delta Hd]. { intros x Hx. apply continuity_pt_filterlim. apply Hc. exact Hx. }
  cbn [pos] in Hd. pose proof (cond_pos delta) as Dp. set (d := pos delta) in *.
  destruct (continuity_ab_maj (fun x => Rabs (f x)) 0 1 ltac:(lra)) as (xM & HM & _). { intros x Hx. apply continuity_pt_filterlim. apply cont_abs. now apply Hc. }
  set (M := Rabs (f xM)) in *. assert (HM' : forall x, 0 <= x <= 1 -> Rabs (f x) <= M) by exact HM. clear HM. assert (M0 : 0 <= M) by apply Rabs_pos.
  assert (D2 : 0 < d ^ 2) by (apply pow_lt; exact Dp).
  destruct (nfloor_ex (M / (eps * d ^ 2))) as [n [_ Hn]]. { apply Rmult_le_pos; [exact M0|]. left. apply Rinv_0_lt_compat. now apply Rmult_lt_0_compat. }
  exists (S (S n)), (binom_mean (S n) (fun k => f (INR k / INR (S n)))). split; [apply binom_mean_poly|]. intros x Hx. set (N := S n) in *.
  assert (Np : 0 < INR N) by (apply lt_0_INR; unfold N; lia).
  assert (Hk : forall k, (k <= N)%nat -> 0 <= INR k / INR N <= 1). { intros k Hk. split; [apply Rmult_le_pos; [apply pos_INR|left; now apply Rinv_0_lt_compat]|]. apply (Rmult_le_reg_r (INR N)); [exact Np|]. unfold Rdiv. rewrite Rmult_assoc, Rinv_l, Rmult_1_r, Rmult_1_l by lra. now apply le_INR. }
  assert (Hpt : forall k, (k <= N)%nat -> Rabs (f (INR k / INR N) - f x) <= eps / 2 * 1 + 2 * M / (d ^ 2 * INR N ^ 2) * (INR k + - (INR N * x)) ^ 2).
  { intros k Hk'. specialize (Hk k Hk'). replace (2 * M / (d ^ 2 * INR N ^ 2) * (INR k + - (INR N * x)) ^ 2) with (2 * M * ((INR k / INR N - x) ^ 2 / d ^ 2)) by (field; lra). rewrite Rmult_1_r.
    assert (Q : 0 <= (INR k / INR N - x) ^ 2 / d ^ 2). { apply Rmult_le_pos; [apply pow2_ge_0|left; now apply Rinv_0_lt_compat]. }
    destruct (Rlt_dec (Rabs (INR k / INR N - x)) d) as [L|L].
    - left. apply (Rlt_le_trans _ (eps / 2)); [apply Hd; [exact Hk|exact Hx|exact L]|]. assert (0 <= 2 * M * ((INR k / INR N - x) ^ 2 / d ^ 2)) by (apply Rmult_le_pos; lra). lra.
    - apply Rnot_lt_le in L. assert (Q1 : 1 <= (INR k / INR N - x) ^ 2 / d ^ 2).
      { apply (Rmult_le_reg_r (d ^ 2)); [exact D2|]. unfold Rdiv at 1. rewrite Rmult_assoc, Rinv_l, Rmult_1_r, Rmult_1_l by lra. rewrite <- (pow2_abs (INR k / INR N - x)). apply pow_incr. lra. }
      assert (B : Rabs (f (INR k / INR N) - f x) <= 2 * M). { eapply Rle_trans; [apply Rabs_triang|]. rewrite Rabs_Ropp. pose proof (HM' _ Hk). pose proof (HM' _ Hx). lra. }
      assert (2 * M * 1 <= 2 * M * ((INR k / INR N - x) ^ 2 / d ^ 2)) by (apply Rmult_le_compat_l; lra). lra. }
  assert (ED : binom_mean N (fun k => f (INR k / INR N)) x - f x = binom_mean N (fun k => f (INR k / INR N) - f x) x).
  { rewrite (binom_mean_ext N (fun k => f (INR k / INR N) - f x) (fun k => 1 * f (INR k / INR N) + -1 * f x)) by (intros; ring). rewrite (binom_mean_lin N 1 (fun k => f (INR k / INR N)) (-1) (fun _ => f x)), binom_mean_const. ring. }
  rewrite ED. set (K := 2 * M / (d ^ 2 * INR N ^ 2)) in *.
  assert (U : binom_mean N (fun k => eps / 2 * 1 + K * (INR k + - (INR N * x)) ^ 2) x <= eps).
  { rewrite (binom_mean_lin N (eps / 2) (fun _ => 1) K (fun k => (INR k + - (INR N * x)) ^ 2)), binom_mean_const, binom_mean_sq. replace ((INR N * x + - (INR N * x)) ^ 2) with 0 by ring. rewrite Rplus_0_r, Rmult_1_r.
    assert (X : x * (1 - x) <= / 4). { pose proof (Rle_0_sqr (x - / 2)) as S. unfold Rsqr in S. lra. }
    assert (K0 : 0 <= K * INR N). { apply Rmult_le_pos; [|lra]. unfold K. apply Rmult_le_pos; [lra|]. left. apply Rinv_0_lt_compat. apply Rmult_lt_0_compat; [exact D2|now apply pow_lt]. }
    replace (K * (INR N * x * (1 - x))) with (K * INR N * (x * (1 - x))) by ring.
    assert (H1 : K * INR N * (x * (1 - x)) <= K * INR N * / 4) by (apply Rmult_le_compat_l; lra).
    assert (H2 : K * INR N * / 4 <= eps / 2).
    { unfold K. replace (2 * M / (d ^ 2 * INR N ^ 2) * INR N * / 4) with (M / (2 * (d ^ 2 * INR N))) by (field; lra). apply (Rmult_le_reg_r (2 * (d ^ 2 * INR N))); [apply Rmult_lt_0_compat; [lra|now apply Rmult_lt_0_compat]|].
      unfold Rdiv at 1. rewrite Rmult_assoc, Rinv_l, Rmult_1_r by (apply Rgt_not_eq; apply Rmult_lt_0_compat; [lra|now apply Rmult_lt_0_compat]).
      assert (Hm : M <= eps * d ^ 2 * INR N). { assert (INR N = INR n + 1) by (unfold N; apply S_INR). assert (P : 0 < eps * d ^ 2) by now apply Rmult_lt_0_compat. replace M with (eps * d ^ 2 * (M / (eps * d ^ 2))) by (field; lra). apply Rmult_le_compat_l; lra. } lra. }
    lra. }
  assert (Lo : - eps <= binom_mean N (fun k => f (INR k / INR N) - f x) x).
  { apply (Rle_trans _ (- binom_mean N (fun k => eps / 2 * 1 + K * (INR k + - (INR N * x)) ^ 2) x)); [lra|].
    replace (- binom_mean N (fun k => eps / 2 * 1 + K * (INR k + - (INR N * x)) ^ 2) x) with (binom_mean N (fun k => -1 * (eps / 2 * 1 + K * (INR k + - (INR N * x)) ^ 2) + 0 * 0) x) by (rewrite (binom_mean_lin N (-1) (fun k => eps / 2 * 1 + K * (INR k + - (INR N * x)) ^ 2) 0 (fun _ => 0)); ring).
    apply binom_mean_le; [exact Hx|]. intros k Hk'. specialize (Hpt k Hk'). apply Rabs_le_between in Hpt. lra. }
  assert (Up : binom_mean N (fun k => f (INR k / INR N) - f x) x <= eps).
  { eapply Rle_trans; [|exact U]. apply binom_mean_le; [exact Hx|]. intros k Hk'. specialize (Hpt k Hk'). apply Rabs_le_between in Hpt. lra. }
  apply Rabs_le. split; assumption.
Qed.
Theorem weierstrass f a b : a < b -> (forall x : R, a <= x <= b -> continuous f x) -> forall eps, 0 < eps -> exists n p, polynomial n p /\ forall x, a <= x <= b -> Rabs (p x - f x) <= eps.
Proof.
  intros Hab Hc eps He. destruct (weierstrass01 (fun t => f ((b - a) * t + a))) with (eps := eps) as (n & p & Hp & H); [|exact He|].
  - intros t Ht. apply (cont_comp (fun t => (b - a) * t + a) f); [apply cont_plus; [apply cont_scal, cont_id|apply cont_const]|]. apply Hc. assert (0 <= (b - a) * t <= (b - a) * 1) by (split; [apply Rmult_le_pos; lra|apply Rmult_le_compat_l; lra]). lra.
  - exists n, (fun x => p (/ (b - a) * x + - a * / (b - a))). split; [now apply poly_affine|]. intros x Hx.
    assert (T : 0 <= / (b - a) * x + - a * / (b - a) <= 1). { replace (/ (b - a) * x + - a * / (b - a)) with ((x - a) / (b - a)) by (field; lra). split; [apply Rmult_le_pos; [lra|left; apply Rinv_0_lt_compat; lra]|]. apply (Rmult_le_reg_r (b - a)); [lra|]. unfold Rdiv. rewrite Rmult_assoc, Rinv_l by lra. lra. }
    specialize (H _ T). cbn beta in H. replace ((b - a) * (/ (b - a) * x + - a * / (b - a)) + a) with x in H by (field; lra). exact H.
Qed.

(** * Quadrature *)
Lemma quadrature_le rule lo hi f g d : lo <= hi -> (forall x w, In (x, w) rule -> -1 <= x <= 1 /\ 0 <= w) -> (forall t, lo <= t <= hi -> Rabs (f t - g t) <= d) -> Rsum (map snd rule) = 2 ->
  Rabs (quadrature rule lo hi f - quadrature rule lo hi g) <= (hi - lo) * d.
Proof.
  intros Hlh Hr Hd Hs. unfold quadrature. rewrite <- Rmult_minus_distr_l, Rabs_mult, Rabs_right by lra.
  assert (K : Rabs (Rsum (map (fun xw => f (node_at lo hi (fst xw)) * snd xw) rule) - Rsum (map (fun xw => g (node_at lo hi (fst xw)) * snd xw) rule)) <= Rsum (map snd rule) * d).
  { clear Hs. induction rule as [|[x w] rule IH]; [cbn; rewrite Rminus_0_r, Rabs_R0; lra|]. cbn [map fst snd Rsum fold_right]. change (fold_right Rplus 0) with Rsum.
    specialize (IH (fun x w I => Hr x w (or_intror I))). destruct (Hr x w (or_introl eq_refl)) as [Hx Hw].
    match goal with |- Rabs (?a + ?b - (?c + ?e)) <= _ => replace (a + b - (c + e)) with ((a - c) + (b - e)) by ring end. eapply Rle_trans; [apply Rabs_triang|].
    assert (T : lo <= node_at lo hi x <= hi). { unfold node_at. assert ((hi - lo) / 2 * -1 <= (hi - lo) / 2 * x <= (hi - lo) / 2 * 1) by (split; apply Rmult_le_compat_l; lra). lra. }
    specialize (Hd _ T). assert (Rabs (f (node_at lo hi x) * w - g (node_at lo hi x) * w) <= w * d). { rewrite <- Rmult_minus_distr_r, Rabs_mult, (Rabs_right w) by lra. rewrite Rmult_comm. now apply Rmult_le_compat_l. } lra. }
  rewrite Hs in K. assert ((hi - lo) / 2 * Rabs (Rsum (map (fun xw => f (node_at lo hi (fst xw)) * snd xw) rule) - Rsum (map (fun xw => g (node_at lo hi (fst xw)) * snd xw) rule)) <= (hi - lo) / 2 * (2 * d)) by (apply Rmult_le_compat_l; lra). lra.
Qed.
Lemma quadrature_poly n rule lo hi p : gauss_legendre n rule -> polynomial (2 * n) p -> quadrature rule lo hi p = RInt p lo hi.
Proof.
  intros (_ & _ & _ & Hp) P. unfold quadrature. pose proof (Hp _ (poly_affine _ ((hi - lo) / 2) ((lo + hi) / 2) _ P)) as E. cbn beta in E.
  change (fun xw : R * R => p ((hi - lo) / 2 * fst xw + (lo + hi) / 2) * snd xw) with (fun xw : R * R => p (node_at lo hi (fst xw)) * snd xw) in E. rewrite E.
  pose proof (RInt_comp_lin p ((hi - lo) / 2) ((lo + hi) / 2) (-1) 1) as C. replace ((hi - lo) / 2 * -1 + (lo + hi) / 2) with lo in C by lra. replace ((hi - lo) / 2 * 1 + (lo + hi) / 2) with hi in C by lra.
  rewrite <- C by now apply (poly_ex_RInt (2 * n)). symmetry. rewrite (RInt_scal (fun y => p ((hi - lo) / 2 * y + (lo + hi) / 2))); [reflexivity|]. apply (poly_ex_RInt (2 * n)). now apply (poly_affine (2 * n)).
Qed.
Theorem gauss_limit f lo hi : lo <= hi -> (forall x : R, lo <= x <= hi -> continuous f x) -> forall eps, 0 < eps ->
  exists N, forall n rule, (N <= n)%nat -> gauss_legendre n rule -> Rabs (RInt f lo hi - quadrature rule lo hi f) <= eps.
Proof.
  intros [Hlh|<-] Hc eps He.
  - destruct (weierstrass f lo hi Hlh Hc (eps / (2 * (hi - lo)))) as (m & p & Hp & H). { apply Rdiv_lt_0_compat; lra. }
    exists (S m). intros n rule Hn G. set (d := eps / (2 * (hi - lo))) in *. assert (Ed : (hi - lo) * d = eps / 2) by (unfold d; field; lra).
    assert (Q : Rabs (quadrature rule lo hi f - quadrature rule lo hi p) <= (hi - lo) * d).
    { apply quadrature_le; [lra| | |now apply (gauss_total n); [lia|]].
      - intros x w I. split; [destruct G as (_ & _ & G & _); destruct (G x w I); lra|now apply (gauss_weights n rule G x w)].
      - intros t Ht. rewrite Rabs_minus_sym. now apply H. }
    assert (P : polynomial (2 * n) p) by (apply (poly_mono m); [lia|exact Hp]). rewrite (quadrature_poly n rule lo hi p G P) in Q.
    assert (If : ex_RInt f lo hi). { apply @ex_RInt_continuous. intros x Hx. rewrite Rmin_left, Rmax_right in Hx by lra. now apply Hc. }
    pose proof (poly_ex_RInt _ _ lo hi P) as Ip.
    assert (D : Rabs (RInt f lo hi - RInt p lo hi) <= (hi - lo) * d).
    { pose proof (RInt_minus f p lo hi If Ip) as E. change (RInt (fun x => f x - p x) lo hi = RInt f lo hi - RInt p lo hi) in E. rewrite <- E. apply abs_RInt_le_const; [lra|apply (ex_RInt_minus f p lo hi If Ip)|]. intros t Ht. rewrite Rabs_minus_sym. now apply H. }
    rewrite Ed in *. replace (RInt f lo hi - quadrature rule lo hi f) with ((RInt f lo hi - RInt p lo hi) - (quadrature rule lo hi f - RInt p lo hi)) by ring.
    eapply Rle_trans; [apply Rabs_triang|]. rewrite Rabs_Ropp. lra.
  - exists O. intros n rule _ _. rewrite RInt_point. unfold quadrature. replace ((lo - lo) / 2) with 0 by lra. unfold zero. cbn. rewrite Rmult_0_l, Rminus_0_r, Rabs_R0. lra.
Qed.
