(** Convergence with the order for the remaining Green's functions, and for whole maps. *)
From Coq Require Import Reals Lra Lia ZArith List Arith Bool.
From Coquelicot Require Import Coquelicot.
From Verif Require Import Base.RealAux Base.Analysis Spec.BasisSpec Spec.HarmonicSpec Spec.OccultSpec Spec.SkySpec Spec.QuadSpec Proof.Occult Proof.Polynomials Proof.GaussLegendre Proof.Weierstrass Proof.SolutionGreen Proof.OrderLimit.
Import ListNotations.
Open Scope R_scope.

Lemma edge_zdisk b r psi : zdisk (r * sin psi) (b - r * cos psi) = edge_z b r psi.
Proof. unfold zdisk, edge_z. f_equal. pose proof (sin2_cos2 psi) as E. unfold Rsqr in E. replace ((r * sin psi) ^ 2) with (r ^ 2 * (1 - cos psi * cos psi)) by (rewrite <- E; ring). ring. Qed.
Lemma edge_z_cont b r psi : continuous (edge_z b r) psi.
Proof. unfold edge_z. apply cont_sqrt. apply (ex_derive_continuous (fun psi : R => 1 - b ^ 2 - r ^ 2 + 2 * b * r * cos psi)). auto_derive. exact I. Qed.
Lemma edge_pair_lin b r psi : edge_pair 1 1 b r psi = edge_integrand b r 1 psi.
Proof.
  unfold edge_pair, edge_component, green_field, edge_integrand. cbn [Nat.even Nat.eqb andb fst snd]. cbv zeta. rewrite sin_neg, cos_neg. replace (r * - sin psi) with (- (r * sin psi)) by ring.
  assert (Z : zdisk (- (r * sin psi)) (b - r * cos psi) = edge_z b r psi) by (rewrite <- edge_zdisk; unfold zdisk; f_equal; ring). rewrite Z, edge_zdisk. clear Z. set (z := edge_z b r psi). pose proof (sin2_cos2 psi) as E. unfold Rsqr in E.
  assert (N : r * sin psi * (r * sin psi) = r ^ 2 * (1 - cos psi * cos psi)) by (replace (r * sin psi * (r * sin psi)) with (r ^ 2 * (sin psi * sin psi)) by ring; f_equal; lra).
  assert (z0 : 0 <= z) by apply sqrt_pos. destruct (Req_EM_T z 1) as [Z1|Z1].
  - assert (D0 : (r * sin psi) ^ 2 + (b - r * cos psi) ^ 2 = 0).
    { unfold z, edge_z in Z1. assert (P : 0 < 1 - b ^ 2 - r ^ 2 + 2 * b * r * cos psi). { destruct (Rlt_dec 0 (1 - b ^ 2 - r ^ 2 + 2 * b * r * cos psi)); [assumption|]. rewrite sqrt_neg_0 in Z1 by lra. lra. }
      apply (f_equal (fun v => v ^ 2)) in Z1. rewrite pow2_sqrt in Z1 by lra. replace ((r * sin psi) ^ 2) with (r * sin psi * (r * sin psi)) by ring. rewrite N. lra. }
    assert (X : r * sin psi = 0 /\ b - r * cos psi = 0). { pose proof (pow2_ge_0 (r * sin psi)). pose proof (pow2_ge_0 (b - r * cos psi)). split; apply Rsqr_0_uniq; unfold Rsqr; lra. }
    destruct X as [X Y]. rewrite X, Y. replace b with (r * cos psi) by lra. replace (r * (r - r * cos psi * cos psi)) with (r ^ 2 * (1 - cos psi * cos psi)) by ring. replace (2 * r * (r - r * cos psi * cos psi)) with (2 * (r ^ 2 * (1 - cos psi * cos psi))) by ring. rewrite <- N, X. ring.
  - assert (D : 1 - z ^ 2 <> 0). { intros H. apply Z1. assert (H' : (1 - z) * (1 + z) = 0) by (rewrite <- H; ring). apply Rmult_integral in H' as [H'|H']; lra. }
    assert (Eh : (1 - z ^ 3) / (3 * (1 - z ^ 2)) = (1 + z + z ^ 2) / (3 * (1 + z))). { field. split; [lra|exact D]. } rewrite Eh. set (h := (1 + z + z ^ 2) / (3 * (1 + z))).
    match goal with |- ?l = _ => replace l with (2 * h * (r * sin psi * (r * sin psi) - (b - r * cos psi) * (r * cos psi))) by ring end. rewrite N. ring.
Qed.
Lemma edge_component_cont l nu b r psi : (Nat.eqb l 1 && Nat.eqb nu 1)%bool = false -> continuous (edge_component l nu b r) psi.
Proof.
  intros H. unfold edge_component, green_field. rewrite H. cbv zeta.
  assert (S1 : continuous (fun t : R => r * sin t) psi) by (apply cont_scal, cont_sin, cont_id). assert (C1 : continuous (fun t : R => r * cos t) psi) by (apply cont_scal, cont_cos, cont_id).
  assert (Y1 : continuous (fun t : R => b - r * cos t) psi) by (apply cont_minus; [apply cont_const|exact C1]). assert (Z1 : continuous (fun t : R => zdisk (r * sin t) (b - r * cos t)) psi) by (apply (continuous_ext (edge_z b r)); [intros; now rewrite edge_zdisk|apply edge_z_cont]).
  destruct (Nat.even nu); [|destruct ((2 * l - nu) =? 1)%nat; [destruct (Nat.even l)|]]; cbn [fst snd]; apply cont_plus; apply cont_mult; try assumption; try apply (cont_const 0).
  - apply cont_mult; apply cont_pow; assumption.
  - apply cont_mult; apply cont_pow; assumption.
  - apply cont_mult; [apply cont_mult; [apply cont_pow; assumption|assumption]|apply cont_pow; assumption].
  - apply cont_mult; [apply cont_mult; apply cont_pow; assumption|apply cont_pow; assumption].
Qed.
Lemma edge_pair_cont l nu b r psi : continuous (edge_pair l nu b r) psi.
Proof.
  destruct (Nat.eqb l 1 && Nat.eqb nu 1)%bool eqn:H.
  - apply andb_prop in H as [H1 H2]. apply Nat.eqb_eq in H1, H2. subst. apply (continuous_ext (edge_integrand b r 1)); [intros; now rewrite edge_pair_lin|apply edge_integrand_cont].
  - unfold edge_pair. apply cont_plus; [now apply edge_component_cont|]. apply (cont_comp (fun t : R => - t)); [apply cont_opp, cont_id|now apply edge_component_cont].
Qed.
Lemma green_limit b r l nu : 0 <= b -> 0 <= r -> b < 1 + r -> r < 1 + b -> forall delta, 0 < delta -> exists N, forall n, (N <= n)%nat -> forall rule, gauss_legendre n rule -> Rabs (green_error rule b r l nu) <= delta.
Proof.
  intros Hb Hr H1 H2 delta Hd. destruct (gauss_limit (edge_pair l nu b r) 0 (edge_angle b r)) with (eps := delta) as (N & HN); [pose proof (edge_angle_range b r Hb Hr H1 H2); lra|intros; apply edge_pair_cont|exact Hd|].
  exists N. intros n Hn rule G. exact (HN n rule Hn G).
Qed.
Lemma guards_eventually n rule b r : 0 <= b -> 0 <= r -> b < 1 + r -> r < 1 + b -> gauss_legendre n rule -> exists e, 0 < e /\ forall eps, 0 < eps <= e -> clear_of_guards eps rule b r.
Proof.
  intros Hb [Hr|<-] H1 H2 (_ & _ & G & _); [|exists 1; split; [lra|]; intros; now left]. pose proof (edge_angle_range b r Hb (Rlt_le _ _ Hr) H1 H2) as K.
  set (z2 := fun x => b ^ 2 + r ^ 2 - 2 * b * r * cos (node_at 0 (edge_angle b r) x)). assert (Z : forall x w, In (x, w) rule -> 0 < z2 x).
  { intros x w I. destruct (G x w I) as [Hx _]. pose proof (edge_inside b r _ Hb Hr H1 H2 (node_inside (edge_angle b r) x (proj1 K) Hx)) as E. unfold z2. lra. }
  destruct (list_lower (fun xw : R * R => z2 (fst xw)) rule) as (e & He & L). { intros [x w] I. cbn [fst]. now apply (Z x w). }
  assert (Hbr : exists e', 0 < e' /\ forall eps, 0 < eps <= e' -> b = 0 \/ 10 * eps <= 4 * b * r).
  { destruct Hb as [Hb|<-]; [|exists 1; split; [lra|now left]]. assert (0 < b * r) by now apply Rmult_lt_0_compat. exists (4 * b * r / 10). split; [lra|]. intros; right; lra. }
  destruct Hbr as (e' & He' & Hbr). exists (Rmin (Rmin (e / 10) e') (r / 10)). split; [repeat apply Rmin_glb_lt; lra|]. intros eps He0. pose proof (Rmin_l (Rmin (e / 10) e') (r / 10)). pose proof (Rmin_r (Rmin (e / 10) e') (r / 10)). pose proof (Rmin_l (e / 10) e'). pose proof (Rmin_r (e / 10) e'). right.
  split; [lra|split; [apply Hbr; lra|]]. intros x w I. destruct (G x w I) as [Hx _]. split; [lra|]. specialize (L (x, w) I). cbn [fst] in L. fold (z2 x). lra.
Qed.
