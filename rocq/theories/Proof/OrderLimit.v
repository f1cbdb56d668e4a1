(** Convergence with the order of the quadrature. *)
From Coq Require Import Reals Lra Lia List Arith.
From Coquelicot Require Import Coquelicot.
From Verif Require Import Base.RealAux Base.Analysis Model.LimbDark Spec.BasisSpec Spec.DiskSpec Spec.LimbDarkSpec Spec.OccultSpec Spec.SkySpec Spec.QuadSpec Proof.LimbDarkGreen Proof.Occult Proof.Polynomials Proof.GaussLegendre Proof.Weierstrass.
Import ListNotations.
Open Scope R_scope.

Lemma divmul a c : c <> 0 -> a / c * c = a. Proof. intros; field; assumption. Qed.
(** a common positive lower bound of finitely many positive numbers *)
Lemma list_lower {A} (F : A -> R) l : (forall a, In a l -> 0 < F a) -> exists e, 0 < e /\ forall a, In a l -> e <= F a.
Proof.
  induction l as [|a l IH]; intros H; [exists 1; split; [lra|intros a []]|]. destruct IH as (e & He & K); [intros; apply H; now right|]. pose proof (H a (or_introl eq_refl)).
  exists (Rmin e (F a)). split; [now apply Rmin_glb_lt|]. intros c [<-|I]; [apply Rmin_r|]. eapply Rle_trans; [apply Rmin_l|now apply K].
Qed.
Lemma nat_bound (P : nat -> nat -> Prop) k : (forall i, (i < k)%nat -> exists N, forall n, (N <= n)%nat -> P i n) -> exists N, forall i n, (i < k)%nat -> (N <= n)%nat -> P i n.
Proof.
  induction k as [|k IH]; intros H; [exists O; intros; lia|]. destruct IH as (N & K); [intros; apply H; lia|]. destruct (H k (Nat.lt_succ_diag_r k)) as (N' & K').
  exists (Nat.max N N'). intros i n Hi Hn. destruct (Nat.eq_dec i k) as [->|]; [apply K'; lia|apply K; lia].
Qed.
Lemma edge_angle_range b r : 0 <= b -> 0 <= r -> b < 1 + r -> r < 1 + b -> 0 < edge_angle b r <= PI.
Proof.
  intros Hb Hr H1 H2. pose proof PI_RGT_0. unfold edge_angle. destruct (Rle_dec _ _) as [L|L]; [lra|]. assert (0 < b) by lra. assert (0 < r) by lra. assert (0 < b * r) by now apply Rmult_lt_0_compat.
  set (t := (b ^ 2 + r ^ 2 - 1) / (2 * b * r)). assert (t < 1). { unfold t. apply (Rmult_lt_reg_r (2 * b * r)); [lra|]. rewrite divmul by lra. assert (0 < (1 - (b - r)) * (1 + (b - r))) by (apply Rmult_lt_0_compat; lra). nra. }
  split; [|apply acos_bound]. destruct (acos_bound t) as [[A|A] _]; [exact A|]. exfalso. assert (-1 <= t). { unfold t. apply (Rmult_le_reg_r (2 * b * r)); [lra|]. rewrite divmul by lra. assert (0 <= (b + r - 1) * (b + r + 1)) by (apply Rmult_le_pos; lra). nra. }
  assert (Ct : cos (acos t) = t) by (apply cos_acos; lra). rewrite <- A, cos_0 in Ct. lra.
Qed.
(** strictly between the ends of the arc the edge is strictly inside the disk and away from its centre *)
Lemma edge_inside b r psi : 0 <= b -> 0 < r -> b < 1 + r -> r < 1 + b -> 0 < psi < edge_angle b r -> 0 < b ^ 2 + r ^ 2 - 2 * b * r * cos psi < 1.
Proof.
  intros Hb Hr H1 H2 Hp. pose proof (edge_angle_range b r Hb (Rlt_le _ _ Hr) H1 H2) as K. pose proof PI_RGT_0. assert (C1 : cos psi < 1). { rewrite <- cos_0. apply cos_decreasing_1; lra. }
  destruct Hb as [Hb|<-]; [|assert (0 < r * r < 1) by (split; nra); lra]. assert (B : 0 < b * r) by now apply Rmult_lt_0_compat. split.
  - pose proof (Rle_0_sqr (b - r)) as S. unfold Rsqr in S. assert (0 < b * r * (1 - cos psi)) by (apply Rmult_lt_0_compat; lra). nra.
  - unfold edge_angle in Hp. destruct (Rle_dec (b + r) 1) as [L|L].
    + assert (- 1 < cos psi). { rewrite <- cos_PI. apply cos_decreasing_1; lra. } assert (0 < b * r * (1 + cos psi)) by (apply Rmult_lt_0_compat; lra). assert (0 <= (1 - (b + r)) * (1 + (b + r))) by (apply Rmult_le_pos; lra). nra.
    + assert (-1 <= (b ^ 2 + r ^ 2 - 1) / (2 * b * r) <= 1).
      { split; apply (Rmult_le_reg_r (2 * b * r)); try lra; rewrite divmul by lra; [assert (0 <= (b + r - 1) * (b + r + 1)) by (apply Rmult_le_pos; lra); nra|assert (0 < (1 - (b - r)) * (1 + (b - r))) by (apply Rmult_lt_0_compat; lra); nra]. }
      pose proof (acos_bound ((b ^ 2 + r ^ 2 - 1) / (2 * b * r))). assert (C : cos (acos ((b ^ 2 + r ^ 2 - 1) / (2 * b * r))) < cos psi) by (apply cos_decreasing_1; lra). rewrite cos_acos in C by lra.
      apply (Rmult_lt_compat_r (2 * b * r)) in C; [|lra]. rewrite divmul in C by lra. lra.
Qed.
Lemma node_inside k x : 0 < k -> -1 < x < 1 -> 0 < node_at 0 k x < k.
Proof. intros Hk Hx. unfold node_at. rewrite Rminus_0_r, Rplus_0_l. assert (k / 2 * -1 < k / 2 * x < k / 2 * 1) by (split; apply Rmult_lt_compat_l; lra). lra. Qed.
Lemma branches_eventually n rule b r : 0 <= b -> 0 <= r -> b < 1 + r -> r < 1 + b -> gauss_legendre n rule -> exists e, 0 < e /\ forall eps, 0 < eps <= e -> clear_of_branches eps rule b r.
Proof.
  intros Hb [Hr|<-] H1 H2 (_ & _ & G & _); [|exists 1; split; [lra|]; intros; now left]. pose proof (edge_angle_range b r Hb (Rlt_le _ _ Hr) H1 H2) as K.
  set (z2 := fun x => edge_z b r (node_at 0 (edge_angle b r) x) ^ 2). assert (Z : forall x w, In (x, w) rule -> 0 < z2 x < 1).
  { intros x w I. destruct (G x w I) as [Hx _]. pose proof (edge_inside b r _ Hb Hr H1 H2 (node_inside (edge_angle b r) x (proj1 K) Hx)) as E. unfold z2, edge_z. rewrite pow2_sqrt by lra. lra. }
  destruct (list_lower (fun xw : R * R => Rmin (z2 (fst xw)) (1 - z2 (fst xw))) rule) as (e & He & L). { intros [x w] I. cbn [fst]. specialize (Z x w I). apply Rmin_glb_lt; lra. }
  assert (Hbr : exists e', 0 < e' /\ forall eps, 0 < eps <= e' -> 10 * eps <= 4 * b * r \/ b = 0).
  { destruct Hb as [Hb|<-]; [|exists 1; split; [lra|now right]]. assert (0 < b * r) by now apply Rmult_lt_0_compat. exists (4 * b * r / 10). split; [lra|]. intros; left; lra. }
  destruct Hbr as (e' & He' & Hbr). exists (Rmin (e / 10) e'). split; [apply Rmin_glb_lt; lra|]. intros eps He0. pose proof (Rmin_l (e / 10) e'). pose proof (Rmin_r (e / 10) e'). right. split; [apply Hbr; lra|].
  intros x w I. specialize (L (x, w) I). cbn [fst] in L. pose proof (Rmin_l (z2 x) (1 - z2 x)). pose proof (Rmin_r (z2 x) (1 - z2 x)). unfold clear_of_eps. fold (z2 x). lra.
Qed.
Lemma light_curve_limit u b r : disk_flux u <> 0 -> ~ (Rabs b = 0 /\ Rabs r = 1) -> forall delta, 0 < delta ->
  exists N, forall n rule, (N <= n)%nat -> gauss_legendre n rule -> exists eps0, 0 < eps0 /\ forall eps, 0 < eps <= eps0 ->
  Rabs (light_curve eps rule u b r - (occulted_flux u (Rabs b) (Rabs r) / disk_flux u - 1)) <= delta.
Proof.
  intros Hu H0 delta Hd. destruct (Rle_dec (1 + Rabs r) (Rabs b)) as [L1|L1].
  { exists O. intros n rule _ _. exists 1. split; [lra|]. intros eps _. rewrite occ_trivial by auto. rewrite Rminus_eq_0, Rabs_R0. lra. }
  destruct (Rle_dec (1 + Rabs b) (Rabs r)) as [L2|L2].
  { exists O. intros n rule _ _. exists 1. split; [lra|]. intros eps _. rewrite occ_trivial by auto. rewrite Rminus_eq_0, Rabs_R0. lra. }
  apply Rnot_le_lt in L1, L2. set (K := bigsum (S (length u)) (fun n => Rabs (nth n (greens_basis_transform u) 0)) / Rabs (disk_flux u)).
  assert (K0 : 0 <= K). { apply Rmult_le_pos; [apply bigsum_nonneg; intros; apply Rabs_pos|]. left. apply Rinv_0_lt_compat. now apply Rabs_pos_lt. }
  set (d := delta / (K + 1)). assert (Hd' : 0 < d) by (apply Rdiv_lt_0_compat; lra). pose proof (Rabs_pos b) as Pb. pose proof (Rabs_pos r) as Pr.
  destruct (nat_bound (fun k n => forall rule, gauss_legendre n rule -> Rabs (edge_error rule (Rabs b) (Rabs r) k) <= d) (S (length u))) as (N & HN).
  { intros k _. destruct (gauss_limit (edge_integrand (Rabs b) (Rabs r) k) 0 (edge_angle (Rabs b) (Rabs r))) with (eps := d) as (N & HN); [pose proof (edge_angle_range (Rabs b) (Rabs r)); lra|intros; apply edge_integrand_cont|exact Hd'|].
    exists N. intros n Hn rule G. apply (HN n rule Hn G). }
  exists N. intros n rule Hn G. destruct (branches_eventually n rule (Rabs b) (Rabs r) Pb Pr L1 L2 G) as (e & He & C). exists e. split; [exact He|]. intros eps He0.
  eapply Rle_trans; [apply (occ_error eps rule u b r d); [lra|exact Hu|exact L1|exact L2|now apply C|lra|]|].
  - intros k Hk _. apply (HN k n); [lia|exact Hn|exact G].
  - fold K. replace delta with ((K + 1) * d) by (unfold d; field; lra). apply Rmult_le_compat_r; lra.
Qed.
