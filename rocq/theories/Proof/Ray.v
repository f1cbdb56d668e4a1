(** Integrals over the visible part of a disk, along rays from the centre. *)
From Coq Require Import Reals Lra Lia List Bool Arith Psatz.
From Coquelicot Require Import Coquelicot.
From Verif Require Import Base.RealAux Base.Analysis Spec.BasisSpec Spec.DiskSpec Spec.LimbDarkSpec Spec.OccultSpec Proof.LimbDarkArea.
Import ListNotations.
Open Scope R_scope.

Definition clip (t : R) : R := Rmin 1 (Rmax 0 t).
Lemma clip_range t : 0 <= clip t <= 1.
Proof. unfold clip, Rmin, Rmax. destruct (Rle_dec 0 t); destruct (Rle_dec 1 _); lra. Qed.
Lemma clip_mono s t : s <= t -> clip s <= clip t.
Proof. intros H. unfold clip, Rmin, Rmax. repeat destruct (Rle_dec _ _); lra. Qed.
Lemma clip_id t : 0 <= t <= 1 -> clip t = t.
Proof. intros H. unfold clip, Rmin, Rmax. repeat destruct (Rle_dec _ _); lra. Qed.
Lemma clip_0 t : t <= 0 -> clip t = 0.
Proof. intros H. unfold clip, Rmin, Rmax. repeat destruct (Rle_dec _ _); lra. Qed.
Lemma clip_1 t : 1 <= t -> clip t = 1.
Proof. intros H. unfold clip, Rmin, Rmax. repeat destruct (Rle_dec _ _); lra. Qed.
Lemma clip_cont t : continuous clip t.
Proof. unfold clip. apply (cont_Rmin (fun _ => 1) (fun t => Rmax 0 t)); [apply cont_const|]. apply (cont_Rmax (fun _ => 0) (fun t => t)); [apply cont_const|apply cont_id]. Qed.
(** where the ray in the direction phi enters and leaves the occultor *)
Definition ray_d (b r phi : R) : R := sqrt (r ^ 2 - (b * sin phi) ^ 2).
Definition ray_in b r phi : R := b * cos phi - ray_d b r phi.
Definition ray_out b r phi : R := b * cos phi + ray_d b r phi.
Lemma ray_d_pos b r phi : 0 <= ray_d b r phi.
Proof. apply sqrt_pos. Qed.
Lemma ray_in_out b r phi : ray_in b r phi <= ray_out b r phi.
Proof. unfold ray_in, ray_out. pose proof (ray_d_pos b r phi). lra. Qed.
Lemma dist_ray b phi rho : (rho * cos phi - b) ^ 2 + (rho * sin phi) ^ 2 = (rho - b * cos phi) ^ 2 + (b * sin phi) ^ 2.
Proof.
  pose proof (sin2_cos2 phi) as C. unfold Rsqr in C.
  transitivity (rho ^ 2 * (sin phi * sin phi + cos phi * cos phi) - 2 * rho * b * cos phi + b ^ 2 * 1); [ring|]. rewrite C.
  transitivity (rho ^ 2 - 2 * rho * b * cos phi + b ^ 2 * (sin phi * sin phi + cos phi * cos phi)); [rewrite C; ring|ring].
Qed.
Lemma ray_inside b r phi rho : ray_in b r phi < rho < ray_out b r phi -> (rho * cos phi - b) ^ 2 + (rho * sin phi) ^ 2 < r ^ 2.
Proof.
  rewrite dist_ray. unfold ray_in, ray_out. pose proof (ray_d_pos b r phi) as P. intros [H1 H2].
  assert (D : 0 < r ^ 2 - (b * sin phi) ^ 2). { destruct (Rle_lt_dec (r ^ 2 - (b * sin phi) ^ 2) 0) as [N|]; [|assumption]. assert (ray_d b r phi = 0) by (unfold ray_d; apply sqrt_neg_0, N). lra. }
  assert (Q : ray_d b r phi * ray_d b r phi = r ^ 2 - (b * sin phi) ^ 2) by (unfold ray_d; apply sqrt_sqrt; lra).
  assert ((rho - b * cos phi) ^ 2 < ray_d b r phi * ray_d b r phi) by nra. lra.
Qed.
Lemma ray_outside b r phi rho : rho <= ray_in b r phi \/ ray_out b r phi <= rho -> r ^ 2 <= (rho * cos phi - b) ^ 2 + (rho * sin phi) ^ 2.
Proof.
  rewrite dist_ray. unfold ray_in, ray_out. pose proof (ray_d_pos b r phi) as P. intros H.
  assert (Q : ray_d b r phi * ray_d b r phi >= r ^ 2 - (b * sin phi) ^ 2).
  { unfold ray_d. destruct (Rle_lt_dec (r ^ 2 - (b * sin phi) ^ 2) 0) as [N|N]; [rewrite sqrt_neg_0 by exact N; lra|rewrite sqrt_sqrt by lra; lra]. }
  assert ((rho - b * cos phi) ^ 2 >= ray_d b r phi * ray_d b r phi) by (destruct H; nra). lra.
Qed.
Lemma ray_integral (F H : R -> R) b r phi : (forall x, 0 <= x <= 1 -> is_RInt F 0 x (H x)) ->
  is_RInt (fun rho => if Rlt_dec ((rho * cos phi - b) ^ 2 + (rho * sin phi) ^ 2) (r ^ 2) then 0 else F rho) 0 1
    (H 1 - (H (clip (ray_out b r phi)) - H (clip (ray_in b r phi)))).
Proof.
  intros HF. set (p := clip (ray_in b r phi)). set (q := clip (ray_out b r phi)).
  assert (Hp := clip_range (ray_in b r phi)). assert (Hq := clip_range (ray_out b r phi)). assert (Hpq : p <= q) by apply clip_mono, ray_in_out. fold p q in Hp, Hq.
  assert (Dif : forall x y, 0 <= x <= 1 -> 0 <= y <= 1 -> is_RInt F x y (H y - H x)).
  { intros x y Hx Hy. apply (rint_chasles F x 0 y (- H x) (H y)); [apply rint_swap; rewrite Ropp_involutive; apply HF, Hx|apply HF, Hy|ring]. }
  assert (P1 : forall rho, 0 < rho < p -> rho <= ray_in b r phi). { intros rho Hr. unfold p, clip, Rmin, Rmax in Hr. repeat destruct (Rle_dec _ _); lra. }
  assert (P2 : forall rho, p < rho < q -> ray_in b r phi < rho < ray_out b r phi). { intros rho Hr. unfold p, q, clip, Rmin, Rmax in Hr. repeat destruct (Rle_dec _ _); lra. }
  assert (P3 : forall rho, q < rho < 1 -> ray_out b r phi <= rho). { intros rho Hr. unfold q, clip, Rmin, Rmax in Hr. repeat destruct (Rle_dec _ _); lra. }
  apply (rint_chasles _ 0 p 1 (H p - H 0) (H 1 - H q)); [| |].
  - apply (is_RInt_ext F); [|apply Dif; lra]. intros rho Hr. rewrite Rmin_left, Rmax_right in Hr by lra. destruct (Rlt_dec _ _) as [L|]; [|reflexivity]. pose proof (ray_outside b r phi rho (or_introl (P1 _ Hr))). lra.
  - apply (rint_chasles _ p q 1 0 (H 1 - H q)); [| |ring].
    + apply is_RInt_zero_on.
      intros rho Hr. rewrite Rmin_left, Rmax_right in Hr by lra. destruct (Rlt_dec _ _) as [|L]; [reflexivity|]. pose proof (ray_inside b r phi rho (P2 _ Hr)). lra.
    + apply (is_RInt_ext F); [|apply Dif; lra]. intros rho Hr. rewrite Rmin_left, Rmax_right in Hr by lra. destruct (Rlt_dec _ _) as [L|]; [|reflexivity]. pose proof (ray_outside b r phi rho (or_intror (P3 _ Hr))). lra.
  - assert (H 0 = 0). { rewrite <- (is_RInt_unique F 0 0 _ (HF 0 ltac:(lra))). apply is_RInt_unique. apply is_RInt_zero_on. intros x Hx. rewrite Rmin_left, Rmax_left in Hx; lra. } lra.
Qed.
Lemma ray_cont b r phi : continuous (ray_in b r) phi /\ continuous (ray_out b r) phi.
Proof.
  assert (D : continuous (ray_d b r) phi). { unfold ray_d. apply cont_sqrt. apply continuous_ext with (fun phi => r ^ 2 - (b * sin phi) ^ 2); [reflexivity|]. apply (ex_derive_continuous (fun phi : R => r ^ 2 - (b * sin phi) ^ 2)). auto_derive. exact I. }
  assert (C : continuous (fun phi => b * cos phi) phi). { apply (ex_derive_continuous (fun phi : R => b * cos phi)). auto_derive. exact I. }
  split; [apply (cont_minus _ _ phi C D)|apply (cont_plus _ _ phi C D)].
Qed.

Lemma rint_const (c a b v : R) : (b - a) * c = v -> is_RInt (fun _ : R => c) a b v.
Proof. intros <-. exact (is_RInt_const (V := R_NormedModule) a b c). Qed.
Lemma rint_minus (f g : R -> R) a b v w : is_RInt f a b v -> is_RInt g a b w -> is_RInt (fun x => f x - g x) a b (v - w).
Proof. intros H1 H2. exact (is_RInt_minus (V := R_NormedModule) f g a b v w H1 H2). Qed.
Lemma rint_opp (f : R -> R) a b v : is_RInt f a b v -> is_RInt (fun x => - f x) a b (- v).
Proof. intros H1. exact (is_RInt_opp (V := R_NormedModule) f a b v H1). Qed.
Lemma rint_lin (f : R -> R) u v a b w : is_RInt f (u * a + v) (u * b + v) w -> is_RInt (fun x => u * f (u * x + v)) a b w.
Proof. intros H1. exact (is_RInt_comp_lin (V := R_NormedModule) f u v a b w H1). Qed.
(** radial functions *)
Section Radial.
Variables (b r : R) (I H : R -> R).
Hypothesis HI : forall x, 0 <= x <= 1 -> is_RInt (fun s => I (sqrt (1 - s ^ 2)) * s) 0 x (H x).
Hypothesis HC : forall x, continuous H x.
Definition shadow phi : R := H (clip (ray_out b r phi)) - H (clip (ray_in b r phi)).
Lemma shadow_cont phi : continuous shadow phi.
Proof using HC.
  destruct (ray_cont b r phi) as [C1 C2]. apply cont_minus; (apply (cont_comp (fun phi => clip _) H); [|apply HC]).
  - apply (cont_comp (ray_out b r) clip); [exact C2|apply clip_cont].
  - apply (cont_comp (ray_in b r) clip); [exact C1|apply clip_cont].
Qed.
Lemma shadow_sym phi : shadow (2 * PI - phi) = shadow phi.
Proof. unfold shadow, ray_in, ray_out, ray_d. rewrite cos_minus, sin_minus, sin_2PI, cos_2PI. replace (1 * cos phi + 0 * sin phi) with (cos phi) by ring. replace ((b * (0 * cos phi - 1 * sin phi)) ^ 2) with ((b * sin phi) ^ 2) by ring. reflexivity. Qed.
Lemma zdisk_ray phi rho : zdisk (rho * cos phi) (rho * sin phi) = sqrt (1 - rho ^ 2).
Proof. unfold zdisk. f_equal. pose proof (sin2_cos2 phi) as C. unfold Rsqr in C. replace (1 - (rho * cos phi) ^ 2 - (rho * sin phi) ^ 2) with (1 - rho ^ 2 * (sin phi * sin phi + cos phi * cos phi)) by ring. rewrite C. ring. Qed.
Lemma visible_radial S : is_RInt shadow 0 PI S -> disk_integral (unhidden b r (fun x y => I (zdisk x y))) = 2 * PI * H 1 - 2 * S.
Proof using HI HC.
  intros HS. unfold disk_integral.
  rewrite (RInt_ext _ (fun phi => H 1 - shadow phi)).
  - apply is_RInt_unique. apply (rint_chasles _ 0 PI (2 * PI) (PI * H 1 - S) (PI * H 1 - S)); [| |ring].
    + apply rint_minus; [apply rint_const; ring|exact HS].
    + apply rint_minus; [apply rint_const; ring|].
      apply (is_RInt_ext (fun phi => - (- 1 * shadow (- 1 * phi + 2 * PI)))). { intros phi _. replace (-1 * phi + 2 * PI) with (2 * PI - phi) by ring. rewrite shadow_sym. match goal with |- ?a = ?b => change (@eq R a b) end. ring. }
      replace S with (- - S) by ring. apply rint_opp. apply rint_lin. replace (-1 * PI + 2 * PI) with PI by ring. replace (-1 * (2 * PI) + 2 * PI) with 0 by ring.
      apply rint_swap. rewrite Ropp_involutive. exact HS.
  - intros phi _. apply is_RInt_unique. eapply is_RInt_ext; [|exact (ray_integral _ H b r phi HI)]. intros rho _. unfold unhidden. cbv beta. rewrite zdisk_ray. destruct (Rlt_dec _ _); match goal with |- ?a = ?b => change (@eq R a b) end; ring.
Qed.
End Radial.
