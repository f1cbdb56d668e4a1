(** Light curves of systems as visible fluxes. *)
From Coq Require Import Reals Lra Lia ZArith List Bool Arith Psatz.
From Coquelicot Require Import Coquelicot.
From Verif Require Import Base.RealAux Base.Analysis Base.Dict Model.Keplerian Model.Poly Model.Basis Model.Rotation Model.Solution Model.SolutionVector Model.Ylm Model.RvMap Model.Surface Model.StarryLightCurve Model.SurfaceSystem
  Spec.PolySpec Spec.HarmonicSpec Spec.RotationSpec Spec.BasisSpec Spec.DiskSpec Spec.LimbDarkSpec Spec.OccultSpec Spec.YlmSpec Spec.SurfaceSpec Spec.SystemSpec Spec.SkySpec Spec.ShadowSpec
  Proof.PolyProof Proof.BasisProof Proof.GreenProof Proof.GreenInv Proof.LimbDarkGreen Proof.LimbDarkArea Proof.LimbDarkProof Proof.Ray Proof.Edge Proof.Occult Proof.Monomial Proof.GreenLine Proof.GreenFamilies Proof.SolutionGreen Proof.SolutionQuad
  Proof.DiskProof Proof.DiskRot Proof.RTProof Proof.YlmMore Proof.Euler Proof.SurfaceProof Proof.StarryProof Proof.DopplerProof Proof.SystemProof Proof.SystemLight Proof.OccultedSky Proof.OccultedFlux.
From Verif Require Model.Stack.
Import ListNotations.
Open Scope R_scope.

(** ** integrals over the disk *)
Lemma polar_norm rho t : (rho * cos t) ^ 2 + (rho * sin t) ^ 2 = rho ^ 2.
Proof. transitivity (rho ^ 2 * (sin t ^ 2 + cos t ^ 2)); [ring|]. rewrite limb_sq. ring. Qed.
Lemma disk_cont_open f g : (forall x y, 0 < x ^ 2 + y ^ 2 < 1 -> f x y = g x y) -> disk_cont f -> disk_cont g.
Proof.
  intros E (K & K1 & K2). exists K. split; [|exact K2]. intros t. apply (rint_ext_v _ _ _ _ _ (K1 t)). intros rho. rewrite Rmin_left, Rmax_right by lra. intros Hr.
  rewrite E; [reflexivity|]. rewrite polar_norm. nra.
Qed.
Lemma disk_ext_open f g : (forall x y, 0 < x ^ 2 + y ^ 2 < 1 -> f x y = g x y) -> disk_integral f = disk_integral g.
Proof.
  intros E. unfold disk_integral. apply RInt_ext. intros t _. apply RInt_ext. intros rho. rewrite Rmin_left, Rmax_right by lra. intros Hr.
  rewrite E; [reflexivity|]. rewrite polar_norm. nra.
Qed.
Lemma disk_cont_rot f a : disk_cont f -> disk_cont (fun x y => f (x * cos a - y * sin a) (x * sin a + y * cos a)).
Proof.
  intros (g & G1 & G2). exists (fun t => g (t + a)). split.
  - intros t. apply (rint_ext_v _ _ _ _ _ (G1 (t + a))). intros rho _. rewrite cos_plus, sin_plus. f_equal. f_equal; ring.
  - intros t. apply (cont_comp (fun t => t + a) g); [|apply G2]. apply (ex_derive_continuous (fun t : R => t + a)). auto_derive. exact I.
Qed.
Lemma disk_val f g : (forall t, is_RInt (fun rho => f (rho * cos t) (rho * sin t) * rho) 0 1 (g t)) -> disk_integral f = RInt g 0 (2 * PI).
Proof. intros G. unfold disk_integral. apply RInt_ext. intros t _. apply is_RInt_unique, G. Qed.
Lemma disk_int_plus f g : disk_cont f -> disk_cont g -> disk_integral (fun x y => f x y + g x y) = disk_integral f + disk_integral g.
Proof.
  intros (a & A1 & A2) (b & B1 & B2). rewrite (disk_val f a A1), (disk_val g b B1), (disk_val _ (fun t => a t + b t)).
  - apply (RInt_plus (V := R_CompleteNormedModule) a b); apply (ex_RInt_continuous (V := R_CompleteNormedModule)); intros; auto.
  - intros t. apply (rint_ext_v _ _ _ _ _ (is_RInt_plus _ _ _ _ _ _ (A1 t) (B1 t))). intros x _. unfold plus; cbn. ring.
Qed.
Lemma disk_int_scal c f : disk_cont f -> disk_integral (fun x y => c * f x y) = c * disk_integral f.
Proof.
  intros (a & A1 & A2). rewrite (disk_val f a A1), (disk_val _ (fun t => c * a t)).
  - apply (RInt_scal (V := R_CompleteNormedModule) a); apply (ex_RInt_continuous (V := R_CompleteNormedModule)); intros; auto.
  - intros t. apply (rint_ext_v _ _ _ _ _ (is_RInt_scal _ _ _ c _ (A1 t))). intros x _. unfold scal; cbn; unfold mult; cbn. ring.
Qed.
Lemma disk_int_zero : disk_integral (fun _ _ => 0) = 0.
Proof. transitivity (disk_integral (fun _ _ => 0 * 0)); [apply disk_ext; intros; ring|]. rewrite (disk_int_scal 0 (fun _ _ => 0)) by apply disk_cont_zero. ring. Qed.
(** ** counting occultors *)
Definition hides (f : R -> R -> R) (o : occultor) (x y : R) : R := let '(xo, yo, r) := o in unhidden_by xo yo r f x y.
Lemma times_hidden_sum l f x y : (1 - INR (times_hidden l x y)) * f x y = f x y + Rsum (map (fun o => hides f o x y + -1 * f x y) l).
Proof.
  induction l as [|o l IH]; [cbn; ring|]. cbn [map Rsum fold_right]. fold (Rsum (map (fun o => hides f o x y + -1 * f x y) l)).
  assert (E : INR (times_hidden (o :: l) x y) = (if over o x y then 1 else 0) + INR (times_hidden l x y)).
  { unfold times_hidden. cbn [filter]. destruct (over o x y); [cbn [length]; rewrite S_INR; ring|ring]. }
  rewrite E. assert (H : hides f o x y = (1 - if over o x y then 1 else 0) * f x y).
  { destruct o as [[xo yo] r]. unfold hides, over, unhidden_by. destruct (Rlt_dec _ _); ring. }
  rewrite H. replace (Rsum (map (fun o => hides f o x y + -1 * f x y) l)) with ((1 - INR (times_hidden l x y)) * f x y - f x y) by lra. ring.
Qed.
Lemma counted_sum l f : disk_cont f -> List.Forall (fun o => disk_cont (hides f o)) l ->
  disk_cont (fun x y => (1 - INR (times_hidden l x y)) * f x y) /\
  disk_integral (fun x y => (1 - INR (times_hidden l x y)) * f x y) = disk_integral f + Rsum (map (fun o => disk_integral (hides f o) - disk_integral f) l).
Proof.
  intros Hf H.
  assert (A : disk_cont (fun x y => Rsum (map (fun o => hides f o x y + -1 * f x y) l)) /\ disk_integral (fun x y => Rsum (map (fun o => hides f o x y + -1 * f x y) l)) = Rsum (map (fun o => disk_integral (hides f o) - disk_integral f) l)).
  { induction H as [|o l Ho Hl [IH1 IH2]].
    - cbn [map Rsum fold_right]. split; [apply disk_cont_zero|apply disk_int_zero].
    - assert (C1 : disk_cont (fun x y => hides f o x y + -1 * f x y)) by (apply (disk_cont_plus (hides f o)); [exact Ho|apply disk_cont_scal, Hf]).
      cbn [map Rsum fold_right]. split.
      + exact (disk_cont_plus _ _ C1 IH1).
      + etransitivity; [exact (disk_int_plus _ _ C1 IH1)|]. rewrite IH2. rewrite (disk_int_plus (hides f o)) by (exact Ho || apply disk_cont_scal, Hf). rewrite disk_int_scal by exact Hf. change (fold_right Rplus 0) with Rsum. ring. }
  destruct A as [A1 A2]. split.
  - eapply disk_cont_ext; [|exact (disk_cont_plus _ _ Hf A1)]. intros x y. cbv beta. symmetry. apply times_hidden_sum.
  - rewrite <- A2, <- (disk_int_plus _ _ Hf A1). apply disk_ext. intros x y. apply times_hidden_sum.
Qed.
Lemma disjoint_counted l I : disjoint_shadows l -> flux_counted l I = flux_past l I.
Proof.
  intros H. unfold flux_counted, flux_past. apply disk_ext_in. intros x y Hd. specialize (H x y Hd). destruct (times_hidden l x y) as [|[|n]]; [cbn; ring|cbn; ring|lia].
Qed.
(** ** one occultor *)
Lemma dist_bounds xo yo x y : 0 <= x ^ 2 + y ^ 2 -> let b := sqrt (xo ^ 2 + yo ^ 2) in let q := sqrt (x ^ 2 + y ^ 2) in (b - q) ^ 2 <= (x - xo) ^ 2 + (y - yo) ^ 2 <= (b + q) ^ 2.
Proof.
  intros _ b q. assert (B : b * b = xo ^ 2 + yo ^ 2) by (apply sqrt_sqrt; nra). assert (Q : q * q = x ^ 2 + y ^ 2) by (apply sqrt_sqrt; nra). assert (Hb : 0 <= b) by apply sqrt_pos. assert (Hq : 0 <= q) by apply sqrt_pos.
  assert (C : Rabs (x * xo + y * yo) <= b * q).
  { apply Rsqr_incr_0_var; [|nra]. rewrite <- Rsqr_abs. unfold Rsqr. replace (b * q * (b * q)) with ((b * b) * (q * q)) by ring. rewrite B, Q. assert (0 <= (x * yo - y * xo) ^ 2) by apply pow2_ge_0. nra. }
  apply Rabs_le_between in C. nra.
Qed.
Section One.
Variable as_euler : R * R * R -> R * R * R.
Hypothesis Hz : zyz_euler as_euler.
Variable s : surface.
Hypothesis Hy : wf_ylm (s_y s).
Variable A2 : nat -> matrix.
Variables (eps : R) (low high : list (R * R)) (theta : option R).
Hypotheses (H0 : surf_ydeg s <> 0%nat) (He : 0 < eps).
Hypothesis HA : right_inverse (ncoef (surf_deg s)) (A2_inv (Z.of_nat (surf_deg s))) (A2 (surf_deg s)).
Notation I' := (fun x y => seen_of s theta (x, y, zdisk x y)).
Notation lc := (surface_light_curve as_euler eps low high A2 s).
Lemma seen_cont : disk_cont I'.
Proof using Hz Hy.
  destruct (seen_poly as_euler Hz s Hy theta) as (D & d & H). apply (disk_cont_open (fun x y => dense_eval D d x y (zdisk x y))); [|apply disk_cont_dense].
  intros x y Hd. rewrite <- H; [reflexivity|]. apply GreenProof.zdisk_sphere. unfold in_disk. lra.
Qed.
Lemma alone_flux x y z : lc None x y z theta = Ok (in_units s (disk_integral I')).
Proof using Hz Hy. exact (light_curve_no_occultor as_euler Hz s Hy eps low high A2 x y z theta). Qed.
Lemma behind_flux r x y z : z <= 0 -> lc (Some r) (Some x) (Some y) (Some z) theta = Ok (in_units s (disk_integral I')).
Proof using Hz Hy H0. intros H. apply (light_curve_not_occ as_euler Hz s Hy eps low high A2 r (Some x) (Some y) (Some z) theta H0). right. exact H. Qed.
Lemma one_occultor x y r z : 0 < z -> regular eps high (x, y, r) -> exists e, error_of low high s theta (x, y, r) e /\ disk_cont (hides I' (x, y, r)) /\
  lc (Some r) (Some x) (Some y) (Some z) theta = Ok (in_units s (disk_integral (hides I' (x, y, r))) + e).
Proof using Hz Hy H0 He HA.
  intros Hz' (Hr & N & G). set (b := sqrt (x ^ 2 + y ^ 2)) in *. assert (Hb : 0 <= b) by apply sqrt_pos. destruct (Rle_lt_dec (1 + r) b) as [C1|C1]; [|destruct (Rle_lt_dec (1 + b) r) as [C2|C2]].
  - exists 0. assert (E : forall p q, 0 < p ^ 2 + q ^ 2 < 1 -> I' p q = hides I' (x, y, r) p q).
    { intros p q Hd. unfold hides, unhidden_by. destruct (Rlt_dec _ _) as [L|L]; [exfalso|reflexivity]. destruct (dist_bounds x y p q ltac:(lra)) as [D _]. fold b in D.
      assert (Q1 : sqrt (p ^ 2 + q ^ 2) < 1) by (rewrite <- sqrt_1; apply sqrt_lt_1; lra). assert (Q2 := sqrt_pos (p ^ 2 + q ^ 2)). nra. }
    split; [right; split; [left; exact C1|reflexivity]|]. split; [apply (disk_cont_open _ _ E), seen_cont|]. rewrite <- (disk_ext_open _ _ E), Rplus_0_r.
    apply (light_curve_not_occ as_euler Hz s Hy eps low high A2 r (Some x) (Some y) (Some z) theta H0). left. exact C1.
  - exists 0. assert (E : forall p q, 0 < p ^ 2 + q ^ 2 < 1 -> 0 = hides I' (x, y, r) p q).
    { intros p q Hd. unfold hides, unhidden_by. destruct (Rlt_dec _ _) as [L|L]; [reflexivity|exfalso]. apply L. destruct (dist_bounds x y p q ltac:(lra)) as [_ D]. fold b in D.
      assert (Q1 : sqrt (p ^ 2 + q ^ 2) < 1) by (rewrite <- sqrt_1; apply sqrt_lt_1; lra). assert (Q2 := sqrt_pos (p ^ 2 + q ^ 2)). nra. }
    split; [right; split; [right; exact C2|reflexivity]|]. split; [exact (disk_cont_open (fun _ _ => 0) _ E disk_cont_zero)|]. rewrite <- (disk_ext_open _ _ E).
    rewrite (eclipse_flux as_euler Hz s Hy A2 theta x y eps low high r z H0 C2 N Hz'). f_equal. unfold in_units.
    rewrite disk_int_zero. ring.
  - specialize (G C1 C2). destruct (lc_front as_euler Hz s Hy A2 theta x y H0) as (v & V & P). destruct (P eps low high r z C1 Hz') as (sT & ES & EL). fold b in ES.
    exists (in_units s (edge_errors (surf_deg s) (green_of (surf_deg s) (A2 (surf_deg s)) v) low high b r)). split; [|split].
    + left. split; [exact C1|split; [exact C2|]]. exists (green_of (surf_deg s) (A2 (surf_deg s)) v). split; [|reflexivity]. exact (turned_green s A2 (surf_deg s) v theta x y HA V).
    + assert (W := design_partial eps low high (A2 (surf_deg s)) (surf_deg s) b r v sT HA He Hb Hr C1 C2 G ES). destruct (vis_disk _ _ _ _ W) as [DC _]. apply (disk_cont_rot _ (atan2 x y)) in DC.
      refine (disk_cont_open _ _ _ DC). intros p q Hd. unfold hides, unhidden_by. destruct (polar_atan2 x y) as [Ex Ey]. fold b in Ex, Ey. assert (Q := limb_sq (atan2 x y)). cbn [pow] in Q. rewrite !Rmult_1_r in Q.
      set (tz := atan2 x y) in *. replace ((p * cos tz - q * sin tz - 0) ^ 2 + (p * sin tz + q * cos tz - b) ^ 2) with ((p - x) ^ 2 + (q - y) ^ 2).
      2:{ rewrite <- Ex, <- Ey. transitivity ((p * p + q * q) * (sin tz * sin tz + cos tz * cos tz) + b * b - 2 * b * (p * sin tz + q * cos tz)); [|ring].
          transitivity (p * p + q * q + b * b * (sin tz * sin tz + cos tz * cos tz) - 2 * b * (p * sin tz + q * cos tz)); [ring|]. rewrite Q. ring. }
      destruct (Rlt_dec _ _); [reflexivity|]. rewrite V by (apply GreenProof.zdisk_sphere, in_disk_rot; unfold in_disk; lra). unfold seen, seen_of. f_equal. unfold rot_z. rewrite cos_neg, sin_neg. fold tz. rewrite zdisk_rot. apply AxisAngle.triple_eq; [| |reflexivity].
      * transitivity (p * (sin tz * sin tz + cos tz * cos tz)); [|rewrite Q]; ring.
      * transitivity (q * (sin tz * sin tz + cos tz * cos tz)); [|rewrite Q]; ring.
    + rewrite EL. f_equal. transitivity (in_units s (disk_integral (hides I' (x, y, r)) + edge_errors (surf_deg s) (green_of (surf_deg s) (A2 (surf_deg s)) v) low high b r)); [|unfold in_units; ring]. unfold in_units. do 2 f_equal.
      assert (W := design_partial eps low high (A2 (surf_deg s)) (surf_deg s) b r v sT HA He Hb Hr C1 C2 G ES). fold (ncoef (surf_deg s)) in W.
      apply (vis_ext_in b r _ (fun a c => seen s theta (rot_z (- atan2 x y) (a, c, zdisk a c)))) in W. 2:{ intros a c Hd _. apply V, GreenProof.zdisk_sphere, Hd. }
      apply around_rot in W. unfold b in W at 1 2. destruct (polar_atan2 x y) as [-> ->] in W. change (disk_integral (hides I' (x, y, r)) = bigsum (ncoef (surf_deg s)) (fun n => v n * nth n (vec_mat (ncoef (surf_deg s)) sT (A2 (surf_deg s))) 0) - edge_errors (surf_deg s) (green_of (surf_deg s) (A2 (surf_deg s)) v) low high b r) in W. rewrite W. ring.
Qed.
End One.

(** ** limb-darkened stars without a map *)
Lemma ld_intensity u z : intensity u z = ld_profile u z.
Proof. unfold intensity, ld_profile. rewrite ld_sum_bigsum. reflexivity. Qed.
Lemma ld_flux_disk u : ld_flux u = disk_flux u.
Proof.
  transitivity (occulted_flux u 3 1); [|apply occulted_none; lra]. unfold ld_flux, occulted_flux. apply disk_ext_open. intros x y H. unfold unhidden. destruct (Rlt_dec _ _) as [L|L]; [exfalso; nra|symmetry; apply ld_intensity].
Qed.
Lemma occulted_cont u b r : disk_cont (unhidden b r (fun x y => intensity u (zdisk x y))).
Proof.
  exists (fun phi => Hu u 1 - shadow b r (Hu u) phi). split.
  - intros phi. apply (rint_ext_v _ _ _ _ _ (ray_integral _ (Hu u) b r phi (Hu_int u))). intros rho _. unfold unhidden. rewrite zdisk_ray. destruct (Rlt_dec _ _); ring.
  - intros phi. apply cont_minus; [apply cont_const|apply shadow_cont, Hu_cont].
Qed.
Lemma ld_hides u x y r : let F := fun a b => ld_profile u (zdisk a b) in disk_cont (hides F (x, y, r)) /\ disk_integral (hides F (x, y, r)) = occulted_flux u (sqrt (x ^ 2 + y ^ 2)) r.
Proof.
  intros F. set (b := sqrt (x ^ 2 + y ^ 2)). destruct (polar_atan2 y x) as [Ey Ex]. replace (y ^ 2 + x ^ 2) with (x ^ 2 + y ^ 2) in Ex, Ey by ring. fold b in Ex, Ey. set (a := atan2 y x) in *.
  assert (Q := limb_sq a). cbn [pow] in Q. rewrite !Rmult_1_r in Q.
  assert (E : forall p q, unhidden b r (fun x y => intensity u (zdisk x y)) (p * cos (- a) - q * sin (- a)) (p * sin (- a) + q * cos (- a)) = hides F (x, y, r) p q).
  { intros p q. unfold hides, unhidden, unhidden_by, F. rewrite zdisk_rot, ld_intensity, cos_neg, sin_neg.
    replace ((p * cos a - q * - sin a - b) ^ 2 + (p * - sin a + q * cos a) ^ 2) with ((p - x) ^ 2 + (q - y) ^ 2); [reflexivity|]. rewrite <- Ex, <- Ey.
    transitivity ((p * p + q * q) * (sin a * sin a + cos a * cos a) + b * b - 2 * b * (p * cos a + q * sin a)); [|ring].
    transitivity (p * p + q * q + b * b * (sin a * sin a + cos a * cos a) - 2 * b * (p * cos a + q * sin a)); [ring|]. rewrite Q. ring. }
  split.
  - eapply disk_cont_ext; [exact E|]. apply (disk_cont_rot _ (- a)), occulted_cont.
  - unfold occulted_flux. rewrite <- (disk_rot _ (- a) (occulted_cont u b r)). apply disk_ext. intros p q. symmetry. apply E.
Qed.
Lemma hides_scal c F o : forall p q, hides (fun a b => c * F a b) o p q = c * hides F o p q.
Proof. intros p q. destruct o as [[x y] r]. unfold hides, unhidden_by. destruct (Rlt_dec _ _); ring. Qed.
Section Zero.
Variable as_euler : R * R * R -> R * R * R.
Hypothesis Hz : zyz_euler as_euler.
Variable s : surface.
Hypothesis Hy : wf_ylm (s_y s).
Variable A2 : nat -> matrix.
Variables (eps : R) (low high : list (R * R)) (theta : option R).
Hypotheses (H0 : surf_ydeg s = 0%nat) (He : 0 < eps) (HL : ld_flux (s_u s) <> 0).
Notation I' := (fun x y => seen_of s theta (x, y, zdisk x y)).
Notation lc := (surface_light_curve as_euler eps low high A2 s).
Lemma zero_seen : exists c, (forall x y, I' x y = c * ld_profile (s_u s) (zdisk x y)) /\ disk_cont I' /\ forall x y r, disk_cont (hides I' (x, y, r)) /\ disk_integral (hides I' (x, y, r)) = c * occulted_flux (s_u s) (sqrt (x ^ 2 + y ^ 2)) r.
Proof using Hz Hy H0.
  destruct (ydeg0_data (s_y s) Hy H0) as (c & D). exists (2 / sqrt PI * (c / (2 * sqrt PI))).
  assert (E : forall x y, I' x y = 2 / sqrt PI * (c / (2 * sqrt PI)) * ld_profile (s_u s) (zdisk x y)).
  { intros x y. unfold seen_of, seen_intensity. rewrite D. assert (P := PI_RGT_0). assert (S1 : 0 < sqrt PI) by (apply sqrt_lt_R0; lra). cbn [snd]. f_equal. f_equal.
    destruct (seen_point _ _ _ _) as [[a b] d]. unfold coeffs_value. cbn [map Rsum fold_right fst snd]. change (Z.to_nat 0) with 0%nat. rewrite YlmFacts.Y00, sq4pi. field. lra. }
  split; [exact E|]. split; [exact (seen_cont as_euler Hz s Hy theta)|]. intros x y r. destruct (ld_hides (s_u s) x y r) as [C1 C2]. cbv zeta in C1, C2.
  assert (EH : forall p q, 2 / sqrt PI * (c / (2 * sqrt PI)) * hides (fun a b => ld_profile (s_u s) (zdisk a b)) (x, y, r) p q = hides I' (x, y, r) p q).
  { intros p q. rewrite <- hides_scal. unfold hides, unhidden_by. destruct (Rlt_dec _ _); [reflexivity|]. symmetry. apply E. }
  split.
  - eapply disk_cont_ext; [exact EH|]. apply disk_cont_scal, C1.
  - rewrite <- C2, <- disk_int_scal by exact C1. apply disk_ext. intros. symmetry. apply EH.
Qed.
Hypothesis H1 : in_units s (disk_integral I') = 1.
Lemma zero_behind r x y z : z <= 0 -> lc (Some r) (Some x) (Some y) (Some z) theta = Ok (in_units s (disk_integral I')).
Proof using H0 H1. intros H. rewrite H1, light_curve_deg0 by exact H0. f_equal. destruct (og_occ _) eqn:E; [|ring]. apply geometry_occ in E. cbn [none0] in E. lra. Qed.
Lemma zero_occultor x y r z : 0 < z -> regular_ld eps high (x, y, r) -> exists e, error_ld high (s_u s) (x, y, r) e /\ disk_cont (hides I' (x, y, r)) /\
  lc (Some r) (Some x) (Some y) (Some z) theta = Ok (in_units s (disk_integral (hides I' (x, y, r))) + e).
Proof using Hz Hy H0 H1 He HL.
  intros Hz' (Hr & N & G). set (b := sqrt (x ^ 2 + y ^ 2)) in *. assert (Hb : 0 <= b) by apply sqrt_pos. destruct zero_seen as (c & EI & CI & HH). destruct (HH x y r) as [C1 C2]. fold b in C2.
  assert (HF : disk_flux (s_u s) <> 0) by (rewrite <- ld_flux_disk; exact HL).
  assert (K : in_units s (disk_integral (hides I' (x, y, r))) = occulted_flux (s_u s) b r / disk_flux (s_u s)).
  { rewrite C2. assert (X : in_units s (c * ld_flux (s_u s)) = 1). { rewrite <- H1. unfold in_units. do 2 f_equal. unfold ld_flux. symmetry. destruct (HH 3 0 1) as [_ X]. 
      replace (sqrt (3 ^ 2 + 0 ^ 2)) with 3 in X by (replace (3 ^ 2 + 0 ^ 2) with (3 * 3) by ring; symmetry; apply sqrt_square; lra). rewrite occulted_none, <- ld_flux_disk in X by lra. unfold ld_flux in X. rewrite <- X. apply disk_ext_open.
      intros p q Hd. unfold hides, unhidden_by. destruct (Rlt_dec _ _) as [L|L]; [exfalso; nra|reflexivity]. }
    unfold in_units in X |- *. rewrite ld_flux_disk in X |- *. pose proof PI_RGT_0. assert (Y : s_amplitude s * c * PI = 1). { rewrite <- X. field. exact HF. } 
    transitivity (s_amplitude s * c * PI * (occulted_flux (s_u s) b r / disk_flux (s_u s))); [field; exact HF|rewrite Y; ring]. }
  assert (LC : lc (Some r) (Some x) (Some y) (Some z) theta = Ok (1 + if Rlt_dec b (1 + r) then LimbDark.light_curve eps high (s_u s) b r else 0)).
  { rewrite light_curve_deg0 by exact H0. f_equal. f_equal. assert (G' := geometry_occ r (Some x) (Some y) (Some z)). cbn [none0] in G' |- *. fold b in G' |- *.
    destruct (og_occ _); destruct (Rlt_dec b (1 + r)) as [L|L]; try reflexivity; exfalso; [lra|]. assert (X := proj2 G' (conj L Hz')). discriminate X. }
  rewrite LC, K. assert (NB : ~ (Rabs b = 0 /\ Rabs r = 1)).
  { rewrite !Rabs_right by lra. intros [A B]. apply N. unfold b in A. apply sqrt_eq_0 in A; [destruct (sumsq_0 _ _ A); auto|nra]. }
  destruct (Rle_lt_dec (1 + r) b) as [T1|T1]; [|destruct (Rle_lt_dec (1 + b) r) as [T2|T2]].
  - exists 0. split; [right; split; [left; exact T1|reflexivity]|]. split; [exact C1|]. destruct (Rlt_dec b (1 + r)); [lra|]. f_equal. rewrite occulted_none by lra. field. exact HF.
  - exists 0. split; [right; split; [right; exact T2|reflexivity]|]. split; [exact C1|]. destruct (Rlt_dec b (1 + r)); [|lra]. f_equal. rewrite occ_trivial by (try assumption; rewrite !Rabs_right by lra; lra). rewrite !Rabs_right by lra. ring.
  - eexists. split; [left; split; [exact T1|split; [exact T2|reflexivity]]|]. split; [exact C1|]. destruct (Rlt_dec b (1 + r)); [|lra]. f_equal.
    rewrite occ_quadrature by (try assumption; rewrite !Rabs_right by lra; (lra || (apply G; assumption))). rewrite !Rabs_right by lra. fold b. ring.
Qed.
End Zero.
(** ** systems *)
Lemma forall2_nth {A B} (P : A -> B -> Prop) (l : list A) (m : list B) : length m = length l -> (forall i a, nth_error l i = Some a -> exists b, nth_error m i = Some b /\ P a b) -> Forall2 P l m.
Proof.
  revert m. induction l as [|a l IH]; intros [|b m] L H; try discriminate; [constructor|]. constructor.
  - destruct (H 0%nat a eq_refl) as (b' & E & Pb). injection E as <-. exact Pb.
  - apply IH; [now injection L|]. intros i a' E. exact (H (S i) a' E).
Qed.
Section Sum.
Variables (au : R) (kep : R -> R -> R * R).
Variable obs : surface -> option R -> option R -> option R -> option R -> option R -> result R.
Variables (sys : ssystem) (t : R).
Notation s := (ss_surface sys).
Notation theta := (rotational_phase s t).
Notation I' := (fun x y => seen_of s theta (x, y, zdisk x y)).
Variables (Reg : occultor -> Prop) (Err : occultor -> R -> Prop).
Hypothesis L : length (ss_bodies sys) = length (ss_surfaces sys).
Hypothesis Hrc : 0 < c_radius (ss_central sys).
Hypothesis CI : disk_cont I'.
Hypothesis Halone : obs s None None None None theta = Ok (in_units s (disk_integral I')).
Hypothesis Hbehind : forall r x y z, z <= 0 -> obs s (Some r) (Some x) (Some y) (Some z) theta = Ok (in_units s (disk_integral I')).
Hypothesis Hfront : forall x y r z, 0 < z -> Reg (x, y, r) -> exists e, Err (x, y, r) e /\ disk_cont (hides I' (x, y, r)) /\ obs s (Some r) (Some x) (Some y) (Some z) theta = Ok (in_units s (disk_integral (hides I' (x, y, r))) + e).
(** the central's occultors, for a list of bodies *)
Definition occs (bodies : list orbital) : list occultor := occultors_of au kep {| ss_central := ss_central sys; ss_surface := s; ss_bodies := bodies; ss_surfaces := [] |} t.
Lemma central_sum bodies fs : Forall2 (fun o f => central_obs au kep obs sys theta t o = Ok f) bodies fs -> List.Forall Reg (occs bodies) ->
  exists errs, Forall2 Err (occs bodies) errs /\ List.Forall (fun o => disk_cont (hides I' o)) (occs bodies) /\
  Rsum (map (fun f => f - in_units s (disk_integral I')) fs) = in_units s (Rsum (map (fun o => disk_integral (hides I' o) - disk_integral I') (occs bodies))) + Rsum errs.
Proof using Hrc Hbehind Hfront.
  intros H. induction H as [|o f bodies fs Ho H IH]; intros RG.
  - exists []. split; [constructor|split; [constructor|]]. cbn. unfold in_units. ring.
  - unfold occs, occultors_of in RG |- *. cbn [ss_bodies flat_map ss_central] in RG |- *. unfold central_obs, body_radius in Ho. 
    change (flat_map _ bodies) with (occs bodies) in RG |- *.
    destruct (ob_radius o) as [r|]; [|destruct (relative_position au kep o t None) as [[x y] z]; discriminate Ho].
    destruct (relative_position au kep o t None) as [[x y] z]. cbn [rbind] in Ho. cbn [map Rsum fold_right]. change (fold_right Rplus 0) with Rsum.
    destruct (Rlt_dec 0 z) as [Lz|Lz]; cbn [app] in RG |- *.
    + inversion RG as [|? ? R1 R2]; subst. destruct (IH R2) as (errs & F1 & F2 & E). 
      destruct (Hfront (x / c_radius (ss_central sys)) (y / c_radius (ss_central sys)) (r / c_radius (ss_central sys)) (z / c_radius (ss_central sys))) as (e & X1 & X2 & X3); [apply Rdiv_lt_0_compat; lra|exact R1|].
      rewrite X3 in Ho. injection Ho as <-. exists (e :: errs). split; [constructor; assumption|split; [constructor; assumption|]]. rewrite E. cbn [map Rsum fold_right]. change (fold_right Rplus 0) with Rsum. unfold in_units. ring.
    + destruct (IH RG) as (errs & F1 & F2 & E). exists errs. split; [exact F1|split; [exact F2|]]. rewrite E. rewrite Hbehind in Ho.
      * injection Ho as <-. ring.
      * apply Rmult_le_reg_r with (c_radius (ss_central sys)); [lra|]. replace (z / c_radius (ss_central sys) * c_radius (ss_central sys)) with z by (field; lra). lra.
Qed.
Theorem system_sum row : List.Forall Reg (occultors_of au kep sys t) -> system_observable au kep obs sys t = Ok row ->
  exists errs bs, row = (in_units s (flux_counted (occultors_of au kep sys t) (seen_of s theta)) + Rsum errs) :: bs /\ length bs = length (ss_bodies sys) /\ Forall2 Err (occultors_of au kep sys t) errs.
Proof using L Hrc CI Halone Hbehind Hfront.
  intros RG E. assert (DEC : ss_bodies sys = [] \/ ss_bodies sys <> []) by (destruct (ss_bodies sys); [now left|right; discriminate]). destruct DEC as [EB|NB].
  - rewrite observable_empty in E by exact EB. rewrite Halone in E. injection E as <-. exists [], []. unfold occultors_of. rewrite EB. cbn [flat_map Rsum fold_right]. split; [|split; [reflexivity|constructor]].
    f_equal. rewrite Rplus_0_r. f_equal. unfold flux_counted. apply disk_ext. intros. cbn. ring.
  - destruct (observable_ok au kep _ sys t row L NB E) as (f0 & fs & bs & -> & E0' & Lf & Lb & Nf & _). rewrite Halone in E0'. injection E0' as <-.
    assert (F := forall2_nth _ _ _ Lf Nf). destruct (central_sum (ss_bodies sys) fs F) as (errs & F1 & F2 & ES); [exact RG|].
    exists errs, bs. split; [|split; [exact Lb|exact F1]]. f_equal.
    assert (SS : forall c, Rsum (map (fun f => f - c) fs) = Rsum fs - INR (length fs) * c).
    { intros c. clear. induction fs as [|f fs IH]; [cbn; ring|]. cbn [map length Rsum fold_right]. change (fold_right Rplus 0) with Rsum. rewrite IH, S_INR. ring. }
    rewrite SS in ES. assert (N0 : (length fs <> 0)%nat) by (rewrite Lf; destruct (ss_bodies sys); [contradiction|discriminate]). rewrite minus_INR by lia. cbn [INR].
    destruct (counted_sum _ _ CI F2) as [_ CS]. unfold flux_counted. change (occs (ss_bodies sys)) with (occultors_of au kep sys t) in CS, ES. rewrite CS.
    transitivity (in_units s (disk_integral I') + (in_units s (Rsum (map (fun o => disk_integral (hides I' o) - disk_integral I') (occultors_of au kep sys t))) + Rsum errs)).
    + rewrite <- ES. ring.
    + unfold in_units. ring.
Qed.
End Sum.
Section Sys.
Variable as_euler : R * R * R -> R * R * R.
Hypothesis Hz : zyz_euler as_euler.
Variables (eps : R) (low high : list (R * R)) (A2 : nat -> matrix) (au : R) (kep : R -> R -> R * R).
Hypothesis He : 0 < eps.
Theorem system_counted sys t row : let s := ss_surface sys in let theta := rotational_phase s t in
  length (ss_bodies sys) = length (ss_surfaces sys) -> wf_ylm (s_y s) -> surf_ydeg s <> 0%nat -> right_inverse (ncoef (surf_deg s)) (A2_inv (Z.of_nat (surf_deg s))) (A2 (surf_deg s)) -> 0 < c_radius (ss_central sys) ->
  List.Forall (regular eps high) (occultors_of au kep sys t) -> starry_light_curve as_euler eps low high A2 au kep sys t = Ok row ->
  exists errs bs, row = (in_units s (flux_counted (occultors_of au kep sys t) (seen_of s theta)) + Rsum errs) :: bs /\ length bs = length (ss_bodies sys) /\ Forall2 (error_of low high s theta) (occultors_of au kep sys t) errs.
Proof using Hz He.
  intros s theta L W H0 HA Hrc RG E. refine (system_sum au kep _ sys t (regular eps high) (error_of low high s theta) L Hrc _ _ _ _ row RG E).
  - exact (seen_cont as_euler Hz s W theta).
  - apply alone_flux; assumption.
  - intros. apply behind_flux; assumption.
  - intros. apply one_occultor; assumption.
Qed.
Theorem system_counted_zero sys t row : let s := ss_surface sys in let theta := rotational_phase s t in
  length (ss_bodies sys) = length (ss_surfaces sys) -> wf_ylm (s_y s) -> surf_ydeg s = 0%nat -> ld_flux (s_u s) <> 0 -> in_units s (visible_flux (seen_of s theta)) = 1 -> 0 < c_radius (ss_central sys) ->
  List.Forall (regular_ld eps high) (occultors_of au kep sys t) -> starry_light_curve as_euler eps low high A2 au kep sys t = Ok row ->
  exists errs bs, row = (in_units s (flux_counted (occultors_of au kep sys t) (seen_of s theta)) + Rsum errs) :: bs /\ length bs = length (ss_bodies sys) /\ Forall2 (error_ld high (s_u s)) (occultors_of au kep sys t) errs.
Proof using Hz He.
  intros s theta L W H0 HL H1 Hrc RG E. refine (system_sum au kep _ sys t (regular_ld eps high) (error_ld high (s_u s)) L Hrc _ _ _ _ row RG E).
  - exact (seen_cont as_euler Hz s W theta).
  - apply alone_flux; assumption.
  - intros. apply zero_behind; assumption.
  - intros. apply zero_occultor; assumption.
Qed.
(** a body with a map, hidden by the central *)
Theorem body_flux sys t row i o s : length (ss_bodies sys) = length (ss_surfaces sys) -> starry_light_curve as_euler eps low high A2 au kep sys t = Ok row -> nth_error (ss_bodies sys) i = Some o ->
  (nth_error (ss_surfaces sys) i = Some None -> nth_error row (S i) = Some 0) /\
  (nth_error (ss_surfaces sys) i = Some (Some s) -> let theta := rotational_phase s t in
   wf_ylm (s_y s) -> surf_ydeg s <> 0%nat -> right_inverse (ncoef (surf_deg s)) (A2_inv (Z.of_nat (surf_deg s))) (A2 (surf_deg s)) -> (forall r, ob_radius o = Some r -> 0 < r) ->
   List.Forall (regular eps high) (occultors_of_body au kep sys t o) ->
   exists errs, nth_error row (S i) = Some (in_units s (flux_past (occultors_of_body au kep sys t o) (seen_of s theta)) + Rsum errs) /\ Forall2 (error_of low high s theta) (occultors_of_body au kep sys t o) errs).
Proof using Hz He.
  intros L E Eo. unfold starry_light_curve in E. assert (NB : ss_bodies sys <> []) by (intros H; rewrite H in Eo; destruct i; discriminate).
  destruct (observable_ok au kep _ sys t row L NB E) as (f0 & fs & bs & -> & _ & _ & _ & _ & Nb). split.
  - intros Es. destruct (Nb i o None Eo Es) as (f & Ef & Eb). cbn [nth_error]. rewrite Ef. unfold body_obs in Eb. destruct (relative_position au kep o t None) as [[x y] z]. destruct (body_radius o); cbn [rbind] in Eb; congruence.
  - intros Es theta W H0 HA Hr RG. destruct (Nb i o (Some s) Eo Es) as (f & Ef & Eb). cbn [nth_error]. rewrite Ef. unfold body_obs, body_radius in Eb. unfold occultors_of_body in RG |- *.
    destruct (ob_radius o) as [r|]; [|destruct (relative_position au kep o t None) as [[x y] z]; discriminate Eb]. specialize (Hr r eq_refl).
    destruct (relative_position au kep o t None) as [[x y] z]. cbn [rbind] in Eb. fold theta in Eb. destruct (Rlt_dec z 0) as [Lz|Lz].
    + inversion RG as [|? ? R1 R2]; subst. destruct (one_occultor as_euler Hz s W A2 eps low high theta H0 He HA (- x / r) (- y / r) (c_radius (ss_central sys) / r) (- z / r)) as (e & X1 & X2 & X3); [apply Rdiv_lt_0_compat; lra|exact R1|].
      rewrite X3 in Eb. injection Eb as <-. exists [e]. split; [|constructor; [exact X1|constructor]]. f_equal. cbn [Rsum fold_right]. rewrite Rplus_0_r. f_equal. f_equal. unfold flux_past. apply disk_ext. intros p q.
      unfold times_hidden, hides, unhidden_by. cbn [filter over]. destruct (Rlt_dec _ _); reflexivity.
    + rewrite (behind_flux as_euler Hz s W A2 eps low high theta H0) in Eb.
      * injection Eb as <-. exists []. split; [|constructor]. f_equal. cbn [Rsum fold_right]. rewrite Rplus_0_r. reflexivity.
      * apply Rmult_le_reg_r with r; [lra|]. replace (- z / r * r) with (- z) by (field; lra). lra.
Qed.
Theorem body_flux_zero sys t row i o s : length (ss_bodies sys) = length (ss_surfaces sys) -> starry_light_curve as_euler eps low high A2 au kep sys t = Ok row -> nth_error (ss_bodies sys) i = Some o ->
  (nth_error (ss_surfaces sys) i = Some (Some s) -> let theta := rotational_phase s t in
   wf_ylm (s_y s) -> surf_ydeg s = 0%nat -> ld_flux (s_u s) <> 0 -> in_units s (visible_flux (seen_of s theta)) = 1 -> (forall r, ob_radius o = Some r -> 0 < r) ->
   List.Forall (regular_ld eps high) (occultors_of_body au kep sys t o) ->
   exists errs, nth_error row (S i) = Some (in_units s (flux_past (occultors_of_body au kep sys t o) (seen_of s theta)) + Rsum errs) /\ Forall2 (error_ld high (s_u s)) (occultors_of_body au kep sys t o) errs).
Proof using Hz He.
  intros L E Eo. unfold starry_light_curve in E. assert (NB : ss_bodies sys <> []) by (intros H; rewrite H in Eo; destruct i; discriminate).
  destruct (observable_ok au kep _ sys t row L NB E) as (f0 & fs & bs & -> & _ & _ & _ & _ & Nb).
  intros Es theta W H0 HL H1 Hr RG. destruct (Nb i o (Some s) Eo Es) as (f & Ef & Eb). cbn [nth_error]. rewrite Ef. unfold body_obs, body_radius in Eb. unfold occultors_of_body in RG |- *.
    destruct (ob_radius o) as [r|]; [|destruct (relative_position au kep o t None) as [[x y] z]; discriminate Eb]. specialize (Hr r eq_refl).
    destruct (relative_position au kep o t None) as [[x y] z]. cbn [rbind] in Eb. fold theta in Eb. destruct (Rlt_dec z 0) as [Lz|Lz].
    + inversion RG as [|? ? R1 R2]; subst. destruct (zero_occultor as_euler Hz s W A2 eps low high theta H0 He HL H1 (- x / r) (- y / r) (c_radius (ss_central sys) / r) (- z / r)) as (e & X1 & X2 & X3); [apply Rdiv_lt_0_compat; lra|exact R1|].
      rewrite X3 in Eb. injection Eb as <-. exists [e]. split; [|constructor; [exact X1|constructor]]. f_equal. cbn [Rsum fold_right]. rewrite Rplus_0_r. f_equal. f_equal. unfold flux_past. apply disk_ext. intros p q.
      unfold times_hidden, hides, unhidden_by. cbn [filter over]. destruct (Rlt_dec _ _); reflexivity.
    + rewrite (zero_behind as_euler s A2 eps low high theta H0 H1) in Eb.
      * injection Eb as <-. exists []. split; [|constructor]. f_equal. cbn [Rsum fold_right]. rewrite Rplus_0_r. reflexivity.
      * apply Rmult_le_reg_r with r; [lra|]. replace (- z / r * r) with (- z) by (field; lra). lra.
Qed.
End Sys.
