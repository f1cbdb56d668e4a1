(** Light curves and radial velocities of systems. *)
From Coq Require Import Reals Lra Lia ZArith List Bool Arith Psatz.
From Verif Require Import Base.RealAux Base.Dict Model.Keplerian Model.Poly Model.Basis Model.S2fft Model.Rotation Model.Solution Model.SolutionVector Model.Ylm Model.RvMap Model.Surface Model.StarryLightCurve Model.SurfaceSystem
  Spec.PolySpec Spec.HarmonicSpec Spec.RotationSpec Spec.DiskSpec Spec.BasisSpec Spec.YlmSpec Spec.SurfaceSpec Spec.SystemSpec Proof.PolyProof Proof.GreenProof Proof.RTProof Proof.YlmProof Proof.YlmMore Proof.YlmFacts Proof.SurfaceProof Proof.StarryProof Proof.DopplerProof Proof.SystemProof.
From Verif Require Model.Stack Model.LimbDark.
Import ListNotations.
Open Scope R_scope.

(** ** the flux of a constant map *)
Lemma ydeg0_data (v : ylm) : wf_ylm v -> Z.to_nat (y_deg v) = 0%nat -> exists c, y_data v = [((0, 0)%Z, c)].
Proof.
  intros (V & N & D0 & H & _) E. assert (Hd : (y_deg v = 0)%Z) by lia. rewrite Hd in H. destruct V as [ND VL].
  assert (K : forall k, In k (map fst (y_data v)) -> k = (0, 0)%Z).
  { intros k Hk. specialize (H k Hk). specialize (VL k Hk). unfold valid_lm in VL. destruct k as [l m]. cbn [fst snd] in *. f_equal; lia. }
  destruct (y_data v) as [|[k c] [|[k' c'] r]]; [contradiction| |].
  - exists c. rewrite (K k) by (left; reflexivity). reflexivity.
  - exfalso. cbn in ND. inversion ND as [|? ? Hn _]; subst. apply Hn. rewrite (K k), (K k') by (cbn; auto). now left.
Qed.
Lemma ydeg0_flux s c theta : wf_ylm (s_y s) -> y_data (s_y s) = [((0, 0)%Z, c)] -> ld_flux (s_u s) <> 0 -> total_flux s theta = s_amplitude s * c.
Proof.
  intros W D HL. unfold total_flux, visible_flux, seen, seen_intensity. rewrite D.
  assert (P := PI_RGT_0). assert (S1 : 0 < sqrt PI) by (apply sqrt_lt_R0; lra). assert (Q : sqrt PI * sqrt PI = PI) by (apply sqrt_sqrt; lra).
  assert (E : forall p, coeffs_value [((0, 0)%Z, c)] p = c / (2 * sqrt PI)).
  { intros [[x y] z]. unfold coeffs_value. cbn [map Rsum fold_right fst snd]. change (Z.to_nat 0) with 0%nat. rewrite Y00, sq4pi. field. lra. }
  rewrite (disk_ext_in _ (fun x y => c / PI * ld_profile (s_u s) (zdisk x y))).
  - assert (DS : disk_integral (fun x y => c / PI * ld_profile (s_u s) (zdisk x y)) = c / PI * ld_flux (s_u s)).
    { destruct (ld_poly_ok s) as (p_u & _ & R1). destruct (repr_todense _ _ _ R1) as (v & _ & L & V).
      unfold ld_flux. rewrite (disk_ext_in _ (fun x y => dense_eval (surf_udeg s) (fun n => c / PI * nth n v 0) x y (zdisk x y))).
      - rewrite (disk_ext_in (fun x y => ld_profile _ _) (fun x y => dense_eval (surf_udeg s) (fun n => nth n v 0) x y (zdisk x y))).
        + rewrite <- !rT_dot. rewrite <- bigsum_scal. apply bigsum_ext. intros; ring.
        + intros x y Hd. symmetry. apply V, zdisk_sphere, Hd.
      - intros x y Hd. rewrite <- (V x y (zdisk x y)) by (apply zdisk_sphere, Hd). rewrite !dense_eval_flat, <- bigsum_scal. apply bigsum_ext. intros; ring. }
    rewrite DS. field. split; [exact HL|lra].
  - intros x y Hd. rewrite E. cbn [snd]. replace (c / PI) with (c / (sqrt PI * sqrt PI)) by (rewrite Q; reflexivity). field. lra.
Qed.

Section Sys.
Variable as_euler : R * R * R -> R * R * R.
Hypothesis Hz : zyz_euler as_euler.
Variables (eps : R) (low high : list (R * R)) (A2 : nat -> matrix) (au : R) (kep : R -> R -> R * R).
Notation lc := (surface_light_curve as_euler eps low high A2).
Notation not_in_front := (not_in_front au kep).
Lemma scaled_sep rc r x y z : 0 < rc -> rc + r <= sqrt (x ^ 2 + y ^ 2) \/ z <= 0 -> 1 + r / rc <= sqrt ((x / rc) ^ 2 + (y / rc) ^ 2) \/ z / rc <= 0.
Proof.
  intros Hr [H|H].
  - left. replace ((x / rc) ^ 2 + (y / rc) ^ 2) with ((x ^ 2 + y ^ 2) / (rc * rc)) by (field; lra). rewrite sqrt_div_alt by nra. rewrite sqrt_square by lra.
    apply Rmult_le_reg_r with rc; [lra|]. replace ((1 + r / rc) * rc) with (rc + r) by (field; lra). replace (sqrt (x ^ 2 + y ^ 2) / rc * rc) with (sqrt (x ^ 2 + y ^ 2)) by (field; lra). exact H.
  - right. apply Rmult_le_reg_r with rc; [lra|]. replace (z / rc * rc) with z by (field; lra). lra.
Qed.
Lemma central_alone sys theta t o : wf_ylm (s_y (ss_surface sys)) -> surf_ydeg (ss_surface sys) <> 0%nat -> 0 < c_radius (ss_central sys) -> not_in_front sys t o ->
  central_obs au kep lc sys theta t o = Ok (total_flux (ss_surface sys) theta).
Proof using Hz.
  intros W H0 Hr (r & Er & H). unfold central_obs, body_radius. rewrite Er. destruct (relative_position au kep o t None) as [[x y] z]. cbn [rbind].
  apply light_curve_not_occ; [exact Hz|exact W|exact H0|]. cbn [none0]. apply scaled_sep; [exact Hr|exact H].
Qed.
Lemma central_alone_deg0 sys theta t o : surf_ydeg (ss_surface sys) = 0%nat -> 0 < c_radius (ss_central sys) -> not_in_front sys t o ->
  central_obs au kep lc sys theta t o = Ok 1.
Proof.
  intros H0 Hr (r & Er & H). unfold central_obs, body_radius. rewrite Er. destruct (relative_position au kep o t None) as [[x y] z]. cbn [rbind].
  rewrite light_curve_deg0 by exact H0. destruct (og_occ _) eqn:E; [|f_equal; ring]. apply geometry_occ in E. cbn [none0] in E. apply (scaled_sep _ _ _ _ _ Hr) in H. lra.
Qed.
Lemma system_unocculted sys t r : length (ss_bodies sys) = length (ss_surfaces sys) -> wf_ylm (s_y (ss_surface sys)) -> 0 < c_radius (ss_central sys) ->
  (forall o, In o (ss_bodies sys) -> not_in_front sys t o) -> starry_light_curve as_euler eps low high A2 au kep sys t = Ok r ->
  let n := length (ss_bodies sys) in let f0 := total_flux (ss_surface sys) (rotational_phase (ss_surface sys) t) in
  exists bs, length bs = n /\ r = (if (surf_ydeg (ss_surface sys) =? 0)%nat && negb (n =? 0)%nat then INR n - INR (n - 1) * f0 else f0) :: bs.
Proof using Hz.
  intros L W Hr Hn E n f0. assert (E0 := light_curve_no_occultor as_euler Hz (ss_surface sys) W eps low high A2 None None None (rotational_phase (ss_surface sys) t)). fold f0 in E0.
  unfold starry_light_curve in E. assert (DEC : ss_bodies sys = [] \/ ss_bodies sys <> []) by (destruct (ss_bodies sys); [now left|right; discriminate]). destruct DEC as [EB|NB].
  - rewrite observable_empty, E0 in E by exact EB. injection E as <-. exists []. unfold n. rewrite EB. cbn [length Nat.eqb negb]. rewrite andb_false_r. split; reflexivity.
  - assert (Hn0 : (n =? 0)%nat = false) by (apply Nat.eqb_neq; unfold n; intros H; apply length_zero_iff_nil in H; contradiction). rewrite Hn0. cbn [negb]. rewrite andb_true_r.
    destruct (surf_ydeg (ss_surface sys) =? 0)%nat eqn:ED.
    + apply Nat.eqb_eq in ED. destruct (observable_ok au kep _ sys t r L NB E) as (f0' & fs & bs & -> & E0' & Lf & Lb & Nf & _). rewrite E0 in E0'. injection E0' as <-. exists bs. split; [exact Lb|]. f_equal.
      assert (FS : fs = repeat 1 n).
      { apply (nth_ext _ _ 1 1); [now rewrite repeat_length|]. intros k Hk. rewrite nth_repeat. destruct (nth_error (ss_bodies sys) k) as [o'|] eqn:Eo.
        - destruct (Nf k o' Eo) as (f & Ef & Eq). assert (Io := nth_error_In _ _ Eo). rewrite (central_alone_deg0 sys _ t o' ED Hr (Hn _ Io)) in Eq. injection Eq as <-. apply nth_error_nth, Ef.
        - apply nth_error_None in Eo. lia. }
      assert (S : forall k, Rsum (repeat 1 k) = INR k). { intros k. induction k; [reflexivity|]. rewrite S_INR. cbn [repeat Rsum fold_right]. fold (Rsum (repeat 1 k)). rewrite IHk. ring. }
      rewrite FS at 1. rewrite S, Lf. unfold n. ring.
    + apply Nat.eqb_neq in ED. destruct (observable_unocculted au kep _ sys t r f0 L NB E E0) as (bs & -> & Lb).
      * intros o' Ho. exact (central_alone sys _ t o' W ED Hr (Hn _ Ho)).
      * exists bs. split; [exact Lb|reflexivity].
Qed.
(** a body without a surface contributes nothing; a body with one, not behind the star's disk, shines as if it were alone *)
Lemma body_alone sys t o s r : ob_radius o = Some r -> 0 < r -> wf_ylm (s_y s) -> surf_ydeg s <> 0%nat ->
  (let '(x, y, z) := relative_position au kep o t None in c_radius (ss_central sys) + r <= sqrt (x ^ 2 + y ^ 2) \/ 0 <= z) ->
  body_obs au kep lc sys t (o, Some s) = Ok (total_flux s (rotational_phase s t)).
Proof using Hz.
  intros Er Hr W H0 H. unfold body_obs, body_radius. rewrite Er. destruct (relative_position au kep o t None) as [[x y] z]. cbn [rbind].
  apply light_curve_not_occ; [exact Hz|exact W|exact H0|]. cbn [none0].
  apply (scaled_sep r (c_radius (ss_central sys)) (- x) (- y) (- z) Hr). replace ((- x) ^ 2 + (- y) ^ 2) with (x ^ 2 + y ^ 2) by ring. destruct H; [left; lra|right; lra].
Qed.
Lemma body_none sys t o r : ob_radius o = Some r -> body_obs au kep lc sys t (o, None) = Ok 0.
Proof. intros Er. unfold body_obs, body_radius. rewrite Er. destruct (relative_position au kep o t None) as [[x y] z]. reflexivity. Qed.
(** the star and the body never occult each other at the same time *)
Lemma never_both sys t o r : ob_radius o = Some r -> 0 < r -> 0 < c_radius (ss_central sys) ->
  let '(x, y, z) := relative_position au kep o t None in let rc := c_radius (ss_central sys) in
  ~ (og_occ (geometry (r / rc) (Some (x / rc)) (Some (y / rc)) (Some (z / rc))) = true /\ og_occ (geometry (rc / r) (Some (- x / r)) (Some (- y / r)) (Some (- z / r))) = true).
Proof.
  intros Er Hr Hc. destruct (relative_position au kep o t None) as [[x y] z]. cbv zeta. rewrite !geometry_occ. cbn [none0]. intros [[_ A] [_ B]].
  assert (0 < z). { apply Rmult_lt_reg_r with (/ c_radius (ss_central sys)); [apply Rinv_0_lt_compat, Hc|]. unfold Rdiv in A. lra. }
  assert (0 < - z). { apply Rmult_lt_reg_r with (/ r); [apply Rinv_0_lt_compat, Hr|]. unfold Rdiv in B. lra. } lra.
Qed.
End Sys.

Section Rv.
Variables (au : R) (kep : R -> R -> R * R).
Variable obs : surface -> option R -> option R -> option R -> option R -> option R -> result R.
Lemma sys_rv_ok sys ts o os rows : ss_bodies sys = o :: os -> length (ss_bodies sys) = length (ss_surfaces sys) ->
  system_radial_velocity au kep obs sys ts = Ok rows -> length rows = length ts /\
  forall i t, nth_error ts i = Some t -> exists c bs, system_observable au kep obs sys t = Ok (c :: bs) /\ nth_error rows i = Some ((c + radial_velocity au kep o t None) :: bs).
Proof.
  intros EB L H. unfold system_radial_velocity in H. destruct (system_observable_times au kep obs sys ts) as [rvs|] eqn:E; cbn [rbind] in H; [|discriminate]. rewrite EB in H. injection H as <-.
  destruct (mapM_ok _ _ _ E) as [L1 N1]. split; [rewrite map_length, combine_length; lia|]. intros i t Ht. destruct (N1 i t Ht) as (row & Er & Eo).
  assert (NB : ss_bodies sys <> []) by (rewrite EB; discriminate). destruct (observable_ok au kep obs sys t row L NB Eo) as (f0 & fs & bs & -> & _).
  eexists _, bs. split; [exact Eo|]. rewrite nth_error_map. assert (C : nth_error (combine ts rvs) i = Some (t, (Rsum fs - INR (length fs - 1) * f0) :: bs)).
  { clear - Ht Er. revert rvs i Ht Er. induction ts as [|t0 ts IH]; intros [|r0 rvs] [|i] Ht Er; cbn in *; try discriminate; [congruence|]. apply IH; auto. }
  rewrite C. reflexivity.
Qed.
Lemma sys_rv_empty sys ts : ss_bodies sys = [] -> forall rows, system_radial_velocity au kep obs sys ts <> Ok rows.
Proof. intros EB rows H. unfold system_radial_velocity in H. destruct (system_observable_times au kep obs sys ts); cbn [rbind] in H; [|discriminate]. rewrite EB in H. discriminate. Qed.
Lemma sys_rv_scalar sys t : forall row, system_radial_velocity_scalar au kep obs sys t <> Ok row.
Proof. intros row H. unfold system_radial_velocity_scalar in H. destruct (system_observable au kep obs sys t); discriminate. Qed.
End Rv.

(** amplitude *)
Lemma flux_amplitude s design ry : flux_of s design ry = rbind (flux_of (with_amplitude s 1) design ry) (fun f => Ok (s_amplitude s * f)).
Proof.
  unfold flux_of. change (ld_poly (with_amplitude s 1)) with (ld_poly s). change (ld_norm (with_amplitude s 1)) with (ld_norm s). change (surf_ydeg (with_amplitude s 1)) with (surf_ydeg s).
  repeat match goal with |- rbind ?x _ = _ => destruct x as [?v|?e]; cbn [rbind]; [|reflexivity] end. cbn [with_amplitude s_amplitude]. f_equal. ring.
Qed.
Lemma lc_amplitude as_euler eps low high A2 s r x y z theta : surf_ydeg s <> 0%nat \/ r = None ->
  surface_light_curve as_euler eps low high A2 s r x y z theta = rbind (surface_light_curve as_euler eps low high A2 (with_amplitude s 1) r x y z theta) (fun f => Ok (s_amplitude s * f)).
Proof.
  intros H. unfold surface_light_curve. change (surf_ydeg (with_amplitude s 1)) with (surf_ydeg s). change (surf_deg (with_amplitude s 1)) with (surf_deg s). change (rotated_y as_euler (with_amplitude s 1)) with (rotated_y as_euler s).
  destruct r as [r|].
  - destruct (surf_ydeg s =? 0)%nat eqn:E; [apply Nat.eqb_eq in E; destruct H; [contradiction|discriminate]|].
    destruct (design_matrix _ _ _ _ _ _) as [de|]; [|reflexivity]. cbn [rbind]. destruct (rotated_y _ _ _ _) as [ry|]; [|reflexivity]. cbn [rbind]. apply flux_amplitude.
  - destruct (design_matrix _ _ _ _ _ _) as [de|]; [|reflexivity]. cbn [rbind]. destruct (rotated_y _ _ _ _) as [ry|]; [|reflexivity]. cbn [rbind]. apply flux_amplitude.
Qed.
Lemma lc_amplitude_ignored as_euler eps low high A2 s r x y z theta a : surf_ydeg s = 0%nat ->
  surface_light_curve as_euler eps low high A2 (with_amplitude s a) (Some r) x y z theta = surface_light_curve as_euler eps low high A2 s (Some r) x y z theta.
Proof. intros H. rewrite !light_curve_deg0 by exact H. reflexivity. Qed.
