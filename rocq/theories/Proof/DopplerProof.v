(** Proofs about starry/doppler.py: the velocity field and its flux-weighted mean. *)
From Coq Require Import Reals Lra Lia ZArith List Bool Arith Psatz.
From Coquelicot Require Import Coquelicot.
From Verif Require Import Base.RealAux Base.Dict Model.Poly Model.Basis Model.S2fft Model.Rotation Model.Solution Model.SolutionVector Model.Ylm Model.RvMap Model.Surface Model.StarryLightCurve
  Spec.PolySpec Spec.BasisSpec Spec.HarmonicSpec Spec.RotationSpec Spec.DiskSpec Spec.YlmSpec Spec.SurfaceSpec
  Proof.PolyProof Proof.PolyUnique Proof.BasisProof Proof.HarmonicProof Proof.YlmProof Proof.YlmMore Proof.YlmFacts Proof.RotationProof Proof.RotationMap Proof.RotationMore Proof.AxisAngle
  Proof.RTProof Proof.SurfaceProof Proof.DiskRot Proof.StarryProof.
Import ListNotations.
Open Scope R_scope.

Lemma Y1pm (m : Z) x y z : (m = 1 \/ m = -1)%Z -> real_Y 1 m x y z = sqrt 3 / sqrt (4 * PI) * (if (m <? 0)%Z then y else x).
Proof.
  intros Hm. assert (P := PI_RGT_0). assert (L : legendre_deriv 1 1 z = 1).
  { unfold legendre_deriv. cbn -[Derive INR pow].
    assert (E : Derive (fun x0 => Derive (fun s => (s ^ 2 - 1) ^ 1) x0) z = 2).
    { rewrite (Derive_ext _ (fun x0 => 2 * x0)). - apply is_derive_unique. auto_derive; [exact I|ring]. - intros t. apply is_derive_unique. auto_derive; [exact I|ring]. }
    rewrite E. cbn. field. }
  assert (N : harmonic_norm 1 1 = sqrt 3 / sqrt (4 * PI)).
  { unfold harmonic_norm. cbn -[sqrt PI]. rewrite <- sqrt_div by lra. f_equal. field. lra. }
  destruct Hm as [-> | ->]; unfold real_Y; change (Z.abs_nat 1) with 1%nat; change (Z.abs_nat (-1)) with 1%nat; rewrite L, N; cbn; ring.
Qed.
Lemma sq4pi : sqrt (4 * PI) = 2 * sqrt PI.
Proof. rewrite sqrt_mult by (pose proof PI_RGT_0; lra). f_equal. replace 4 with (2 * 2) by ring. apply sqrt_square. lra. Qed.
Lemma map_at_1 y x b c : map_at 1 y (x, b, c) = (nth 0 y 0 + sqrt 3 * (nth 1 y 0 * b + nth 2 y 0 * c + nth 3 y 0 * x)) / sqrt (4 * PI).
Proof.
  unfold map_at, harmonic_eval. cbn [bigsum Nat.mul Nat.add]. change (Z.of_nat 0 - Z.of_nat 0)%Z with 0%Z. change (Z.of_nat 0 - Z.of_nat 1)%Z with (-1)%Z.
  change (Z.of_nat 1 - Z.of_nat 1)%Z with 0%Z. change (Z.of_nat 2 - Z.of_nat 1)%Z with 1%Z. rewrite Y00, Y10, !Y1pm by lia. cbn [Z.ltb Z.compare]. 
  unfold Rdiv. ring.
Qed.
(** inclination and obliquity as the velocity field reads them: no inclination means edge-on *)
Definition rv_inc (inc : option R) : R := match inc with Some i => i | None => PI / 2 end.
Lemma rv_value veq inc obl x y z : 2 / sqrt PI * map_at 1 (rv_map_expansion (Some veq) inc obl None) (x, y, z) = recession veq (rv_inc inc) (angle0 obl) (x, y, z).
Proof.
  rewrite map_at_1. unfold rv_map_expansion, recession, pole, cross3. cbn [map nth snd].
  assert (P := PI_RGT_0). assert (S : 0 < sqrt PI) by (apply sqrt_lt_R0; lra). assert (Q : sqrt PI * sqrt PI = PI) by (apply sqrt_sqrt; lra). assert (Q3 : sqrt 3 * sqrt 3 = 3) by (apply sqrt_sqrt; lra).
  set (A := _ * (match obl with Some o => cos o | None => 1 end)). set (B := _ * (match obl with Some o => sin o | None => 0 end)).
  assert (EA : A = sin (rv_inc inc) * cos (angle0 obl)) by (unfold A; destruct inc, obl; cbn; rewrite ?sin_PI2, ?cos_0; ring).
  assert (EB : B = sin (rv_inc inc) * sin (angle0 obl)) by (unfold B; destruct inc, obl; cbn; rewrite ?sin_PI2, ?sin_0; ring).
  rewrite sq4pi. transitivity (veq * (A * x + B * y) * (sqrt 3 * sqrt 3) / 3 * PI / (sqrt PI * sqrt PI)).
  - field. lra.
  - rewrite Q, Q3, EA, EB. field. lra.
Qed.
Lemma rv_length veq inc obl : length (rv_map_expansion (Some veq) inc obl None) = ncoef 1.
Proof. reflexivity. Qed.

(** * Geometry *)
Lemma map_sky inc obl theta c : map_point (Some inc) (Some obl) (Some theta) (sky_point inc obl theta c) = c.
Proof.
  assert (Z : forall t p, rot_z (- t) (rot_z t p) = p). { intros t [[x y] z]. unfold rot_z. rewrite cos_neg, sin_neg. pose proof (sin2_cos2 t) as C. unfold Rsqr in C. apply triple_eq; [transitivity (x * (sin t * sin t + cos t * cos t)); [ring|rewrite C; ring]|transitivity (y * (sin t * sin t + cos t * cos t)); [ring|rewrite C; ring]|ring]. }
  assert (X : forall t p, rot_x (- t) (rot_x t p) = p). { intros t [[x y] z]. unfold rot_x. rewrite cos_neg, sin_neg. pose proof (sin2_cos2 t) as C. unfold Rsqr in C. apply triple_eq; [ring|transitivity (y * (sin t * sin t + cos t * cos t)); [ring|rewrite C; ring]|transitivity (z * (sin t * sin t + cos t * cos t)); [ring|rewrite C; ring]]. }
  unfold map_point, sky_point. cbn [angle0]. rewrite Z. specialize (X (- inc)) as X'. rewrite Ropp_involutive in X'. rewrite X', Z, X. reflexivity.
Qed.
Lemma sky_speed inc obl theta c : is_derive (fun t : R => snd (sky_point inc obl t c)) theta (snd (cross3 (pole inc obl) (sky_point inc obl theta c))).
Proof.
  destruct c as [[x y] z]. unfold sky_point, cross3, pole, rot_z, rot_x. cbn [snd]. rewrite sin_PI2, cos_PI2, cos_neg, sin_neg. auto_derive; [exact I|].
  assert (C := sin2_cos2 obl). unfold Rsqr in C.
  match goal with |- ?a = ?b => replace b with (- sin inc * (sin obl * sin obl + cos obl * cos obl) * (x * cos theta + (- (y * 0 - z * 1)) * sin theta)) by ring end.
  rewrite C. ring.
Qed.
Lemma pole_north inc obl theta : sky_point inc obl theta (0, 1, 0) = pole inc obl.
Proof. unfold sky_point, pole, rot_z, rot_x. rewrite sin_PI2, cos_PI2, cos_neg, sin_neg. apply triple_eq; ring. Qed.

(** * The mean velocity *)
Lemma nth_firstn_lt {A} (l : list A) (n k : nat) (d : A) : (k < n)%nat -> nth k (firstn n l) d = nth k l d.
Proof. revert n k. induction l as [|a l IH]; intros n k H; [now rewrite firstn_nil|]. destruct n; [lia|]. destruct k; [reflexivity|]. cbn. apply IH. lia. Qed.
Lemma sq_split n : exists l nu, (n = l * l + nu /\ nu <= 2 * l)%nat.
Proof. exists (Nat.sqrt n), (n - Nat.sqrt n * Nat.sqrt n)%nat. pose proof (Nat.sqrt_spec n (Nat.le_0_l n)). cbn in H. lia. Qed.
Lemma rT_firstn d D : (d <= D)%nat -> firstn (ncoef d) (rT D) = rT d.
Proof.
  intros H. assert (N : (ncoef d <= ncoef D)%nat) by (unfold ncoef; nia). apply (nth_ext _ _ 0 0).
  - rewrite firstn_length, !rT_length. unfold ncoef in *. lia.
  - intros n Hn. rewrite firstn_length, rT_length in Hn. assert (Hn' : (n < ncoef d)%nat) by lia. rewrite nth_firstn_lt by exact Hn'.
    destruct (sq_split n) as (l & nu & -> & Hnu). assert (l <= d)%nat by (unfold ncoef in Hn'; nia). rewrite !rT_nth by lia. reflexivity.
Qed.
Lemma flux_rot_gen (F : vec3 -> R) a : (exists D d, forall x y z, on_sphere x y z -> F (x, y, z) = dense_eval D d x y z) ->
  visible_flux (fun p => F (rot_z a p)) = visible_flux F.
Proof.
  intros (D & d & H). unfold visible_flux. transitivity (disk_integral (fun x y => dense_eval D d x y (zdisk x y))).
  - rewrite <- (disk_rot _ a (disk_cont_dense D d)). apply disk_ext_in. intros x y Hd. rewrite <- H by (apply GreenProof.zdisk_sphere, in_disk_rot, Hd).
    unfold rot_z. rewrite zdisk_rot. reflexivity.
  - apply disk_ext_in. intros x y Hd. symmetry. apply H, GreenProof.zdisk_sphere, Hd.
Qed.
Section Velocity.
Variable as_euler : R * R * R -> R * R * R.
Hypothesis Hz : zyz_euler as_euler.
Variable s : surface.
Hypothesis Hy : wf_ylm (s_y s).
Variables (eps : R) (low high : list (R * R)) (A2 : nat -> matrix).
Variable veq : R.
Hypothesis Hv : surf_veq s = Ok veq.
Definition rec_ (p : vec3) : R := recession veq (rv_inc (s_inc s)) (angle0 (s_obl s)) p.
Lemma rv_poly tz : exists y p, dot_rz 1 tz (rv_map_expansion (Some veq) (s_inc s) (s_obl s) None) = Ok y /\ from_dense (A1_mul 1 y) None = Ok p /\
  repr p 1 (fun x y' z => rec_ (rot_z tz (x, y', z))).
Proof.
  destruct (dot_rz_ok 1 tz _ (rv_length veq (s_inc s) (s_obl s))) as (y & E & L & _). destruct (A1_mul_repr 1 y None L (or_introl eq_refl)) as (p & E1 & R1).
  exists y, p. split; [exact E|split; [exact E1|]]. revert R1. apply repr_ext. intros x y' z _. rewrite (dot_rz_map 1 tz _ y _ (rv_length veq (s_inc s) (s_obl s)) E).
  destruct (rot_z tz (x, y', z)) as [[a b] c]. apply rv_value.
Qed.
Definition mean_rv theta : R := visible_flux (fun p => seen s theta p * rec_ p) / visible_flux (seen s theta).
Lemma rv_rT theta tz design : s_shear s = None -> design = rT (surf_deg s + 1) -> visible_flux (seen s theta) <> 0 -> ld_flux (s_u s) <> 0 ->
  rbind (Ok design) (fun design =>
    rbind (rotated_y as_euler s theta tz) (fun ry =>
    rbind (ld_poly s) (fun p_u =>
    rbind (from_dense (A1_mul (surf_ydeg s) ry) (Some (Z.of_nat (surf_ydeg s)))) (fun p_y =>
    rbind (ld_norm s p_u) (fun norm =>
    rbind (surf_veq s) (fun veq =>
    let y_rv := rv_map_expansion (Some veq) (s_inc s) (s_obl s) None in
    rbind (dot_rz 1 (- tz) y_rv) (fun rotated_rv_y =>
    rbind (from_dense (A1_mul 1 rotated_rv_y) None) (fun p_rv =>
    rbind (rbind (pijk_mul p_y p_rv) (fun p => pijk_mul p p_u)) (fun p_all =>
    rbind (pijk_dot p_all design) (fun rv =>
    rbind (pijk_mul p_y p_u) (fun p_yu =>
    let n_deg := ((surf_deg s + 1) * (surf_deg s + 1))%nat in
    rbind (pijk_dot p_yu (firstn n_deg design)) (fun f =>
    let intensity := f * norm in
    Ok (s_amplitude s * rv * norm / intensity))))))))))))) = Ok (s_amplitude s * mean_rv theta).
Proof using Hz Hy Hv.
  intros Hs -> Hf Hl. cbn [rbind]. destruct (rotated_y_ok as_euler Hz s Hy theta tz) as (ry & E0 & L & V). rewrite E0. cbn [rbind].
  destruct (ld_poly_ok s) as (p_u & E1 & R1). rewrite E1. cbn [rbind].
  destruct (A1_mul_repr (surf_ydeg s) ry _ L (or_intror eq_refl)) as (p_y & E2 & R2). rewrite E2. cbn [rbind]. rewrite (ld_norm_ok s p_u R1). cbn [rbind]. rewrite Hv. cbn [rbind].
  destruct (rv_poly (- tz)) as (yr & p_rv & E3 & E4 & R4). cbv zeta. rewrite E3. cbn [rbind]. rewrite E4. cbn [rbind].
  destruct (repr_mul _ _ _ _ _ _ R2 R4) as (q & E5 & R5). rewrite E5. cbn [rbind]. destruct (repr_mul _ _ _ _ _ _ R5 R1) as (q' & E6 & R6). rewrite E6. cbn [rbind].
  replace (surf_deg s + 1)%nat with (surf_ydeg s + 1 + surf_udeg s)%nat at 1 by (unfold surf_deg; lia). rewrite (repr_dot_rT _ _ _ R6). cbn [rbind].
  destruct (repr_mul _ _ _ _ _ _ R2 R1) as (q2 & E7 & R7). rewrite E7. cbn [rbind]. fold (ncoef (surf_deg s)). rewrite rT_firstn by lia. unfold surf_deg at 1. rewrite (repr_dot_rT _ _ _ R7). cbn [rbind].
  f_equal. set (W := disk_integral _). set (F := disk_integral _).
  assert (EF : F = visible_flux (seen s theta)). { rewrite <- (visible_flux_rot as_euler Hz s Hy theta (- tz)). unfold F, visible_flux. apply disk_ext_in. intros x y Hd. rewrite V by (apply zdisk_sphere3, Hd).
    unfold seen, seen_intensity, rot_z. cbn [snd]. ring. }
  assert (EW : W = visible_flux (fun p => seen s theta p * rec_ p)).
  { rewrite <- (flux_rot_gen _ (- tz)).
    - unfold W, visible_flux. apply disk_ext_in. intros x y Hd. rewrite V by (apply zdisk_sphere3, Hd). unfold seen, seen_intensity, rot_z. cbn [snd]. ring.
    - destruct (rotated_y_ok as_euler Hz s Hy theta 0) as (ry' & _ & L' & V'). destruct (A1_mul_repr (surf_ydeg s) ry' _ L' (or_intror eq_refl)) as (p_y' & _ & R2').
      destruct (rv_poly 0) as (yy & p_rv' & _ & _ & R4'). destruct (repr_mul _ _ _ _ _ _ R2' R4') as (q3 & _ & R8). destruct (repr_mul _ _ _ _ _ _ R8 R1) as (q4 & _ & R9).
      destruct (repr_todense _ _ _ R9) as (v & _ & _ & V9). eexists _, (fun n => nth n v 0). intros x y z Hsp. rewrite V9 by exact Hsp. rewrite V' by (apply sphere_iff, Hsp). rewrite Ropp_0, !rot_z_0.
      unfold seen, seen_intensity. cbn [snd]. ring. }
  rewrite EW, EF. unfold mean_rv. pose proof PI_RGT_0. field. split; [exact Hf|split; [exact Hl|lra]].
Qed.
Lemma rv_no_occultor x y z theta : s_shear s = None -> visible_flux (seen s theta) <> 0 -> ld_flux (s_u s) <> 0 ->
  surface_radial_velocity as_euler eps low high A2 s None x y z theta = Ok (s_amplitude s * mean_rv theta).
Proof using Hz Hy Hv.
  intros Hs Hf Hl. unfold surface_radial_velocity, surf_vdeg. rewrite Hs. cbn [design_matrix theta_z_of]. apply rv_rT; auto.
Qed.
Lemma rv_not_occ r x y z theta : s_shear s = None -> visible_flux (seen s theta) <> 0 -> ld_flux (s_u s) <> 0 -> 1 + r <= sqrt (none0 x ^ 2 + none0 y ^ 2) \/ none0 z <= 0 ->
  surface_radial_velocity as_euler eps low high A2 s (Some r) x y z theta = Ok (s_amplitude s * mean_rv theta).
Proof using Hz Hy Hv.
  intros Hs Hf Hl H. unfold surface_radial_velocity, surf_vdeg. rewrite Hs.
  assert (Ho : og_occ (geometry r x y z) = false).
  { destruct (og_occ (geometry r x y z)) eqn:G; [|reflexivity]. apply geometry_occ in G. lra. }
  rewrite design_not_occ by (lia || exact Ho). apply rv_rT; auto.
Qed.
Lemma rv_intensity x y z theta : s_shear s = None -> on_sphere x y z ->
  surf_intensity_xyz as_euler s x y z theta true =
  Ok (s_amplitude s * sky_intensity (y_data (s_y s)) (s_u s) (Some (surf_inc s)) (Some (surf_obl s)) theta (x, y, z) * rec_ (x, y, z)).
Proof using Hz Hy Hv.
  intros Hs Hp. unfold surf_intensity_xyz, surf_vdeg. rewrite Hs, Hv. cbn [rbind].
  destruct (left_project_both as_euler Hz (surf_ydeg s) (surf_inc s) (surf_obl s) theta (Some 0) _ (dense_len s Hy)) as (ry & Er & Lr & Vr).
  destruct (surf_polys s ry Lr) as (p_y & p_u & p & E1 & E2 & E3 & R1 & R2 & R3).
  destruct (A1_mul_repr 1 _ None (rv_length veq (s_inc s) (s_obl s)) (or_introl eq_refl)) as (p_rv & E4 & R4).
  destruct (repr_mul _ _ _ _ _ _ R3 R4) as (q & E5 & R5). destruct (repr_todense _ _ _ R5) as (pd & E6 & L6 & V6).
  destruct (poly_basis_dot (surf_deg s + 1) pd x y z L6) as (pT & E7 & E8). rewrite E7. cbn [rbind]. rewrite Er. cbn [rbind]. rewrite E1. cbn [rbind]. rewrite E2. cbn [rbind]. rewrite E3. cbn [rbind].
  rewrite E4. cbn [rbind]. rewrite E5. cbn [rbind]. rewrite E6. cbn [rbind]. rewrite E8. cbn [rbind].
  f_equal. rewrite V6 by exact Hp. rewrite Vr by (apply sphere_iff, Hp). rewrite rv_value.
  assert (E0 : rot_z (- angle0 (Some 0)) (x, y, z) = (x, y, z)). { unfold rot_z. cbn [angle0]. rewrite Ropp_0, cos_0, sin_0. apply triple_eq; ring. }
  rewrite E0. rewrite (surf_ydeg_nat s), todense_value by exact Hy. unfold sky_intensity, rec_. cbn [snd]. ring.
Qed.
End Velocity.
