(** Statements about pictures assembled from UtilsProof. *)
From Coq Require Import Reals Lra Lia ZArith List Bool Arith.
From Verif Require Import Base.RealAux Base.Dict Model.Poly Model.Basis Model.S2fft Model.Rotation Model.Ylm Model.RvMap Model.Surface Model.StarryUtils
  Spec.PolySpec Spec.BasisSpec Spec.HarmonicSpec Spec.RotationSpec Spec.DiskSpec Spec.YlmSpec Spec.SpotSpec Spec.SurfaceSpec Spec.SystemSpec Spec.DrawSpec
  Proof.YlmProof Proof.Euler Proof.AxisAngle Proof.RotationMore Proof.SurfaceProof Proof.DopplerProof Proof.IntensityProof Proof.UtilsProof.
Import ListNotations.
Open Scope R_scope.

Lemma grid_spec res i j : (1 < res)%nat -> (i < res)%nat -> (j < res)%nat -> 
  let x := spaced (-1) 1 res j in let y := spaced (-1) 1 res i in
  length (ortho_grid res) = (res * res)%nat /\
  exists p, nth_error (ortho_grid res) (i * res + j) = Some p /\ px_x p = x /\
  (1 < x ^ 2 + y ^ 2 -> px_y p = None /\ px_z p = None /\ px_lat p = None /\ px_lon p = None) /\
  (x ^ 2 + y ^ 2 <= 1 -> exists z lat lon, px_y p = Some y /\ px_z p = Some z /\ px_lat p = Some lat /\ px_lon p = Some lon /\
     on_sphere x y z /\ 0 <= z /\ direction lat lon = (x, y, z) /\ - (PI / 2) <= lat <= PI / 2 /\ - (PI / 2) <= lon <= PI / 2).
Proof.
  intros Hr Hi Hj x y. split; [unfold ortho_grid; now rewrite map_length, seq_length|]. exists (grid_pixel res (i * res + j)).
  split. { unfold ortho_grid. rewrite (map_nth_error (grid_pixel res) (i * res + j) (seq 0 (res * res)) (d := (i * res + j)%nat)); [reflexivity|].
    rewrite (nth_error_nth' _ 0%nat) by (rewrite seq_length; nia). rewrite seq_nth by nia. reflexivity. }
  rewrite pixel_at by assumption. fold x y. destruct (Rlt_dec 1 (x ^ 2 + y ^ 2)) as [H|H]; cbn [px_x px_y px_z px_lat px_lon].
  - split; [reflexivity|split; [intros _; split; [|split; [|split]]; reflexivity|intros; lra]].
  - split; [reflexivity|split; [intros; lra|intros _]]. exists (sqrt (1 - x ^ 2 - y ^ 2)). eexists. eexists. split; [reflexivity|split; [reflexivity|split; [reflexivity|split; [reflexivity|]]]].
    split; [apply above_sphere; lra|split; [apply sqrt_pos|split; [apply grid_direction; lra|split; [apply acos_range|apply atan2_front, sqrt_pos]]]].
Qed.
Lemma image_spec as_euler s theta res : zyz_euler as_euler -> wf_ylm (s_y s) -> (1 < res)%nat ->
  exists img, render as_euler s theta res false = Ok img /\ length img = res /\ (forall i, (i < res)%nat -> length (nth i img []) = res) /\
  forall i j, (i < res)%nat -> (j < res)%nat -> let x := spaced (-1) 1 res j in let y := spaced (-1) 1 res i in
  nth j (nth i img []) None = if Rlt_dec 1 (x ^ 2 + y ^ 2) then None
    else Some (s_amplitude s * sky_intensity (y_data (s_y s)) (s_u s) (Some (surf_inc s)) (Some (surf_obl s)) theta (above x y)).
Proof.
  intros Hz W Hr. exact (render_pixels as_euler s theta res false (fun x y z => s_amplitude s * sky_intensity (y_data (s_y s)) (s_u s) (Some (surf_inc s)) (Some (surf_obl s)) theta (x, y, z)) Hr
   (fun x y z H => intensity_ok as_euler Hz s W x y z theta H)).
Qed.
Lemma image_rv_spec as_euler s veq theta res : zyz_euler as_euler -> wf_ylm (s_y s) -> surf_veq s = Ok veq -> s_shear s = None -> (1 < res)%nat ->
  exists img, render as_euler s theta res true = Ok img /\ length img = res /\ (forall i, (i < res)%nat -> length (nth i img []) = res) /\
  forall i j, (i < res)%nat -> (j < res)%nat -> let x := spaced (-1) 1 res j in let y := spaced (-1) 1 res i in
  nth j (nth i img []) None = if Rlt_dec 1 (x ^ 2 + y ^ 2) then None
    else Some (s_amplitude s * sky_intensity (y_data (s_y s)) (s_u s) (Some (surf_inc s)) (Some (surf_obl s)) theta (above x y) *
               recession veq (match s_inc s with Some i => i | None => PI / 2 end) (angle0 (s_obl s)) (above x y)).
Proof.
  intros Hz W Hv Hs Hr. exact (render_pixels as_euler s theta res true (fun x y z => s_amplitude s * sky_intensity (y_data (s_y s)) (s_u s) (Some (surf_inc s)) (Some (surf_obl s)) theta (x, y, z) *
    recession veq (match s_inc s with Some i => i | None => PI / 2 end) (angle0 (s_obl s)) (x, y, z)) Hr
   (fun x y z H => rv_intensity as_euler Hz s W veq Hv x y z theta Hs H)).
Qed.
Lemma arrays_spec ydeg y : length y = ((ydeg + 1) * (ydeg + 1))%nat ->
  (forall l m, lm_valid l m -> (l <= Z.of_nat ydeg)%Z -> y1d_to_2d ydeg y l (m + Z.of_nat ydeg)%Z = nth (Z.to_nat (l * l + l + m)) y 0) /\
  (forall l m, ~ (lm_valid l m /\ (l <= Z.of_nat ydeg)%Z) -> y1d_to_2d ydeg y l (m + Z.of_nat ydeg)%Z = 0) /\
  y2d_to_1d ydeg (y1d_to_2d ydeg y) = y.
Proof.
  intros L. destruct (y1d_spec ydeg y L) as (A & B). split; [|split; [exact B|apply y_roundtrip, L]]. intros l m V H. rewrite A by assumption. unfold lm2n. do 2 f_equal. ring.
Qed.
Lemma valid2 l m a b : lm_valid l m -> (0 < l)%Z -> valid_coeffs [((0, 0)%Z, a); ((l, m), b)].
Proof.
  intros V H. split; [constructor; [intros [E|[]]; inversion E; lia|constructor; [intros []|constructor]]|]. unfold lm_valid in V. intros k [<-|[<-|[]]]; unfold valid_lm; cbn; lia.
Qed.
Lemma image_sat : exists v s, make_ylm [((0, 0)%Z, 2); ((3, -1)%Z, 1.5)] = Ok v /\ make_surface (Some v) (Some 1) (Some 0.3) [0.1] (Some 10) 1 true 0 1 None = Ok s /\
  wf_ylm (s_y s) /\ exists veq, surf_veq s = Ok veq /\ s_shear s = None.
Proof.
  destruct (make_ylm_ok [((0, 0)%Z, 2); ((3, -1)%Z, 1.5)]) as (v & Ev & _); [discriminate|].
  destruct (make_surface_norm _ v 2 (Some 1) (Some 0.3) [0.1] (Some 10) 1 0 1 None (valid2 3 (-1) 2 1.5 ltac:(unfold lm_valid; lia) ltac:(lia)) Ev ltac:(left; reflexivity) ltac:(lra)) as (s & Es & W & _ & _ & _ & _ & _ & _ & Hp & _ & _ & Hs).
  exists v, s. split; [exact Ev|split; [exact Es|split; [exact W|]]]. unfold surf_veq. rewrite Hp. unfold Reqb. destruct (Req_EM_T 10 0); [lra|]. eexists. split; [reflexivity|exact Hs].
Qed.
Lemma show_spec as_euler s body theta res n radius include_phase rv im gr :
  show_surface rotvec as_euler s body theta res n radius include_phase rv = Ok (im, gr) -> 
  let phase := theta + (if include_phase then s_phase s else 0) in
  let k := match body with Some r => Z.to_nat (Rceil (INR n * cbrt r)) | None => n end in
  let r := match body, radius with Some r, _ => r | None, Some r => r | None, None => 1 end in
  render as_euler s (Some phase) res rv = Ok im /\
  ((0 < k)%nat -> gr =
   map (fun a => map (fun i => drawn_at (surf_inc s) (surf_obl s) phase r (spaced (- (PI / 2)) (PI / 2) (k + 1) a) (spaced (PI / 2) (- (3 / 2) * PI) 100 i)) (seq 0 100)) (seq 0 (k + 1)) ++
   map (fun a => map (fun i => drawn_at (surf_inc s) (surf_obl s) phase r (spaced (- (PI / 2)) (PI / 2) 50 i) (spaced (PI / 2) (- (3 / 2) * PI) (2 * k + 1) a)) (seq 0 50)) (seq 0 (2 * k))).
Proof.
  intros H phase k r. unfold show_surface in H. fold phase in H.
  destruct (render as_euler s (Some phase) res rv) as [im'|e]; cbn [rbind] in H; [|discriminate]. injection H as -> <-. split; [reflexivity|]. intros Hk.
  fold k. replace (match body with Some r0 => r0 | None => match radius with Some r0 => r0 | None => 1 end end) with r by (unfold r; destruct body, radius; reflexivity).
  exact (graticule_lines (surf_inc s) (surf_obl s) phase 100 r k ltac:(lia) Hk).
Qed.
Lemma sky_sphere inc obl theta c : sphere3 c -> sphere3 (sky_point inc obl theta c).
Proof. intros H. unfold sky_point. apply rot_z_sphere, rot_x_sphere, rot_z_sphere, rot_x_sphere, H. Qed.
Lemma direction_sphere lat lon : sphere3 (direction lat lon).
Proof. unfold sphere3, direction, dot3. transitivity (cos lat * cos lat * (cos lon * cos lon + sin lon * sin lon) + sin lat * sin lat); [ring|]. rewrite cs1, Rmult_1_r. apply cs1. Qed.
Lemma drawn_aligned inc obl theta lat lon x y d u : drawn_at inc obl theta 1 lat lon = Some (x, y) ->
  x ^ 2 + y ^ 2 <= 1 /\
  sky_intensity d u (Some inc) (Some obl) (Some theta) (above x y) =
  2 / sqrt PI * coeffs_value d (direction lat lon) * ld_profile u (snd (above x y)).
Proof.
  unfold drawn_at. assert (M := map_sky inc obl theta (direction lat lon)). assert (S := sky_sphere inc obl theta _ (direction_sphere lat lon)).
  destruct (sky_point inc obl theta (direction lat lon)) as [[a b] c]. destruct (Rlt_dec (1 * c) 0) as [|H]; [discriminate|]. intros E. injection E as E1 E2. rewrite Rmult_1_l in E1, E2. subst a b.
  unfold sphere3, dot3 in S. pose proof (pow2_ge_0 c) as P. split; [nra|]. unfold sky_intensity. unfold above at 1.
  replace (sqrt (1 - x ^ 2 - y ^ 2)) with c. { rewrite M. reflexivity. }
  symmetry. apply sqrt_lem_1; nra.
Qed.
Lemma drawn_scaled inc obl theta r lat lon : 0 < r ->
  drawn_at inc obl theta r lat lon = match drawn_at inc obl theta 1 lat lon with Some (x, y) => Some (r * x, r * y) | None => None end.
Proof.
  intros H. unfold drawn_at. destruct (sky_point inc obl theta (direction lat lon)) as [[a b] c]. rewrite !Rmult_1_l.
  destruct (Rlt_dec (r * c) 0), (Rlt_dec c 0); try reflexivity; exfalso; nra.
Qed.
Lemma cbrt_eighth : cbrt (/ 8) = / 2.
Proof.
  unfold cbrt. destruct (Rlt_dec 0 (/ 8)); [|lra]. replace (/ 8) with (Rpower (/ 2) 3).
  - rewrite Rpower_mult. replace (3 * / 3) with 1 by field. apply Rpower_1. lra.
  - replace 3 with (INR 3) by (cbn; lra). rewrite Rpower_pow by lra. cbn. lra.
Qed.
Lemma Rceil_2 : Rceil (INR 4 * / 2) = 2%Z.
Proof.
  unfold Rceil, Int_part. replace (INR 4 * / 2) with 2 by (cbn; lra). replace (up (- (2))) with (-1)%Z; [reflexivity|]. apply tech_up; cbn; lra.
Qed.
Lemma equator_east r : 0 < r -> drawn_at (PI / 2) 0 0 r 0 (PI / 2) = Some (r, 0).
Proof.
  intros H. unfold drawn_at, sky_point, direction, rot_x, rot_z. rewrite ?cos_neg, ?sin_neg, cos_0, sin_0, cos_PI2, sin_PI2. destruct (Rlt_dec _ 0) as [K|K]; [exfalso; lra|]. do 2 f_equal; ring.
Qed.
Lemma body_radius_refuted as_euler : zyz_euler as_euler -> exists v s im gr x y,
  make_ylm [((0, 0)%Z, 1); ((1, 0)%Z, 1)] = Ok v /\ make_surface (Some v) (Some (PI / 2)) None [] None 1 true 0 1 None = Ok s /\
  show_surface rotvec as_euler s (Some (/ 8)) 0 5 4 None true false = Ok (im, gr) /\
  nth 0 (nth 1 gr []) None = Some (x, y) /\
  drawn_at (surf_inc s) (surf_obl s) 0 (/ 8) 0 (PI / 2) = Some (x, y) /\ direction 0 (PI / 2) = (1, 0, 0) /\
  (x, y) = (/ 8, 0) /\ map_point (Some (surf_inc s)) (Some (surf_obl s)) (Some 0) (above x y) = (/ 8, 0, sqrt (63 / 64)).
Proof.
  intros Hz. destruct (make_ylm_ok [((0, 0)%Z, 1); ((1, 0)%Z, 1)]) as (v & Ev & _); [discriminate|].
  destruct (make_surface_norm _ v 1 (Some (PI / 2)) None [] None 1 0 1 None (valid2 1 0 1 1 ltac:(unfold lm_valid; lia) ltac:(lia)) Ev ltac:(left; reflexivity) ltac:(lra)) as (s & Es & W & _ & _ & _ & Hi & Ho & _ & _ & Hp & _).
  destruct (image_spec as_euler s (Some (0 + 0)) 5 Hz W ltac:(lia)) as (im & Eim & _).
  assert (Ei : surf_inc s = PI / 2) by (unfold surf_inc; rewrite Hi; reflexivity). assert (Eo : surf_obl s = 0) by (unfold surf_obl; rewrite Ho; reflexivity).
  destruct (show_surface rotvec as_euler s (Some (/ 8)) 0 5 4 None true false) as [[im' gr]|e] eqn:E.
  2:{ unfold show_surface in E. rewrite Hp, Eim in E. cbn [rbind] in E. discriminate. }
  pose proof (show_spec _ _ _ _ _ _ _ _ _ _ _ E) as (_ & G). rewrite Hp, cbrt_eighth, Rceil_2, Rplus_0_r, Ei, Eo in G. specialize (G ltac:(cbn; lia)).
  exists v, s, im', gr, (/ 8), 0. split; [exact Ev|split; [exact Es|split; [exact E|]]]. rewrite Ei, Eo. split; [|split; [apply equator_east; lra|split; [|split; [reflexivity|]]]].
  - rewrite G. change (Z.to_nat 2) with 2%nat. cbn [seq map app nth plus]. rewrite <- (equator_east (/ 8)) by lra. f_equal; unfold spaced; cbn; field.
  - unfold direction. rewrite cos_0, sin_0, cos_PI2, sin_PI2. apply triple_eq; ring.
  - unfold map_point, above. cbn [angle0]. unfold rot_x, rot_z. rewrite ?cos_neg, ?sin_neg, cos_0, sin_0, cos_PI2, sin_PI2. replace (1 - (/ 8) ^ 2 - 0 ^ 2) with (63 / 64) by field. apply triple_eq; ring.
Qed.
Lemma drawn_sat : exists x y, drawn_at (PI / 2) 0 0 1 (PI / 6) 0 = Some (x, y) /\ y = / 2.
Proof.
  unfold drawn_at, sky_point, direction, rot_x, rot_z. rewrite ?cos_neg, ?sin_neg, cos_0, sin_0, cos_PI2, sin_PI2, cos_PI6, sin_PI6. assert (0 < sqrt 3) by (apply sqrt_lt_R0; lra).
  destruct (Rlt_dec _ 0) as [K|K]; [exfalso; lra|]. eexists. eexists. split; [reflexivity|field].
Qed.
