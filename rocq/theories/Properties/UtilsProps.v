(** C64, C76: pictures of a surface — grid, image, graticule, coefficient arrays (starry/utils.py, Surface.render,
    starry/visualization.py) *)
From Coq Require Import Reals Lra Lia ZArith List Bool Arith.
From Verif Require Import Base.RealAux Base.Dict Model.Poly Model.Basis Model.S2fft Model.Rotation Model.Ylm Model.RvMap Model.Surface Model.StarryUtils
  Spec.PolySpec Spec.BasisSpec Spec.HarmonicSpec Spec.RotationSpec Spec.DiskSpec Spec.YlmSpec Spec.SurfaceSpec Spec.SpotSpec Spec.SystemSpec Spec.DrawSpec
  Proof.Euler Proof.SurfaceProof Proof.DopplerProof Proof.UtilsProof Proof.UtilsFacts.
Import ListNotations.
Open Scope R_scope.

(** C64: the grid.  Entry i * res + j is in row i (y upwards) and column j; outside the unit disk everything but x is NaN,
    inside, the point is on the visible half of the unit sphere and (lat, lon) are its latitude and longitude *)
Theorem C64_grid : forall res i j, (1 < res)%nat -> (i < res)%nat -> (j < res)%nat -> 
  let x := spaced (-1) 1 res j in let y := spaced (-1) 1 res i in
  length (ortho_grid res) = (res * res)%nat /\
  exists p, nth_error (ortho_grid res) (i * res + j) = Some p /\ px_x p = x /\
  (1 < x ^ 2 + y ^ 2 -> px_y p = None /\ px_z p = None /\ px_lat p = None /\ px_lon p = None) /\
  (x ^ 2 + y ^ 2 <= 1 -> exists z lat lon, px_y p = Some y /\ px_z p = Some z /\ px_lat p = Some lat /\ px_lon p = Some lon /\
     on_sphere x y z /\ 0 <= z /\ direction lat lon = (x, y, z) /\ - (PI / 2) <= lat <= PI / 2 /\ - (PI / 2) <= lon <= PI / 2).
Proof. exact grid_spec. Qed.
Print Assumptions C64_grid.
(** Surface.render(theta, res): a res x res image, NaN outside the disk and otherwise the intensity seen at that point of
    the sky (times the recession velocity there with rv=True) *)
Theorem C64_image : forall as_euler s theta res, zyz_euler as_euler -> wf_ylm (s_y s) -> (1 < res)%nat ->
  exists img, render as_euler s theta res false = Ok img /\ length img = res /\ (forall i, (i < res)%nat -> length (nth i img []) = res) /\
  forall i j, (i < res)%nat -> (j < res)%nat -> let x := spaced (-1) 1 res j in let y := spaced (-1) 1 res i in
  nth j (nth i img []) None = if Rlt_dec 1 (x ^ 2 + y ^ 2) then None
    else Some (s_amplitude s * sky_intensity (y_data (s_y s)) (s_u s) (Some (surf_inc s)) (Some (surf_obl s)) theta (above x y)).
Proof. exact image_spec. Qed.
Print Assumptions C64_image.
Theorem C64_image_rv : forall as_euler s veq theta res, zyz_euler as_euler -> wf_ylm (s_y s) -> surf_veq s = Ok veq -> s_shear s = None -> (1 < res)%nat ->
  exists img, render as_euler s theta res true = Ok img /\ length img = res /\ (forall i, (i < res)%nat -> length (nth i img []) = res) /\
  forall i j, (i < res)%nat -> (j < res)%nat -> let x := spaced (-1) 1 res j in let y := spaced (-1) 1 res i in
  nth j (nth i img []) None = if Rlt_dec 1 (x ^ 2 + y ^ 2) then None
    else Some (s_amplitude s * sky_intensity (y_data (s_y s)) (s_u s) (Some (surf_inc s)) (Some (surf_obl s)) theta (above x y) *
               recession veq (match s_inc s with Some i => i | None => PI / 2 end) (angle0 (s_obl s)) (above x y)).
Proof. exact image_rv_spec. Qed.
Print Assumptions C64_image_rv.
(** y1d_to_2d / y2d_to_1d: coefficient (l, m) at row l, column m + ydeg; zero elsewhere; inverse of each other *)
Theorem C64_arrays : forall ydeg y, length y = ((ydeg + 1) * (ydeg + 1))%nat ->
  (forall l m, lm_valid l m -> (l <= Z.of_nat ydeg)%Z -> y1d_to_2d ydeg y l (m + Z.of_nat ydeg)%Z = nth (Z.to_nat (l * l + l + m)) y 0) /\
  (forall l m, ~ (lm_valid l m /\ (l <= Z.of_nat ydeg)%Z) -> y1d_to_2d ydeg y l (m + Z.of_nat ydeg)%Z = 0) /\
  y2d_to_1d ydeg (y1d_to_2d ydeg y) = y.
Proof. exact arrays_spec. Qed.
Print Assumptions C64_arrays.
Example C64_sat : exists v s, make_ylm [((0, 0)%Z, 2); ((3, -1)%Z, 1.5)] = Ok v /\ make_surface (Some v) (Some 1) (Some 0.3) [0.1] (Some 10) 1 true 0 1 None = Ok s /\
  wf_ylm (s_y s) /\ exists veq, surf_veq s = Ok veq /\ s_shear s = None.
Proof. exact image_sat. Qed.
Example C64_sat_grid : exists i j, (i < 5)%nat /\ (j < 5)%nat /\ spaced (-1) 1 5 j ^ 2 + spaced (-1) 1 5 i ^ 2 <= 1 /\ 0 < spaced (-1) 1 5 j.
Proof. exists 2%nat, 3%nat. unfold spaced. cbn. split; [lia|split; [lia|split; lra]]. Qed.
Example C64_sat_outside : 1 < spaced (-1) 1 5 0 ^ 2 + spaced (-1) 1 5 1 ^ 2.
Proof. unfold spaced. cbn. lra. Qed.

(** C76: show_surface.  The image is that of C64; the n + 1 parallels and 2 n meridians are drawn where the points of
    these latitudes and longitudes are seen, hidden when on the far side, scaled by the radius of the body *)
Theorem C76_graticule : forall as_euler s body theta res n radius include_phase rv im gr,
  show_surface rotvec as_euler s body theta res n radius include_phase rv = Ok (im, gr) -> 
  let phase := theta + (if include_phase then s_phase s else 0) in
  let k := match body with Some r => Z.to_nat (Rceil (INR n * cbrt r)) | None => n end in
  let r := match body, radius with Some r, _ => r | None, Some r => r | None, None => 1 end in
  render as_euler s (Some phase) res rv = Ok im /\
  ((0 < k)%nat -> gr =
   map (fun a => map (fun i => drawn_at (surf_inc s) (surf_obl s) phase r (spaced (- (PI / 2)) (PI / 2) (k + 1) a) (spaced (PI / 2) (- (3 / 2) * PI) 100 i)) (seq 0 100)) (seq 0 (k + 1)) ++
   map (fun a => map (fun i => drawn_at (surf_inc s) (surf_obl s) phase r (spaced (- (PI / 2)) (PI / 2) 50 i) (spaced (PI / 2) (- (3 / 2) * PI) (2 * k + 1) a)) (seq 0 50)) (seq 0 (2 * k))).
Proof. exact show_spec. Qed.
Print Assumptions C76_graticule.
(** with radius 1 the graticule is aligned with the image: a drawn point of given latitude and longitude is at the place
    of the sky where the image shows the intensity of the map there (limb darkened) *)
Theorem C76_aligned : forall inc obl theta lat lon x y d u, drawn_at inc obl theta 1 lat lon = Some (x, y) ->
  x ^ 2 + y ^ 2 <= 1 /\
  sky_intensity d u (Some inc) (Some obl) (Some theta) (above x y) =
  2 / sqrt PI * coeffs_value d (direction lat lon) * ld_profile u (snd (above x y)).
Proof. exact drawn_aligned. Qed.
Print Assumptions C76_aligned.
(** for a body of another radius it is not: the image always has radius 1.  For every radius r, a drawn point is r times
    away from where the image shows it *)
Theorem C76_radius : forall inc obl theta r lat lon, 0 < r ->
  drawn_at inc obl theta r lat lon = match drawn_at inc obl theta 1 lat lon with Some (x, y) => Some (r * x, r * y) | None => None end.
Proof. exact drawn_scaled. Qed.
Print Assumptions C76_radius.
Theorem C76_body_radius_refuted : forall as_euler, zyz_euler as_euler -> exists v s im gr x y,
  make_ylm [((0, 0)%Z, 1); ((1, 0)%Z, 1)] = Ok v /\ make_surface (Some v) (Some (PI / 2)) None [] None 1 true 0 1 None = Ok s /\
  show_surface rotvec as_euler s (Some (/ 8)) 0 5 4 None true false = Ok (im, gr) /\
  nth 0 (nth 1 gr []) None = Some (x, y) /\
  drawn_at (surf_inc s) (surf_obl s) 0 (/ 8) 0 (PI / 2) = Some (x, y) /\ direction 0 (PI / 2) = (1, 0, 0) /\
  (x, y) = (/ 8, 0) /\ map_point (Some (surf_inc s)) (Some (surf_obl s)) (Some 0) (above x y) = (/ 8, 0, sqrt (63 / 64)).
Proof. exact body_radius_refuted. Qed.
Print Assumptions C76_body_radius_refuted.
Example C76_sat : exists x y, drawn_at (PI / 2) 0 0 1 (PI / 6) 0 = Some (x, y) /\ y = / 2.
Proof. exact drawn_sat. Qed.
