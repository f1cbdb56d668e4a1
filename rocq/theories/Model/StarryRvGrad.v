(** starry/doppler.py evaluated on traced numbers (Model/AutoDiff.v): [surface_radial_velocity] of Model/StarryLightCurve.v with
    every operation replaced by its traced version.  Rigid rotation (shear None: the code supports nothing else). *)
From Coq Require Import Reals ZArith List Bool Arith.
From Verif Require Import Base.RealAux Base.Dict Model.LimbDark Model.Poly Model.Basis Model.S2fft Model.Rotation Model.Solution Model.RvMap Model.Surface Model.AutoDiff Model.LightCurveGrad Model.TransitGrad Model.StarryGrad.
Import ListNotations.
Local Open Scope R_scope.
Local Notation "x +. y" := (dadd x y) (at level 50, left associativity).
Local Notation "x *. y" := (dmul x y) (at level 40, left associativity).
Local Notation "x /. y" := (ddiv x y) (at level 40, left associativity).
Local Notation zero := (cst 0).

(** surface.py:137-140, the radius and the period are differentiated *)
Definition surf_veq_d (period : option D) (radius : D) : result D :=
  match period with
  | None => Err TypeError
  | Some p => if Reqb (val p) 0 then Err ZeroDivisionError else Ok (cst (2 * PI) *. radius /. p)
  end.
(** doppler.py:15-57 [rv_map_expansion] with alpha None; inc and obl are not differentiated *)
Definition rv_map_expansion_d (veq : D) (inc obl : option R) : list D :=
  let cosi := match inc with Some i => cos i | None => 0 end in
  let sini := match inc with Some i => sin i | None => 1 end in
  let cosl := match obl with Some o => cos o | None => 1 end in
  let sinl := match obl with Some o => sin o | None => 0 end in
  let A := sini * cosl in
  let B := sini * sinl in
  map (fun v => v *. cst PI) [zero; veq *. cst (sqrt 3) *. cst B /. cst 3; zero; veq *. cst (sqrt 3) *. cst A /. cst 3].
(** doppler.py:124-168 *)
Definition rv_of_d (s : surface_d) (veq : result D) (theta_z : D) (design ry : list D) : result D :=
  rbind (ld_poly_d (sd_u s)) (fun p_u =>
  rbind (from_dense_d (A1_mul_d (sd_ydeg s) ry) (Some (Z.of_nat (sd_ydeg s)))) (fun p_y =>
  rbind (ld_norm_d (sd_u s) p_u) (fun norm =>
  rbind veq (fun veq =>
  rbind (dot_rz_d 1 (dneg theta_z) (rv_map_expansion_d veq (sd_inc s) (sd_obl s))) (fun rotated_rv_y =>
  rbind (from_dense_d (A1_mul_d 1 rotated_rv_y) None) (fun p_rv =>
  rbind (rbind (pijk_mul_d p_y p_rv) (fun p => pijk_mul_d p p_u)) (fun p_all =>
  rbind (pijk_dot_d p_all design) (fun rv =>
  rbind (pijk_mul_d p_y p_u) (fun p_yu =>
  rbind (pijk_dot_d p_yu (firstn ((sd_ydeg s + length (sd_u s) + 1) * (sd_ydeg s + length (sd_u s) + 1)) design)) (fun f =>
  Ok (sd_amplitude s *. rv *. norm /. (f *. norm)))))))))))).
Section Rv.
Variable as_euler : R * R * R -> R * R * R.
Variable eps : R.
Variable low high : list (R * R).
Variable A2 : nat -> matrix.
(** doppler.py:60-168 [surface_radial_velocity] with an occultor of radius r at (x, y, z) *)
Definition occulted_rv_d (s : surface_d) (period : option D) (radius : D) (r x y z : D) (theta : option D) : result D :=
  let g := geometry_d r x y z in
  rbind (design_matrix_d eps low high A2 (sd_ydeg s + length (sd_u s) + 1) g) (fun design =>
  rbind (rotated_y_d as_euler s theta (gd_theta_z g)) (fun ry => rv_of_d s (surf_veq_d period radius) (gd_theta_z g) design ry)).
(** doppler.py:60-168 [surface_radial_velocity] without occultor *)
Definition bare_rv_d (s : surface_d) (period : option D) (radius : D) (theta : option D) : result D :=
  rbind (rotated_y_d as_euler s theta zero) (fun ry => rv_of_d s (surf_veq_d period radius) zero (map cst (rT (sd_ydeg s + length (sd_u s) + 1))) ry).
End Rv.
