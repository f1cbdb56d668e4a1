(** Traced radial velocities of surfaces. *)
From Coq Require Import Reals List Arith ZArith.
From Verif Require Import Base.RealAux Model.Poly Model.Basis Model.Solution Model.SolutionVector Model.Rotation Model.Ylm Model.RvMap Model.Surface Model.StarryLightCurve Model.AutoDiff Model.StarryGrad Spec.AutoDiffSpec Spec.StarryGradSpec.
Local Open Scope R_scope.

(** the period and the radius of a family of rigidly rotating surfaces *)
Definition tracks_rotation (sf : R -> surface) (s : R) (pd : option D) (rd : D) : Prop :=
  (forall z, s_shear (sf z) = None /\ s_period (sf z) <> Some 0) /\ tracks_opt (fun z => s_period (sf z)) s pd /\ tracks (fun z => s_radius (sf z)) s rd.
Definition fin_rotation (sf : surface) (pd : option D) (rd : D) : Prop :=
  s_shear sf = None /\ s_period sf <> Some 0 /\ fin_opt pd (s_period sf) /\ fin rd (s_radius sf).
(** the flux by which surface_radial_velocity divides (doppler.py:161-165: the weights truncated to the degree of the map times the
    limb darkening), before normalisation and without the amplitude *)
Definition dividing_flux (as_euler : R * R * R -> R * R * R) (eps : R) (low high : list (R * R)) (A2 : nat -> matrix) (s : surface) (g : option occ_geometry) (theta : option R) : result R :=
  rbind (design_matrix eps low high A2 (surf_deg s + 1) g) (fun design =>
  rbind (rotated_y as_euler s theta (theta_z_of g)) (fun ry =>
  rbind (ld_poly s) (fun p_u =>
  rbind (from_dense (A1_mul (surf_ydeg s) ry) (Some (Z.of_nat (surf_ydeg s)))) (fun p_y =>
  rbind (pijk_mul p_y p_u) (fun p_yu =>
  pijk_dot p_yu (firstn ((surf_deg s + 1) * (surf_deg s + 1)) design)))))).
(** it is not zero *)
Definition divides_by_nonzero (f : result R) : Prop := exists v, f = Ok v /\ v <> 0.
