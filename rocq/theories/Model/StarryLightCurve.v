(** Model of starry/light_curves.py and starry/doppler.py (scalar arguments, higher_precision=False).
    [eps], [low], [high] as in Model/SolutionVector.v; [A2 D] is scipy.sparse.linalg.inv(A2_inv(D)). *)
From Coq Require Import Reals Lra Lia ZArith List Bool Arith.
From Verif Require Import Base.RealAux Base.Dict Model.Poly Model.Basis Model.Rotation Model.Solution Model.SolutionVector
  Model.Ylm Model.RvMap Model.Surface.
From Verif Require Model.LimbDark.
Import ListNotations.
Open Scope R_scope.

(** v @ M for an N x N matrix *)
Definition vec_mat (N : nat) (v : list R) (M : matrix) : list R :=
  map (fun c => bigsum N (fun r => nth r v 0 * M (Z.of_nat r) (Z.of_nat c))) (seq 0 N).

Section Observables.
Variable as_euler : R * R * R -> R * R * R.
Variable eps : R.
Variable low high : list (R * R).
Variable A2 : nat -> matrix.

(** light_curves.py:60-109, doppler.py:80-118: the occultor seen from the surface.  Result: (b_occ, b, r, theta_z),
    None without an occultor *)
Record occ_geometry := { og_occ : bool; og_b : R; og_r : R; og_theta_z : R }.
Definition geometry (r : R) (x y z : option R) : occ_geometry :=
  let x := none0 x in let y := none0 y in let z := none0 z in
  let b := sqrt (x² + y²) in
  let b_rot := (Rgeb b (1 + r) || Rleb z 0)%bool in
  {| og_occ := negb b_rot; og_b := where_ b_rot 1 b; og_r := where_ b_rot 1 r; og_theta_z := atan2 x y |}.
(** light_curves.py:98-109, doppler.py:106-118 (total_deg > 0 wherever it is reached) *)
Definition design_matrix (total_deg : nat) (g : option occ_geometry) : result (list R) :=
  match g with
  | None => Ok (rT total_deg)
  | Some g =>
    rbind (starry_solution eps low high total_deg (og_b g) (og_r g)) (fun sT =>
    Ok (where_ (og_occ g) (vec_mat ((total_deg + 1) * (total_deg + 1)) sT (A2 total_deg)) (rT total_deg)))
  end.
Definition theta_z_of (g : option occ_geometry) : R := match g with None => 0 | Some g => og_theta_z g end.
(** light_curves.py:111-121, doppler.py:120-131 *)
Definition rotated_y (s : surface) (theta : option R) (theta_z : R) : result (list R) :=
  if (surf_ydeg s =? 0)%nat then Ok (ylm_todense (s_y s))
  else left_project as_euler (surf_ydeg s) (s_inc s) (s_obl s) theta (Some theta_z) (ylm_todense (s_y s)).
(** light_curves.py:123-128, doppler.py:133-138 *)
Definition ld_poly (s : surface) : result pijk :=
  if (surf_udeg s =? 0)%nat then from_dense [1] None
  else from_dense (ld_row (s_u s)) (Some (Z.of_nat (surf_udeg s))).
(** p.tosparse() @ v *)
Definition pijk_dot (p : pijk) (v : list R) : result R := rbind (todense p) (fun pd => dot_vec pd v).
(** light_curves.py:138; a vanishing denominator gives inf (excluded by hypotheses) *)
Definition ld_norm (s : surface) (p_u : pijk) : result R :=
  rbind (pijk_dot p_u (rT (surf_udeg s))) (fun f => Ok (PI / f)).
(** light_curves.py:130-140 *)
Definition flux_of (s : surface) (design ry : list R) : result R :=
  rbind (ld_poly s) (fun p_u =>
  rbind (from_dense (A1_mul (surf_ydeg s) ry) (Some (Z.of_nat (surf_ydeg s)))) (fun p_y =>
  rbind (pijk_mul p_y p_u) (fun p_yu =>
  rbind (ld_norm s p_u) (fun norm =>
  rbind (pijk_dot p_yu design) (fun f =>
  Ok (s_amplitude s * f * norm)))))).
(** light_curves.py:17-140 [surface_light_curve] *)
Definition surface_light_curve (s : surface) (r x y z theta : option R) : result R :=
  let g := match r with None => None | Some r => Some (geometry r x y z) end in
  match g with
  | Some g' =>
    if (surf_ydeg s =? 0)%nat then
      Ok (1 + where_ (og_occ g') (LimbDark.light_curve eps high (s_u s) (og_b g') (og_r g')) 0)
    else
      rbind (design_matrix (surf_deg s) g) (fun design =>
      rbind (rotated_y s theta (theta_z_of g)) (fun ry => flux_of s design ry))
  | None =>
      rbind (design_matrix (surf_deg s) None) (fun design =>
      rbind (rotated_y s theta 0) (fun ry => flux_of s design ry))
  end.

(** doppler.py:60-168 [surface_radial_velocity]; 0/0 when the flux vanishes (excluded by hypotheses) *)
Definition surface_radial_velocity (s : surface) (r x y z theta : option R) : result R :=
  match surf_vdeg s with
  | None => Err TypeError
  | Some vdeg =>
    let total_deg := (surf_deg s + vdeg)%nat in
    let g := match r with None => None | Some r => Some (geometry r x y z) end in
    rbind (design_matrix total_deg g) (fun design =>
    rbind (rotated_y s theta (theta_z_of g)) (fun ry =>
    rbind (ld_poly s) (fun p_u =>
    rbind (from_dense (A1_mul (surf_ydeg s) ry) (Some (Z.of_nat (surf_ydeg s)))) (fun p_y =>
    rbind (ld_norm s p_u) (fun norm =>
    rbind (surf_veq s) (fun veq =>
    let y_rv := rv_map_expansion (Some veq) (s_inc s) (s_obl s) None in
    rbind (dot_rz vdeg (- theta_z_of g) y_rv) (fun rotated_rv_y =>
    rbind (from_dense (A1_mul vdeg rotated_rv_y) None) (fun p_rv =>
    rbind (rbind (pijk_mul p_y p_rv) (fun p => pijk_mul p p_u)) (fun p_all =>
    rbind (pijk_dot p_all design) (fun rv =>
    rbind (pijk_mul p_y p_u) (fun p_yu =>
    let n_deg := ((surf_deg s + 1) * (surf_deg s + 1))%nat in
    rbind (pijk_dot p_yu (firstn n_deg design)) (fun f =>
    let intensity := f * norm in
    Ok (s_amplitude s * rv * norm / intensity)))))))))))))
  end.
End Observables.
