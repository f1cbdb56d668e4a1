(** Model of starry/light_curves.py and starry/doppler.py with higher_precision=True, and of the matrix cache of
    starry/multiprecision/basis.py.  Everything but the two matrices is as in Model/StarryLightCurve.v. *)
From Coq Require Import Reals Lra Lia ZArith List Bool Arith.
From Verif Require Import Base.RealAux Base.Dict Model.Poly Model.Basis Model.Rotation Model.Solution Model.SolutionVector
  Model.Ylm Model.RvMap Model.Surface Model.StarryLightCurve Model.MpBasis.
From Verif Require Model.LimbDark.
Import ListNotations.
Open Scope R_scope.

(** multiprecision/basis.py:16-27 (get_A at 19-27), 161-164 [A1], 267-270 [A2]: cache[l_max][name]; the key is the pair (l_max, name) *)
Inductive mp_name := NameA1 | NameA2.
Definition mp_name_eqb (a b : mp_name) : bool := match a, b with NameA1, NameA1 => true | NameA2, NameA2 => true | _, _ => false end.
Definition mp_key : Type := nat * mp_name.
Definition mp_key_eqb (a b : mp_key) : bool := (Nat.eqb (fst a) (fst b) && mp_name_eqb (snd a) (snd b))%bool.
Definition mp_cache : Type := list (mp_key * matrix).
(** [build] is the function passed as A (the underscore versions of A1 and A2), what [_A2] returns being given *)
Definition get_A (build : mp_name -> nat -> matrix) (name : mp_name) (l_max : nat) (cache : mp_cache) : matrix * mp_cache :=
  match dget mp_key_eqb (l_max, name) cache with
  | Some M => (M, cache)
  | None => (build name l_max, dset mp_key_eqb (l_max, name) (build name l_max) cache)
  end.

(** any sequence of calls of A1 and A2, sharing the module's cache (basis.py:16) *)
Fixpoint run_calls (build : mp_name -> nat -> matrix) (calls : list (mp_name * nat)) (cache : mp_cache) : list matrix * mp_cache :=
  match calls with
  | [] => ([], cache)
  | (nm, l) :: r => let '(M, cache) := get_A build nm l cache in let '(Ms, cache) := run_calls build r cache in (M :: Ms, cache)
  end.

Section HighPrecision.
Variable as_euler : R * R * R -> R * R * R.
Variable eps : R.
Variable low high : list (R * R).
(** what basis_mp.A1 and basis_mp.A2 return *)
Variable A1m A2m : nat -> matrix.

(** light_curves.py:131-132, 136, doppler.py:139-140, 144: A1_val @ rotated_y *)
Definition A1m_mul (deg : nat) (y : list R) : list R :=
  let N := ((deg + 1) * (deg + 1))%nat in
  map (fun r => bigsum N (fun n => A1m deg (Z.of_nat r) (Z.of_nat n) * nth n y 0)) (seq 0 N).
(** light_curves.py:130-140 *)
Definition flux_of_hp (s : surface) (design ry : list R) : result R :=
  rbind (ld_poly s) (fun p_u =>
  rbind (from_dense (A1m_mul (surf_ydeg s) ry) (Some (Z.of_nat (surf_ydeg s)))) (fun p_y =>
  rbind (pijk_mul p_y p_u) (fun p_yu =>
  rbind (ld_norm s p_u) (fun norm =>
  rbind (pijk_dot p_yu design) (fun f =>
  Ok (s_amplitude s * f * norm)))))).
(** light_curves.py:17-140 [surface_light_curve] with higher_precision=True (A2 at 100-102) *)
Definition surface_light_curve_hp (s : surface) (r x y z theta : option R) : result R :=
  let g := match r with None => None | Some r => Some (geometry r x y z) end in
  match g with
  | Some g' =>
    if (surf_ydeg s =? 0)%nat then
      Ok (1 + where_ (og_occ g') (LimbDark.light_curve eps high (s_u s) (og_b g') (og_r g')) 0)
    else
      rbind (design_matrix eps low high A2m (surf_deg s) g) (fun design =>
      rbind (rotated_y as_euler s theta (theta_z_of g)) (fun ry => flux_of_hp s design ry))
  | None =>
      rbind (design_matrix eps low high A2m (surf_deg s) None) (fun design =>
      rbind (rotated_y as_euler s theta 0) (fun ry => flux_of_hp s design ry))
  end.
(** doppler.py:60-168 [surface_radial_velocity] with higher_precision=True; the velocity map keeps the core A1 (155-158) *)
Definition surface_radial_velocity_hp (s : surface) (r x y z theta : option R) : result R :=
  match surf_vdeg s with
  | None => Err TypeError
  | Some vdeg =>
    let total_deg := (surf_deg s + vdeg)%nat in
    let g := match r with None => None | Some r => Some (geometry r x y z) end in
    rbind (design_matrix eps low high A2m total_deg g) (fun design =>
    rbind (rotated_y as_euler s theta (theta_z_of g)) (fun ry =>
    rbind (ld_poly s) (fun p_u =>
    rbind (from_dense (A1m_mul (surf_ydeg s) ry) (Some (Z.of_nat (surf_ydeg s)))) (fun p_y =>
    rbind (ld_norm s p_u) (fun norm =>
    rbind (surf_veq s) (fun veq =>
    let y_rv := rv_map_expansion (Some veq) (s_inc s) (s_obl s) None in
    rbind (dot_rz vdeg (- theta_z_of g) y_rv) (fun rotated_rv_y =>
    rbind (from_dense (A1_mul vdeg rotated_rv_y) None) (fun p_rv =>
    rbind (rbind (pijk_mul p_y p_rv) (fun p => pijk_mul p p_u)) (fun p_all =>
    rbind (pijk_dot p_all design) (fun rv =>
    rbind (pijk_mul p_y p_u) (fun p_yu =>
    let n_deg := ((surf_deg s + 1) * (surf_deg s + 1))%nat in
    rbind (pijk_dot p_yu (firstn n_deg design)) (fun f =>
    let intensity := f * norm in
    Ok (s_amplitude s * rv * norm / intensity)))))))))))))
  end.
End HighPrecision.
