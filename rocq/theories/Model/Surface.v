(** Model of starry/surface.py.  Coefficients and angles are scalars; [as_euler] as in Model/Rotation.v. *)
From Coq Require Import Reals Lra Lia ZArith List Bool Arith.
From Verif Require Import Base.RealAux Base.Dict Model.Poly Model.Basis Model.S2fft Model.Rotation Model.Solution Model.Ylm Model.RvMap.
Import ListNotations.
Open Scope R_scope.

(** a Surface instance: surface.py:51-87 *)
Record surface := {
  s_y : ylm; s_inc : option R; s_obl : option R; s_u : list R; s_period : option R; s_amplitude : R;
  s_normalize : bool; s_phase : R; s_radius : R; s_shear : option R }.
(** surface.py:89-119 [Surface.__init__] *)
Definition make_surface (y : option ylm) (inc obl : option R) (u : list R) (period : option R) (amplitude : R)
   (normalize : bool) (phase radius : R) (shear : option R) : result surface :=
  rbind (match y with None => default_ylm | Some y => Ok y end) (fun y =>
  if normalize then
    let amplitude := ylm_getitem y (0, 0)%Z in
    rbind (make_ylm (y_data y)) (fun y' => rbind (ylm_normalize y') (fun y' =>
    Ok {| s_y := y'; s_inc := inc; s_obl := obl; s_u := u; s_period := period; s_amplitude := amplitude;
          s_normalize := normalize; s_phase := phase; s_radius := radius; s_shear := shear |}))
  else
    Ok {| s_y := y; s_inc := inc; s_obl := obl; s_u := u; s_period := period; s_amplitude := amplitude;
          s_normalize := normalize; s_phase := phase; s_radius := radius; s_shear := shear |}).
(** surface.py:121-135: the properties inc and obl *)
Definition surf_inc (s : surface) : R := none0 (s_inc s).
Definition surf_obl (s : surface) : R := none0 (s_obl s).
(** surface.py:137-140 *)
Definition surf_veq (s : surface) : result R :=
  match s_period s with
  | None => Err TypeError
  | Some p => if Reqb p 0 then Err ZeroDivisionError else Ok (2 * PI * s_radius s / p)
  end.
(** surface.py:148-167 *)
Definition surf_udeg (s : surface) : nat := length (s_u s).
Definition surf_ydeg (s : surface) : nat := Z.to_nat (y_deg (s_y s)).
Definition surf_vdeg (s : surface) : option nat := match s_shear s with Some _ => None | None => Some 1%nat end.
Definition surf_deg (s : surface) : nat := (surf_ydeg s + surf_udeg s)%nat.

(** A1(deg) @ y *)
Definition A1_mul (deg : nat) (y : list R) : list R :=
  let N := ((deg + 1) * (deg + 1))%nat in
  map (fun r => bigsum N (fun n => A1 (Z.of_nat deg) (Z.of_nat r) (Z.of_nat n) * nth n y 0)) (seq 0 N).
(** [1, *u] @ U(udeg) *)
Definition ld_row (u : list R) : list R :=
  let N := ((length u + 1) * (length u + 1))%nat in
  map (fun n => limb_dark_vector u (Z.of_nat n)) (seq 0 N).
(** a @ b for vectors *)
Definition dot_vec (a b : list R) : result R := if Nat.eqb (length a) (length b) then Ok (dotp a b) else Err TypeError.

Section WithEuler.
Variable as_euler : R * R * R -> R * R * R.
(** surface.py:142-146, 169-188 [_intensity]; inc and obl are the properties, never None *)
Definition surf_intensity_xyz (s : surface) (x y z : R) (theta : option R) (rv : bool) : result R :=
  rbind (if rv then match surf_vdeg s with None => Err TypeError | Some vd => poly_basis (surf_deg s + vd) x y z end
         else poly_basis (surf_deg s) x y z) (fun pT =>
  rbind (left_project as_euler (surf_ydeg s) (Some (surf_inc s)) (Some (surf_obl s)) theta (Some 0) (ylm_todense (s_y s))) (fun Ry =>
  rbind (from_dense (A1_mul (surf_ydeg s) Ry) (Some (Z.of_nat (surf_ydeg s)))) (fun p_y =>
  rbind (from_dense (ld_row (s_u s)) (Some (Z.of_nat (surf_udeg s)))) (fun p_u =>
  rbind (pijk_mul p_y p_u) (fun p =>
  rbind (if rv then
           rbind (surf_veq s) (fun veq =>
           match surf_vdeg s with
           | None => Err TypeError
           | Some vd =>
             rbind (from_dense (A1_mul vd (rv_map_expansion (Some veq) (s_inc s) (s_obl s) None)) None) (fun p_rv =>
             rbind (pijk_mul p_y p_u) (fun p => pijk_mul p p_rv))
           end)
         else Ok p) (fun p =>
  rbind (todense p) (fun pd =>
  rbind (dot_vec pT pd) (fun v => Ok (v * s_amplitude s))))))))).
(** surface.py:206-227 [intensity]: the rotation vector axis * angle is applied to the point; rotation.apply is the
    rotation [apply_rotvec] of a point by a rotation vector *)
Variable apply_rotvec : R * R * R -> R * R * R -> R * R * R.
Definition surf_intensity (eps : R) (s : surface) (lat lon : R) : result R :=
  let lon := lon + PI / 2 in
  let lat := PI / 2 - lat in
  let x := sin lat * cos lon in
  let y := sin lat * sin lon in
  let z := cos lat * 1 in
  let '(ax, ay, az, angle) := full_rotation_axis_angle eps (Some (surf_inc s - PI / 2)) (Some (surf_obl s)) (Some 0) (Some 0) in
  let '(x, y, z) := apply_rotvec (ax * angle, ay * angle, az * angle) (x, y, z) in
  surf_intensity_xyz s x y z None false.
End WithEuler.
(** surface.py:229-241 [rotational_phase] *)
Definition rotational_phase (s : surface) (time : R) : option R :=
  match s_period s with None => None | Some p => Some (2 * PI * time / p + s_phase s) end.
