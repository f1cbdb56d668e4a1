(** Model of starry/core/rotation.py. *)
From Coq Require Import Reals Lra Lia ZArith List Bool.
From Verif Require Import Base.RealAux Model.Poly Model.S2fft.
Import ListNotations.
Open Scope R_scope.

(** rotation.py:474-480: cosnt and sinnt, built by appending for n in range(2, deg+1) *)
Definition cheb_list (deg : nat) (c x0 x1 : R) : list R :=
  fold_left (fun a n => a ++ [2 * nth (n - 1) a 0 * c - nth (n - 2) a 0]) (seq 2 (deg - 1)) [x0; x1].
(** rotation.py:482-491: cosmt and sinmt; [neg] is applied to the entries of negative order *)
Definition order_list (deg : nat) (nt : list R) (neg : R -> R) : list R :=
  flat_map (fun ell => map (fun m => neg (nth (Z.to_nat (- m)) nt 0)) (zrange (- Z.of_nat ell) 0) ++
                       map (fun m => nth m nt 0) (seq 0 (ell + 1)))
           (seq 0 (deg + 1)).
(** result[i] = v on a Python list of the right length *)
Fixpoint upd (l : list R) (i : nat) (v : R) : list R :=
  match l, i with
  | [], _ => []
  | _ :: r, O => v :: r
  | a :: r, S i => a :: upd r i v
  end.
(** rotation.py:495-508 [impl]: jnp.vectorize rejects a core dimension other than n_max *)
Definition rz_impl (deg : nat) (cosmt sinmt M : list R) : list R :=
  fold_left (fun res ell =>
    fold_left (fun res j =>
      upd res (ell * ell + j)
        (nth (ell * ell + j) M 0 * nth (ell * ell + j) cosmt 0 +
         nth (ell * ell + 2 * ell - j) M 0 * nth (ell * ell + j) sinmt 0))
      (seq 0 (2 * ell + 1)) res)
    (seq 0 (deg + 1)) (repeat 0 (deg ^ 2 + 2 * deg + 1)).
(** rotation.py:472-508 [dot_rz] applied to a vector *)
Definition dot_rz (deg : nat) (theta : R) (M : list R) : result (list R) :=
  let c := cos theta in
  let s := sin theta in
  let cosmt := order_list deg (cheb_list deg c 1 c) (fun v => v) in
  let sinmt := order_list deg (cheb_list deg c 0 s) Ropp in
  if Nat.eqb (length M) (deg ^ 2 + 2 * deg + 1) then Ok (rz_impl deg cosmt sinmt M) else Err ValueError.

(** rotation.py:62-83: the general rotation, block by block: M[l^2 : l^2+2l+1] @ R[l] *)
Definition dot_blocks (deg : nat) (Rm : nat -> nat -> nat -> R) (M : list R) : list R :=
  flat_map (fun l => map (fun c => bigsum (2 * l + 1) (fun r => nth (l * l + r) M 0 * Rm l r c)) (seq 0 (2 * l + 1)))
           (seq 0 (deg + 1)).

Section WithEuler.
Variable as_euler : R * R * R -> R * R * R.
Definition none0 (a : option R) : R := match a with Some v => v | None => 0 end.
(** rotation.py:16-83 [dot_rotation_matrix] applied to a vector (scalar arguments, so that the shape
    checks of lines 49-56 pass) *)
Definition dot_rotation_matrix (deg : nat) (x y z theta : option R) (M : list R) : result (list R) :=
  match theta with
  | None => Ok M
  | Some theta =>
    match x, y with
    | None, None => match z with None => Err ValueError | Some _ => dot_rz deg theta M end
    | _, _ =>
      let x := none0 x in let y := none0 y in let z := none0 z in
      if Nat.eqb (length M) (deg ^ 2 + 2 * deg + 1)
      then Ok (dot_blocks deg (rotation_matrix as_euler deg x y z theta) M) else Err ValueError
    end
  end.

(** numpy/JAX allclose(a, b, atol) for scalars, rtol = 1e-5: |a - b| <= atol + rtol |b| *)
Definition allclose (a b atol : R) : bool := Rleb (Rabs (a - b)) (atol + / 100000 * Rabs b).

(** rotation.py:86-138 [full_rotation_axis_angle]; eps is get_dtype_eps.  None becomes 0.0 first,
    so the else branch (lines 117-121) is never taken *)
Definition full_rotation_axis_angle (eps : R) (inc obl theta theta_z : option R) : R * R * R * R :=
  let inc := none0 inc in let obl := none0 obl in
  let theta := none0 theta in let theta_z := none0 theta_z in
  let f := / 2 * sqrt 2 in
  let si := sin (inc / 2) in
  let ci := cos (inc / 2) in
  let sp := sin (/ 2 * (obl + theta + theta_z)) in
  let cp := cos (/ 2 * (obl + theta + theta_z)) in
  let sm := sin (/ 2 * (obl - theta + theta_z)) in
  let cm := cos (/ 2 * (obl - theta + theta_z)) in
  let numerator1 := f * (- si * cm + ci * cp) in
  let numerator2 := f * (- si * sm + sp * ci) in
  let numerator3 := f * (si * sm + sp * ci) in
  let arg := si * cm + ci * cp in
  let denominator := sqrt (1 - / 2 * arg ^ 2) in
  let farg := f * arg in
  let zero_angle := allclose farg 1 eps in
  let angle := if zero_angle then 0 else 2 * acos farg in
  let cond := (Rltb (arg ^ 2) 2 && negb zero_angle)%bool in
  (where_ cond (numerator1 / denominator) 1, where_ cond (numerator2 / denominator) 0,
   where_ cond (numerator3 / denominator) 0, angle).

(** rotation.py:141-184 [sky_projection_axis_angle] *)
Definition sky_projection_axis_angle (inc obl : option R) : option R * option R * option R * option R :=
  match inc, obl with
  | None, None => (Some 1, None, None, None)
  | Some i, None => (Some 1, None, None, Some i)
  | None, Some o => (None, None, Some 1, Some o)
  | Some inc, Some obl =>
    let co := cos (obl / 2) in
    let so := sin (obl / 2) in
    let ci := cos (inc / 2) in
    let si := sin (inc / 2) in
    let denominator := sqrt (1 - ci ^ 2 * co ^ 2) in
    let denominator := if Reqb denominator 0 then 1 else denominator in
    let axis_x := si * co in
    let axis_y := si * so in
    let axis_z := - so * ci in
    let angle := 2 * acos (ci * co) in
    let arg := sqrt (axis_x ^ 2 + axis_y ^ 2 + axis_z ^ 2) in
    let c := Rltb 0 arg in
    (Some (where_ c (axis_x / denominator) 1), Some (where_ c (axis_y / denominator) 0),
     Some (where_ c (axis_z / denominator) 0), Some angle)
  end.

Definition omap (f : R -> R) (a : option R) : option R := match a with Some v => Some (f v) | None => None end.
(** rotation.py:187-217 [left_project] *)
Definition left_project (deg : nat) (inc obl theta theta_z : option R) (y : list R) : result (list R) :=
  let m_theta := omap Ropp theta in
  let m_theta_z := omap Ropp theta_z in
  let '(ax, ay, az, angle) := sky_projection_axis_angle inc obl in
  rbind (dot_rotation_matrix deg (Some 1) None None (Some (- (1 / 2) * PI)) y) (fun y =>
  rbind (dot_rotation_matrix deg None None (Some 1) m_theta y) (fun y =>
  rbind (dot_rotation_matrix deg ax ay az angle y) (fun y =>
  dot_rotation_matrix deg None None (Some 1) m_theta_z y))).
(** rotation.py:220-249 [right_project] *)
Definition right_project (deg : nat) (inc obl theta theta_z : option R) (y : list R) : result (list R) :=
  let '(ax, ay, az, angle) := sky_projection_axis_angle inc obl in
  let m_ax := omap Ropp ax in let m_ay := omap Ropp ay in let m_az := omap Ropp az in
  rbind (dot_rotation_matrix deg None None (Some 1) theta_z y) (fun y =>
  rbind (dot_rotation_matrix deg m_ax m_ay m_az angle y) (fun y =>
  rbind (dot_rotation_matrix deg None None (Some 1) theta y) (fun y =>
  dot_rotation_matrix deg (Some 1) None None (Some (1 / 2 * PI)) y))).
End WithEuler.
