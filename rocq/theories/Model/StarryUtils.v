(** Model of starry/utils.py (the drawing grid and lines, 1D/2D coefficient arrays), of Surface.render
    (starry/surface.py) and of what show_surface (starry/visualization.py) draws.  A NaN is None. *)
From Coq Require Import Reals Lra Lia ZArith List Bool Arith.
From Verif Require Import Base.RealAux Base.Dict Model.Poly Model.Basis Model.S2fft Model.Rotation Model.Ylm Model.RvMap Model.Surface.
From Verif Require Model.Transforms Model.Stack.
Import ListNotations.
Open Scope R_scope.

(** jnp.sqrt, NaN on negative numbers *)
Definition nan_sqrt (x : R) : option R := if Rltb x 0 then None else Some (sqrt x).
(** one entry of the arrays returned by ortho_grid *)
Record pixel := Pixel { px_lat : option R; px_lon : option R; px_x : R; px_y : option R; px_z : option R }.
(** utils.py:14-24 [ortho_grid]: meshgrid (x along columns, y along rows) raveled by rows; entry k *)
Definition grid_pixel (res k : nat) : pixel :=
  let x := Transforms.linspace (-1) 1 res (k mod res) in
  let y := Transforms.linspace (-1) 1 res (k / res) in
  let z := nan_sqrt (1 - x ^ 2 - y ^ 2) in
  let y := omap (fun z => y + 0 * z) z in
  {| px_lat := omap (fun y => 0.5 * PI - acos y) y; px_lon := omap (fun z => atan2 x z) z; px_x := x; px_y := y; px_z := z |}.
Definition ortho_grid (res : nat) : list pixel := map (grid_pixel res) (seq 0 (res * res)).

(** surface.py:191-204 [Surface.render]: _intensity on the whole grid, reshaped to (res, res).  poly_basis starts from
    1.0 + 0.0 * z (basis.py:326-328), so that every term of a point with a NaN z is NaN *)
Section Render.
Variable as_euler : R * R * R -> R * R * R.
Definition pixel_intensity (s : surface) (theta : option R) (rv : bool) (p : pixel) : result (option R) :=
  match px_y p, px_z p with
  | Some y, Some z => rbind (surf_intensity_xyz as_euler s (px_x p) y z theta rv) (fun v => Ok (Some v))
  | _, _ => rbind (surf_intensity_xyz as_euler s 0 0 1 theta rv) (fun _ => Ok None)
  end.
(** jnp.reshape of a flat array to rows of length n *)
Definition reshape {A} (n : nat) (l : list A) : list (list A) := map (fun i => firstn n (skipn (i * n) l)) (seq 0 n).
Definition render (s : surface) (theta : option R) (res : nat) (rv : bool) : result (list (list (option R))) :=
  rbind (Stack.mapM (pixel_intensity s theta rv) (ortho_grid res)) (fun l => Ok (reshape res l)).
End Render.

(** utils.py:26-61 [lon_lat_lines] for n = (n_lat, n_lon): the lines are lists of points (an int n is (n, 2 n)) *)
Definition lat_lines (n_lat pts : nat) (radius : R) : list (list (R * R * R)) :=
  map (fun k => let phi := Transforms.linspace 0 PI (n_lat + 1) k in let h := radius * cos phi in let r := radius * sin phi in
       map (fun i => let th := Transforms.linspace 0 (2 * PI) pts i in (r * cos th, r * sin th, 1 * h)) (seq 0 pts))
      (seq 0 (n_lat + 1)).
Definition lon_lines (n_lon pts : nat) (radius : R) : list (list (R * R * R)) :=
  map (fun k => let p := Transforms.linspace 0 (2 * PI) (n_lon + 1) k in
       map (fun i => let th := Transforms.linspace 0 PI (pts / 2) i in
                     (radius * sin th * cos p, radius * sin th * sin p, radius * cos th)) (seq 0 (pts / 2)))
      (seq 0 n_lon).
(** utils.py:64-74 [rotation]: the product of scipy rotations applies the last factor first; [apply_rotvec] is
    Rotation.from_rotvec(v).apply *)
Section Lines.
Variable apply_rotvec : R * R * R -> R * R * R -> R * R * R.
Definition graticule_rotation (inc obl theta : R) (p : R * R * R) : R * R * R :=
  let n := sqrt (cos obl ^ 2 + sin obl ^ 2 + 0 ^ 2) in
  let c := - (inc - PI / 2) in
  apply_rotvec (cos obl / n * c, sin obl / n * c, 0 / n * c)
    (apply_rotvec (0, 0, obl) (apply_rotvec (PI / 2, 0, 0) (apply_rotvec (0, 0, - theta) p))).
(** utils.py:77-86 [rotate_lines] *)
Definition rotate_lines (lines : list (list (R * R * R))) (inc obl theta : R) : list (list (R * R * R)) :=
  map (map (graticule_rotation inc obl theta)) lines.
(** utils.py:89-105 [plot_lines] with axis=(0, 1): the points drawn, those with a negative third coordinate hidden *)
Definition plot_point (p : R * R * R) : option (R * R) := let '(x, y, z) := p in if Rltb z 0 then None else Some (x, y).
Definition plot_lines (lines : list (list (R * R * R))) : list (list (option (R * R))) := map (map plot_point) lines.
(** utils.py:108-136 [graticule] (without the contour): what is plotted *)
Definition graticule (inc obl theta : R) (pts : nat) (radius : R) (n : nat) : list (list (option (R * R))) :=
  plot_lines (rotate_lines (lat_lines n pts radius) inc obl theta) ++ plot_lines (rotate_lines (lon_lines (2 * n) pts radius) inc obl theta).
(** visualization.py:47-92 [show_surface] for a Surface, or a body with a surface and a radius: the image and the
    graticule (n not None); the image is drawn with extent [-1, 1, -1, 1].  n is scaled by ceil(n cbrt(radius)) for a body *)
Variable as_euler : R * R * R -> R * R * R.
Definition show_surface (s : surface) (body_radius : option R) (theta : R) (res n : nat) (radius : option R) (include_phase rv : bool)
  : result (list (list (option R)) * list (list (option (R * R)))) :=
  let n := match body_radius with Some r => Z.to_nat (Rceil (INR n * cbrt r)) | None => n end in
  let radius := match body_radius with Some r => r | None => match radius with Some r => r | None => 1 end end in
  let phase := theta + (if include_phase then s_phase s else 0) in
  rbind (render as_euler s (Some phase) res rv) (fun im =>
  Ok (im, graticule (surf_inc s) (surf_obl s) phase 100 radius n)).
End Lines.

(** utils.py:140-149 [y1d_to_2d]; array entries are reals here *)
Definition y1d_to_2d (ydeg : nat) (flm : list R) : matrix :=
  let d := Z.of_nat ydeg in
  fold_left (fun M e => let '(i, (l, m)) := e in mat_set (d + 1) (2 * d + 1) M l (m + d) (jax_get flm i)) (lm_enum d) (fun _ _ => 0).
(** utils.py:153-162 [y2d_to_1d] *)
Definition y2d_to_1d (ydeg : nat) (M : matrix) : list R :=
  let d := Z.of_nat ydeg in
  fold_left (fun y e => let '(i, (l, m)) := e in upd y (Z.to_nat i) (M l (m + d)%Z)) (lm_enum d) (repeat 0 ((ydeg + 1) * (ydeg + 1))).
