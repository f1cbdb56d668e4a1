(** Model of fast_direct_left_project (starry/core/rotation.py), of rotate_flms (starry/core/s2fft_rotation.py) and of
    utils.C (starry/utils.py). *)
From Coq Require Import Reals Lra Lia ZArith List Bool.
From Coquelicot Require Import Coquelicot.
From Verif Require Import Base.RealAux Model.Poly Model.S2fft Model.Rotation Model.StarryUtils.
Import ListNotations.
Open Scope R_scope.
Local Notation C := Complex.C.

(** utils.py:165-177 [C]: entry (i, j), 0 <= i, j <= 2 l, of vstack([jABC, one, ABC]) / sqrt(2), where
    A = eye(l)[:, ::-1], B = 0, C = diag((-1)^1 ... (-1)^l), ABC = hstack([A, B, C]) and
    jABC = hstack([1j A, B, -1j C])[::-1] *)
Definition utils_C (l : nat) (i j : nat) : C :=
  let A i j : R := if Nat.eqb i (l - 1 - j) then 1 else 0 in
  let D i j : R := if Nat.eqb i j then (-1) ^ (i + 1) else 0 in
  let hstack (a b : nat -> nat -> C) i j : C := if Nat.ltb j l then a i j else if Nat.eqb j l then 0%C else b i (j - l - 1)%nat in
  let ABC := hstack (fun i j => RtoC (A i j)) (fun i j => RtoC (D i j)) in
  let jABC i j := hstack (fun i j => (Ci * RtoC (A i j))%C) (fun i j => (- Ci * RtoC (D i j))%C) (l - 1 - i)%nat j in
  let one j : C := if Nat.eqb j l then RtoC (sqrt 2) else 0%C in
  ((if Nat.ltb i l then jABC i j else if Nat.eqb i l then one j else ABC (i - l - 1)%nat j) / RtoC (sqrt 2))%C.

(** an array of complex numbers, read with row and column *)
Definition cmatrix : Type := Z -> Z -> C.
(** s2fft_rotation.py:206-208 [__exp_array]: entry k of exp(-1j * arange(-L+1, L) * x) *)
Definition exp_array (L : Z) (x : R) (k : Z) : C := cexpm (IZR (k - L + 1) * x).
(** s2fft_rotation.py:211-265 [rotate_flms].  Row el of the zero array is written once (columns L-1-el..L-1+el), by the
    iteration el of the loop; dl at that iteration is [dl_iter] (the same calls of _compute_full as _generate_rotate_dls),
    or row el of dl_array *)
Definition rotate_flms (flm : cmatrix) (L : Z) (rotation : R * R * R) (dl_array : option (nat -> matrix)) : cmatrix :=
  let '(a, beta, g) := rotation in
  let alpha := exp_array L a in
  let gamma := exp_array L g in
  fun el c =>
    if ((0 <=? el) && (el <? L) && (L - 1 - el <=? c) && (c <=? L - 1 + el))%Z%bool then
      let dl := match dl_array with None => dl_iter L beta (Z.to_nat el) | Some d => d (Z.to_nat el) end in
      csum (2 * Z.to_nat el + 1) (fun k =>
        let n := (Z.of_nat k - el + L - 1)%Z in
        (RtoC (dl c n) * alpha c * (gamma n * flm el n))%C)
    else 0%C.

(** rotation.py:511-537 [fast_direct_left_project] for a vector y; [as_euler] as in Model.S2fft ([euler], lines 513-520,
    repeats the function of s2fft_rotation.py).  y is real, so the 2D array is that of [y1d_to_2d]; the real part, taken
    last by the code, is taken here before y2d_to_1d *)
Section WithEuler.
Variable as_euler : R * R * R -> R * R * R.
Definition fast_direct_left_project (eps : R) (ydeg : nat) (inc obl theta theta_z : option R) (y : list R) : list R :=
  let '(x_, y_, z_, angle) := full_rotation_axis_angle eps inc obl theta theta_z in
  let rot := euler as_euler (- x_) (- y_) z_ (- angle) in
  let u := utils_C ydeg in
  let d := Z.of_nat ydeg in
  let y_d2 := y1d_to_2d ydeg y in
  let y_2d_complex : cmatrix := fun l n =>
    csum (2 * ydeg + 1) (fun j => (Cconj (u j (Z.to_nat n)) * RtoC (y_d2 l (Z.of_nat j)))%C) in
  let rotated := rotate_flms y_2d_complex (d + 1) rot None in
  let real l i := Re (csum (2 * ydeg + 1) (fun m => (u (Z.to_nat i) m * rotated l (Z.of_nat m))%C)) in
  y2d_to_1d ydeg real.
End WithEuler.
