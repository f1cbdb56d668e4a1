(** Model of starry/core/wigner3j.py.  Arrays are total functions of their index (the views of the
    workspace are zeroed at the start of each call; [rf] is the same memory as [sf]).  Floats are
    exact reals; divisions are only meaningful when the divisor is non-zero. *)
From Coq Require Import Reals Lra Lia ZArith List Bool.
From Verif Require Import Base.RealAux Model.Poly.
Import ListNotations.
Open Scope R_scope.

Definition arrz : Type := Z -> R.
(** a[i] = v *)
Definition aset (a : arrz) (i : Z) (v : R) : arrz := fun j => if (j =? i)%Z then v else a j.
Definition in_range (lo hi j : Z) : bool := ((lo <=? j) && (j <=? hi))%Z.
(** a[lo : hi+1] *= c *)
Definition ascale (a : arrz) (lo hi : Z) (c : R) : arrz := fun j => if in_range lo hi j then a j * c else a j.
(** a[lo : hi+1] = b[lo : hi+1] *)
Definition acopy (a : arrz) (lo hi : Z) (b : arrz) : arrz := fun j => if in_range lo hi j then b j else a j.
(** range(a, b, -1) *)
Definition zrange_down (a b : Z) : list Z := map (fun k => (a - Z.of_nat k)%Z) (seq 0 (Z.to_nat (a - b))).
(** (-1) ** n > 0 for an int n (also for a negative n) *)
Definition even_pow (n : Z) : bool := Z.even n.

(** wigner3j.py:29-32 [A] *)
Definition w_A (j j2 j3 m1 : Z) : R :=
  sqrt (IZR ((j ^ 2 - (j2 - j3) ^ 2) * ((j2 + j3 + 1) ^ 2 - j ^ 2) * (j ^ 2 - m1 ^ 2))).
(** wigner3j.py:35-38, 45 [B] = [Yf] *)
Definition w_Y (j j2 j3 m2 m3 : Z) : R :=
  IZR ((2 * j + 1) * ((m2 + m3) * (j2 * (j2 + 1) - j3 * (j3 + 1)) - (m2 - m3) * j * (j + 1))).
(** wigner3j.py:41-42 [Xf] *)
Definition w_X (j j2 j3 m1 : Z) : R := IZR j * w_A (j + 1) j2 j3 m1.
(** wigner3j.py:48-49 [Zf] *)
Definition w_Z (j j2 j3 m1 : Z) : R := IZR (j + 1) * w_A j j2 j3 m1.

(** wigner3j.py:52-56 [normalize] *)
Definition w_norm (f : arrz) (j_min j_max : Z) : R :=
  Rsum (map (fun j => IZR (2 * j + 1) * f j ^ 2) (zrange j_min (j_max + 1))).
Definition w_normalize (f : arrz) (j_min j_max : Z) : arrz := ascale f j_min j_max (/ sqrt (w_norm f j_min j_max)).
(** wigner3j.py:59-63 [determine_signs] *)
Definition w_signs (f : arrz) (j_min j_max j2 j3 m2 m3 : Z) : arrz :=
  let pos := even_pow (j2 - j3 + m2 + m3) in
  if ((Rltb (f j_max) 0 && pos) || (Rgtb (f j_max) 0 && negb pos))%bool then ascale f j_min j_max (-1) else f.
Definition w_finish (f : arrz) (j_min j_max j2 j3 m2 m3 : Z) : arrz :=
  w_signs (w_normalize f j_min j_max) j_min j_max j2 j3 m2 m3.

Section Calc.
Variables j2 j3 m2 m3 : Z.
(** wigner3j.py:118, 132-133: m1, j_min, j_max, and the coefficients for these arguments *)
Definition w_m1 : Z := (- (m2 + m3))%Z.
Definition w_jmin : Z := Z.max (Z.abs (j2 - j3)) (Z.abs (m2 + m3)).
Definition w_jmax : Z := (j2 + j3)%Z.
Definition w_Xj (j : Z) : R := w_X j j2 j3 w_m1.
Definition w_Yj (j : Z) : R := w_Y j j2 j3 m2 m3.
Definition w_Zj (j : Z) : R := w_Z j j2 j3 w_m1.
Definition w_all0 : bool := ((w_m1 =? 0) && (m2 =? 0) && (m3 =? 0))%Z.
Local Notation j_min := w_jmin.
Local Notation j_max := w_jmax.
Local Notation X := w_Xj.
Local Notation Y := w_Yj.
Local Notation Zc := w_Zj.
Local Notation all0 := w_all0.
Definition zarr : arrz := fun _ => 0.

(** wigner3j.py:173-188: the loop with its break; returns (sf, j_minus) *)
Fixpoint w_fwd (js : list Z) (sf : arrz) : arrz * Z :=
  match js with
  | [] => (sf, j_max)
  | j :: js =>
      let den := Y j + Zc j * sf (j - 1)%Z in
      if (Rgtb (Rabs (X j)) (Rabs den) || Rgeb (X j * den) 0 || Reqb den 0)%bool then (sf, (j - 1)%Z)
      else w_fwd js (aset sf j (- X j / den))
  end.
(** wigner3j.py:142-198: (undefined_min, j_minus, F_minus, sf) *)
Definition w_lower : bool * Z * arrz * arrz :=
  if all0 then (false, (j_min + 1)%Z, aset (aset zarr j_min 1) (j_min + 1) 0, zarr)
  else if Reqb (Y j_min) 0 then
    if Reqb (X j_min) 0 then (true, j_min, zarr, zarr)
    else (false, (j_min + 1)%Z, aset (aset zarr j_min 1) (j_min + 1) 0, zarr)
  else if Rgeb (X j_min * Y j_min) 0 then
    (false, (j_min + 1)%Z, aset (aset zarr j_min 1) (j_min + 1) (- Y j_min / X j_min), zarr)
  else
    let sf := aset zarr j_min (- X j_min / Y j_min) in
    let '(sf, j_minus) := w_fwd (zrange (j_min + 1) j_max) sf in
    let F := aset zarr j_minus 1 in
    let F := fold_left (fun F k => aset F (j_minus - k) (F (j_minus - k + 1)%Z * sf (j_minus - k)%Z))
                       (zrange 1 (j_minus - j_min + 1)) F in
    if (j_minus =? j_min)%Z then (false, (j_min + 1)%Z, aset F (j_min + 1) (- Y j_min / X j_min), sf)
    else (false, j_minus, F, sf).
(** wigner3j.py:239-253 *)
Fixpoint w_bwd (js : list Z) (rf : arrz) : arrz * Z :=
  match js with
  | [] => (rf, j_min)
  | j :: js =>
      let den := Y j + X j * rf (j + 1)%Z in
      if (Reqb den 0 || Rgtb (Rabs (Zc j)) (Rabs den) || Rgeb (Zc j * den) 0)%bool then (rf, (j + 1)%Z)
      else w_bwd js (aset rf j (- Zc j / den))
  end.
(** wigner3j.py:207-259: (undefined_max, j_plus, F_plus) *)
Definition w_upper (j_minus : Z) (sf : arrz) : bool * Z * arrz :=
  if all0 then (false, (j_max - 1)%Z, aset (aset zarr j_max 1) (j_max - 1) 0)
  else if Reqb (Y j_max) 0 then
    if Reqb (Zc j_max) 0 then (true, j_max, zarr)
    else (false, (j_max - 1)%Z, aset (aset zarr j_max 1) (j_max - 1) (- Y j_max / Zc j_max))
  else if Rgeb (Y j_max * Zc j_max) 0 then
    (false, (j_max - 1)%Z, aset (aset zarr j_max 1) (j_max - 1) (- Y j_max / Zc j_max))
  else
    let rf := aset sf j_max (- Zc j_max / Y j_max) in
    let '(rf, j_plus) := w_bwd (zrange_down (j_max - 1) (j_minus - 1)) rf in
    let F := aset zarr j_plus 1 in
    let F := fold_left (fun F k => aset F (j_plus + k) (F (j_plus + k - 1)%Z * rf (j_plus + k)%Z))
                       (zrange 1 (j_max - j_plus + 1)) F in
    if (j_plus =? j_max)%Z then (false, (j_max - 1)%Z, aset F (j_max - 1) (- Y j_max / Zc j_max))
    else (false, j_plus, F).
(** wigner3j.py:271-283: upwards, with its break; returns (F_minus, j_mid) *)
Fixpoint w_up (js : list Z) (F : arrz) (j_mid : Z) : arrz * Z :=
  match js with
  | [] => (F, j_mid)
  | j :: js =>
      let F := aset F (j + 1) (- (Y j * F j + Zc j * F (j - 1)%Z) / X j) in
      let F := if Rgtb (Rabs (F (j + 1)%Z)) 1 then ascale F j_min (j + 1) (/ 1000) else F in
      (* a numpy division by a zero F[j-1] gives inf or nan, which is not < 1 *)
      if (negb (Reqb (F (j - 1)%Z) 0) && Rltb (Rabs (F (j + 1)%Z / F (j - 1)%Z)) 1 && negb (Reqb (F (j + 1)%Z) 0))%bool
      then (F, (j + 1)%Z)
      else w_up js F j_mid
  end.
(** wigner3j.py:291-297, 329-335: downwards *)
Definition w_down_step (F : arrz) (j : Z) : arrz :=
  let F := aset F (j - 1) (- (X j * F (j + 1)%Z + Y j * F j) / Zc j) in
  if Rgtb (Rabs (F (j - 1)%Z)) 1 then ascale F (j - 1) j_max (/ 1000) else F.
(** wigner3j.py:315-321: upwards only *)
Definition w_up_step (F : arrz) (j : Z) : arrz :=
  let F := aset F (j + 1) (- (Zc j * F (j - 1)%Z + Y j * F j) / X j) in
  if Rgtb (Rabs (F (j + 1)%Z)) 1 then ascale F j_min (j + 1) (/ 1000) else F.
(** wigner3j.py:76-345 [Wigner3jCalculator.calculate] *)
Definition w3j_calculate : result arrz :=
  if ((Z.abs m2 >? j2) || (Z.abs m3 >? j3))%Z%bool then Ok zarr
  else if (j_max <? j_min)%Z then Ok zarr
  else if (j_max =? j_min)%Z then
    let v := 1 / sqrt (2 * IZR j_min + 1) in
    let pos := even_pow (j2 - j3 + m2 + m3) in
    Ok (aset zarr j_min (if ((Rltb v 0 && pos) || (Rgtb v 0 && negb pos))%bool then v * -1 else v))
  else
  let '(undef_min, j_minus, Fm, sf) := w_lower in
  if (j_minus =? j_max)%Z then Ok (w_finish (acopy zarr j_min j_max Fm) j_min j_max j2 j3 m2 m3)
  else
  let '(undef_max, j_plus, Fp) := w_upper j_minus sf in
  match undef_min, undef_max with
  | true, true => Err ValueError
  | false, false =>
      let '(Fm, j_mid) := w_up (zrange j_minus ((j_minus + j_plus) / 2)) Fm ((j_minus + j_plus) / 2)%Z in
      let j_mid := if (negb (Reqb (Fm (j_mid - 1)%Z) 0) && Rltb (Rabs (Fm j_mid / Fm (j_mid - 1)%Z)) (/ 1000000))%bool
                   then (j_mid - 1)%Z else j_mid in
      let Fp := fold_left w_down_step (zrange_down j_plus j_mid) Fp in
      let f := if (j_mid =? j_max)%Z then acopy zarr j_min j_max Fm
               else if (j_mid =? j_min)%Z then acopy zarr j_min j_max Fp
               else acopy (acopy zarr j_min j_mid (fun j => Fm j * Fp j_mid / Fm j_mid)) (j_mid + 1) j_max Fp in
      Ok (w_finish f j_min j_max j2 j3 m2 m3)
  | false, true =>
      let Fm := fold_left w_up_step (zrange j_minus j_plus) Fm in
      Ok (w_finish (acopy zarr j_min j_max Fm) j_min j_max j2 j3 m2 m3)
  | true, false =>
      let Fp := fold_left w_down_step (zrange_down j_plus j_min) Fp in
      Ok (w_finish (acopy zarr j_min j_max Fp) j_min j_max j2 j3 m2 m3)
  end.
End Calc.

(** wigner3j.py:338-356 [Wigner3j]; indices out of the workspace raise IndexError (a negative index
    that is in range would wrap: not reached, since j_1 is the largest) *)
Definition Wigner3j (j1 j2 j3 m1 m2 m3 : Z) : result R :=
  if negb (m1 + m2 + m3 =? 0)%Z then Ok 0
  else if ((Z.abs m1 >? j1) || (Z.abs m2 >? j2) || (Z.abs m3 >? j3))%Z%bool then Ok 0
  else
    let mx := Z.max j1 (Z.max j2 j3) in
    let '(j1, j2, j3, m2, m3) :=
      if (j1 =? mx)%Z then (j1, j2, j3, m2, m3)
      else if (j2 =? mx)%Z then (j2, j3, j1, m3, m1)
      else (j3, j1, j2, m1, m2) in
    if (j1 >? j2 + j3)%Z then Ok 0
    else rbind (w3j_calculate j2 j3 m2 m3) (fun w => Ok (w j1)).
(** wigner3j.py:359-364 [clebsch_gordan]; (-1.0)**n is +-1 according to the parity of n *)
Definition clebsch_gordan (j1 m1 j2 m2 j3 m3 : Z) : result R :=
  rbind (Wigner3j j1 j2 j3 m1 m2 (- m3)) (fun w =>
  Ok ((if Z.even (j1 - j2 + m3) then 1 else -1) * sqrt (IZR (2 * j3 + 1)) * w)).
