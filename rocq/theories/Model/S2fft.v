(** Model of starry/core/s2fft_rotation.py: rotation matrices of real spherical harmonics from
    Wigner d-matrices (Risbo's recursion) and zyz Euler angles.  Arrays are total functions of
    their indices; every index used by the code is in range. *)
From Coq Require Import Reals Lra Lia ZArith List Bool.
From Coquelicot Require Import Coquelicot.
From Verif Require Import Base.RealAux Model.Poly.
Import ListNotations.
Open Scope R_scope.

(** a.at[r, c].set(v) on a real matrix, r and c in range *)
Definition mset (M : matrix) (r c : Z) (v : R) : matrix :=
  fun r' c' => if ((r' =? r) && (c' =? c))%Z%bool then v else M r' c'.
(** M.at[r0:r0+h, c0:c0+w].add(f), f given relative to the corner of the slice *)
Definition madd (M : matrix) (r0 h c0 w : Z) (f : Z -> Z -> R) : matrix :=
  fun r c => if ((r0 <=? r) && (r <? r0 + h) && (c0 <=? c) && (c <? c0 + w))%Z%bool
             then M r c + f (r - r0)%Z (c - c0)%Z else M r c.
(** M.at[r0:r0+h, c0:c0+w].multiply(v) *)
Definition mmul (M : matrix) (r0 h c0 w : Z) (v : R) : matrix :=
  fun r c => if ((r0 <=? r) && (r <? r0 + h) && (c0 <=? c) && (c <? c0 + w))%Z%bool
             then M r c * v else M r c.

(** s2fft_rotation.py:73-88, 97-116: one half-step of the recursion, adding to [out] (whose corner
    is at (o,o)) the four shifted copies of the j x j matrix [src]; arguments of sqrt are ints *)
Definition risbo_step (out : matrix) (o : Z) (src : Z -> Z -> R) (j : Z) (coshb sinhb : R) : matrix :=
  let sjm k := sqrt (IZR (j - k)) in
  let sp1 k := sqrt (IZR (k + 1)) in
  let out := madd out o j o j (fun k i => sjm i * sjm k * src k i * coshb) in
  let out := madd out o j (o + 1)%Z j (fun k i => (- sp1 i) * sjm k * src k i * sinhb) in
  let out := madd out (o + 1)%Z j o j (fun k i => sjm i * sp1 k * src k i * sinhb) in
  madd out (o + 1)%Z j (o + 1)%Z j (fun k i => sp1 i * sp1 k * src k i * coshb).

(** s2fft_rotation.py:34-121 [_compute_full] *)
Definition compute_full (dl : matrix) (beta : R) (L el : Z) : matrix :=
  if (el =? 0)%Z then mset dl (el + L - 1) (el + L - 1) 1
  else if (el =? 1)%Z then
    let cosb := cos beta in
    let sinb := sin beta in
    let coshb := cos (beta / 2) in
    let sinhb := sin (beta / 2) in
    let sqrt2 := sqrt 2 in
    let dl := mset dl (L - 2) (L - 2) (coshb ^ 2) in
    let dl := mset dl (L - 2) (L - 1) (sinb / sqrt2) in
    let dl := mset dl (L - 2) L (sinhb ^ 2) in
    let dl := mset dl (L - 1) (L - 2) (- sinb / sqrt2) in
    let dl := mset dl (L - 1) (L - 1) cosb in
    let dl := mset dl (L - 1) L (sinb / sqrt2) in
    let dl := mset dl L (L - 2) (sinhb ^ 2) in
    let dl := mset dl L (L - 1) (- sinb / sqrt2) in
    mset dl L L (coshb ^ 2)
  else
    let coshb := - cos (beta / 2) in
    let sinhb := sin (beta / 2) in
    let dlj k i := dl (k - (el - 1) + L - 1)%Z (i - (el - 1) + L - 1)%Z in
    let dd := risbo_step (fun _ _ => 0) 0 dlj (2 * el - 1) coshb sinhb in
    let dl := mmul dl (- el + L - 1) (2 * el + 1) (- el + L - 1) (2 * el + 1) 0 in
    let dl := risbo_step dl (- el + L - 1) dd (2 * el) coshb sinhb in
    fun r c => dl r c / IZR ((2 * el) * (2 * el - 1)).

(** s2fft_rotation.py:124-131 [_generate_rotate_dls]: dls[el] for el < L *)
Fixpoint dl_iter (L : Z) (beta : R) (el : nat) : matrix :=
  compute_full (match el with O => fun _ _ => 0 | S k => dl_iter L beta k end) beta L (Z.of_nat el).
Definition rotate_dls (L : Z) (beta : R) (el : nat) : matrix := dl_iter L beta el.

(** s2fft_rotation.py:141-156 [Umn] *)
Definition Umn (m n : Z) : C :=
  let term1 : C := if (n <? 0)%Z then Ci else if (n =? 0)%Z then RtoC (sqrt 2 / 2) else 1%C in
  let term2 : C := if ((0 <? m) && (n <? 0) && (n mod 2 =? 0))%Z%bool then RtoC (-1)
                   else if ((0 <? m) && (0 <? n) && negb (n mod 2 =? 0))%Z%bool then RtoC (-1)
                   else 1%C in
  (term1 * term2 * 1 / RtoC (sqrt 2) * (RtoC ((if (m =? n)%Z then 1 else 0) + (if (m =? - n)%Z then 1 else 0))))%C.
(** complex finite sums *)
Fixpoint csum (n : nat) (f : nat -> C) : C := match n with O => 0%C | S k => (csum k f + f k)%C end.
(** exp(-1j * t) *)
Definition cexpm (t : R) : C := (cos t, - sin t).

(** s2fft_rotation.py:168-176 [euler]; [as_euler] stands for
    Rotation.from_rotvec(v).as_euler("zyz") (jax.scipy.spatial.transform, not modelled) *)
Section Euler.
Variable as_euler : R * R * R -> R * R * R.
Definition euler (x y z theta : R) : R * R * R :=
  let ax := if Reqb theta 0 then 1 else x in
  let theta' := if Reqb theta 0 then 1 else theta in
  let n := sqrt (ax ^ 2 + y ^ 2 + z ^ 2) in
  let e := as_euler (ax / n * theta', y / n * theta', z / n * theta') in
  if Reqb theta 0 then (0, 0, 0) else e.

(** s2fft_rotation.py:134-203 [compute_rotation_matrices], homogeneous=False: Rs[l], read with
    row r and column c in 0..2l; u = U(deg), Dlm[r,c] = exp(-1j*(m[r,c]*alpha + mp[r,c]*gamma)) * dls
    where meshgrid makes m vary along columns and mp along rows *)
Definition rotation_matrix (deg : nat) (x y z theta : R) (l : nat) (r c : nat) : R :=
  let '(alpha, beta, gamma) := euler x y z theta in
  let N i := (Z.of_nat i - Z.of_nat deg)%Z in
  let dls i j := rotate_dls (Z.of_nat deg + 1) beta l (Z.of_nat i) (Z.of_nat j) in
  let Dlm i j := (cexpm (IZR (N j) * alpha + IZR (N i) * gamma) * RtoC (dls i j))%C in
  let n := (2 * deg + 1)%nat in
  let full i j := Re (csum n (fun a => csum n (fun b => (Cconj (Umn (N a) (N i)) * Dlm a b * Umn (N b) (N j))%C))) in
  full (deg - l + r)%nat (deg - l + c)%nat.
End Euler.
