(** Model of compute_rotation_matrices, rotar and dlmn (starry/core/rotation.py): rotation matrices of real spherical
    harmonics by the recursion of Alvarez Collado et al.  Lists of lists and arrays are total functions of their indices;
    every index used by the code is in range (and none is negative). *)
From Coq Require Import Reals Lra Lia ZArith List Bool.
From Verif Require Import Base.RealAux Model.Poly Model.S2fft Model.Rotation.
Import ListNotations.
Open Scope R_scope.

(** range(a, b, -1) *)
Definition zdown (a b : Z) : list Z := map (fun k => (a - Z.of_nat k)%Z) (seq 0 (Z.to_nat (a - b))).
(** the list D of the arrays computed so far; D[-k] *)
Definition from_end (D : list matrix) (k : nat) : matrix := nth (length D - k) D (fun _ _ => 0).

(** rotation.py:370-380: D_ after its last row (row 2*ell) is written; iinf = 1 - ell, isup = ell - 1.
    D_ starts as zeros *)
Definition last_row (ell : Z) (c2 tgbet2 : R) (D : list matrix) : matrix :=
  let iinf := (1 - ell)%Z in
  let isup := (- iinf)%Z in
  let D_ : matrix := fun _ _ => 0 in
  let D_ := mset D_ (2 * ell) (2 * ell) (/ 2 * from_end D 1 (isup + ell - 1)%Z (isup + ell - 1)%Z * (1 + c2)) in
  let D_ := fold_left (fun D_ m =>
      mset D_ (2 * ell) (m + ell)
        (- tgbet2 * sqrt (IZR (ell + m + 1) / IZR (ell - m)) * D_ (2 * ell)%Z (m + 1 + ell)%Z))
    (zdown isup (iinf - 1)) D_ in
  mset D_ (2 * ell) 0 (/ 2 * nth (Z.to_nat (ell - 1)) D (fun _ _ => 0) (isup + ell - 1)%Z (- isup + ell - 1)%Z * (1 - c2)).

(** rotation.py:384-407: the rows mp = ell-1 ... 0, columns m = isup ... iinf; the state is (D_, iinf, isup) *)
Definition upper_rows (ell : Z) (c2 : R) (D : list matrix) (D_ : matrix) : matrix :=
  let al := ell in
  let al1 := (al - 1)%Z in
  let tal1 := (al + al1)%Z in
  let ali := 1 / IZR al1 in
  let cosaux := c2 * IZR al * IZR al1 in
  fst (fold_left (fun '(D_, (iinf, isup)) mp =>
      let amp := mp in
      let laux := (ell + mp)%Z in
      let lbux := (ell - mp)%Z in
      let aux := ali / sqrt (IZR (laux * lbux)) in
      let cux := sqrt (IZR ((laux - 1) * (lbux - 1))) * IZR al in
      let D_ := fold_left (fun (D_ : matrix) m =>
          let am := m in
          let lauz := (ell + m)%Z in
          let lbuz := (ell - m)%Z in
          let auz := 1 / sqrt (IZR (lauz * lbuz)) in
          let fact := aux * auz in
          let term := IZR tal1 * (cosaux - IZR (am * amp)) * from_end D 1 (mp + ell - 1)%Z (m + ell - 1)%Z in
          let term := if (negb (lbuz =? 1) && negb (lbux =? 1))%Z%bool
            then let cuz := sqrt (IZR ((lauz - 1) * (lbuz - 1))) in
                 term - from_end D 2 (mp + ell - 2)%Z (m + ell - 2)%Z * cux * cuz
            else term in
          mset D_ (mp + ell) (m + ell) (fact * term))
        (zdown isup (iinf - 1)) D_ in
      (D_, (iinf + 1, isup - 1)%Z))
    (zdown (ell - 1) (-1)) (D_, (1 - ell, - (1 - ell))%Z)).

(** rotation.py:413-421: reflection; the state is (D_, sign, iinf, isup) *)
Definition reflection (ell : Z) (D_ : matrix) : matrix :=
  fst (fold_left (fun '(D_, (sign, (iinf, isup))) m =>
      let '(D_, sign) := fold_left (fun '(D_, sign) mp =>
          (mset D_ (mp + ell) (m + ell) (sign * D_ (m + ell)%Z (mp + ell)%Z), sign * -1))
        (zrange iinf (isup + 1)) (D_, sign) in
      (D_, (sign, (iinf + 1, isup - 1)%Z)))
    (zdown ell 0) (D_, (1, (- ell, ell - 1)%Z))).

(** rotation.py:424-432: inversion; the state is (D_, isup), iinf stays -ell *)
Definition inversion (ell : Z) (D_ : matrix) : matrix :=
  let iinf := (- ell)%Z in
  fst (fold_left (fun '(D_, isup) m =>
      let '(D_, _) := fold_left (fun '(D_, sign) mp =>
          (mset D_ (mp + ell) (m + ell) (sign * D_ (- mp + ell)%Z (- m + ell)%Z), sign * -1))
        (zdown isup (iinf - 1)) (D_, -1) in
      (D_, (isup + 1)%Z))
    (zdown (ell - 1) (- (ell + 1))) (D_, iinf)).

(** rotation.py:435-467: the real matrix; the state of the outer loop is (R_, cosmal, sinmal, sign), that of the inner
    one (R_, cosmga, sinmga) *)
Definition real_matrix (ell : Z) (s1 c1 s3 c3 : R) (D_ : matrix) : matrix :=
  let R_ : matrix := fun _ _ => 0 in
  let R_ := mset R_ ell ell (D_ ell ell) in
  let root_two := sqrt 2 in
  fst (fold_left (fun '(R_, (cosmal, sinmal, sign)) mp =>
      let aux := root_two * D_ ell (mp + ell)%Z in
      let R_ := mset R_ (mp + ell) ell (aux * cosmal) in
      let R_ := mset R_ (- mp + ell) ell (aux * sinmal) in
      let '(R_, _) := fold_left (fun '(R_, (cosmga, sinmga)) m =>
          let aux := root_two * D_ (m + ell)%Z ell in
          let R_ := mset R_ ell (m + ell) (aux * cosmga) in
          let R_ := mset R_ ell (- m + ell) (- aux * sinmga) in
          let d1 := D_ (- mp + ell)%Z (- m + ell)%Z in
          let d2 := sign * D_ (mp + ell)%Z (- m + ell)%Z in
          let cosag := cosmal * cosmga - sinmal * sinmga in
          let cosagm := cosmal * cosmga + sinmal * sinmga in
          let sinag := sinmal * cosmga + cosmal * sinmga in
          let sinagm := sinmal * cosmga - cosmal * sinmga in
          let R_ := mset R_ (mp + ell) (m + ell) (d1 * cosag + d2 * cosagm) in
          let R_ := mset R_ (mp + ell) (- m + ell) (- d1 * sinag + d2 * sinagm) in
          let R_ := mset R_ (- mp + ell) (m + ell) (d1 * sinag + d2 * sinagm) in
          let R_ := mset R_ (- mp + ell) (- m + ell) (d1 * cosag - d2 * cosagm) in
          (R_, (cosmga * c3 - sinmga * s3, sinmga * c3 + cosmga * s3)))
        (zrange 1 (ell + 1)) (R_, (c3, s3)) in
      (R_, (cosmal * c1 - sinmal * s1, sinmal * c1 + cosmal * s1, sign * -1)))
    (zrange 1 (ell + 1)) (R_, (c1, s1, -1))).

(** rotation.py:369-469 [dlmn] *)
Definition dlmn (ell : Z) (s1 c1 c2 tgbet2 s3 c3 : R) (D : list matrix) : matrix * matrix :=
  let D_ := last_row ell c2 tgbet2 D in
  let D_ := upper_rows ell c2 D D_ in
  let D_ := reflection ell D_ in
  let D_ := inversion ell D_ in
  (D_, real_matrix ell s1 c1 s3 c3 D_).

(** jnp.array of three rows of three, read at (r, c) *)
Definition array3 (a b c d e f g h i : R) : matrix := fun r k =>
  match r, k with
  | 0%Z, 0%Z => a | 0%Z, 1%Z => b | 0%Z, 2%Z => c
  | 1%Z, 0%Z => d | 1%Z, 1%Z => e | 1%Z, 2%Z => f
  | 2%Z, 0%Z => g | 2%Z, 1%Z => h | 2%Z, 2%Z => i
  | _, _ => 0
  end.

(** rotation.py:301-366 [rotar]; eps is that of the type of s2 *)
Definition rotar (eps : R) (ydeg : nat) (c1 s1 c2 s2 c3 s3 : R) : list matrix * list matrix :=
  let sqrt_2 := sqrt 2 in
  let ones : matrix := fun _ _ => 1 in
  if Nat.eqb ydeg 0 then ([ones], [ones]) else
  let D1_22 := / 2 * (1 + c2) in
  let D1_21 := - s2 / sqrt_2 in
  let D1_20 := / 2 * (1 - c2) in
  let D1_12 := - D1_21 in
  let D1_11 := D1_22 - D1_20 in
  let D1_10 := D1_21 in
  let D1_02 := D1_20 in
  let D1_01 := D1_12 in
  let D1_00 := D1_22 in
  let D := [ones; array3 D1_00 D1_01 D1_02 D1_10 D1_11 D1_12 D1_20 D1_21 D1_22] in
  let cosag := c1 * c3 - s1 * s3 in
  let cosamg := c1 * c3 + s1 * s3 in
  let sinag := s1 * c3 + c1 * s3 in
  let sinamg := s1 * c3 - c1 * s3 in
  let R1_11 := D1_11 in
  let R1_21 := sqrt_2 * D1_12 * c1 in
  let R1_01 := sqrt_2 * D1_12 * s1 in
  let R1_12 := sqrt_2 * D1_21 * c3 in
  let R1_10 := - sqrt_2 * D1_21 * s3 in
  let R1_22 := D1_22 * cosag - D1_20 * cosamg in
  let R1_20 := - D1_22 * sinag - D1_20 * sinamg in
  let R1_02 := D1_22 * sinag - D1_20 * sinamg in
  let R1_00 := D1_22 * cosag + D1_20 * cosamg in
  let R := [ones; array3 R1_00 R1_01 R1_02 R1_10 R1_11 R1_12 R1_20 R1_21 R1_22] in
  let tol := 10 * eps in
  let s2_cond := Rltb (Rabs s2) tol in
  let tgbet2 := where_ s2_cond s2 ((1 - c2) / where_ s2_cond 1 s2) in
  fold_left (fun '(D, R) ell =>
      let '(D_, R_) := dlmn ell s1 c1 c2 tgbet2 s3 c3 D in
      (D ++ [D_], R ++ [R_]))
    (zrange 2 (Z.of_nat ydeg + 1)) (D, R).

(** rotation.py:252-299 [compute_rotation_matrices].  None stands for NaN in every matrix but the first: the cosines
    and sines of alpha and gamma are then 0/0 *)
Definition compute_rotation_matrices (eps : R) (ydeg : nat) (x y z theta : R) : option (list matrix) :=
  let norm := sqrt (x * x + y * y + z * z) in
  let x := where_ (Reqb norm 0) 0 (x / norm) in
  let y := where_ (Reqb norm 0) 0 (y / norm) in
  let z := where_ (Reqb norm 0) 0 (z / norm) in
  let s := sin theta in
  let c := cos theta in
  let ra01 := x * y * (1 - c) - z * s in
  let ra02 := x * z * (1 - c) + y * s in
  let ra11 := c + y * y * (1 - c) in
  let ra12 := y * z * (1 - c) - x * s in
  let ra20 := z * x * (1 - c) - y * s in
  let ra21 := z * y * (1 - c) + x * s in
  let ra22 := c + z * z * (1 - c) in
  let tol := 10 * eps in
  let cond_neg := Rltb (Rabs (ra22 + 1)) tol in
  let cond_pos := Rltb (Rabs (ra22 - 1)) tol in
  let cond_full := (cond_pos || cond_neg)%bool in
  let sign := (if cond_neg then 1 else 0) - (if cond_pos then 1 else 0) in
  let norm1 := sqrt (where_ cond_full 1 (ra20 * ra20 + ra21 * ra21)) in
  let norm2 := sqrt (where_ cond_full 1 (ra02 * ra02 + ra12 * ra12)) in
  let cos_beta := ra22 in
  let ra22_ := where_ cond_full 0 ra22 in
  let sin_beta := where_ cond_full (1 + sign * ra22) (sqrt (1 - ra22_ * ra22_)) in
  let cos_gamma := where_ cond_full ra11 (- ra20 / norm1) in
  let sin_gamma := where_ cond_full (sign * ra01) (ra21 / norm1) in
  let cos_alpha := where_ cond_full (- sign * ra22) (ra02 / norm2) in
  let sin_alpha := where_ cond_full (1 + sign * ra22) (ra12 / norm2) in
  if (negb cond_full && (Reqb norm1 0 || Reqb norm2 0) && negb (Nat.eqb ydeg 0))%bool then None
  else Some (snd (rotar eps ydeg cos_alpha sin_alpha cos_beta sin_beta cos_gamma sin_gamma)).
(** M @ R[l], block by block, as dot_rotation_matrix uses rotation matrices (rotation.py:62-83) *)
Definition apply_matrices (deg : nat) (Rs : list matrix) (M : list R) : list R :=
  dot_blocks deg (fun l r c => nth l Rs (fun _ _ => 0) (Z.of_nat r) (Z.of_nat c)) M.
