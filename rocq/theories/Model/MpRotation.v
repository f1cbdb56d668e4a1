(** Model of starry/multiprecision/rotation.py.  mpmath numbers are exact reals; [prec] stands for 10 ** (-mp.dps). *)
From Coq Require Import Reals Lra Lia ZArith List Bool Arith.
From Coquelicot Require Import Coquelicot.
From Verif Require Import Base.RealAux Base.Dict Model.Poly Model.S2fft Model.Rotation Model.MpBasis.
Import ListNotations.
Open Scope R_scope.

(** (-1) ** n for an int n of any sign *)
Definition msign (n : Z) : R := if Z.even n then 1 else -1.
(** x ** n for an int n; the code never raises 0 to a negative power (Proof/MpWigner.v: 0 < beta < pi) *)
Definition zpow (x : R) (n : Z) : R := if (n <? 0)%Z then / x ^ Z.to_nat (- n) else x ^ Z.to_nat n.
Definition zsum (n : Z) (f : Z -> R) : R := bigsum (Z.to_nat n) (fun k => f (Z.of_nat k)).
(** rotation.py:54-60: one term of sumterm; fac is infinite at negative integers *)
Definition mp_term (l m n k : Z) (beta : R) : R :=
  fin (ext_div (Some (msign k * zpow (cos (beta / 2)) (2 * l + m - n - 2 * k) * zpow (sin (beta / 2)) (- m + n + 2 * k)))
               (ext_mul (ext_mul (ext_mul (mp_fac k) (mp_fac (l + m - k))) (mp_fac (l - n - k))) (mp_fac (n - m + k)))).
(** rotation.py:47-69 [Dmn]; exp(-j (alpha n + gamma m)) is [cexpm] *)
Definition mp_Dmn (prec : R) (l m n : Z) (alpha beta gamma : R) : C :=
  let beta := if Reqb beta 0 then prec else beta in
  let sumterm := zsum (l + m + 1) (fun k => mp_term l m n k beta) in
  (RtoC sumterm * cexpm (alpha * IZR n + gamma * IZR m) * RtoC (msign (n + m)) *
   RtoC (sqrt (fin (ext_mul (ext_mul (ext_mul (mp_fac (l - m)) (mp_fac (l + m))) (mp_fac (l - n))) (mp_fac (l + n))))))%C.
(** rotation.py:71-76 [D]: row r = m + l, column c = n + l hold Dmn(l, n, m) *)
Definition mp_D (prec : R) (l : nat) (alpha beta gamma : R) (r c : nat) : C :=
  mp_Dmn prec (Z.of_nat l) (Z.of_nat c - Z.of_nat l) (Z.of_nat r - Z.of_nat l) alpha beta gamma.
(** rotation.py:78-101 [Umn] and [U]: the text of s2fft_rotation.py's Umn *)
Definition mp_U (l r c : nat) : C := Umn (Z.of_nat r - Z.of_nat l) (Z.of_nat c - Z.of_nat l).
(** U(l) ** -1: mpmath solves U X = 1 *)
Definition inverse_of_U (Uinv : nat -> nat -> nat -> C) : Prop := forall l r c, (r < 2 * l + 1)%nat -> (c < 2 * l + 1)%nat ->
  csum (2 * l + 1) (fun k => (mp_U l r k * Uinv l k c)%C) = if Nat.eqb r c then 1%C else 0%C.

Section Inverse.
Variable Uinv : nat -> nat -> nat -> C.
(** rotation.py:109: the real part of U^-1 D U *)
Definition mp_block (prec : R) (l : nat) (alpha beta gamma : R) (r c : nat) : R :=
  Re (csum (2 * l + 1) (fun b => (csum (2 * l + 1) (fun a => (Uinv l r a * mp_D prec l alpha beta gamma a b)%C) * mp_U l b c)%C)).
(** rotation.py:103-116 [rot_matrix] *)
Definition mp_rot_matrix (prec : R) (l : nat) (alpha beta gamma : R) (r c : nat) : R :=
  if (l =? 0)%nat then 1
  else let foo := mp_block prec l alpha beta gamma r c in if Rltb (Rabs foo) prec then 0 else foo.
End Inverse.

(** rotation.py:118-167 [axis_angle_to_euler]; [tol] is 1e-20.  The first two branches need a number that is both below and above 1 *)
Definition mp_axis_angle_to_euler (tol u1 u2 u3 theta : R) : result (R * R * R) :=
  let theta := if Reqb theta 0 then tol else theta in
  let z12 := (Reqb u1 0 && Reqb u2 0)%bool in
  let u1' := if z12 then tol else u1 in
  let u2' := if z12 then tol else u2 in
  let u1 := u1' in let u2 := u2' in
  let costheta := cos theta in
  let sintheta := sin theta in
  let RA01 := u1 * u2 * (1 - costheta) - u3 * sintheta in
  let RA02 := u1 * u3 * (1 - costheta) + u2 * sintheta in
  let RA11 := costheta + u2 * u2 * (1 - costheta) in
  let RA12 := u2 * u3 * (1 - costheta) - u1 * sintheta in
  let RA20 := u3 * u1 * (1 - costheta) - u2 * sintheta in
  let RA21 := u3 * u2 * (1 - costheta) + u1 * sintheta in
  let RA22 := costheta + u3 * u3 * (1 - costheta) in
  if (Rltb RA22 (-1) && Rltb (-1) RA22)%bool then Ok (atan2 0 1, atan2 0 (-1), atan2 RA01 RA11)
  else if (Rltb RA22 1 && Rltb 1 RA22)%bool then Ok (atan2 0 1, atan2 0 1, atan2 (- RA01) RA11)
  else
    let cosbeta := RA22 in
    let sinbeta := sqrt (1 - cosbeta ^ 2) in
    let norm1 := sqrt (RA20 * RA20 + RA21 * RA21) in
    let norm2 := sqrt (RA02 * RA02 + RA12 * RA12) in
    if (Reqb norm1 0 || Reqb norm2 0)%bool then Err ZeroDivisionError
    else Ok (atan2 (RA12 / norm2) (RA02 / norm2), atan2 sinbeta cosbeta, atan2 (RA21 / norm1) (- RA20 / norm1)).

(** the blocks of a matrix: degree, row, column *)
Definition blocks : Type := nat -> nat -> nat -> R.
(** rotation.py:45-174 [R] (169-174: the axis is normalised first; 0 / 0 raises) *)
Definition mp_R (Uinv : nat -> nat -> nat -> C) (tol prec : R) (u : R * R * R) (theta : R) : result blocks :=
  let '(u1, u2, u3) := u in
  let n := sqrt (u1 ^ 2 + u2 ^ 2 + u3 ^ 2) in
  if Reqb n 0 then Err ZeroDivisionError
  else rbind (mp_axis_angle_to_euler tol (u1 / n) (u2 / n) (u3 / n) theta) (fun e =>
       let '(alpha, beta, gamma) := e in Ok (fun l => mp_rot_matrix Uinv prec l alpha beta gamma)).

(** rotation.py:181-199 [do_dot]; theta is None when the matrices are given.  A slice that is too short has the wrong dimensions for the product *)
Definition mp_do_dot (ydeg : nat) (theta : option R) (Rm : blocks) (M : list R) : result (list R) :=
  if match theta with Some t => Reqb t 0 | None => false end then Ok M
  else if ((1 <=? ydeg) && (length M <? (ydeg + 1) * (ydeg + 1)))%nat%bool then Err ValueError
  else Ok (flat_map (fun l => if (l =? 0)%nat then [1]
             else map (fun c => bigsum (2 * l + 1) (fun r => nth (l * l + r) M 0 * Rm l r c)) (seq 0 (2 * l + 1)))
           (seq 0 (ydeg + 1))).
(** rotation.py:177-199 [dot_rotation_matrix] with an axis and an angle, and with precomputed matrices *)
Definition mp_dot_rotation Uinv (tol prec : R) (ydeg : nat) (u : R * R * R) (theta : R) (M : list R) : result (list R) :=
  rbind (mp_R Uinv tol prec u theta) (fun Rm => mp_do_dot ydeg (Some theta) Rm M).
Definition mp_dot_matrices (ydeg : nat) (Rm : blocks) (M : list R) : result (list R) := mp_do_dot ydeg None Rm M.

(** rotation.py:202-218 [left_project]: the last call has five arguments, dot_rotation_matrix takes four *)
Definition mp_left_project Uinv (tol prec : R) (deg : nat) (inc obl theta theta_z : R) (x : list R) : result (list R) :=
  rbind (if Reqb theta 0 then Ok x
         else rbind (mp_dot_rotation Uinv tol prec deg (1, 0, 0) (- (1 / 2 * PI)) x) (fun x =>
              rbind (mp_dot_rotation Uinv tol prec deg (0, 0, 1) (- theta) x) (fun x =>
              mp_dot_rotation Uinv tol prec deg (1, 0, 0) (1 / 2 * PI) x))) (fun x =>
  rbind (if Reqb obl 0 then Ok x else mp_dot_rotation Uinv tol prec deg (0, 0, 1) (- obl) x) (fun x =>
  rbind (mp_dot_rotation Uinv tol prec deg (- cos obl, - sin obl, 0) (1 / 2 * PI - inc) x) (fun x =>
  if Reqb theta_z 0 then Ok x else Err TypeError))).

(** rotation.py:221-252 [dot_rz]: the core one with the opposite angle; M is read entry by entry *)
Definition mp_dot_rz (deg : nat) (theta : R) (M : list R) : result (list R) :=
  let c := cos (- theta) in
  let s := sin (- theta) in
  let cosmt := order_list deg (cheb_list deg c 1 c) (fun v => v) in
  let sinmt := order_list deg (cheb_list deg c 0 s) Ropp in
  if (length M <? deg ^ 2 + 2 * deg + 1)%nat then Err IndexError else Ok (rz_impl deg cosmt sinmt M).

(** rotation.py:14-42 [get_R]: the cache of one l_max: two dictionaries of matrices and the two fixed matrices *)
Inductive R_name := R_px | R_mx | R_obl | R_inc.
Inductive R_key := Kpx | Kmx | Kobl (obl : R) | Kinc (inc obl : R).
Definition R_key_eqb (a b : R_key) : bool :=
  match a, b with
  | Kpx, Kpx | Kmx, Kmx => true
  | Kobl o, Kobl o' => Reqb o o'
  | Kinc i o, Kinc i' o' => (Reqb i i' && Reqb o o')%bool
  | _, _ => false
  end.
(** what is computed on a miss *)
Definition R_build Uinv (tol prec : R) (k : R_key) : result blocks :=
  match k with
  | Kpx => mp_R Uinv tol prec (1, 0, 0) (- (1 / 2) * PI)
  | Kmx => mp_R Uinv tol prec (1, 0, 0) (1 / 2 * PI)
  | Kobl obl => mp_R Uinv tol prec (0, 0, 1) (- obl)
  | Kinc inc obl => mp_R Uinv tol prec (- cos obl, - sin obl, 0) (1 / 2 * PI - inc)
  end.
(** what the caller gets: matrices, None (a fixed name with both angles), or the dictionary of a name that needs angles *)
Inductive R_answer := Matrices (m : blocks) | NoValue | WholeDict.
Definition R_cache : Type := list (nat * R_key * blocks).
Definition R_find (c : R_cache) (l : nat) (k : R_key) : option blocks :=
  option_map snd (find (fun e => let '(l', k', _) := e in ((l' =? l)%nat && R_key_eqb k' k)%bool) c).
Definition get_key Uinv tol prec (c : R_cache) (l : nat) (k : R_key) : result R_answer * R_cache :=
  match R_find c l k with
  | Some m => (Ok (Matrices m), c)
  | None => match R_build Uinv tol prec k with Ok m => (Ok (Matrices m), (l, k, m) :: c) | Err e => (Err e, c) end
  end.
Definition mp_get_R Uinv tol prec (c : R_cache) (name : R_name) (l : nat) (obl inc : option R) : result R_answer * R_cache :=
  match obl, inc with
  | Some obl, Some inc =>
      match name with
      | R_obl => get_key Uinv tol prec c l (Kobl obl)
      | R_inc => get_key Uinv tol prec c l (Kinc inc obl)
      | _ => (Ok NoValue, c)
      end
  | _, _ =>
      match name with
      | R_px => get_key Uinv tol prec c l Kpx
      | R_mx => get_key Uinv tol prec c l Kmx
      | _ => (Ok WholeDict, c)
      end
  end.
(** a call of get_R, at the working precision of its moment, and a sequence of calls that starts with an empty cache; the answers are in order *)
Record R_call := { rc_prec : R; rc_name : R_name; rc_l : nat; rc_obl : option R; rc_inc : option R }.
Fixpoint run_calls Uinv (tol : R) (c : R_cache) (h : list R_call) : list (result R_answer) :=
  match h with
  | [] => []
  | q :: h' => let '(a, c') := mp_get_R Uinv tol (rc_prec q) c (rc_name q) (rc_l q) (rc_obl q) (rc_inc q) in a :: run_calls Uinv tol c' h'
  end.
