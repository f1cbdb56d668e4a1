(** Model of starry/core/basis.py: changes of basis between spherical harmonics, the polynomial
    basis, Green's basis and the limb-darkening basis. *)
From Coq Require Import Reals Lra Lia ZArith List Bool.
From Verif Require Import Base.RealAux Base.Dict Model.Poly.
Import ListNotations.
Open Scope R_scope.

(** basis.py:87-117 [ptilde] *)
Definition ptilde (n : Z) : ijk :=
  let l := Z.sqrt n in
  let m := (n - l * l - l)%Z in
  let mu := (l - m)%Z in
  let nu := (l + m)%Z in
  if (nu mod 2 =? 0)%Z then (mu / 2, nu / 2, 0)%Z
  else ((mu - 1) / 2, (nu - 1) / 2, 1)%Z.

(** basis.py:73: p = {ptilde(m): m for m in range(n)} *)
Definition ptilde_table (N : Z) : list (ijk * Z) :=
  fold_left (fun d m => dset ijk_eqb (ptilde m) m d) (zrange 0 N) [].

(** basis.py:219-232, 301-314, 397-411 (p_Y, p_G, u_p): keys missing from the table are skipped.
    The final argsort only reorders (index, value) pairs that are then summed into a matrix. *)
Fixpoint poly_column (p : list (ijk * Z)) (d : list (ijk * R)) : list (Z * R) :=
  match d with
  | [] => []
  | (k, v) :: r => match dget ijk_eqb k p with
                   | None => poly_column p r
                   | Some n => (n, v) :: poly_column p r
                   end
  end.
Definition column_entry (col : list (Z * R)) (r : Z) : R :=
  Rsum (map (fun e => if (fst e =? r)%Z then snd e else 0) col).

(** basis.py:56-84 [_A_impl]: column n (running over l, m) is func applied to (p, l, m, n);
    csc_array adds duplicate entries *)
Definition A_impl (lmax : Z) (func : Z -> Z -> Z -> list (ijk * R)) : matrix :=
  let p := ptilde_table ((lmax + 1) ^ 2)%Z in
  fun r c =>
    Rsum (map (fun e => let '(n, (l, m)) := e in
                        if (n =? c)%Z then column_entry (poly_column p (func l m n)) r else 0)
              (lm_enum lmax)).

(* ------------------------------------------------------------------ *)
(** ** Spherical harmonics *)

(** factorial of a Python int that is known to be non-negative *)
Definition zfact (n : Z) : R := INR (fact (Z.to_nat n)).
Definition b2r (b : bool) : R := if b then 1 else 0.
Definition b2z (b : bool) : Z := if b then 1%Z else 0%Z.

(** basis.py:120-126 [Alm] *)
Definition Alm (l m : Z) : R :=
  sqrt ((2 - b2r (m =? 0)%Z) * IZR (2 * l + 1) * zfact (l - m) / (4 * PI * zfact (l + m))).

(** scipy.special.gamma at the half-integer x2/2: Gamma(1/2) = sqrt(pi), Gamma(x+1) = x Gamma(x);
    (n-1)! at positive integers; the poles are never evaluated by the code *)
Fixpoint gamma_up (n : nat) : R := (* Gamma(n + 1/2) *)
  match n with O => sqrt PI | S k => (INR k + / 2) * gamma_up k end.
Fixpoint gamma_down (n : nat) : R := (* Gamma(1/2 - n) *)
  match n with O => sqrt PI | S k => gamma_down k / (/ 2 - INR (S k)) end.
Definition gamma_half (x2 : Z) : R :=
  if (x2 mod 2 =? 0)%Z then (if (0 <? x2)%Z then INR (fact (Z.to_nat (x2 / 2 - 1))) else 0)
  else let t := ((x2 - 1) / 2)%Z in
       if (0 <=? t)%Z then gamma_up (Z.to_nat t) else gamma_down (Z.to_nat (- t)).

(** basis.py:129-146 [Blmjk]; gamma(0.5*a + 1) = gamma_half (a + 2) *)
Definition Blmjk (l m j k : Z) : R :=
  let a := (l + m + k - 1)%Z in
  let b := (- l + m + k - 1)%Z in
  if ((b <? 0) && (b mod 2 =? 0))%Z%bool then 0
  else
    let ratio := gamma_half (a + 2) / gamma_half (b + 2) in
    2 ^ Z.to_nat l * zfact m / (zfact j * zfact k * zfact (m - j) * zfact (l - m - k)) * ratio.

(** basis.py:149-154 [Cpqk] *)
Definition Cpqk (p q k : Z) : R :=
  zfact (k / 2) / (zfact (q / 2) * zfact ((k - p) / 2) * zfact ((p - q) / 2)).

(** range(a, b, 2) *)
Definition zrange2 (a b : Z) : list Z :=
  map (fun i => (a + 2 * Z.of_nat i)%Z) (seq 0 (Z.to_nat ((b - a + 1) / 2))).

(** (-1) ** n for an int n >= 0 *)
Definition sgn_pow (n : Z) : R := (-1) ^ Z.to_nat n.

(** basis.py:157-199 [Ylm]; kk is 0 for the loop over even k and 1 for the loop over odd k *)
Definition Ylm_inner (l m : Z) (A : R) (kk : Z) (j : Z) (res : list (ijk * R)) : list (ijk * R) :=
  let am := Z.abs m in
  fold_left (fun res k =>
    let B := Blmjk l am j k in
    if Reqb B 0 then res
    else
      let factor := A * B in
      fold_left (fun res p =>
        fold_left (fun res q =>
          add_to (am - j + p - q, j + q, kk)%Z
                 (sgn_pow ((j + p - b2z (m <? 0)%Z) / 2)%Z * factor * Cpqk p q (k - kk)) res)
        (zrange2 0 (p + 1)) res)
      (zrange2 0 (k - kk + 1)) res)
  (zrange2 kk (l - am + 1)) res.
Definition Ylm (l m : Z) : list (ijk * R) :=
  let A := Alm l (Z.abs m) in
  fold_left (fun res j =>
    let res := Ylm_inner l m A 0 j res in
    Ylm_inner l m A 1 j res)
  (zrange2 (b2z (m <? 0)%Z) (Z.abs m + 1)) [].

(** basis.py:32-41 [A1] *)
Definition A1 (lmax : Z) : matrix :=
  fun r c => A_impl lmax (fun l m _ => Ylm l m) r c * 2 / sqrt PI.

(* ------------------------------------------------------------------ *)
(** ** Green's basis *)

(** basis.py:236-282 [gtilde] *)
Definition gtilde (n : Z) : list (ijk * R) :=
  let l := Z.sqrt n in
  let m := (n - l * l - l)%Z in
  let mu := (l - m)%Z in
  let nu := (l + m)%Z in
  let terms :=
    if (nu mod 2 =? 0)%Z then [((mu / 2, nu / 2, 0)%Z, ((mu + 2) / 2)%Z)]
    else if ((l =? 1) && (m =? 0))%Z%bool then [((0, 0, 1)%Z, 1%Z)]
    else if ((mu =? 1) && (l mod 2 =? 0))%Z%bool then [((l - 2, 1, 1)%Z, 3%Z)]
    else if (mu =? 1)%Z then
      [((l - 3, 0, 1)%Z, (-1)%Z); ((l - 1, 0, 1)%Z, 1%Z); ((l - 3, 2, 1)%Z, 4%Z)]
    else
      [(((mu - 5) / 2, (nu - 1) / 2, 1)%Z, ((mu - 3) / 2)%Z);
       (((mu - 5) / 2, (nu + 3) / 2, 1)%Z, ((- (mu - 3)) / 2)%Z);
       (((mu - 1) / 2, (nu - 1) / 2, 1)%Z, ((- (mu + 3)) / 2)%Z)] in
  fold_left (fun res e => if (snd e =? 0)%Z then res else dset ijk_eqb (fst e) (IZR (snd e)) res) terms [].

(** basis.py:44-53 [A2_inv] *)
Definition A2_inv (lmax : Z) : matrix := A_impl lmax (fun _ _ n => gtilde n).

(* ------------------------------------------------------------------ *)
(** ** Limb darkening basis *)

(** scipy.special.comb *)
Definition comb (n k : nat) : R := C n k.
(** basis.py:379-394 [utilde] *)
Definition utilde (n : nat) : list (ijk * R) :=
  match n with
  | O => [((0, 0, 0)%Z, 1)]
  | _ =>
    fold_left (fun res k =>
      let c1 := comb n k * (-1) ^ k in
      let k2 := (k / 2)%nat in
      fold_left (fun res j =>
        let c2 := comb k2 j * (-1) ^ j in
        fold_left (fun res l =>
          let c3 := comb j l in
          add_to (Z.of_nat (2 * (j - l)), Z.of_nat (2 * l), Z.of_nat (k mod 2)) (- c1 * c2 * c3) res)
        (seq 0 (j + 1)) res)
      (seq 0 (k2 + 1)) res)
    (seq 0 (n + 1)) []
  end.
(** basis.py:414-431 [U]: P[i, j] += v *)
Definition U_matrix (udeg : nat) : matrix :=
  let p := ptilde_table ((Z.of_nat udeg + 1) ^ 2)%Z in
  fun i j => if ((0 <=? i) && (i <=? Z.of_nat udeg))%Z%bool
             then column_entry (poly_column p (utilde (Z.to_nat i))) j else 0.
(** starry/light_curves.py:123-128: jnp.array([1, *u]) @ U(udeg), with udeg = len(u) *)
Definition limb_dark_vector (u : list R) (j : Z) : R :=
  bigsum (length u + 1) (fun i => nth i (1 :: u) 0 * U_matrix (length u) (Z.of_nat i) j).

(* ------------------------------------------------------------------ *)
(** ** poly_basis *)

(** arr[i] = v on a Python list *)
Fixpoint list_set {A} (l : list A) (i : nat) (v : A) : result (list A) :=
  match l, i with
  | [], _ => Err IndexError
  | _ :: r, O => Ok (v :: r)
  | a :: r, S i => rbind (list_set r i v) (fun r => Ok (a :: r))
  end.
(** basis.py:344-352: the while loop; fuel only bounds the number of iterations *)
Fixpoint pb_while (fuel N : nat) (xterm yterm : R) (i di j dj : nat) (xa ya : list (option R))
  : result (list (option R) * list (option R)) :=
  match fuel with
  | O => Ok (xa, ya)
  | S fuel =>
    if (i + 1 <? N)%nat then
      rbind (list_set xa i (Some xterm)) (fun xa =>
      rbind (list_set xa (i + 1) (Some xterm)) (fun xa =>
      let di := (di + 2)%nat in
      let i := (i + di)%nat in
      rbind (list_set ya j (Some yterm)) (fun ya =>
      rbind (list_set ya (j + 1) (Some yterm)) (fun ya =>
      let dj := (dj + 2)%nat in
      let j := (j + dj - 1)%nat in
      pb_while fuel N xterm yterm i di j dj xa ya))))
    else Ok (xa, ya)
  end.
(** basis.py:331-357: the outer loop, [n] counting up, [todo] iterations left *)
Fixpoint pb_outer (todo n N : nat) (x y xterm yterm : R) (i0 di0 j0 dj0 : nat) (xa ya : list (option R))
  : result (list (option R) * list (option R)) :=
  match todo with
  | O => Ok (xa, ya)
  | S todo =>
    rbind (list_set xa i0 (Some xterm)) (fun xa =>
    rbind (list_set ya j0 (Some yterm)) (fun ya =>
    let i := (i0 + di0 - 1)%nat in
    let j := (j0 + dj0 - 1)%nat in
    rbind (pb_while N N xterm yterm i di0 j dj0 xa ya) (fun '(xa, ya) =>
    pb_outer todo (n + 1) N x y (xterm * x) (yterm * y)
      (i0 + (2 * n + 1)) (di0 + 2) (j0 + (2 * (n + 1) + 1)) (dj0 + 2) xa ya)))
  end.
(** basis.py:359-360: assert all(v is not None) *)
Fixpoint all_set (l : list (option R)) : result (list R) :=
  match l with
  | [] => Ok []
  | None :: _ => Err AssertionError
  | Some v :: r => rbind (all_set r) (fun r => Ok (v :: r))
  end.
(** basis.py:318-376 [poly_basis]: the z factor is applied to the entries with l + m odd *)
Definition poly_basis (deg : nat) (x y z : R) : result (list R) :=
  let N := ((deg + 1) * (deg + 1))%nat in
  rbind (pb_outer (deg + 1) 0 N x y 1 1 0 3 0 2 (repeat None N) (repeat None N)) (fun '(xa, ya) =>
  rbind (all_set xa) (fun xa => rbind (all_set ya) (fun ya =>
  let odd := map (fun e => let '(n, (l, m)) := e in negb ((l + m) mod 2 =? 0)%Z) (lm_enum (Z.of_nat deg)) in
  Ok (map (fun e => let '(xv, yv, o) := e in if o : bool then xv * yv * z else xv * yv)
          (combine (combine xa ya) odd))))).
