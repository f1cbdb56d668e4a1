(** Model of starry/ylm.py (class Ylm and the product of two expansions).  Coefficients are scalars. *)
From Coq Require Import Reals Lra Lia ZArith List Bool.
From Verif Require Import Base.RealAux Base.Dict Model.Poly Model.Basis Model.Solution Model.Wigner3j.
Import ListNotations.
Open Scope R_scope.

Definition lmkey : Type := Z * Z.
Definition lm_eqb (a b : lmkey) : bool := ((fst a =? fst b) && (snd a =? snd b))%Z.
(** an Ylm instance: ylm.py:65-74 *)
Record ylm := { y_data : list (lmkey * R); y_deg : Z; y_diagonal : bool }.
Definition zmax_list (l : list Z) : Z := match l with [] => 0%Z | a :: r => fold_left Z.max r a end.
(** ylm.py:76-85 [Ylm.__init__]; max() of nothing is a ValueError.  The keys of a dict are distinct. *)
Definition make_ylm (data : list (lmkey * R)) : result ylm :=
  match data with
  | [] => Err ValueError
  | _ => Ok {| y_data := data; y_deg := zmax_list (map fst (keys data));
               y_diagonal := forallb (fun k => (snd k =? 0)%Z) (keys data) |}
  end.
(** ylm.py:80-81 Ylm() *)
Definition default_ylm : result ylm := make_ylm [((0, 0)%Z, 1)].
(** ylm.py:88-91 *)
Definition ylm_shape (v : ylm) : Z := (y_deg v ^ 2 + 2 * y_deg v + 1)%Z.
(** ylm.py:98-102 *)
Definition ylm_index (k : lmkey) : Z := (fst k * (fst k + 1) + snd k)%Z.
(** ylm.py:104-114 [normalize]; for Python floats a zero (0,0) coefficient raises ZeroDivisionError (for JAX
    arrays the result would hold inf/nan instead) *)
Definition ylm_normalize (v : ylm) : result ylm :=
  match dget lm_eqb (0, 0)%Z (y_data v) with
  | None => Err KeyError
  | Some c => if Reqb c 0 then Err ZeroDivisionError
              else make_ylm (map (fun kv => (fst kv, snd kv / c)) (y_data v))
  end.
(** ylm.py:116-130 [tosparse]/[todense]: BCOO.todense adds duplicate entries, wraps negative indices and drops
    out-of-range ones *)
Definition wrap_index (size i : Z) : Z := if (i <? 0)%Z then (i + size)%Z else i.
Definition ylm_todense (v : ylm) : list R :=
  map (fun n => Rsum (map (fun kv => if (wrap_index (ylm_shape v) (ylm_index (fst kv)) =? Z.of_nat n)%Z then snd kv else 0) (y_data v)))
      (seq 0 (Z.to_nat (ylm_shape v))).
(** ylm.py:132-147 [from_dense] *)
Definition lm_of_index (i : Z) : lmkey := let l := Z.sqrt i in (l, (i - l * (l + 1))%Z).
Definition ylm_dense_data (y : list R) : list (lmkey * R) :=
  fold_left (fun d i => dset lm_eqb (lm_of_index (Z.of_nat i)) (nth i y 0) d) (seq 0 (length y)) [].
Definition ylm_from_dense (y : list R) (normalize : bool) : result ylm :=
  rbind (make_ylm (ylm_dense_data y)) (fun v => if normalize then ylm_normalize v else Ok v).
(** ylm.py:149-157: tree_map over the coefficients *)
Definition ylm_scale (v : ylm) (c : R) : ylm :=
  {| y_data := map (fun kv => (fst kv, snd kv * c)) (y_data v); y_deg := y_deg v; y_diagonal := y_diagonal v |}.
(** ylm.py:159-161 [__getitem__]: JAX indexing of the dense vector *)
Definition ylm_getitem (v : ylm) (k : lmkey) : R := jax_get (ylm_todense v) (ylm_index k).
(** ylm.py:163-174 [from_limb_darkening]; [inv D] is np.linalg.inv(A1(D).todense()) *)
Definition ylm_from_limb_darkening (inv : nat -> matrix) (u : list R) : result ylm :=
  let deg := length u in
  let N := ((deg + 1) * (deg + 1))%nat in
  let pu := map (fun n => limb_dark_vector u (Z.of_nat n)) (seq 0 N) in
  let yu := map (fun n => bigsum N (fun k => inv deg (Z.of_nat n) (Z.of_nat k) * nth k pu 0)) (seq 0 N) in
  rbind (ylm_from_dense yu false) (fun yu =>
  rbind (from_dense pu (Some (Z.of_nat deg))) (fun p =>
  rbind (todense p) (fun pd =>
  Ok (ylm_scale yu (1 / bigsum N (fun n => nth n pd 0 * nth n (rT deg) 0)))))).

(** math.pow(-1, n) *)
Definition sign_pow (n : Z) : R := if Z.even n then 1 else -1.
Definition ylm_add_to (k : lmkey) (x : R) (d : list (lmkey * R)) : list (lmkey * R) := dupd lm_eqb k (fun v => v + x) 0 d.
(** ylm.py:207-224: the innermost loop for one pair of coefficients *)
Definition mul_pair (ell1 m1 : Z) (c1 : R) (ell2 m2 : Z) (c2 : R) (w : arrz) (d : list (lmkey * R)) : list (lmkey * R) :=
  let sum1 := sqrt (IZR (2 * ell1 + 1) / (4 * PI)) * c1 in
  let sum2 := sqrt (IZR (2 * ell2 + 1)) * c2 in
  let m3 := (m1 + m2)%Z in
  fold_left (fun d ell3 =>
      ylm_add_to (ell3, m3) (sign_pow (ell1 + ell2 + ell3 + m3) * sqrt (IZR (2 * ell3 + 1)) * w ell3 * sum1 * sum2) d)
    (zrange (Z.max (Z.abs m3) (Z.abs (ell1 - ell2))) (ell1 + ell2 + 1)) d.
(** ylm.py:177-225 [_mul]; min(ell1 + ell2, ellmax_fg) is ell1 + ell2 for ell1 <= ellmax_f, ell2 <= ellmax_g *)
Definition mul_inner (f g : ylm) (e1 : lmkey) (d : result (list (lmkey * R))) (e2 : lmkey) : result (list (lmkey * R)) :=
  rbind d (fun d =>
  match dget lm_eqb e1 (y_data f), dget lm_eqb e2 (y_data g) with
  | Some c1, Some c2 =>
      rbind (w3j_calculate (fst e1) (fst e2) (snd e1) (snd e2)) (fun w =>
      Ok (mul_pair (fst e1) (snd e1) c1 (fst e2) (snd e2) c2 w d))
  | _, _ => Ok d
  end).
Definition ylm_mul (f g : ylm) : result ylm :=
  rbind (fold_left (fun d e1 => fold_left (mul_inner f g e1) (lm_list (y_deg g)) d) (lm_list (y_deg f)) (Ok []))
        make_ylm.
