(** Model of starry/core/polynomials.py: polynomials in x, y, z (k <= 1) indexed by (i,j,k). *)
From Coq Require Import Reals Lra Lia ZArith List Bool.
From Verif Require Import Base.RealAux Base.Dict.
Import ListNotations.
Open Scope R_scope.

Definition ijk : Type := Z * Z * Z.
Definition ijk_eqb (a b : ijk) : bool :=
  let '(i, j, k) := a in let '(i', j', k') := b in ((i =? i') && (j =? j') && (k =? k'))%Z.

(** polynomials.py:62-76 [Pijk.ijk2lm]; [int(x/2)] truncates *)
Definition ijk2lm (p : ijk) : result (Z * Z) :=
  let '(i, j, k) := p in
  if ((k =? 0) || (k =? 1))%Z then
    let '(nu, mu) := if (k =? 0)%Z then (2 * j, 2 * i)%Z else (2 * j + 1, 2 * i + 1)%Z in
    let m := Z.quot (nu - mu) 2 in
    let l := Z.quot (nu + mu) 2 in
    Ok (l, m)
  else Err AssertionError.

(** polynomials.py:78-82; floor(sqrt(n)) is the exact integer square root *)
Definition n2lm (n : Z) : Z * Z :=
  let l := Z.sqrt n in (l, n - l ^ 2 - l)%Z.
(** polynomials.py:84-86 *)
Definition lm2n (l m : Z) : Z := (l ^ 2 + l + m)%Z.
(** polynomials.py:88-96 *)
Definition lm2ijk (l m : Z) : ijk :=
  let mu := (l - m)%Z in
  let nu := (l + m)%Z in
  if (nu mod 2 =? 0)%Z then (mu / 2, nu / 2, 0)%Z
  else ((mu - 1) / 2, (nu - 1) / 2, 1)%Z.
(** polynomials.py:98-100 *)
Definition n2ijk (n : Z) : ijk := let '(l, m) := n2lm n in lm2ijk l m.
(** polynomials.py:102-104 [Pijk.index] *)
Definition index (p : ijk) : result Z :=
  rbind (ijk2lm p) (fun '(l, m) => Ok ((l + 1) * l + m)%Z).

(** a Pijk instance: polynomials.py:38-40 *)
Record pijk := { p_data : list (ijk * R); p_degree : Z; p_diagonal : bool }.

(** polynomials.py:44-48: max over the degrees of the keys (ValueError when empty) *)
Fixpoint max_degree (ks : list ijk) : result Z :=
  match ks with
  | [] => Err ValueError
  | [k] => rbind (ijk2lm k) (fun lm => Ok (fst lm))
  | k :: r => rbind (ijk2lm k) (fun lm => rbind (max_degree r) (fun d => Ok (Z.max (fst lm) d)))
  end.
(** polynomials.py:49: all(...) short-circuits on the first non-zero m *)
Fixpoint all_diagonal (ks : list ijk) : result bool :=
  match ks with
  | [] => Ok true
  | k :: r => rbind (ijk2lm k) (fun lm => if (snd lm =? 0)%Z then all_diagonal r else Ok false)
  end.
(** polynomials.py:42-49 [Pijk.__init__] *)
Definition make_pijk (data : list (ijk * R)) (degree : option Z) : result pijk :=
  rbind (match degree with None => max_degree (keys data) | Some d => Ok d end) (fun d =>
  rbind (all_diagonal (keys data)) (fun b =>
  Ok {| p_data := data; p_degree := d; p_diagonal := b |})).

(** polynomials.py:51-53 *)
Definition shape (p : pijk) : Z := ((p_degree p + 1) ^ 2)%Z.

Fixpoint indices (ks : list ijk) : result (list Z) :=
  match ks with
  | [] => Ok []
  | k :: r => rbind (index k) (fun n => rbind (indices r) (fun ns => Ok (n :: ns)))
  end.
(** polynomials.py:106-112 [tosparse]/[todense]: BCOO.todense adds duplicate entries and drops
    out-of-range ones; zip( * {}) fails on an empty dict *)
Definition todense (p : pijk) : result (list R) :=
  match p_data p with
  | [] => Err ValueError
  | _ =>
    rbind (indices (keys (p_data p))) (fun ns =>
    Ok (map (fun n => Rsum (map (fun iv => if (fst iv =? Z.of_nat n)%Z then snd iv else 0)
                                (combine ns (map snd (p_data p)))))
            (seq 0 (Z.to_nat (shape p)))))
  end.
(** polynomials.py:114-120 [from_dense] *)
Definition from_dense_data (x : list R) : list (ijk * R) :=
  fold_left (fun d i => dset ijk_eqb (n2ijk (Z.of_nat i)) (nth i x 0) d) (seq 0 (length x)) [].
Definition from_dense (x : list R) (degree : option Z) : result pijk :=
  make_pijk (from_dense_data x) degree.

Definition get0 (k : ijk) (d : list (ijk * R)) : R := match dget ijk_eqb k d with Some v => v | None => 0 end.
Definition add_to (k : ijk) (v : R) (d : list (ijk * R)) : list (ijk * R) := dupd ijk_eqb k (fun x => x + v) 0 d.

(** polynomials.py:143-152 [_add] *)
Definition add_data (u v : list (ijk * R)) : list (ijk * R) :=
  let upv := fold_left (fun d kv => add_to (fst kv) (snd kv + get0 (fst kv) v) d) u [] in
  fold_left (fun d kv => if dmem ijk_eqb (fst kv) d then d
                         else add_to (fst kv) (snd kv + get0 (fst kv) u) d) v upv.
Definition pijk_add (u v : pijk) : result pijk := make_pijk (add_data (p_data u) (p_data v)) None.

(** polynomials.py:155-167 [_mul] *)
Definition mul_step (k1 : ijk) (v1 : R) (k2 : ijk) (v2 : R) (d : list (ijk * R)) : list (ijk * R) :=
  let '(i1, j1, k1) := k1 in let '(i2, j2, k2) := k2 in
  let v1v2 := v1 * v2 in
  if (k1 + k2 =? 2)%Z then
    let d := add_to (i1 + i2, j1 + j2, 0)%Z v1v2 d in
    let d := add_to (i1 + i2 + 2, j1 + j2, 0)%Z (- v1v2) d in
    add_to (i1 + i2, j1 + j2 + 2, 0)%Z (- v1v2) d
  else add_to (i1 + i2, j1 + j2, k1 + k2)%Z v1v2 d.
Definition mul_data (u v : list (ijk * R)) : list (ijk * R) :=
  fold_left (fun d a => fold_left (fun d b => mul_step (fst a) (snd a) (fst b) (snd b) d) v d) u [].
Definition pijk_mul (u v : pijk) : result pijk := make_pijk (mul_data (p_data u) (p_data v)) None.

(** polynomials.py:126, 132, 136: tree_map over the stored coefficients (degree and diagonal are static) *)
Definition pijk_map (f : R -> R) (p : pijk) : pijk :=
  {| p_data := map (fun kv => (fst kv, f (snd kv))) (p_data p); p_degree := p_degree p; p_diagonal := p_diagonal p |}.
Definition pijk_add_scalar (p : pijk) (c : R) : pijk := pijk_map (fun x => x + c) p.
Definition pijk_mul_scalar (p : pijk) (c : R) : pijk := pijk_map (fun x => x * c) p.
Definition pijk_rmul_scalar (c : R) (p : pijk) : pijk := pijk_map (fun x => c * x) p.

(** JAX indexing: negative indices wrap, out-of-range ones are clamped *)
Definition jax_get (x : list R) (n : Z) : R :=
  let len := Z.of_nat (length x) in
  let n := if (n <? 0)%Z then (n + len)%Z else n in
  nth (Z.to_nat (Z.max 0 (Z.min n (len - 1)))) x 0.
(** polynomials.py:138-140 *)
Definition pijk_getitem (p : pijk) (k : ijk) : result R :=
  rbind (todense p) (fun x => rbind (index k) (fun n => Ok (jax_get x n))).

(** range(a, b) *)
Definition zrange (a b : Z) : list Z := map (fun k => (a + Z.of_nat k)%Z) (seq 0 (Z.to_nat (b - a))).
(** for l in range(deg+1): for m in range(-l, l+1), with the running counter n = 0, 1, ... *)
Definition lm_list (deg : Z) : list (Z * Z) :=
  flat_map (fun l => map (fun m => (l, m)) (zrange (- l) (l + 1))) (zrange 0 (deg + 1)).
Definition lm_enum (deg : Z) : list (Z * (Z * Z)) :=
  combine (map Z.of_nat (seq 0 (length (lm_list deg)))) (lm_list deg).

(** a matrix as a total function; entries outside the shape stay 0 *)
Definition matrix : Type := Z -> Z -> R.
(** M.at[r, c].set(v) with r, c in range: JAX drops out-of-range updates *)
Definition mat_set (rows cols : Z) (M : matrix) (r c : Z) (v : R) : matrix :=
  if ((0 <=? r) && (r <? rows) && (0 <=? c) && (c <? cols))%Z then
    fun r' c' => if ((r' =? r) && (c' =? c))%Z then v else M r' c'
  else M.
(** polynomials.py:170-214 [polynomial_product_matrix] (note deg_p = floor(sqrt(len(p)))) *)
Definition product_matrix (p : list R) (degree : Z) : matrix :=
  let deg_p := Z.sqrt (Z.of_nat (length p)) in
  let rows := ((deg_p + degree + 1) * (deg_p + degree + 1))%Z in
  let cols := ((degree + 1) * (degree + 1))%Z in
  let bump M r c v := mat_set rows cols M r c (M r c + v) in
  fold_left (fun M e1 =>
    let '(n1, (l1, m1)) := e1 in
    let odd1 := negb ((l1 + m1) mod 2 =? 0)%Z in
    fold_left (fun M e2 =>
      let '(n2, (l2, m2)) := e2 in
      let l := (l1 + l2)%Z in
      let n := (l * l + l + m1 + m2)%Z in
      let v := jax_get p n2 in
      if (odd1 && negb ((l2 + m2) mod 2 =? 0)%Z)%bool then
        let M := bump M (n - 4 * l + 2)%Z n1 v in
        let M := bump M (n - 2)%Z n1 (- v) in
        bump M (n + 2)%Z n1 (- v)
      else bump M n n1 v)
    (lm_enum deg_p) M)
  (lm_enum degree) (fun _ _ => 0).
(** M @ q *)
Definition mat_vec (cols : Z) (M : matrix) (q : list R) (r : Z) : R :=
  bigsum (Z.to_nat cols) (fun c => M r (Z.of_nat c) * nth c q 0).
