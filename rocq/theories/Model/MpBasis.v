(** Model of starry/multiprecision/basis.py and starry/multiprecision/utils.py ([fac]); mpmath numbers of any precision
    are real numbers, mp.inf is [None]. *)
From Coq Require Import Reals Lra Lia ZArith List Bool.
From Verif Require Import Base.RealAux Base.Dict Model.Poly Model.Basis.
Import ListNotations.
Open Scope R_scope.

(** mpmath numbers with +inf; inf arises only as fac at a negative integer, which the code only divides by *)
Definition ext : Type := option R.
Definition ext_mul (a b : ext) : ext := match a, b with Some x, Some y => Some (x * y) | _, _ => None end.
Definition ext_div (a b : ext) : ext := match a, b with Some x, Some y => Some (x / y) | Some _, None => Some 0 | None, _ => None end.
(** the real number of a finite result *)
Definition fin (a : ext) : R := match a with Some x => x | None => 0 end.

(** utils.py:46-53 [fac], basis.py:30-34: fac(x2 / 2); mp.fac(x) = Gamma(x + 1), ValueError at the poles *)
Definition mp_fac2 (x2 : Z) : ext :=
  if (x2 =? 0)%Z then Some 1
  else if ((x2 mod 2 =? 0) && (x2 <? 0))%Z%bool then None
  else Some (gamma_half (x2 + 2)).
(** fac(n) for an int n *)
Definition mp_fac (n : Z) : ext := mp_fac2 (2 * n).

(** basis.py:37-41 [A]; utils.py:42-43 [kron_delta] *)
Definition mp_A (l m : Z) : ext :=
  match ext_div (ext_mul (Some ((2 - b2r (m =? 0)%Z) * IZR (2 * l + 1))) (mp_fac (l - m))) (ext_mul (Some (4 * PI)) (mp_fac (l + m))) with
  | Some x => Some (sqrt x)
  | None => None
  end.
(** basis.py:44-49 [B] *)
Definition mp_B (l m j k : Z) : ext :=
  let ratio := ext_div (mp_fac2 (l + m + k - 1)) (mp_fac2 (- l + m + k - 1)) in
  ext_mul (ext_div (ext_mul (Some (2 ^ Z.to_nat l)) (mp_fac m))
                   (ext_mul (ext_mul (ext_mul (mp_fac j) (mp_fac k)) (mp_fac (m - j))) (mp_fac (l - m - k)))) ratio.
(** basis.py:52-54 [C] *)
Definition mp_C (p q k : Z) : ext :=
  ext_div (mp_fac2 k) (ext_mul (ext_mul (mp_fac2 q) (mp_fac2 (k - p))) (mp_fac2 (p - q))).

(** basis.py:74-79, 87-92, 102-107, 115-120: one coefficient; [sh] is 0 for m >= 0 and 1 for m < 0 *)
Definition mp_coeff (l am j k p q kC sh : Z) : R :=
  sgn_pow ((j + p - sh) / 2) * fin (mp_A l am) * fin (mp_B l am j k) * fin (mp_C p q kC).
(** basis.py:70-83, 98-111: the loop over even k *)
Definition mp_even (l am sh j : Z) (res : list (ijk * R)) : list (ijk * R) :=
  fold_left (fun res k => fold_left (fun res p => fold_left (fun res q =>
    add_to (am - j + p - q, j + q, 0)%Z (mp_coeff l am j k p q k sh) res)
  (zrange2 0 (p + 1)) res) (zrange2 0 (k + 1)) res) (zrange2 0 (l - am + 1)) res.
(** basis.py:84-96, 112-124: the loop over odd k *)
Definition mp_odd (l am sh j : Z) (res : list (ijk * R)) : list (ijk * R) :=
  fold_left (fun res k => fold_left (fun res p => fold_left (fun res q =>
    add_to (am - j + p - q, j + q, 1)%Z (mp_coeff l am j k p q (k - 1) sh) res)
  (zrange2 0 (p + 1)) res) (zrange2 0 k) res) (zrange2 1 (l - am + 1)) res.
(** basis.py:57-126 [Y]; the cache of A, B, C values ([get]) returns what the function returns *)
Definition mp_Y (l m : Z) : list (ijk * R) :=
  if (0 <=? m)%Z then fold_left (fun res j => mp_odd l m 0 j (mp_even l m 0 j res)) (zrange2 0 (m + 1)) []
  else fold_left (fun res j => mp_odd l (Z.abs m) 1 j (mp_even l (Z.abs m) 1 j res)) (zrange2 1 (Z.abs m + 1)) [].

(** basis.py:129-142 [p_coeffs] *)
Definition mp_p_coeffs (n : Z) : ijk :=
  let l := Z.sqrt n in
  let m := (n - l * l - l)%Z in
  let mu := (l - m)%Z in
  let nu := (l + m)%Z in
  if (nu mod 2 =? 0)%Z then (mu / 2, nu / 2, 0)%Z
  else ((mu - 1) / 2, (nu - 1) / 2, 1)%Z.

(** basis.py:145-158 [_A1]: column k (running over l, m) is the list of y[p[i]], 0 for the missing keys of a defaultdict *)
Definition mp_A1 (lmax : Z) : matrix :=
  fun r c =>
    Rsum (map (fun e => let '(n, (l, m)) := e in if (n =? c)%Z then get0 (mp_p_coeffs r) (mp_Y l m) else 0) (lm_enum lmax))
    * 2 / sqrt PI.

(** basis.py:167-200 [gtilde]: unlike the core version, zero coefficients are kept *)
Definition mp_gtilde (n : Z) : list (ijk * R) :=
  let l := Z.sqrt n in
  let m := (n - l * l - l)%Z in
  let mu := (l - m)%Z in
  let nu := (l + m)%Z in
  let terms :=
    if (nu mod 2 =? 0)%Z then [((mu / 2, nu / 2, 0)%Z, ((mu + 2) / 2)%Z)]
    else if ((l =? 1) && (m =? 0))%Z%bool then [((0, 0, 1)%Z, 1%Z)]
    else if ((mu =? 1) && (l mod 2 =? 0))%Z%bool then [((l - 2, 1, 1)%Z, 3%Z)]
    else if (mu =? 1)%Z then
      [((l - 3, 0, 1)%Z, (-1)%Z); ((l - 1, 0, 1)%Z, 1%Z); ((l - 3, 2, 1)%Z, 4%Z)]
    else
      [(((mu - 5) / 2, (nu - 1) / 2, 1)%Z, ((mu - 3) / 2)%Z);
       (((mu - 5) / 2, (nu + 3) / 2, 1)%Z, (- ((mu - 3) / 2))%Z);
       (((mu - 1) / 2, (nu - 1) / 2, 1)%Z, (- ((mu + 3) / 2))%Z)] in
  fold_left (fun res e => dset ijk_eqb (fst e) (IZR (snd e)) res) terms [].
(** basis.py:203-215 [A2_inv] *)
Definition mp_A2_inv (lmax : Z) : matrix :=
  fun r c =>
    Rsum (map (fun e => let '(n, _) := e in if (n =? c)%Z then get0 (mp_p_coeffs r) (mp_gtilde n) else 0) (lm_enum lmax)).

(** * _A2 *)
Definition ijk_mem (p : ijk) (s : list ijk) : bool := existsb (ijk_eqb p) s.
Definition nat_mem (i : nat) (l : list nat) : bool := existsb (Nat.eqb i) l.
(** basis.py:233-241 [all_subsets_indices]: [sets] are the keys of the gtilde; the list of indices is shared by all the
    recursive calls.  Each recursive call adds an index, so fuel S (length sets) is never exhausted. *)
Fixpoint all_subsets_indices (fuel : nat) (sets : list (list ijk)) (s : list ijk) (indices : list nat) : list nat :=
  match fuel with
  | O => indices
  | S fuel =>
    fold_left (fun indices si =>
      fold_left (fun indices e =>
        if (ijk_mem si (snd e) && negb (nat_mem (fst e) indices))%bool
        then all_subsets_indices fuel sets (snd e) (indices ++ [fst e])
        else indices)
      (combine (seq 0 (length sets)) sets) indices)
    s indices
  end.
(** basis.py:231: gs *)
Definition green_sets (n : nat) : list (list ijk) := map (fun i => keys (gtilde (Z.of_nat i))) (seq 0 n).
(** basis.py:244-246 *)
Definition mp_available (k : nat) : list (list ijk) := green_sets ((Nat.sqrt k + 1) * (Nat.sqrt k + 1)).
Definition mp_indices (k : nat) : list nat :=
  all_subsets_indices (S (length (mp_available k))) (mp_available k) [ptilde (Z.of_nat k)] [].

(** mpmath's lu_solve(A, b) for a rows x cols matrix: ValueError when rows < cols, ZeroDivisionError when the columns are
    dependent, otherwise the least-squares solution of A x = b (the solution when A is square) *)
Definition lu_solve_to (rows cols : nat) (A : nat -> nat -> R) (b x : nat -> R) : Prop :=
  (cols <= rows)%nat /\
  (forall c : nat -> R, (forall i, (i < rows)%nat -> bigsum cols (fun j => A i j * c j) = 0) -> forall j, (j < cols)%nat -> c j = 0) /\
  (forall j, (j < cols)%nat -> bigsum rows (fun i => A i j * bigsum cols (fun k => A i k * x k)) = bigsum rows (fun i => A i j * b i)).

(** basis.py:250-256: the system of row k for the ordering [powers] in which Python lists a set *)
Definition mp_system (indices : list nat) (powers : list ijk) (i j : nat) : R :=
  get0 (nth i powers (0, 0, 0)%Z) (gtilde (Z.of_nat (nth j indices 0%nat))).
Definition mp_target (k : nat) (powers : list ijk) (i : nat) : R := b2r (ijk_eqb (ptilde (Z.of_nat k)) (nth i powers (0, 0, 0)%Z)).
(** basis.py:248: list(reduce(set.union, ...)): no duplicates, any order (TypeError on an empty list of sets) *)
Definition union_order (indices : list nat) (powers : list ijk) : Prop :=
  indices <> [] /\ NoDup powers /\ forall p, In p powers <-> exists i, In i indices /\ In p (keys (gtilde (Z.of_nat i))).
(** basis.py:261-262: for i, _x in zip(indices, x): A2[k, i] += _x *)
Definition add_row (indices : list nat) (x : nat -> R) (i : nat) : R :=
  Rsum (map (fun j => if Nat.eqb (nth j indices 0%nat) i then x j else 0) (seq 0 (length indices))).
(** basis.py:218-264 [_A2]: M is a result of the function: the loop over k runs without an exception and returns A2.T *)
Definition mp_A2_returns (lmax : nat) (M : matrix) : Prop :=
  forall k, (k < (lmax + 1) * (lmax + 1))%nat -> exists powers x,
    union_order (mp_indices k) powers /\
    lu_solve_to (length powers) (length (mp_indices k)) (mp_system (mp_indices k) powers) (mp_target k powers) x /\
    forall i, (i < (lmax + 1) * (lmax + 1))%nat -> M (Z.of_nat i) (Z.of_nat k) = add_row (mp_indices k) x i.
