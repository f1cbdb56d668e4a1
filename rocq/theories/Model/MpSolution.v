(** Model of starry/multiprecision/solution.py: the solution vectors in arbitrary precision.  Numbers are exact reals; [quad f lo hi]
    stands for mp.quad(f, [lo, hi]); the real parts taken by the code (mp.re, .real) are those of the integrands, whose only complex values are
    the half-integer powers (and square roots) of negative numbers, of real part 0. *)
From Coq Require Import Reals Lra Lia ZArith List Bool Arith.
From Verif Require Import Base.RealAux Model.LimbDark Model.Poly Model.SolutionVector.
Import ListNotations.
Open Scope R_scope.

(** solution.py:37-46 [kite_area] is core/limb_dark.py's, with Python's min and max: [kite_area]. solution.py:30-34 [kappas]: unlike in the core there is no test
    that the circles meet *)
Definition mp_kappas (b r : R) : R * R :=
  let b2 := b² in
  let factor := (r - 1) * (r + 1) in
  let area := kite_area r b 1 in
  (atan2 area (b2 + factor), atan2 area (b2 - factor)).
(** solution.py:54 and 144 *)
Definition mp_meet (b r : R) : bool := (Rltb (Rabs (1 - r)) b && Rltb b (1 + r))%bool.
(** solution.py:54-61: kappa, through phi *)
Definition mp_kappa (b r : R) : R :=
  let phi := if mp_meet b r then fst (mp_kappas b r) - PI / 2 else PI / 2 in phi + PI / 2.
(** the real part of x ** (3/2) *)
Definition re_pow32 (x : R) : R := if Rltb x 0 then 0 else x * sqrt x.
(** solution.py:62-126: the integrand of (l, m), nu = l + m, mu = l - m; None: P returns 0 without integrating.  Exponents that Python computes as
    integer-valued floats are natural numbers *)
Definition mp_func (b r : R) (l nu : nat) : option (R -> R) :=
  let mu := (2 * l - nu)%nat in
  let kappa := mp_kappa b r in
  let delta := (b - r) / (2 * r) in
  let k2 := (1 - r² - b² + 2 * b * r) / (4 * b * r) in
  let s2 x := sin x ^ 2 in
  if ((mu mod 2 =? 0) && ((mu / 2) mod 2 =? 0))%nat then
    Some (fun x => 2 * (2 * r) ^ (l + 2) * (s2 x - s2 x ^ 2) ^ ((mu + 4) / 4) * (delta + s2 x) ^ (nu / 2))
  else if ((mu =? 1) && (l mod 2 =? 0))%nat then
    Some (fun x => (2 * r) ^ (l - 1) * pow32 (4 * b * r) * (s2 x - s2 x ^ 2) ^ ((l - 2) / 2) * re_pow32 (k2 - s2 x) * (1 - 2 * s2 x))
  else if ((mu =? 1) && negb (l =? 1) && negb (l mod 2 =? 0))%nat then
    Some (fun x => (2 * r) ^ (l - 1) * pow32 (4 * b * r) * (s2 x - s2 x ^ 2) ^ ((l - 3) / 2) * (delta + s2 x) * re_pow32 (k2 - s2 x) * (1 - 2 * s2 x))
  else if ((mu mod 2 =? 1) && (((mu - 1) / 2) mod 2 =? 0) && negb (l =? 1))%nat then
    Some (fun x => 2 * (2 * r) ^ (l - 1) * pow32 (4 * b * r) * (s2 x - s2 x ^ 2) ^ ((mu - 1) / 4) * (delta + s2 x) ^ ((nu - 1) / 2) * re_pow32 (k2 - s2 x))
  else if ((mu =? 1) && (l =? 1))%nat then
    Some (fun x =>
      let c := cos (x + / 2 * kappa) in
      let omz2 := r² + b² - 2 * b * r * c in
      if Rleb omz2 0 then 0 else let z2 := Rmax 0 (1 - omz2) in 2 * r * (r - b * c) * (1 - z2 * sqrt z2) / (3 * omz2))
  else None.
(** solution.py:49-128 [P]: delta and k2 are computed first, a division by zero raises *)
Definition mp_P (quad : (R -> R) -> R -> R -> R) (l nu : nat) (b r : R) : result R :=
  if Reqb (2 * r) 0 then Err ZeroDivisionError
  else if Reqb (4 * b * r) 0 then Err ZeroDivisionError
  else match mp_func b r l nu with
       | Some f => Ok (quad f (- mp_kappa b r / 2) (mp_kappa b r / 2))
       | None => Ok 0
       end.
(** the orders (l, nu = l + m) in the order of the loops of solution.py:135-137 and 170-171 *)
Definition lnus (l_max : nat) : list (nat * nat) := flat_map (fun l => map (fun nu => (l, nu)) (seq 0 (2 * l + 1))) (seq 0 (l_max + 1)).
Fixpoint map_result {A B} (f : A -> result B) (l : list A) : result (list B) :=
  match l with
  | [] => Ok []
  | a :: l => match f a with Err e => Err e | Ok b => match map_result f l with Err e => Err e | Ok bs => Ok (b :: bs) end end
  end.
(** solution.py:131-139 [p_numerical] *)
Definition mp_p (quad : (R -> R) -> R -> R -> R) (l_max : nat) (b r : R) : result (list R) :=
  map_result (fun ln => mp_P quad (fst ln) (snd ln) b r) (lnus l_max).
(** solution.py:142-185 [q_numerical]: h and get (lines 152-167) and the branches (172-183) are those of core/solution.py: [q_entry] *)
Definition mp_q (l_max : nat) (b r : R) : list R :=
  let lam := if mp_meet b r then / 2 * PI - snd (mp_kappas b r) else PI / 2 in
  map (fun ln => q_entry lam (fst ln) (snd ln)) (lnus l_max).
(** solution.py:188-191 [sT] *)
Definition mp_sT (quad : (R -> R) -> R -> R -> R) (l_max : nat) (b r : R) : result (list R) :=
  let r := Rabs r in
  let b := Rabs b in
  match mp_p quad l_max b r with
  | Err e => Err e
  | Ok p => Ok (map (fun qp => fst qp - snd qp) (combine (mp_q l_max b r) p))
  end.

(** solution.py:234-285 [solution_limb_dark]: the entries 0, 1, 2 and n >= 3 *)
Definition mp_s0 (b r : R) : R :=
  let '(k0, k1) := mp_kappas b r in PI - k1 - r² * k0 + kite_area r b 1 * / 2.
(** solution.py:246-257; the square root of a negative number has real part 0 and so has its product with z2 *)
Definition mp_s1_func (b r : R) (x : R) : R :=
  let c := cos (2 * x) in
  let omz2 := r² + b² - 2 * b * r * c in
  if Rleb omz2 0 then 0
  else let z2 := 1 - omz2 in let z3 := re_pow32 z2 in 2 * r * (r - b * c) * (1 - z3) / (3 * omz2).
Definition mp_s1 (quad : (R -> R) -> R -> R -> R) (b r : R) : R :=
  let '(k0, k1) := mp_kappas b r in - quad (mp_s1_func b r) (- k0 / 2) (k0 / 2) - 2 * (k1 - PI) / 3.
(** solution.py:260 *)
Definition mp_k2 (b r : R) : R := (1 - r² - b² + 2 * b * r) / (4 * b * r).
(** solution.py:262-270; r2 = r^2, b2 = b^2 *)
Definition mp_s2 (b r : R) : R :=
  let '(k0, k1) := mp_kappas b r in
  let eta := if Rleb (mp_k2 b r) 1 then / (2 * PI) * (k1 + r² * (r² + 2 * b²) * k0 - / 4 * (1 + 5 * r² + b²) * kite_area r b 1) else / 2 * r² * (r² + 2 * b²) in
  2 * mp_s0 b r + 4 * PI * eta - 2 * PI.
(** the real part of x ** (n/2), n odd or even *)
Definition re_half_pow (n : nat) (x : R) : R := if Nat.even n then x ^ (n / 2) else if Rltb x 0 then 0 else sqrt x ^ n.
(** solution.py:272-283 *)
Definition mp_sn (quad : (R -> R) -> R -> R -> R) (b r : R) (n : nat) : R :=
  let '(k0, k1) := mp_kappas b r in
  - (2 * r * sqrt (4 * b * r) ^ n * quad (fun x => let s2 := sin x ^ 2 in re_half_pow n (mp_k2 b r - s2) * (r - b + 2 * b * s2)) (- k0 / 2) (k0 / 2)).
Definition mp_limb_dark (quad : (R -> R) -> R -> R -> R) (degree : nat) (b r : R) : result (list R) :=
  if ((2 <=? degree)%nat && Reqb (4 * b * r) 0)%bool then Err ZeroDivisionError
  else Ok (map (fun n => match n with 0%nat => mp_s0 b r | 1%nat => mp_s1 quad b r | 2%nat => mp_s2 b r | _ => mp_sn quad b r n end) (seq 0 (degree + 1))).

(** solution.py:12-20 [get_sT]: the cache of one l_max, keyed by the pair (b, r); a call that raises stores nothing *)
Definition sT_cache := list (nat * R * R * list R).
Definition cache_find (c : sT_cache) (l : nat) (b r : R) : option (list R) :=
  option_map snd (find (fun e => let '(l', b', r', _) := e in ((l' =? l)%nat && Reqb b' b && Reqb r' r)%bool) c).
Definition mp_get_sT (quad : (R -> R) -> R -> R -> R) (c : sT_cache) (l : nat) (b r : R) : result (list R) * sT_cache :=
  match cache_find c l b r with
  | Some s => (Ok s, c)
  | None => match mp_sT quad l b r with Ok s => (Ok s, (l, b, r, s) :: c) | Err e => (Err e, c) end
  end.
