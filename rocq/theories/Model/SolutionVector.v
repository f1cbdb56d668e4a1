(** Model of starry/core/solution.py:14-213: the solution vector of an occultation.  Floats are exact reals;
    [eps] is jnp.finfo(dtype).eps; [low] and [high] are the (root, weight) pairs of roots_legendre(min(order, 20))
    and roots_legendre(order), arbitrary lists here. *)
From Coq Require Import Reals Lra Lia ZArith List Bool Arith.
From Verif Require Import Base.RealAux Model.LimbDark Model.Poly.
Import ListNotations.
Open Scope R_scope.

(** solution.py:30-36 [kappas] *)
Definition sol_kappas (b r : R) : R * R :=
  let b2 := b² in
  let factor := (r - 1) * (r + 1) in
  let b_cond := (Rgtb b (Rabs (1 - r)) && Rltb b (1 + r))%bool in
  let b_ := if b_cond then b else 1 in
  let area := if b_cond then kite_area r b_ 1 else 0 in
  (atan2 area (b2 + factor), atan2 area (b2 - factor)).

(** solution.py:43-58: h and [get].  The dictionary h only memoises.  [get] is only called with u even, so the
    recursion on u ends at u = 0 (at u = 1 it would end in the failing assertion) *)
Fixpoint q_low (lam : R) (v : nat) : R :=
  match v with
  | O => 2 * lam + PI
  | S O => - 2 * cos lam
  | S (S v') => (- 2 * cos lam ^ 1 * sin lam ^ (S v') + INR (S v') * q_low lam v') / INR (0 + v)
  end.
Fixpoint q_get (lam : R) (u v : nat) : R :=
  match u with
  | S (S u') => (2 * cos lam ^ (S u') * sin lam ^ (v + 1) + INR (S u') * q_get lam u' v) / INR (u + v)
  | _ => q_low lam v
  end.
(** solution.py:60-76: the entry (l, m) with nu = l + m, mu = l - m = 2 l - nu *)
Definition q_entry (lam : R) (l nu : nat) : R :=
  let mu := (2 * l - nu)%nat in
  if ((l =? 1) && (nu =? 1))%nat then (PI + 2 * lam) / 3
  else if ((mu mod 2 =? 0) && ((mu / 2) mod 2 =? 0))%nat then q_get lam (mu / 2 + 2) (nu / 2)
  else 0.

(** solution.py:109-138: the variables of the quadrature *)
Definition pi_factor0 (b r : R) : R := 4 * b * r.
Definition pi_k2cond (eps b r : R) : bool := Rltb (pi_factor0 b r) (10 * eps).
Definition pi_factor (eps b r : R) : R := if pi_k2cond eps b r then 1 else pi_factor0 b r.
Definition pi_k2 (eps b r : R) : R := Rmax 0 ((1 - r² - b² + 2 * b * r) / pi_factor eps b r).
Definition pi_rcond (eps r : R) : bool := Rltb r (10 * eps).
Definition pi_delta (eps b r : R) : R := (b - r) / (2 * (if pi_rcond eps r then 1 else r)).
Definition pi_phi (kappa0 root : R) : R := (/ 4 * kappa0) * (root + 1).
Definition pi_s2 (kappa0 root : R) : R := (sin (pi_phi kappa0 root))².
Definition pi_a1 (s2 : R) : R := s2 - s2².
Definition pi_a2 (eps b r s2 : R) : R := if pi_rcond eps r then 0 else pi_delta eps b r + s2.
Definition pi_a4 (s2 : R) : R := 1 - 2 * s2.
(** x ** 1.5 for x >= 0 *)
Definition pow32 (x : R) : R := x * sqrt x.
Definition pi_f0 (eps b r s2 : R) : R :=
  pow32 (Rmax 0 (if pi_k2cond eps b r then 1 - r² else pi_factor eps b r * (pi_k2 eps b r - s2))).
(** solution.py:154-165: the integrand of (l, m) = (1, 0), at the root of the order-high rule *)
Definition pi_lin (eps b r kappa0 root : R) : R :=
  let phi := 2 * (/ 4 * kappa0) * root in
  let c := cos (phi + / 2 * kappa0) in
  let omz2 := r² + b² - 2 * b * r * c in
  let cond := Rltb omz2 (10 * eps) in
  let omz2 := if cond then 1 else omz2 in
  let z2 := Rmax 0 (1 - omz2) in
  let result := 2 * r * (r - b * c) * (1 - z2 * zero_safe_sqrt z2) / (3 * omz2) in
  if cond then 0 else 2 * result.
(** solution.py:148-211: the entry (l, m): the branch picks the rule and the integrand; exponents that Python
    computes as integer-valued floats are natural numbers.  (2 r)^(l-1) is only used for l >= 1 *)
Definition p_sum (kappa0 : R) (quad : list (R * R)) (f : R -> R) : R :=
  (/ 4 * kappa0) * Rsum (map (fun rw => f (fst rw) * snd rw) quad).
Definition pint_entry (eps : R) (low high : list (R * R)) (b r kappa0 : R) (l nu : nat) : R :=
  let mu := (2 * l - nu)%nat in
  let s2 := pi_s2 kappa0 in
  let fa3 root := (2 * r) ^ (l - 1) * pi_f0 eps b r (s2 root) in
  if ((mu =? 1) && (l =? 1))%nat then p_sum kappa0 high (pi_lin eps b r kappa0)
  else if ((mu mod 2 =? 0) && ((mu / 2) mod 2 =? 0))%nat then
    p_sum kappa0 low (fun t => 2 * (2 * (2 * r) ^ (l + 2) * pi_a1 (s2 t) ^ ((mu + 4) / 4) * pi_a2 eps b r (s2 t) ^ (nu / 2)))
  else if ((mu =? 1) && (l mod 2 =? 0))%nat then
    p_sum kappa0 high (fun t => 2 * (fa3 t * pi_a1 (s2 t) ^ (l / 2 - 1) * pi_a4 (s2 t)))
  else if (mu =? 1)%nat then
    p_sum kappa0 high (fun t => 2 * (fa3 t * pi_a1 (s2 t) ^ ((l - 3) / 2) * pi_a2 eps b r (s2 t) * pi_a4 (s2 t)))
  else if (((mu - 1) mod 2 =? 0) && (((mu - 1) / 2) mod 2 =? 0) && negb (mu =? 0))%nat then
    p_sum kappa0 high (fun t => 2 * (2 * fa3 t * pi_a1 (s2 t) ^ ((mu - 1) / 4) * pi_a2 eps b r (s2 t) ^ ((nu - 1) / 2)))
  else 0.

(** solution.py:14-27 and 203-204 [solution_vector] at scalar b, r: entry l^2 + nu.  np.stack of the empty high_indices fails for
    l_max = 0 *)
Definition sol_entry (eps : R) (low high : list (R * R)) (b r : R) (l nu : nat) : R :=
  let b := Rabs b in
  let r := Rabs r in
  let '(kappa0, kappa1) := sol_kappas b r in
  q_entry (/ 2 * PI - kappa1) l nu - pint_entry eps low high b r kappa0 l nu.
Definition starry_solution (eps : R) (low high : list (R * R)) (l_max : nat) (b r : R) : result (list R) :=
  if (l_max =? 0)%nat then Err ValueError
  else Ok (flat_map (fun l => map (fun nu => sol_entry eps low high b r l nu) (seq 0 (2 * l + 1))) (seq 0 (l_max + 1))).
