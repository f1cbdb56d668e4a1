(** Model of src/jaxoplanet/core/limb_dark.py and src/jaxoplanet/utils.py.
    Floats are exact reals; [eps] is the machine epsilon of the dtype (a parameter);
    [quad] is the list of (root, weight) pairs of scipy's [roots_legendre(order)], an
    arbitrary list here. Vectorisation over (b, r) is element-wise and not modelled. *)
From Coq Require Import Reals List Bool Arith.
From Verif.Base Require Import RealAux.
Import ListNotations.
Open Scope R_scope.

(** utils.py:12-14 [zero_safe_sqrt] *)
Definition zero_safe_sqrt (x : R) : R := sqrt x.

(** utils.py:22-23 [cond], [denom] *)
Definition zero_safe_sqrt_denom (eps x : R) : R := if Rltb x (10 * eps) then 1 else x.
(** utils.py:17-25 [zero_safe_sqrt_jvp] *)
Definition zero_safe_sqrt_jvp (eps x x_dot : R) : R * R :=
  let primal_out := sqrt x in
  let denom := zero_safe_sqrt_denom eps x in
  (primal_out, 0.5 * x_dot * primal_out / denom).

(** core/limb_dark.py:187-196 [kite_area] *)
Definition sort2 (a b : R) : R * R := (Rmin a b, Rmax a b).
Definition kite_square (a b c : R) : R :=
  let '(a, b) := sort2 a b in
  let '(b, c) := sort2 b c in
  let '(a, b) := sort2 a b in
  (a + (b + c)) * (c - (a - b)) * (c + (a - b)) * (a + (b - c)).
Definition kite_area (a b c : R) : R := zero_safe_sqrt (Rmax 0 (kite_square a b c)).

(** core/limb_dark.py:102-108 [kappas] *)
Definition kappas (b r : R) : R * R * R :=
  let b2 := b² in
  let factor := (r - 1) * (r + 1) in
  let cond := Rgtb b (Rabs (1 - r)) && Rltb b (1 + r) in
  let b_ := if cond then b else 1 in
  let area := if cond then kite_area r b_ 1 else 0 in
  (area, atan2 area (b2 + factor), atan2 area (b2 - factor)).

(** core/limb_dark.py:111-137 [s0s2] *)
Definition s0s2 (b r b2 r2 area kappa0 kappa1 : R) : R * R :=
  let bpr := b + r in
  let onembpr2 := (1 + bpr) * (1 - bpr) in
  let eta2 := 0.5 * r2 * (r2 + 2 * b2) in
  let s0_lrg := PI * (1 - r2) in
  let s2_lrg := 2 * s0_lrg + 4 * PI * (eta2 - 0.5) in
  let Alens := kappa1 + r2 * kappa0 - area * 0.5 in
  let s0_sml := PI - Alens in
  let s2_sml := 2 * s0_sml + 2 * (- (PI - kappa1) + 2 * eta2 * kappa0
                                  - 0.25 * area * (1 + 5 * r2 + b2)) in
  let delta := 4 * b * r in
  let cond := Rgtb (onembpr2 + delta) delta in
  (if cond then s0_lrg else s0_sml, if cond then s2_lrg else s2_sml).

(** core/limb_dark.py:140-184 [p_integral]: the integrands at one quadrature root, and
    the weighted sum.  [p_entry 1] is the first row of the returned array, [p_entry n]
    (n >= 3) the row n - 2. *)
Definition p_phi (kappa0 root : R) : R := (0.5 * kappa0) * root.
Definition p_cos (kappa0 root : R) : R := cos (p_phi kappa0 root + 0.5 * kappa0).
Definition p_s2 (kappa0 root : R) : R := (sin ((p_phi kappa0 root + 0.5 * kappa0) / 2))².
Definition p_k2cond (eps b r : R) : bool := Rltb (4 * b * r) (10 * eps).
Definition p_factor (eps b r : R) : R := if p_k2cond eps b r then 1 else 4 * b * r.
Definition p_k2 (eps b r b2 r2 : R) : R :=
  Rmax 0 ((1 - r2 - b2 + 2 * b * r) / p_factor eps b r).
(** lines 167-176 *)
Definition p_arg1 (eps b r b2 r2 c : R) : R :=
  let omz2 := Rmax 0 (r2 + b2 - 2 * b * r * c) in
  let z2 := 1 - omz2 in
  let z2 := if Rltb z2 (10 * eps) then 1 else z2 in
  let z3 := z2 * zero_safe_sqrt z2 in
  let cond := Rltb omz2 (10 * eps) in
  let omz2 := if cond then 1 else omz2 in
  let result := 2 * r * (r - b * c) * (1 - z3) / (3 * omz2) in
  if cond then 0 else result.
(** lines 177-183 *)
Definition p_argn (eps b r b2 r2 s2 : R) (n : nat) : R :=
  let f0 := Rmax 0 (if p_k2cond eps b r then 1 - r2
                    else p_factor eps b r * (p_k2 eps b r b2 r2 - s2)) in
  fpow f0 (0.5 * INR n) * (2 * r * (r - b + 2 * b * s2)).
(** line 184 *)
Definition p_entry (eps : R) (quad : list (R * R)) (b r b2 r2 kappa0 : R) (n : nat) : R :=
  (0.5 * kappa0) *
  Rsum (map (fun rw =>
     (if (n =? 1)%nat then p_arg1 eps b r b2 r2 (p_cos kappa0 (fst rw))
      else p_argn eps b r b2 r2 (p_s2 kappa0 (fst rw)) n) * snd rw) quad).

(** core/limb_dark.py:50-84 [solution_vector]: entry [n] of the vector. *)
Definition solution (eps : R) (quad : list (R * R)) (b r : R) (n : nat) : R :=
  let b := Rabs b in
  let r := Rabs r in
  let '(area, kappa0, kappa1) := kappas b r in
  let no_occ := Rgeb b (1 + r) in
  let full_occ := Rleb (1 + b) r in
  let cond := no_occ || full_occ in
  let b_ := if cond then 1 else b in
  let b2 := b_² in
  let r2 := r² in
  let '(s0, s2) := s0s2 b_ r b2 r2 area kappa0 kappa1 in
  let s0 := if no_occ then PI else s0 in
  let s0 := if full_occ then 0 else s0 in
  let s2 := if cond then 0 else s2 in
  let P m := if cond then 0 else p_entry eps quad b_ r b2 r2 kappa0 m in
  match n with
  | O => s0
  | S O => - P 1%nat - 2 * (kappa1 - PI) / 3
  | S (S O) => s2
  | _ => - P n
  end.
Definition solution_vector (l_max : nat) (eps : R) (quad : list (R * R)) (b r : R) : list R :=
  map (solution eps quad b r) (seq 0 (l_max + 1)).

(** scipy.special.binom on naturals (0 when k > n) *)
Fixpoint binom (n k : nat) : R :=
  match n, k with
  | _, O => 1
  | O, S _ => 0
  | S n', S k' => binom n' k' + binom n' (S k')
  end.

(** core/limb_dark.py:87-99 [greens_basis_transform] *)
Definition upd (g : nat -> R) (n : nat) (v : R) : nat -> R :=
  fun m => if (m =? n)%nat then v else g m.
Definition gb_u (u : list R) (n : nat) : R := nth n (- 1 :: u) 0.
Definition gb_p (u : list R) (n : nat) : R :=
  let size := S (length u) in
  (- 1) ^ (n + 1) * bigsum size (fun i => binom i n * gb_u u i).
Definition gb_loop (u : list R) : nat -> R :=
  let size := S (length u) in
  fold_left (fun g n => upd g n (gb_p u n / (INR n + 2) + g (n + 2)%nat))
            (rev (seq 2 (size - 2))) (fun _ => 0).
Definition gb_final (u : list R) : nat -> R :=
  let g := gb_loop u in
  let g := upd g 1 (gb_p u 1 + 3 * g 3%nat) in
  upd g 0 (gb_p u 0 + 2 * g 2%nat).
Definition greens_basis_transform (u : list R) : list R :=
  map (gb_final u) (seq 0 (S (length u))).

(** core/limb_dark.py:39-45: the normalised Green's coefficients *)
Definition flux_norm (g : list R) : R := PI * (nth 0 g 0 + nth 1 g 0 / 1.5).
Definition norm_coeffs (u : list R) : list R :=
  match u with
  | [] => [1 / PI]
  | _ => let g := greens_basis_transform u in map (fun x => x / flux_norm g) g
  end.

(** core/limb_dark.py:19-47 [light_curve] *)
Definition light_curve (eps : R) (quad : list (R * R)) (u : list R) (b r : R) : R :=
  let g := norm_coeffs u in
  dotp (solution_vector (length g - 1) eps quad b r) g - 1.
