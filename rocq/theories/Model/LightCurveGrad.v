(** core/limb_dark.py evaluated on traced numbers (Model/AutoDiff.v): what jax.jvp and jax.grad compute.  The functions
    are those of Model/LimbDark.v with every operation replaced by its traced version. *)
From Coq Require Import Reals List Bool Arith.
From Verif Require Import Base.RealAux Model.LimbDark Model.AutoDiff.
Import ListNotations.
Local Open Scope R_scope.
Local Notation "x +. y" := (dadd x y) (at level 50, left associativity).
Local Notation "x -. y" := (dsub x y) (at level 50, left associativity).
Local Notation "x *. y" := (dmul x y) (at level 40, left associativity).
Local Notation "x /. y" := (ddiv x y) (at level 40, left associativity).
Local Notation one := (cst 1).
Local Notation zero := (cst 0).

Section Traced.
Variable eps : R.
(** core/limb_dark.py:187-196 [kite_area] *)
Definition kite_square_d (a b c : D) : D :=
  let '(a, b) := (dmin a b, dmax a b) in
  let '(b, c) := (dmin b c, dmax b c) in
  let '(a, b) := (dmin a b, dmax a b) in
  (a +. (b +. c)) *. (c -. (a -. b)) *. (c +. (a -. b)) *. (a +. (b -. c)).
Definition kite_area_d (a b c : D) : D := dzero_safe_sqrt eps (dmax zero (kite_square_d a b c)).

(** core/limb_dark.py:102-108 [kappas] *)
Definition kappas_d (b r : D) : D * D * D :=
  let b2 := dsq b in
  let factor := (r -. one) *. (r +. one) in
  let cond := Rgtb (val b) (Rabs (1 - val r)) && Rltb (val b) (1 + val r) in
  let b_ := dwhere cond b one in
  let area := dwhere cond (kite_area_d r b_ one) zero in
  (area, datan2 area (b2 +. factor), datan2 area (b2 -. factor)).

(** core/limb_dark.py:111-137 [s0s2] *)
Definition s0s2_d (b r b2 r2 area kappa0 kappa1 : D) : D * D :=
  let bpr := b +. r in
  let onembpr2 := (one +. bpr) *. (one -. bpr) in
  let eta2 := cst 0.5 *. r2 *. (r2 +. cst 2 *. b2) in
  let s0_lrg := cst PI *. (one -. r2) in
  let s2_lrg := cst 2 *. s0_lrg +. cst (4 * PI) *. (eta2 -. cst 0.5) in
  let Alens := kappa1 +. r2 *. kappa0 -. area *. cst 0.5 in
  let s0_sml := cst PI -. Alens in
  let s2_sml := cst 2 *. s0_sml +. cst 2 *. (dneg (cst PI -. kappa1) +. cst 2 *. eta2 *. kappa0
                                  -. cst 0.25 *. area *. (one +. cst 5 *. r2 +. b2)) in
  let delta := cst 4 *. b *. r in
  let cond := Rgtb (val (onembpr2 +. delta)) (val delta) in
  (dwhere cond s0_lrg s0_sml, dwhere cond s2_lrg s2_sml).

(** core/limb_dark.py:140-184 [p_integral]: lines 149-164 *)
Definition p_phi_d (kappa0 : D) (root : R) : D := (cst 0.5 *. kappa0) *. cst root.
Definition p_cos_d (kappa0 : D) (root : R) : D := dcos (p_phi_d kappa0 root +. cst 0.5 *. kappa0).
Definition p_s2_d (kappa0 : D) (root : R) : D := dsq (dsin ((p_phi_d kappa0 root +. cst 0.5 *. kappa0) /. cst 2)).
Definition p_k2cond_d (b r : D) : bool := Rltb (val (cst 4 *. b *. r)) (10 * eps).
Definition p_factor_d (b r : D) : D := dwhere (p_k2cond_d b r) one (cst 4 *. b *. r).
Definition p_k2_d (b r b2 r2 : D) : D :=
  dmax zero ((one -. r2 -. b2 +. cst 2 *. b *. r) /. p_factor_d b r).
(** core/limb_dark.py:167-176 *)
Definition p_arg1_d (b r b2 r2 c : D) : D :=
  let omz2 := dmax zero (r2 +. b2 -. cst 2 *. b *. r *. c) in
  let z2 := one -. omz2 in
  let z2 := dwhere (Rltb (val z2) (10 * eps)) one z2 in
  let z3 := z2 *. dzero_safe_sqrt eps z2 in
  let cond := Rltb (val omz2) (10 * eps) in
  let omz2 := dwhere cond one omz2 in
  let result := cst 2 *. r *. (r -. b *. c) *. (one -. z3) /. (cst 3 *. omz2) in
  dwhere cond zero result.
(** core/limb_dark.py:177-183 *)
Definition p_argn_d (b r b2 r2 s2 : D) (n : nat) : D :=
  let f0 := dmax zero (dwhere (p_k2cond_d b r) (one -. r2) (p_factor_d b r *. (p_k2_d b r b2 r2 -. s2))) in
  dpow f0 (0.5 * INR n) *. (cst 2 *. r *. (r -. b +. cst 2 *. b *. s2)).
(** core/limb_dark.py:184 *)
Definition p_entry_d (quad : list (R * R)) (b r b2 r2 kappa0 : D) (n : nat) : D :=
  (cst 0.5 *. kappa0) *.
  dsum (map (fun rw =>
     (if (n =? 1)%nat then p_arg1_d b r b2 r2 (p_cos_d kappa0 (fst rw))
      else p_argn_d b r b2 r2 (p_s2_d kappa0 (fst rw)) n) *. cst (snd rw)) quad).

(** core/limb_dark.py:50-84 [solution_vector]: entry [n] of the vector *)
Definition solution_d (quad : list (R * R)) (b r : D) (n : nat) : D :=
  let b := dabs b in
  let r := dabs r in
  let '(area, kappa0, kappa1) := kappas_d b r in
  let no_occ := Rgeb (val b) (1 + val r) in
  let full_occ := Rleb (1 + val b) (val r) in
  let cond := no_occ || full_occ in
  let b_ := dwhere cond one b in
  let b2 := dsq b_ in
  let r2 := dsq r in
  let '(s0, s2) := s0s2_d b_ r b2 r2 area kappa0 kappa1 in
  let s0 := dwhere no_occ (cst PI) s0 in
  let s0 := dwhere full_occ zero s0 in
  let s2 := dwhere cond zero s2 in
  let P m := dwhere cond zero (p_entry_d quad b_ r b2 r2 kappa0 m) in
  match n with
  | O => s0
  | S O => dneg (P 1%nat) -. cst 2 *. (kappa1 -. cst PI) /. cst 3
  | S (S O) => s2
  | _ => dneg (P n)
  end.
Definition solution_vector_d (l_max : nat) (quad : list (R * R)) (b r : D) : list D :=
  map (solution_d quad b r) (seq 0 (l_max + 1)).

(** core/limb_dark.py:87-99 [greens_basis_transform] *)
Definition upd_d (g : nat -> D) (n : nat) (v : D) : nat -> D := fun m => if (m =? n)%nat then v else g m.
Definition gb_u_d (u : list D) (n : nat) : D := nth n (cst (- 1) :: u) zero.
Definition gb_p_d (u : list D) (n : nat) : D :=
  let size := S (length u) in
  cst ((- 1) ^ (n + 1)) *. dbigsum size (fun i => cst (binom i n) *. gb_u_d u i).
Definition gb_loop_d (u : list D) : nat -> D :=
  let size := S (length u) in
  fold_left (fun g n => upd_d g n (gb_p_d u n /. cst (INR n + 2) +. g (n + 2)%nat)) (rev (seq 2 (size - 2))) (fun _ => zero).
Definition gb_final_d (u : list D) : nat -> D :=
  let g := gb_loop_d u in
  let g := upd_d g 1 (gb_p_d u 1 +. cst 3 *. g 3%nat) in
  upd_d g 0 (gb_p_d u 0 +. cst 2 *. g 2%nat).
Definition greens_basis_transform_d (u : list D) : list D := map (gb_final_d u) (seq 0 (S (length u))).
(** core/limb_dark.py:39-45 *)
Definition norm_coeffs_d (u : list D) : list D :=
  match u with
  | [] => [cst (1 / PI)]
  | _ => let g := greens_basis_transform_d u in
         let norm := cst PI *. (nth 0 g zero +. nth 1 g zero /. cst 1.5) in map (fun x => x /. norm) g
  end.
(** core/limb_dark.py:19-47 [light_curve] *)
Definition light_curve_d (quad : list (R * R)) (u : list D) (b r : D) : D :=
  let g := norm_coeffs_d u in
  ddot (solution_vector_d (length g - 1) quad b r) g -. one.
End Traced.

(** jax.grad of [light_curve] with respect to b, r and the coefficient u_k: the tangent when that input has tangent 1 and the
    others 0 *)
Definition tangent (x : D) : option R := option_map snd x.
Definition seed (k : nat) (u : list R) : list D := map (fun i => Some (nth i u 0, if (i =? k)%nat then 1 else 0)) (seq 0 (length u)).
Definition grad_b (eps : R) (quad : list (R * R)) (u : list R) (b r : R) : option R :=
  tangent (light_curve_d eps quad (map cst u) (Some (b, 1)) (cst r)).
Definition grad_r (eps : R) (quad : list (R * R)) (u : list R) (b r : R) : option R :=
  tangent (light_curve_d eps quad (map cst u) (cst b) (Some (r, 1))).
Definition grad_u (eps : R) (quad : list (R * R)) (k : nat) (u : list R) (b r : R) : option R :=
  tangent (light_curve_d eps quad (seed k u) (cst b) (cst r)).
