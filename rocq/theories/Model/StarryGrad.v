(** starry/core/solution.py and the geometry of starry/light_curves.py evaluated on traced numbers (Model/AutoDiff.v):
    the functions of Model/SolutionVector.v and Model/StarryLightCurve.v with every operation replaced by its traced
    version. *)
From Coq Require Import Reals ZArith List Bool Arith.
From Verif Require Import Base.RealAux Base.Dict Model.LimbDark Model.Poly Model.Basis Model.S2fft Model.Rotation Model.Solution Model.RvMap Model.Surface Model.AutoDiff Model.LightCurveGrad Model.TransitGrad.
Import ListNotations.
Local Open Scope R_scope.
Local Notation "x +. y" := (dadd x y) (at level 50, left associativity).
Local Notation "x -. y" := (dsub x y) (at level 50, left associativity).
Local Notation "x *. y" := (dmul x y) (at level 40, left associativity).
Local Notation "x /. y" := (ddiv x y) (at level 40, left associativity).
Local Notation one := (cst 1).
Local Notation zero := (cst 0).

(** x ** n where n is an integer or a float whose value is the integer n >= 0, not differentiated (lax.integer_pow,
    lax.pow: the tangent is multiplied by n x^(n-1), by 0 for n = 0) *)
Definition dpown (x : D) (n : nat) : D := lift1 (fun v => v ^ n) (fun v t => t * (INR n * v ^ (n - 1))) x.

Section Traced.
Variable eps : R.
(** solution.py:30-36 [kappas] *)
Definition sol_kappas_d (b r : D) : D * D :=
  let b2 := dsq b in
  let factor := (r -. one) *. (r +. one) in
  let b_cond := Rgtb (val b) (Rabs (1 - val r)) && Rltb (val b) (1 + val r) in
  let b_ := dwhere b_cond b one in
  let area := dwhere b_cond (kite_area_d eps r b_ one) zero in
  (datan2 area (b2 +. factor), datan2 area (b2 -. factor)).

(** solution.py:43-58: h and [get] *)
Fixpoint q_low_d (lam : D) (v : nat) : D :=
  match v with
  | O => cst 2 *. lam +. cst PI
  | S O => cst (- 2) *. dcos lam
  | S (S v') => (cst (- 2) *. dpown (dcos lam) 1 *. dpown (dsin lam) (S v') +. cst (INR (S v')) *. q_low_d lam v') /. cst (INR (0 + v))
  end.
Fixpoint q_get_d (lam : D) (u v : nat) : D :=
  match u with
  | S (S u') => (cst 2 *. dpown (dcos lam) (S u') *. dpown (dsin lam) (v + 1) +. cst (INR (S u')) *. q_get_d lam u' v) /. cst (INR (u + v))
  | _ => q_low_d lam v
  end.
(** solution.py:60-76 *)
Definition q_entry_d (lam : D) (l nu : nat) : D :=
  let mu := (2 * l - nu)%nat in
  if ((l =? 1) && (nu =? 1))%nat then (cst PI +. cst 2 *. lam) /. cst 3
  else if ((mu mod 2 =? 0) && ((mu / 2) mod 2 =? 0))%nat then q_get_d lam (mu / 2 + 2) (nu / 2)
  else zero.

(** solution.py:109-138 *)
Definition pi_factor0_d (b r : D) : D := cst 4 *. b *. r.
Definition pi_k2cond_d (b r : D) : bool := Rltb (val (pi_factor0_d b r)) (10 * eps).
Definition pi_factor_d (b r : D) : D := dwhere (pi_k2cond_d b r) one (pi_factor0_d b r).
Definition pi_k2_d (b r : D) : D := dmax zero ((one -. dsq r -. dsq b +. cst 2 *. b *. r) /. pi_factor_d b r).
Definition pi_rcond_d (r : D) : bool := Rltb (val r) (10 * eps).
Definition pi_delta_d (b r : D) : D := (b -. r) /. (cst 2 *. dwhere (pi_rcond_d r) one r).
Definition pi_phi_d (kappa0 : D) (root : R) : D := (cst (/ 4) *. kappa0) *. cst (root + 1).
Definition pi_s2_d (kappa0 : D) (root : R) : D := dsq (dsin (pi_phi_d kappa0 root)).
Definition pi_a1_d (s2 : D) : D := s2 -. dsq s2.
Definition pi_a2_d (b r s2 : D) : D := dwhere (pi_rcond_d r) zero (pi_delta_d b r +. s2).
Definition pi_a4_d (s2 : D) : D := one -. cst 2 *. s2.
Definition pi_f0_d (b r s2 : D) : D :=
  dpow (dmax zero (dwhere (pi_k2cond_d b r) (one -. dsq r) (pi_factor_d b r *. (pi_k2_d b r -. s2)))) 1.5.
(** solution.py:154-165 *)
Definition pi_lin_d (b r kappa0 : D) (root : R) : D :=
  let phi := cst 2 *. (cst (/ 4) *. kappa0) *. cst root in
  let c := dcos (phi +. cst (/ 2) *. kappa0) in
  let omz2 := dsq r +. dsq b -. cst 2 *. b *. r *. c in
  let cond := Rltb (val omz2) (10 * eps) in
  let omz2 := dwhere cond one omz2 in
  let z2 := dmax zero (one -. omz2) in
  let result := cst 2 *. r *. (r -. b *. c) *. (one -. z2 *. dzero_safe_sqrt eps z2) /. (cst 3 *. omz2) in
  dwhere cond zero (cst 2 *. result).
(** solution.py:148-211 *)
Definition p_sum_d (kappa0 : D) (quad : list (R * R)) (f : R -> D) : D :=
  (cst (/ 4) *. kappa0) *. dsum (map (fun rw => f (fst rw) *. cst (snd rw)) quad).
Definition pint_entry_d (low high : list (R * R)) (b r kappa0 : D) (l nu : nat) : D :=
  let mu := (2 * l - nu)%nat in
  let s2 := pi_s2_d kappa0 in
  let fa3 root := dpown (cst 2 *. r) (l - 1) *. pi_f0_d b r (s2 root) in
  if ((mu =? 1) && (l =? 1))%nat then p_sum_d kappa0 high (pi_lin_d b r kappa0)
  else if ((mu mod 2 =? 0) && ((mu / 2) mod 2 =? 0))%nat then
    p_sum_d kappa0 low (fun t => cst 2 *. (cst 2 *. dpown (cst 2 *. r) (l + 2) *. dpown (pi_a1_d (s2 t)) ((mu + 4) / 4) *. dpown (pi_a2_d b r (s2 t)) (nu / 2)))
  else if ((mu =? 1) && (l mod 2 =? 0))%nat then
    p_sum_d kappa0 high (fun t => cst 2 *. (fa3 t *. dpown (pi_a1_d (s2 t)) (l / 2 - 1) *. pi_a4_d (s2 t)))
  else if (mu =? 1)%nat then
    p_sum_d kappa0 high (fun t => cst 2 *. (fa3 t *. dpown (pi_a1_d (s2 t)) ((l - 3) / 2) *. pi_a2_d b r (s2 t) *. pi_a4_d (s2 t)))
  else if (((mu - 1) mod 2 =? 0) && (((mu - 1) / 2) mod 2 =? 0) && negb (mu =? 0))%nat then
    p_sum_d kappa0 high (fun t => cst 2 *. (cst 2 *. fa3 t *. dpown (pi_a1_d (s2 t)) ((mu - 1) / 4) *. dpown (pi_a2_d b r (s2 t)) ((nu - 1) / 2)))
  else zero.

(** solution.py:14-27 and 203-204: entry l^2 + nu of the solution vector.  The code stacks the entries, so jax.grad of an
    entry also goes through the other ones with cotangent 0: see [starry_solution_d] *)
Definition sol_entry_d (low high : list (R * R)) (b r : D) (l nu : nat) : D :=
  let b := dabs b in
  let r := dabs r in
  let '(kappa0, kappa1) := sol_kappas_d b r in
  q_entry_d (cst (/ 2 * PI) -. kappa1) l nu -. pint_entry_d low high b r kappa0 l nu.
Definition starry_solution_d (low high : list (R * R)) (l_max : nat) (b r : D) : result (list D) :=
  if (l_max =? 0)%nat then Err ValueError
  else Ok (flat_map (fun l => map (fun nu => sol_entry_d low high b r l nu) (seq 0 (2 * l + 1))) (seq 0 (l_max + 1))).

(** light_curves.py:60-109 *)
Record occ_geometry_d := { gd_occ : bool; gd_b : D; gd_r : D; gd_theta_z : D }.
Definition geometry_d (r x y z : D) : occ_geometry_d :=
  let b := dsqrt (dsq x +. dsq y) in
  let b_rot := (Rgeb (val b) (1 + val r) || Rleb (val z) 0)%bool in
  {| gd_occ := negb b_rot; gd_b := dwhere b_rot one b; gd_r := dwhere b_rot one r; gd_theta_z := datan2 x y |}.
(** v @ M, the matrix is not differentiated *)
Definition vec_mat_d (N : nat) (v : list D) (M : matrix) : list D :=
  map (fun c => dbigsum N (fun r => nth r v zero *. cst (M (Z.of_nat r) (Z.of_nat c)))) (seq 0 N).
Definition dwhere_l (c : bool) (v w : list D) : list D := map (fun p => dwhere c (fst p) (snd p)) (combine v w).
(** light_curves.py:93-109, with an occultor, for [ydeg > 0]: the design vector *)
Definition design_matrix_d (low high : list (R * R)) (A2 : nat -> matrix) (total_deg : nat) (g : occ_geometry_d) : result (list D) :=
  rbind (starry_solution_d low high total_deg (gd_b g) (gd_r g)) (fun sT =>
  Ok (dwhere_l (gd_occ g) (vec_mat_d ((total_deg + 1) * (total_deg + 1)) sT (A2 total_deg)) (map cst (rT total_deg)))).
(** light_curves.py:78-91: [ydeg = 0] *)
Definition uniform_light_curve_d (high : list (R * R)) (u : list D) (g : occ_geometry_d) : D :=
  one +. dwhere (gd_occ g) (light_curve_d eps high u (gd_b g) (gd_r g)) zero.
End Traced.

(** core/rotation.py:474-491, as [cheb_list] and [order_list] of Model/Rotation.v *)
Definition cheb_list_d (deg : nat) (c x0 x1 : D) : list D :=
  fold_left (fun a n => a ++ [cst 2 *. nth (n - 1) a zero *. c -. nth (n - 2) a zero]) (seq 2 (deg - 1)) [x0; x1].
Definition order_list_d (deg : nat) (nt : list D) (neg : D -> D) : list D :=
  flat_map (fun ell => map (fun m => neg (nth (Z.to_nat (- m)) nt zero)) (zrange (- Z.of_nat ell) 0) ++
                       map (fun m => nth m nt zero) (seq 0 (ell + 1)))
           (seq 0 (deg + 1)).
Fixpoint updl_d (l : list D) (i : nat) (v : D) : list D :=
  match l, i with
  | [], _ => []
  | _ :: r, O => v :: r
  | a :: r, S i => a :: updl_d r i v
  end.
(** core/rotation.py:495-508 *)
Definition rz_impl_d (deg : nat) (cosmt sinmt M : list D) : list D :=
  fold_left (fun res ell =>
    fold_left (fun res j =>
      updl_d res (ell * ell + j)
        (nth (ell * ell + j) M zero *. nth (ell * ell + j) cosmt zero +.
         nth (ell * ell + 2 * ell - j) M zero *. nth (ell * ell + j) sinmt zero))
      (seq 0 (2 * ell + 1)) res)
    (seq 0 (deg + 1)) (repeat zero (deg ^ 2 + 2 * deg + 1)).
(** core/rotation.py:472-508 [dot_rz] *)
Definition dot_rz_d (deg : nat) (theta : D) (M : list D) : result (list D) :=
  let c := dcos theta in
  let s := dsin theta in
  let cosmt := order_list_d deg (cheb_list_d deg c one c) (fun v => v) in
  let sinmt := order_list_d deg (cheb_list_d deg c zero s) dneg in
  if Nat.eqb (length M) (deg ^ 2 + 2 * deg + 1) then Ok (rz_impl_d deg cosmt sinmt M) else Err ValueError.
(** core/rotation.py:62-83, the matrices are not differentiated *)
Definition dot_blocks_d (deg : nat) (Rm : nat -> nat -> nat -> R) (M : list D) : list D :=
  flat_map (fun l => map (fun c => dbigsum (2 * l + 1) (fun r => nth (l * l + r) M zero *. cst (Rm l r c))) (seq 0 (2 * l + 1)))
           (seq 0 (deg + 1)).

Section Flux.
Variable as_euler : R * R * R -> R * R * R.
(** core/rotation.py:16-83 [dot_rotation_matrix]: the axis is not differentiated, the angle only for rotations about z (the
    only ones of [left_project] by an angle that depends on theta or on the positions) *)
Definition dot_rotation_matrix_d (deg : nat) (x y z : option R) (theta : option D) (M : list D) : result (list D) :=
  match theta with
  | None => Ok M
  | Some theta =>
    match x, y with
    | None, None => match z with None => Err ValueError | Some _ => dot_rz_d deg theta M end
    | _, _ =>
      let x := none0 x in let y := none0 y in let z := none0 z in
      if Nat.eqb (length M) (deg ^ 2 + 2 * deg + 1)
      then Ok (dot_blocks_d deg (rotation_matrix as_euler deg x y z (val theta)) M) else Err ValueError
    end
  end.
(** core/rotation.py:187-217 [left_project]: inc and obl are not differentiated *)
Definition left_project_d (deg : nat) (inc obl : option R) (theta theta_z : option D) (y : list D) : result (list D) :=
  let m_theta := option_map dneg theta in
  let m_theta_z := option_map dneg theta_z in
  let '(ax, ay, az, angle) := sky_projection_axis_angle inc obl in
  rbind (dot_rotation_matrix_d deg (Some 1) None None (Some (cst (- (1 / 2) * PI))) y) (fun y =>
  rbind (dot_rotation_matrix_d deg None None (Some 1) m_theta y) (fun y =>
  rbind (dot_rotation_matrix_d deg ax ay az (option_map cst angle) y) (fun y =>
  dot_rotation_matrix_d deg None None (Some 1) m_theta_z y))).

(** core/polynomials.py: a Pijk whose coefficients are traced; as in Model/Poly.v *)
Record pijk_d := { pd_data : list (ijk * D); pd_degree : Z }.
Definition make_pijk_d (data : list (ijk * D)) (degree : option Z) : result pijk_d :=
  rbind (match degree with None => max_degree (keys data) | Some d => Ok d end) (fun d =>
  rbind (all_diagonal (keys data)) (fun _ => Ok {| pd_data := data; pd_degree := d |})).
(** polynomials.py:106-112 *)
Definition todense_d (p : pijk_d) : result (list D) :=
  match pd_data p with
  | [] => Err ValueError
  | _ =>
    rbind (indices (keys (pd_data p))) (fun ns =>
    Ok (map (fun n => dsum (map (fun iv => if (fst iv =? Z.of_nat n)%Z then snd iv else zero)
                                (combine ns (map snd (pd_data p)))))
            (seq 0 (Z.to_nat ((pd_degree p + 1) ^ 2)))))
  end.
(** polynomials.py:114-120 *)
Definition from_dense_data_d (x : list D) : list (ijk * D) :=
  fold_left (fun d i => dset ijk_eqb (n2ijk (Z.of_nat i)) (nth i x zero) d) (seq 0 (length x)) [].
Definition from_dense_d (x : list D) (degree : option Z) : result pijk_d := make_pijk_d (from_dense_data_d x) degree.
(** polynomials.py:155-167 *)
Definition add_to_d (k : ijk) (v : D) (d : list (ijk * D)) : list (ijk * D) := dupd ijk_eqb k (fun x => x +. v) zero d.
Definition mul_step_d (k1 : ijk) (v1 : D) (k2 : ijk) (v2 : D) (d : list (ijk * D)) : list (ijk * D) :=
  let '(i1, j1, k1) := k1 in let '(i2, j2, k2) := k2 in
  let v1v2 := v1 *. v2 in
  if (k1 + k2 =? 2)%Z then
    let d := add_to_d (i1 + i2, j1 + j2, 0)%Z v1v2 d in
    let d := add_to_d (i1 + i2 + 2, j1 + j2, 0)%Z (dneg v1v2) d in
    add_to_d (i1 + i2, j1 + j2 + 2, 0)%Z (dneg v1v2) d
  else add_to_d (i1 + i2, j1 + j2, k1 + k2)%Z v1v2 d.
Definition mul_data_d (u v : list (ijk * D)) : list (ijk * D) :=
  fold_left (fun d a => fold_left (fun d b => mul_step_d (fst a) (snd a) (fst b) (snd b) d) v d) u [].
Definition pijk_mul_d (u v : pijk_d) : result pijk_d := make_pijk_d (mul_data_d (pd_data u) (pd_data v)) None.
(** a @ b *)
Definition dot_vec_d (a b : list D) : result D := if Nat.eqb (length a) (length b) then Ok (ddot a b) else Err TypeError.
Definition pijk_dot_d (p : pijk_d) (v : list D) : result D := rbind (todense_d p) (fun pd => dot_vec_d pd v).
(** A1(deg) @ y and [1, *u] @ U(udeg): the matrices are not differentiated *)
Definition A1_mul_d (deg : nat) (y : list D) : list D :=
  let N := ((deg + 1) * (deg + 1))%nat in
  map (fun r => dbigsum N (fun n => cst (A1 (Z.of_nat deg) (Z.of_nat r) (Z.of_nat n)) *. nth n y zero)) (seq 0 N).
Definition ld_row_d (u : list D) : list D :=
  let N := ((length u + 1) * (length u + 1))%nat in
  map (fun n => dbigsum (length u + 1) (fun i => nth i (one :: u) zero *. cst (U_matrix (length u) (Z.of_nat i) (Z.of_nat n)))) (seq 0 N).

(** what the light curve uses of a Surface: the degree and the dense coefficients of its map (Ylm.todense), the
    inclination and the obliquity (not differentiated), the limb darkening and the amplitude *)
Record surface_d := { sd_ydeg : nat; sd_y : list D; sd_inc : option R; sd_obl : option R; sd_u : list D; sd_amplitude : D }.
(** light_curves.py:111-121 *)
Definition rotated_y_d (s : surface_d) (theta : option D) (theta_z : D) : result (list D) :=
  if (sd_ydeg s =? 0)%nat then Ok (sd_y s)
  else left_project_d (sd_ydeg s) (sd_inc s) (sd_obl s) theta (Some theta_z) (sd_y s).
(** light_curves.py:123-128 *)
Definition ld_poly_d (u : list D) : result pijk_d :=
  if (length u =? 0)%nat then from_dense_d [one] None else from_dense_d (ld_row_d u) (Some (Z.of_nat (length u))).
(** light_curves.py:138 *)
Definition ld_norm_d (u : list D) (p_u : pijk_d) : result D :=
  rbind (pijk_dot_d p_u (map cst (rT (length u)))) (fun f => Ok (cst PI /. f)).
(** light_curves.py:130-140 *)
Definition flux_of_d (s : surface_d) (design ry : list D) : result D :=
  rbind (ld_poly_d (sd_u s)) (fun p_u =>
  rbind (from_dense_d (A1_mul_d (sd_ydeg s) ry) (Some (Z.of_nat (sd_ydeg s)))) (fun p_y =>
  rbind (pijk_mul_d p_y p_u) (fun p_yu =>
  rbind (ld_norm_d (sd_u s) p_u) (fun norm =>
  rbind (pijk_dot_d p_yu design) (fun f =>
  Ok (sd_amplitude s *. f *. norm)))))).
Variable eps : R.
Variable low high : list (R * R).
Variable A2 : nat -> matrix.
(** light_curves.py:17-140 [surface_light_curve] with an occultor of radius r at (x, y, z) *)
Definition occulted_light_curve_d (s : surface_d) (r x y z : D) (theta : option D) : result D :=
  let g := geometry_d r x y z in
  if (sd_ydeg s =? 0)%nat then Ok (uniform_light_curve_d eps high (sd_u s) g)
  else rbind (design_matrix_d eps low high A2 (sd_ydeg s + length (sd_u s)) g) (fun design =>
       rbind (rotated_y_d s theta (gd_theta_z g)) (fun ry => flux_of_d s design ry)).
(** light_curves.py:17-140 [surface_light_curve] without occultor *)
Definition bare_light_curve_d (s : surface_d) (theta : option D) : result D :=
  rbind (rotated_y_d s theta zero) (fun ry => flux_of_d s (map cst (rT (sd_ydeg s + length (sd_u s)))) ry).
End Flux.
