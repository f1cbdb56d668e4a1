(** Model of starry/multiprecision/flux.py.  The matrices, the solution vector and rT are those of Model/MpBasis.v, MpRotation.v, MpSolution.v and
    Solution.v (multiprecision/solution.py:194-231 [rT] is the text of the core's); what the caches return is in C80, C82 and C84, here each is what its
    function returns at the working precision of the call. *)
From Coq Require Import Reals ZArith List Bool Arith.
From Coquelicot Require Import Complex.
From Verif Require Import Base.RealAux Base.Dict Model.Poly Model.Basis Model.Rotation Model.Solution Model.SolutionVector Model.Surface Model.StarryLightCurve
  Model.MpBasis Model.MpLightCurve Model.MpSolution Model.MpRotation.
Import ListNotations.
Open Scope R_scope.

(** the map given by the caller: a tuple or list (the default is the empty tuple), which has no method tolist, or an array *)
Inductive y_arg := Sequence (l : list R) | Array (l : list R).
Definition y_list (y : y_arg) : list R := match y with Sequence l => l | Array l => l end.
Definition y_tolist (y : y_arg) : result (list R) := match y with Sequence _ => Err AttributeError | Array l => Ok l end.
(** mpmath's product of a row and a column *)
Definition mp_row_col (a b : list R) : result R := if Nat.eqb (length a) (length b) then Ok (dotp a b) else Err ValueError.

Section Flux.
Variable quad : (R -> R) -> R -> R -> R.
Variable Uinv : nat -> nat -> nat -> C.
Variable tol prec : R.
(** what multiprecision A2 returns *)
Variable A2m : nat -> matrix.

(** flux.py:34-38: the four matrices R_px, R_mx, R_obl, R_inc, only for a map of positive degree *)
Definition mp_matrices (ydeg : nat) (inc obl : R) : result (option (blocks * blocks * blocks * blocks)) :=
  if (0 <? ydeg)%nat then
    rbind (R_build Uinv tol prec Kpx) (fun px => rbind (R_build Uinv tol prec Kmx) (fun mx =>
    rbind (R_build Uinv tol prec (Kobl obl)) (fun ob => rbind (R_build Uinv tol prec (Kinc inc obl)) (fun ic => Ok (Some (px, mx, ob, ic))))))
  else Ok None.
(** flux.py:45-51 [rotate_y]; the matrices are not bound when ydeg = 0 *)
Definition mp_rotate_y (ydeg : nat) (m : option (blocks * blocks * blocks * blocks)) (phi : R) (y : list R) : result (list R) :=
  match m with
  | None => Err NameError
  | Some (px, mx, ob, ic) =>
      rbind (mp_dot_matrices ydeg px y) (fun y => rbind (mp_dot_rz ydeg phi y) (fun y => rbind (mp_dot_matrices ydeg mx y) (fun y =>
      rbind (mp_dot_matrices ydeg ob y) (fun y => mp_dot_matrices ydeg ic y))))
  end.
(** flux.py:33, 40: A1 @ y_rotated *)
Definition mp_A1_mul (ydeg : nat) (y : list R) : list R := A1m_mul (fun d => mp_A1 (Z.of_nat d)) ydeg y.
(** flux.py:53-56 [rot_flux]: rT has (ydeg + udeg + 1)^2 entries *)
Definition mp_rot_flux (ydeg udeg : nat) (m : option (blocks * blocks * blocks * blocks)) (y : y_arg) (phi : R) : result R :=
  rbind (y_tolist y) (fun y => rbind (mp_rotate_y ydeg m phi y) (fun y => mp_row_col (mp_A1_mul ydeg y) (rT (ydeg + udeg)))).
(** flux.py:65-71: the rotated map; without rotate, y_rotated is not bound when ydeg > 0 *)
Definition mp_occ_map (ydeg : nat) (m : option (blocks * blocks * blocks * blocks)) (y : y_arg) (phi theta_z : R) (rotate : bool) : result (list R) :=
  if (0 <? ydeg)%nat then
    rbind (y_tolist y) (fun y => if rotate then rbind (mp_rotate_y ydeg m phi y) (fun y => mp_dot_rz ydeg theta_z y) else Err NameError)
  else Ok [1].
(** flux.py:76-86: the product with the limb darkening polynomial and the normalisation *)
Definition mp_darken (u py : list R) : result (R * list R) :=
  if (0 <? length u)%nat then
    let pu := ld_row u in
    rbind (mp_row_col pu (rT (length u))) (fun f =>
    if Reqb f 0 then Err ZeroDivisionError
    else rbind (from_dense pu None) (fun p1 => rbind (from_dense py None) (fun p2 => rbind (pijk_mul p1 p2) (fun p =>
         Ok (PI / f, map (fun i => get0 (n2ijk (Z.of_nat i)) (p_data p)) (seq 0 (Z.to_nat (p_degree p + 1) * Z.to_nat (p_degree p + 1))))))))
  else Ok (1, py).
(** flux.py:58-89 [occ_flux] *)
Definition mp_occ_flux (ydeg udeg : nat) (m : option (blocks * blocks * blocks * blocks)) (y : y_arg) (b r phi : R) (u : list R) (rotate : bool) : result R :=
  let theta_z := atan2 0 b in
  rbind (mp_sT quad (ydeg + udeg) b r) (fun sT =>
  let x := vec_mat ((ydeg + udeg + 1) * (ydeg + udeg + 1)) sT (A2m (ydeg + udeg)%nat) in
  rbind (mp_occ_map ydeg m y phi theta_z rotate) (fun y =>
  rbind (mp_darken u (mp_A1_mul ydeg y)) (fun np => mp_row_col (map (fun c => fst np * c) (snd np)) x))).
(** flux.py:91-103 [impl], 23-43: flux(ydeg, udeg, inc, obl)(b, r, y, phi, u, rotate) *)
Definition mp_flux (ydeg udeg : nat) (inc obl b r : R) (y : y_arg) (phi : R) (u : list R) (rotate : bool) : result R :=
  rbind (mp_matrices ydeg inc obl) (fun m =>
  if negb (length u =? udeg)%nat then Err AssertionError
  else if ((0 <? ydeg) && negb (length (y_list y) =? (ydeg + 1) * (ydeg + 1)))%nat%bool then Err AssertionError
  else if Rgeb (Rabs b) (r + 1) then mp_rot_flux ydeg udeg m y phi
  else if (Rgtb r 1 && Rleb (Rabs b) (r - 1))%bool then Ok 0
  else mp_occ_flux ydeg udeg m y b r phi u rotate).
End Flux.
