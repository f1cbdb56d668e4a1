(** Model of starry/multiprecision/precision.py.  [rule] is the Gauss-Legendre rule of the order asked for, [low], [high] those of
    Model/SolutionVector.v; the other parameters are those of Model/MpFlux.v and Model/StarryLightCurve.v. *)
From Coq Require Import Reals ZArith List Bool Arith.
From Coquelicot Require Import Complex.
From Verif Require Import Base.RealAux Base.Dict Model.Poly Model.Basis Model.Rotation Model.Solution Model.SolutionVector Model.Ylm Model.Surface Model.StarryLightCurve
  Model.MpBasis Model.MpLightCurve Model.MpSolution Model.MpRotation Model.MpFlux.
From Verif Require Model.LimbDark.
Import ListNotations.
Open Scope R_scope.

(** precision.py:25-26, 47-48: the default impact parameter *)
Definition precision_b (r : R) (b : option R) : R := match b with Some b => b | None => if Rltb r 1 then 1 - r else r end.
Section Precision.
Variable as_euler : R * R * R -> R * R * R.
Variable eps : R.
Variable low high : list (R * R).
Variable A2 : nat -> matrix.
Variable quad : (R -> R) -> R -> R -> R.
Variable Uinv : nat -> nat -> nat -> C.
Variable tol prec : R.
Variable A2m : nat -> matrix.

(** precision.py:35-53 [limb_dark_light_curve]; y is the default of flux, the empty tuple *)
Definition limb_dark_precision (udeg : nat) (r : R) (b : option R) : result R :=
  let b := precision_b r b in
  let u := repeat 1 udeg in
  rbind (mp_flux quad Uinv tol prec A2m 0 udeg (PI / 2) 0 b r (Sequence []) 0 u true) (fun expected =>
  Ok (Rabs (1 + LimbDark.light_curve eps high u b r - expected))).
(** precision.py:10-32 [starry_light_curve]; the default inclination of a Surface is pi/2 *)
Definition starry_precision (ydeg udeg : nat) (r : R) (b : option R) : result R :=
  let b := precision_b r b in
  let u := repeat 1 udeg in
  let y := repeat 1 ((ydeg + 1) * (ydeg + 1)) in
  rbind (ylm_from_dense y true) (fun v =>
  rbind (make_surface (Some v) (Some (PI / 2)) None u None 1 false 0 1 None) (fun surface =>
  rbind (mp_flux quad Uinv tol prec A2m ydeg udeg (PI / 2) 0 b r (Array y) 0 u true) (fun expected =>
  rbind (surface_light_curve as_euler eps low high A2 surface (Some r) None (Some b) (Some 1) None) (fun calc =>
  Ok (Rabs (calc - expected)))))).
End Precision.
