(** Model of automatic differentiation through the primitives that the code uses.

    A traced number is a value with a tangent, [Some (value, tangent)]; [None] stands for a number that went through a
    primitive whose partial derivative is not a finite number (or whose value is not a number).  The rules are those of
    jax/_src/lax/lax.py (ad.defjvp and ad.defjvp2), written here from its documentation; a selection (jnp.where) is
    [None] as soon as one of the branches is: reverse mode (jax.grad) sends the cotangent 0 through the branch not
    taken, and 0 * inf is nan.  When all the coefficients are finite forward and reverse mode agree. *)
From Coq Require Import Reals List Bool.
From Verif Require Import Base.RealAux Model.LimbDark.
Import ListNotations.
Local Open Scope R_scope.

Definition D := option (R * R).
Definition val (x : D) : R := match x with Some (v, _) => v | None => 0 end.
(** constants, stop-gradients, jnp.zeros_like, jnp.ones_like *)
Definition cst (v : R) : D := Some (v, 0).
Definition lift1 (f : R -> R) (df : R -> R -> R) (x : D) : D := match x with Some (v, t) => Some (f v, df v t) | None => None end.
Definition lift2 (f : R -> R -> R) (df : R -> R -> R -> R -> R) (x y : D) : D :=
  match x, y with Some (v, t), Some (w, s) => Some (f v w, df v w t s) | _, _ => None end.
Definition dneg : D -> D := lift1 Ropp (fun _ t => - t).
Definition dadd : D -> D -> D := lift2 Rplus (fun _ _ t s => t + s).
Definition dsub : D -> D -> D := lift2 Rminus (fun _ _ t s => t - s).
Definition dmul : D -> D -> D := lift2 Rmult (fun v w t s => t * w + v * s).
Definition ddiv (x y : D) : D :=
  if Req_EM_T (val y) 0 then None else lift2 Rdiv (fun v w t s => t / w + (- s * v) / w ^ 2) x y.
(** jnp.square *)
Definition dsq : D -> D := lift1 Rsqr (fun v t => t * (2 * v)).
(** jnp.abs: the tangent is multiplied by the sign, which is 0 at 0 *)
Definition sgn (v : R) : R := if Rltb 0 v then 1 else if Rltb v 0 then - 1 else 0.
Definition dabs : D -> D := lift1 Rabs (fun v t => t * sgn v).
Definition dsin : D -> D := lift1 sin (fun v t => t * cos v).
Definition dcos : D -> D := lift1 cos (fun v t => - (t * sin v)).
(** jnp.maximum, jnp.minimum: at a tie each argument gets half of the tangent (lax._balanced_eq) *)
Definition balanced (x z y : R) : R := (if Req_EM_T x z then 1 else 0) / (if Req_EM_T y z then 2 else 1).
Definition dmax : D -> D -> D := lift2 Rmax (fun v w t s => t * balanced v (Rmax v w) w + s * balanced w (Rmax v w) v).
Definition dmin : D -> D -> D := lift2 Rmin (fun v w t s => t * balanced v (Rmin v w) w + s * balanced w (Rmin v w) v).
(** jnp.arctan2(y, x) *)
Definition datan2 (y x : D) : D :=
  if Req_EM_T (val x ^ 2 + val y ^ 2) 0 then None
  else lift2 atan2 (fun v w t s => t * (w / (w ^ 2 + v ^ 2)) + s * (- v / (w ^ 2 + v ^ 2))) y x.
(** x ** y with an exponent y that is not differentiated *)
Definition dpow (x : D) (y : R) : D :=
  if Rltb (val x) 0 then None else if (Rleb (val x) 0 && Rltb y 1)%bool then None
  else lift1 (fun v => fpow v y) (fun v t => t * (y * fpow v (y - 1))) x.
(** jnp.where: the condition is not differentiated *)
Definition dwhere (c : bool) (x y : D) : D := match x, y with Some _, Some _ => if c then x else y | _, _ => None end.
(** utils.py:11-25 [zero_safe_sqrt] with its derivative rule *)
Definition dzero_safe_sqrt (eps : R) (x : D) : D :=
  if Rltb (val x) 0 then None else if Req_EM_T (zero_safe_sqrt_denom eps (val x)) 0 then None
  else match x with Some (v, t) => Some (zero_safe_sqrt_jvp eps v t) | None => None end.
Definition dsum (l : list D) : D := fold_right dadd (cst 0) l.
Fixpoint dbigsum (n : nat) (f : nat -> D) : D := match n with O => cst 0 | S k => dadd (dbigsum k f) (f k) end.
Definition ddot (a b : list D) : D := dsum (map (fun p => dmul (fst p) (snd p)) (combine a b)).
