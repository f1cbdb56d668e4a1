(** What get_R of multiprecision/rotation.py may answer. *)
From Coq Require Import Reals List.
From Coquelicot Require Import Complex.
From Verif Require Import Base.RealAux Model.MpRotation Spec.RotationSpec.
Import ListNotations.
Open Scope R_scope.

(** the rotation a call stands for: its axis and its angle *)
Definition call_rotation (q : R_call) : option (vec3 * R) :=
  match rc_name q, rc_obl q, rc_inc q with
  | R_obl, Some o, Some i => Some ((0, 0, 1), - o)
  | R_inc, Some o, Some i => Some ((- cos o, - sin o, 0), 1 / 2 * PI - i)
  | R_px, None, _ | R_px, _, None => Some ((1, 0, 0), - (1 / 2) * PI)
  | R_mx, None, _ | R_mx, _, None => Some ((1, 0, 0), 1 / 2 * PI)
  | _, _, _ => None
  end.
(** the answer a to the call q after the calls h: a name that cannot be served gives None or the inner dictionary; the others
    the matrices R returns for the rotation of q, at the working precision of this call or of an earlier one for the same rotation and degree *)
Definition answer_ok (Uinv : nat -> nat -> nat -> Complex.C) (tol : R) (h : list R_call) (q : R_call) (a : result R_answer) : Prop :=
  match call_rotation q with
  | None => a = Ok match rc_obl q, rc_inc q with Some _, Some _ => NoValue | _, _ => WholeDict end
  | Some (u, t) => (exists q' m, In q' (h ++ [q]) /\ rc_l q' = rc_l q /\ call_rotation q' = Some (u, t) /\ mp_R Uinv tol (rc_prec q') u t = Ok m /\ a = Ok (Matrices m)) \/
                   (exists e, mp_R Uinv tol (rc_prec q) u t = Err e /\ a = Err e)
  end.
