(** Specification vocabulary for transit timing: independent of the model. *)
From Coq Require Import Reals ZArith List.
Import ListNotations.
Open Scope R_scope.

(** residual of transit time [t] with number [i] w.r.t. the line t0 + P i *)
Definition residual (t0 P : R) (q : R * Z) : R := fst q - (t0 + P * IZR (snd q)).
(** sum of squared residuals *)
Fixpoint sum_sq (t0 P : R) (l : list (R * Z)) : R :=
  match l with [] => 0 | q :: l' => (residual t0 P q)² + sum_sq t0 P l' end.
Fixpoint lsum (l : list R) : R := match l with [] => 0 | x :: l' => x + lsum l' end.
(** [v] is an element of [l] nearest to [t] *)
Definition nearest (l : list R) (t v : R) : Prop :=
  In v l /\ forall x, In x l -> Rabs (t - v) <= Rabs (t - x).
Fixpoint increasing (l : list R) : Prop :=
  match l with
  | [] => True
  | a :: l' => (match l' with [] => True | b :: _ => a < b end) /\ increasing l'
  end.
Fixpoint nondecreasing (l : list R) : Prop :=
  match l with
  | [] => True
  | a :: l' => (match l' with [] => True | b :: _ => a <= b end) /\ nondecreasing l'
  end.
