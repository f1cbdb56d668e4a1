(** Specification of n-dimensional arrays: shape and element access. *)
From Coq Require Import List.
From Verif.Model Require Import Transforms.
Import ListNotations.

Fixpoint has_shape {A} (s : list nat) (x : nd A) {struct s} : Prop :=
  match s, x with
  | [], Leaf _ => True
  | n :: s', Axis l => length l = n /\ fold_right (fun y P => has_shape s' y /\ P) True l
  | _, _ => False
  end.
(** x[i, j, ...]; None when out of bounds or the wrong number of indices *)
Fixpoint get {A} (idx : list nat) (x : nd A) {struct idx} : option A :=
  match idx, x with
  | [], Leaf a => Some a
  | i :: idx', Axis l => match nth_error l i with Some y => get idx' y | None => None end
  | _, _ => None
  end.
