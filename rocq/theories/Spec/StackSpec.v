(** Specification vocabulary for ObjectStack.vmap. *)
From Coq Require Import Reals ZArith List Arith.
From Verif Require Import Base.RealAux Model.Stack.
Import ListNotations.
Local Open Scope nat_scope.

(** indices inside an array of the given shape *)
Definition in_range (s idx : list nat) : Prop := Forall2 lt idx s.
(** same shape, same elements *)
Definition arr_eq (x y : arr) : Prop := ashape x = ashape y /\ forall idx, in_range (ashape x) idx -> aget x idx = aget y idx.
(** y is the i-th slice of x along axis a *)
Definition slice_of (a i : nat) (x y : arr) : Prop :=
  a < length (ashape x) /\ i < nth a (ashape x) 0 /\
  ashape y = firstn a (ashape x) ++ skipn (S a) (ashape x) /\
  forall idx, in_range (ashape y) idx -> aget y idx = aget x (firstn a idx ++ i :: skipn a idx).
(** axis specification valid for mapping over n objects *)
Definition axis_ok (n : nat) (x : arr) (a : axis) : Prop :=
  match a with None => True | Some a => (0 <= a < Z.of_nat (length (ashape x)))%Z /\ nth (Z.to_nat a) (ashape x) 0 = n end.
Definition leaf_slice (i : nat) (x : arr) (a : axis) (y : arr) : Prop :=
  match a with None => y = x | Some a => y = take (Z.to_nat a) i x end.
(** args' has the structure of args, with every mapped leaf replaced by its i-th slice *)
Inductive Forall3 {A B C} (P : A -> B -> C -> Prop) : list A -> list B -> list C -> Prop :=
| F3_nil : Forall3 P [] [] []
| F3_cons a b c la lb lc : P a b c -> Forall3 P la lb lc -> Forall3 P (a :: la) (b :: lb) (c :: lc).
Definition sliced (i : nat) (axes : list axis) (args args' : list (tree arr)) : Prop :=
  map structure args' = map structure args /\ Forall3 (leaf_slice i) (flat_map flatten args) axes (flat_map flatten args').
(** output axis in range for stacking arrays like x *)
Definition out_ok (x : arr) (a : axis) : Prop := match a with None => True | Some a => (0 <= a <= Z.of_nat (length (ashape x)))%Z end.

(** The hypotheses of the mapping theorem: [t i] is the value of the function on the i-th object and
    the i-th slice of every mapped argument; all these values have the same structure and shapes. *)
Record vmap_inputs (objs : list obj) (f : func_t) (in_axes : in_axes_t) (out_axes : tree axis) (args : list (tree arr))
                   (axes oax : list axis) (t : nat -> tree arr) : Prop := {
  vi_nonempty : objs <> [];
  vi_leaves : forall o, In o objs -> flatten o <> [];
  vi_axes : flatten_axes (structure (Node tuple_tag args)) (Node tuple_tag (norm_in_axes in_axes args)) = Ok axes;
  vi_axes_ok : Forall2 (axis_ok (length objs)) (flat_map flatten args) axes;
  vi_calls : forall i args', i < length objs -> sliced i axes args args' -> f (nth i objs (Node 0 [])) args' = Ok (t i);
  vi_same : forall i, i < length objs -> structure (t i) = structure (t 0) /\ map ashape (flatten (t i)) = map ashape (flatten (t 0));
  vi_out : flatten_axes (structure (t 0)) out_axes = Ok oax;
  vi_out_ok : Forall2 out_ok (flatten (t 0)) oax }.
(** leaf j of the output: its i-th slice along the output axis is leaf j of the i-th value *)
Definition output_leaf (n : nat) (t : nat -> tree arr) (oax : list axis) (j : nat) (x : arr) : Prop :=
  match nth j oax None with
  | None => nth_error (flatten (t 0)) j = Some x
  | Some a => nth (Z.to_nat a) (ashape x) 0 = n /\
              forall i, i < n -> exists y, nth_error (flatten (t i)) j = Some y /\ slice_of (Z.to_nat a) i x y
  end.
