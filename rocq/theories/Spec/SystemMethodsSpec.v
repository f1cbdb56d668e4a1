(** Specification of the array-valued methods of System: one row per body, in the order of the bodies. *)
From Coq Require Import Reals ZArith List Bool Arith.
From Verif Require Import Base.RealAux Model.Keplerian Model.Stack Spec.StackSpec.
Import ListNotations.
Local Open Scope R_scope.

(** a triple of quantities in the unit [u] whose entry [i, idx] is [value] of the i-th body at the time ts[idx] *)
Definition vector_rows (u : nat) (bodies : list orbital) (ts : arr) (value : orbital -> R -> result vec) (out : tree arr) : Prop :=
  exists X Y Z, out = Node tuple_tag [Node u [Leaf X]; Node u [Leaf Y]; Node u [Leaf Z]] /\
    ashape X = length bodies :: ashape ts /\ ashape Y = length bodies :: ashape ts /\ ashape Z = length bodies :: ashape ts /\
    forall i o idx, nth_error bodies i = Some o -> in_range (ashape ts) idx ->
      value o (aget ts idx) = Ok (aget X (i :: idx), aget Y (i :: idx), aget Z (i :: idx)).
(** one quantity in the unit [u] whose entry [i, idx] is [value] of the i-th body at the time ts[idx] *)
Definition scalar_rows (u : nat) (bodies : list orbital) (ts : arr) (value : orbital -> R -> R) (out : tree arr) : Prop :=
  exists X, out = Node u [Leaf X] /\ ashape X = length bodies :: ashape ts /\
    forall i o idx, nth_error bodies i = Some o -> in_range (ashape ts) idx -> aget X (i :: idx) = value o (aget ts idx).

(** all bodies give the parallax, or none does; likewise for velocities, where a stored semiamplitude prevails *)
Definition has_parallax (o : orbital) : bool := match ob_parallax o with Some _ => true | None => false end.
Definition angular_velocity (o : orbital) : bool := match ob_semiamplitude o with Some _ => false | None => has_parallax o end.
Definition uniformly {A} (p : A -> bool) (b : bool) (l : list A) : Prop := forall o, In o l -> p o = b.
Definition mixed {A} (p : A -> bool) (l : list A) : Prop := exists o o', In o l /\ In o' l /\ p o <> p o'.
