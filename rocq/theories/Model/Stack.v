(** Model of object_stack.py: ObjectStack and its vmap with a stacked fast path and a Python loop.

    JAX values are modelled as follows.  An array is a shape and an element function (elements are
    reals; dtypes, tracers and devices are not modelled).  A pytree is a finite tree whose inner
    nodes carry a tag (the container type and its static data, e.g. dict keys) and whose leaves are
    arrays; [None] is a node without children.  Functions are pure. *)
From Coq Require Import Reals ZArith List Bool Arith.
From Verif Require Import Base.RealAux.
Import ListNotations.
Local Open Scope nat_scope.

Record arr := Arr { ashape : list nat; aget : list nat -> R }.
Inductive tree (A : Type) : Type := Leaf (a : A) | Node (tag : nat) (ch : list (tree A)).
Arguments Leaf {A}. Arguments Node {A}.

(** jax.tree_util.tree_flatten / tree_structure *)
Fixpoint flatten {A} (t : tree A) : list A :=
  match t with Leaf a => [a] | Node _ ch => flat_map flatten ch end.
Fixpoint structure {A} (t : tree A) : tree unit :=
  match t with Leaf _ => Leaf tt | Node g ch => Node g (map structure ch) end.
Fixpoint tree_eqb (s t : tree unit) : bool :=
  match s, t with
  | Leaf _, Leaf _ => true
  | Node g ch, Node g' ch' =>
      (Nat.eqb g g' &&
       (fix all l l' := match l, l' with
                        | [], [] => true
                        | a :: l, b :: l' => tree_eqb a b && all l l'
                        | _, _ => false
                        end) ch ch')%bool
  | _, _ => false
  end.
(** PyTreeDef.unflatten on a stream of leaves: the tree and the leaves not consumed *)
Fixpoint unflatten_s {A} (s : tree unit) (l : list A) : option (tree A * list A) :=
  match s with
  | Leaf _ => match l with a :: r => Some (Leaf a, r) | [] => None end
  | Node g ch =>
      match (fix go ch l := match ch with
                            | [] => Some ([], l)
                            | c :: ch => match unflatten_s c l with
                                         | None => None
                                         | Some (t, l) => match go ch l with
                                                          | None => None
                                                          | Some (ts, l) => Some (t :: ts, l)
                                                          end
                                         end
                            end) ch l with
      | None => None
      | Some (ts, r) => Some (Node g ts, r)
      end
  end.
Definition unflatten {A} (s : tree unit) (l : list A) : result (tree A) :=
  match unflatten_s s l with Some (t, []) => Ok t | _ => Err ValueError end.

(** jax.api_util.flatten_axes: broadcast a prefix tree of axis specifications to all leaves *)
Definition axis := option Z.
Fixpoint flatten_axes (s : tree unit) (p : tree axis) : result (list axis) :=
  match p with
  | Leaf a => Ok (map (fun _ => a) (flatten s))
  | Node g ps =>
      match s with
      | Leaf _ => Err ValueError
      | Node g' ch =>
          if Nat.eqb g g' then
            (fix go ch ps := match ch, ps with
                             | [], [] => Ok []
                             | c :: ch, p :: ps => rbind (flatten_axes c p) (fun a => rbind (go ch ps) (fun b => Ok (a ++ b)))
                             | _, _ => Err ValueError
                             end) ch ps
          else Err ValueError
      end
  end.

Fixpoint mapM {A B} (f : A -> result B) (l : list A) : result (list B) :=
  match l with [] => Ok [] | a :: l => rbind (f a) (fun b => rbind (mapM f l) (fun bs => Ok (b :: bs))) end.

(** x[:, ..., :, n] with [axis] full slices; the index is clamped as in JAX *)
Definition remove_at {A} (a : nat) (l : list A) : list A := firstn a l ++ skipn (S a) l.
Definition insert_at {A} (a : nat) (x : A) (l : list A) : list A := firstn a l ++ x :: skipn a l.
Definition take (a n : nat) (x : arr) : arr :=
  Arr (remove_at a (ashape x))
      (fun idx => aget x (insert_at a (Nat.min n (nth a (ashape x) 0 - 1)) idx)).
(** object_stack.py:128-133 [index_helper]; (slice(None),) * axis is () for a negative axis *)
Definition index_helper (n : nat) (arg : arr) (ax : axis) : result arr :=
  match ax with
  | None => Ok arg
  | Some a => if (Z.to_nat a <? length (ashape arg))%nat then Ok (take (Z.to_nat a) n arg) else Err IndexError
  end.
(** numpy axis normalisation: -ndim <= a < ndim *)
Definition normalize_axis (ndim : nat) (a : Z) : result nat :=
  if ((0 <=? a) && (a <? Z.of_nat ndim))%Z%bool then Ok (Z.to_nat a)
  else if ((- Z.of_nat ndim <=? a) && (a <? 0))%Z%bool then Ok (Z.to_nat (a + Z.of_nat ndim))
  else Err ValueError.
(** jnp.stack(parts, axis=a) *)
Definition shape_eqb (s t : list nat) : bool := if list_eq_dec Nat.eq_dec s t then true else false.
Definition stack_at (a : nat) (parts : list arr) (s : list nat) : arr :=
  Arr (insert_at a (length parts) s)
      (fun idx => aget (nth (nth a idx 0) parts (Arr [] (fun _ => 0%R))) (remove_at a idx)).
Definition jnp_stack (parts : list arr) (a : Z) : result arr :=
  match parts with
  | [] => Err ValueError
  | p :: _ =>
      if forallb (fun q => shape_eqb (ashape q) (ashape p)) parts then
        rbind (normalize_axis (S (length (ashape p))) a) (fun a => Ok (stack_at a parts (ashape p)))
      else Err ValueError
  end.

(** Python zip of [k]-element lists *)
Fixpoint transpose {A} (k : nat) (ls : list (list A)) : list (list A) :=
  match k with
  | O => []
  | S k => flat_map (fun l => match l with [] => [] | a :: _ => [a] end) ls :: transpose k (map (@tl A) ls)
  end.

Definition obj := tree arr.
Definition tuple_tag : nat := 0.

(** object_stack.py:36-47 [ObjectStack.__init__] *)
Record stack_t := MkStack { s_objects : list obj; s_stack : option obj }.
Definition mk_stack (objs : list obj) : result stack_t :=
  match objs with
  | [] => Ok (MkStack objs None)
  | o :: _ =>
      if forallb (fun o' => tree_eqb (structure o') (structure o)) objs then
        rbind (mapM (fun parts => jnp_stack parts 0) (transpose (length (flatten o)) (map flatten objs))) (fun leaves =>
        rbind (unflatten (structure o) leaves) (fun st => Ok (MkStack objs (Some st))))
      else Ok (MkStack objs None)
  end.

Definition func_t := obj -> list (tree arr) -> result (tree arr).

(** object_stack.py:81-85: in_axes is an int, None, or a sequence with one entry per argument *)
Inductive in_axes_t := AxisAll (a : axis) | AxisSeq (l : list (tree axis)).
Definition norm_in_axes (ia : in_axes_t) (args : list (tree arr)) : list (tree axis) :=
  match ia with AxisAll a => map (fun _ => Leaf a) args | AxisSeq l => l end.

(** apply func to unflattened arguments; object_stack.py:136-143 *)
Definition call_unflat (f : func_t) (in_tree : tree unit) (body : obj) (leaves : list arr) : result (tree arr) :=
  rbind (unflatten in_tree leaves) (fun t =>
  match t with Node _ args => f body args | Leaf _ => Err TypeError end).

(** object_stack.py:116-122 *)
Definition stack_results (out_tree : tree unit) (out_axes : tree axis) (results : list (list arr)) : result (tree arr) :=
  rbind (flatten_axes out_tree out_axes) (fun oax =>
  rbind (mapM (fun e => let '(a, parts) := e in
                 match a with
                 | None => match parts with [] => Err IndexError | p :: _ => Ok p end
                 | Some a => jnp_stack parts a
                 end)
              (combine oax (transpose (length (flatten out_tree)) results))) (fun leaves =>
  unflatten out_tree leaves)).
(** object_stack.py:102-114: the loop, with the structure seen so far *)
Fixpoint loop (f : func_t) (in_tree : tree unit) (args_flat : list arr) (axes : list axis)
              (n : nat) (bodies : list obj) (out_tree : option (tree unit)) (results : list (list arr))
  : result (option (tree unit) * list (list arr)) :=
  match bodies with
  | [] => Ok (out_tree, results)
  | b :: bodies =>
      rbind (mapM (fun e => index_helper n (fst e) (snd e)) (combine args_flat axes)) (fun leaves =>
      rbind (call_unflat f in_tree b leaves) (fun ans =>
      let st := structure ans in
      let results := results ++ [flatten ans] in
      match out_tree with
      | None => loop f in_tree args_flat axes (S n) bodies (Some st) results
      | Some st' => if tree_eqb st st' then loop f in_tree args_flat axes (S n) bodies (Some st) results
                    else Err ValueError
      end))
  end.
Definition vmap_loop (objs : list obj) (f : func_t) (ia : list (tree axis)) (out_axes : tree axis) (args : list (tree arr)) : result (tree arr) :=
  let tr := Node tuple_tag args in
  rbind (flatten_axes (structure tr) (Node tuple_tag ia)) (fun axes =>
  rbind (loop f (structure tr) (flatten tr) axes 0 objs None []) (fun '(out_tree, results) =>
  match out_tree with
  | None => Err AttributeError
  | Some out_tree => stack_results out_tree out_axes results
  end)).

(** jax.vmap, from its documentation: every mapped axis must have the same size; the i-th call sees the
    i-th slice of every mapped argument; results are stacked along out_axes.  For an output with
    out_axes None, JAX additionally insists that it does not depend on the mapped inputs: here the
    value of the first call is returned. *)
Definition mapped_size (x : arr) (ax : axis) : result (option (nat * nat)) :=
  match ax with
  | None => Ok None
  | Some a => rbind (normalize_axis (length (ashape x)) a) (fun a => Ok (Some (a, nth a (ashape x) 0)))
  end.
Definition slice (i : nat) (x : arr) (m : option (nat * nat)) : arr :=
  match m with None => x | Some (a, _) => take a i x end.
Fixpoint sizes (l : list (option (nat * nat))) : list nat :=
  match l with [] => [] | None :: l => sizes l | Some (_, n) :: l => n :: sizes l end.
Definition same_structure (l : list (tree arr)) : result (tree unit) :=
  match l with
  | [] => Err ValueError
  | t :: _ => if forallb (fun t' => tree_eqb (structure t') (structure t)) l then Ok (structure t) else Err ValueError
  end.
Definition jax_vmap (f : func_t) (ia : list (tree axis)) (out_axes : tree axis) (args : list (tree arr)) : result (tree arr) :=
  let tr := Node tuple_tag args in
  rbind (flatten_axes (structure tr) (Node tuple_tag ia)) (fun axes =>
  rbind (mapM (fun e => mapped_size (fst e) (snd e)) (combine (flatten tr) axes)) (fun ms =>
  match sizes ms with
  | [] => Err ValueError
  | n :: ns =>
      if forallb (Nat.eqb n) ns then
        rbind (mapM (fun i => rbind (unflatten (structure tr) (map (fun e => slice i (fst e) (snd e)) (combine (flatten tr) ms)))
                                    (fun t => match t with Node _ (o :: args) => f o args | _ => Err TypeError end))
                    (seq 0 n)) (fun res =>
        rbind (same_structure res) (fun out_tree => stack_results out_tree out_axes (map flatten res)))
      else Err ValueError
  end)).

(** object_stack.py:52-124 [ObjectStack.vmap] *)
Definition stack_vmap (s : stack_t) (f : func_t) (in_axes : in_axes_t) (out_axes : tree axis) (args : list (tree arr)) : result (tree arr) :=
  let ia := norm_in_axes in_axes args in
  match s_stack s with
  | Some st => jax_vmap f (Leaf (Some 0%Z) :: ia) out_axes (st :: args)
  | None => vmap_loop (s_objects s) f ia out_axes args
  end.
