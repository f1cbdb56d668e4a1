(** C44: object_stack.py *)
From Coq Require Import Reals ZArith List Bool Arith Lia.
From Verif Require Import Base.RealAux Model.Stack Spec.StackSpec Proof.StackProof Proof.StackFail.
Import ListNotations.
Local Open Scope nat_scope.

Lemma vmap_normal_form objs s f ia oa args axes oax t : mk_stack objs = Ok s -> vmap_inputs objs f ia oa args axes oax t ->
  stack_vmap s f ia oa args = stack_results (structure (t 0)) oa (map (fun i => flatten (t i)) (seq 0 (length objs))) /\
  vmap_loop objs f (norm_in_axes ia args) oa args = stack_results (structure (t 0)) oa (map (fun i => flatten (t i)) (seq 0 (length objs))).
Proof.
  intros Hs [H1 H2 H3 H4 H5 H6 H7 H8].
  assert (HH : forall i, i < length objs -> (forall args', sliced i axes args args' -> f (nth i objs dflt) args' = Ok (t i)) /\ structure (t i) = structure (t 0)).
  { intros i Hi. split; [intros; now apply H5|now apply H6]. }
  assert (HL : vmap_loop objs f (norm_in_axes ia args) oa args = stack_results (structure (t 0)) oa (map (fun i => flatten (t i)) (seq 0 (length objs)))) by (apply (vmap_loop_ok objs f _ oa args axes t (structure (t 0))); assumption).
  split; [|exact HL]. unfold stack_vmap. cbv zeta. destruct (s_stack s) as [st|] eqn:Est.
  - apply (jax_vmap_ok objs s st f _ oa args axes t (structure (t 0))); try assumption.
    destruct (mk_stack_some objs s st Hs Est) as (_ & _ & Hsl & _). assert (H0 : 0 < length objs) by (destruct objs; [contradiction|cbn; lia]).
    destruct (Hsl 0 H0) as [_ E]. intros En. rewrite En in E. cbn in E. apply (H2 (nth 0 objs dflt)); [apply nth_In; exact H0|now rewrite <- E].
  - rewrite (mk_stack_none objs s Hs Est). exact HL.
Qed.

(** Whatever the structures of the objects: the call succeeds and the i-th slice of every output is the
    function applied to the i-th object and the i-th slices of the mapped arguments. *)
Theorem C44_vmap_is_pointwise : forall objs s f in_axes out_axes args axes oax t,
  mk_stack objs = Ok s -> vmap_inputs objs f in_axes out_axes args axes oax t ->
  exists out, stack_vmap s f in_axes out_axes args = Ok out /\ structure out = structure (t 0) /\
    forall j x, nth_error (flatten out) j = Some x -> output_leaf (length objs) t oax j x.
Proof.
  intros objs s f ia oa args axes oax t Hs Hv. destruct (vmap_normal_form objs s f ia oa args axes oax t Hs Hv) as [-> _].
  destruct Hv as [H1 H2 H3 H4 H5 H6 H7 H8]. assert (H0 : 0 < length objs) by (destruct objs; [contradiction|cbn; lia]).
  destruct (stack_results_ok (length objs) t oa oax H0 H6 H7 H8) as (out & E & Es & Hl). exists out. split; [exact E|]. split; [exact Es|].
  intros j x Hx. specialize (Hl j x Hx). unfold output_leaf. destruct (nth j oax None) as [a|] eqn:Ea; [|exact Hl]. destruct Hl as (L1 & L2 & L3). split; [exact L2|].
  assert (La : Z.to_nat a < length (ashape x)). { destruct (Nat.lt_ge_cases (Z.to_nat a) (length (ashape x))) as [|Hge]; [assumption|]. rewrite nth_overflow in L2 by exact Hge. lia. }
  intros i Hi. destruct (L3 i Hi) as (y & Hy & Hs1 & Hs2). exists y. split; [exact Hy|].
  destruct (take_slice_of (Z.to_nat a) i x La ltac:(lia)) as (T1 & T2 & T3 & T4). split; [exact T1|]. split; [exact T2|]. split; [congruence|].
  intros idx Hidx. rewrite <- Hs1 in Hidx. rewrite <- Hs2 by exact Hidx. now apply T4.
Qed.
Print Assumptions C44_vmap_is_pointwise.
(** conversely: whenever vmap returns, the function has returned for every object on its slice of the arguments, and all
    its answers have one structure; so one call that raises makes the whole call raise *)
Theorem C44_success_means_every_call : forall objs s f in_axes out_axes args axes out,
  mk_stack objs = Ok s -> (forall o, In o objs -> flatten o <> []) ->
  flatten_axes (structure (Node tuple_tag args)) (Node tuple_tag (norm_in_axes in_axes args)) = Ok axes ->
  Forall2 (axis_ok (length objs)) (flat_map flatten args) axes ->
  stack_vmap s f in_axes out_axes args = Ok out ->
  exists S, forall i args', i < length objs -> sliced i axes args args' -> exists t, f (nth i objs (Node 0 [])) args' = Ok t /\ structure t = S.
Proof. exact vmap_success. Qed.
Print Assumptions C44_success_means_every_call.

(** the stacked fast path and the Python loop return the same value *)
Theorem C44_paths_agree : forall objs s f in_axes out_axes args axes oax t,
  mk_stack objs = Ok s -> vmap_inputs objs f in_axes out_axes args axes oax t ->
  stack_vmap s f in_axes out_axes args = stack_vmap (MkStack objs None) f in_axes out_axes args.
Proof. intros objs s f ia oa args axes oax t Hs Hv. destruct (vmap_normal_form objs s f ia oa args axes oax t Hs Hv) as [-> E]. symmetry. exact E. Qed.
Print Assumptions C44_paths_agree.

(** the constructor: objects of different structure are always accepted; objects of equal structure
    need equal leaf shapes, otherwise construction raises *)
Theorem C44_constructor : forall objs,
  (forall o o', In o objs -> In o' objs -> structure o = structure o') -> objs <> [] ->
  (exists s, mk_stack objs = Ok s) -> forall i j, i < length objs -> j < length objs ->
  map ashape (flatten (nth i objs (Node 0 []))) = map ashape (flatten (nth j objs (Node 0 []))).
Proof.
  intros objs Hst Hne (s & Hs) i j Hi Hj. destruct (s_stack s) as [st|] eqn:Est.
  - destruct (mk_stack_some objs s st Hs Est) as (_ & _ & Hsl & _). destruct (Hsl i Hi) as [_ E1]. destruct (Hsl j Hj) as [_ E2]. apply (f_equal (map ashape)) in E1, E2. transitivity (map ashape (map (take 0 i) (flatten st))); [symmetry; exact E1|]. rewrite map_map. rewrite map_map in E2. exact E2.
  - exfalso. unfold mk_stack in Hs. destruct objs as [|o os]; [contradiction|]. cbv iota beta in Hs.
    replace (forallb (fun o' => tree_eqb (structure o') (structure o)) (o :: os)) with true in Hs.
    2:{ symmetry. apply forallb_forall. intros o' Ho. apply tree_eqb_eq. apply Hst; [exact Ho|now left]. }
    match type of Hs with context [mapM ?g ?l] => destruct (mapM g l) as [leaves|] end; [|discriminate]. cbn [rbind] in Hs. destruct (unflatten (structure o) leaves); [|discriminate].
    cbn [rbind] in Hs. injection Hs as <-. discriminate.
Qed.
Print Assumptions C44_constructor.
Theorem C44_constructor_heterogeneous : forall objs o o', In o objs -> In o' objs -> structure o <> structure o' ->
  mk_stack objs = Ok (MkStack objs None).
Proof.
  intros objs o o' Ho Ho' Hne. unfold mk_stack. destruct objs as [|p ps]; [reflexivity|].
  destruct (forallb (fun q => tree_eqb (structure q) (structure p)) (p :: ps)) eqn:E; [|reflexivity]. exfalso. rewrite forallb_forall in E.
  apply Hne. transitivity (structure p); [apply tree_eqb_eq, E, Ho|symmetry; apply tree_eqb_eq, E, Ho'].
Qed.
Print Assumptions C44_constructor_heterogeneous.
(** an empty stack cannot be mapped over *)
Theorem C44_empty_stack : forall f in_axes out_axes args, exists e, rbind (mk_stack []) (fun s => stack_vmap s f in_axes out_axes args) = Err e.
Proof.
  intros f ia oa args. cbn [mk_stack rbind stack_vmap s_stack s_objects]. unfold stack_vmap, vmap_loop. cbv zeta. cbn [s_stack s_objects].
  destruct (flatten_axes _ _); cbn [rbind loop]; eexists; reflexivity.
Qed.
Print Assumptions C44_empty_stack.

(** concrete stacks for the counterexamples and for satisfiability *)
Definition ex_vec (s : list nat) : arr := Arr s (fun idx => IZR (Z.of_nat (hd 0 idx) + 10 * Z.of_nat (hd 0 (tl idx)))).
Definition ex_hom : list obj := [Node 0 [Leaf (ex_vec [])]; Node 0 [Leaf (ex_vec [])]].
Definition ex_het : list obj := [Node 0 [Leaf (ex_vec [])]; Node 0 [Leaf (ex_vec []); Leaf (ex_vec [])]].
Definition ex_f : func_t := fun _ args => match args with a :: _ => Ok a | [] => Err TypeError end.
Definition shapes_of (r : result (tree arr)) : result (list (list nat)) := rbind r (fun t => Ok (map ashape (flatten t))).

(** the docstring says "The semantics should match jax.vmap": negative in_axes do not in the loop *)
Theorem C44_negative_in_axes_refuted :
  exists args f,
    shapes_of (rbind (mk_stack ex_hom) (fun s => stack_vmap s f (AxisAll (Some (-1)%Z)) (Leaf (Some 0%Z)) args)) = Ok [[2; 3]] /\
    shapes_of (rbind (mk_stack ex_het) (fun s => stack_vmap s f (AxisAll (Some (-1)%Z)) (Leaf (Some 0%Z)) args)) = Ok [[2; 2]].
Proof. exists [Leaf (ex_vec [3; 2])], ex_f. split; reflexivity. Qed.
Print Assumptions C44_negative_in_axes_refuted.
(** in general a negative axis selects along the leading axis *)
Theorem C44_negative_in_axes_loop : forall n x a, (a < 0)%Z -> index_helper n x (Some a) = index_helper n x (Some 0%Z).
Proof. intros n x a Ha. unfold index_helper. now replace (Z.to_nat a) with 0 by lia. Qed.
Print Assumptions C44_negative_in_axes_loop.
(** a mapped argument longer than the stack: error on the fast path, silently truncated in the loop *)
Theorem C44_size_mismatch_refuted :
  exists args f,
    shapes_of (rbind (mk_stack ex_hom) (fun s => stack_vmap s f (AxisAll (Some 0%Z)) (Leaf (Some 0%Z)) args)) = Err ValueError /\
    shapes_of (rbind (mk_stack ex_het) (fun s => stack_vmap s f (AxisAll (Some 0%Z)) (Leaf (Some 0%Z)) args)) = Ok [[2]].
Proof. exists [Leaf (ex_vec [3])], ex_f. split; reflexivity. Qed.
Print Assumptions C44_size_mismatch_refuted.

Example C44_sat : vmap_inputs ex_het ex_f (AxisAll (Some 1%Z)) (Leaf (Some 1%Z)) [Leaf (ex_vec [3; 2])] [Some 1%Z] [Some 1%Z]
                    (fun i => Leaf (take 1 i (ex_vec [3; 2]))).
Proof.
  split.
  - discriminate.
  - intros o [<-|[<-|[]]]; discriminate.
  - reflexivity.
  - constructor; [cbn; split; [lia|reflexivity]|constructor].
  - intros i args' Hi [Hs Hl]. destruct args' as [|[y|] [|]]; try discriminate. inversion Hl; subst. cbn in H2. subst. cbn. reflexivity.
  - intros i Hi. split; reflexivity.
  - reflexivity.
  - constructor; [cbn; lia|constructor].
Qed.
Example C44_sat_constructor : exists s, mk_stack ex_hom = Ok s /\ s_stack s <> None.
Proof. eexists. split; [reflexivity|discriminate]. Qed.
