(** When ObjectStack.vmap succeeds, every call has succeeded, with one structure. *)
From Coq Require Import Reals ZArith List Bool Arith Lia.
From Verif Require Import Base.RealAux Model.Stack Spec.StackSpec Proof.StackProof.
Import ListNotations.
Local Open Scope nat_scope.

Lemma mapM_ext {A B} (f g : A -> result B) l : (forall a, In a l -> f a = g a) -> mapM f l = mapM g l.
Proof. induction l as [|a l IH]; intros H; [reflexivity|]. cbn [mapM]. rewrite (H a (or_introl eq_refl)), IH; [reflexivity|intros; apply H; now right]. Qed.
(** all sliced arguments of the i-th call are the same *)
Lemma Forall3_fun i xs ys zs zs' : Forall3 (leaf_slice i) xs ys zs -> Forall3 (leaf_slice i) xs ys zs' -> zs = zs'.
Proof.
  intros H. revert zs'. induction H as [|x y z xs ys zs Hx H IH]; intros zs' H'; inversion H'; subst; [reflexivity|]. f_equal; [|now apply IH].
  unfold leaf_slice in *. destruct y; congruence.
Qed.
Lemma sliced_fun i axes args a b : sliced i axes args a -> sliced i axes args b -> a = b.
Proof.
  intros [H1 H2] [H3 H4]. assert (E : Node tuple_tag a = Node tuple_tag b); [|congruence]. apply tree_ext; cbn [structure flatten]; [congruence|]. exact (Forall3_fun _ _ _ _ _ H2 H4).
Qed.
Lemma call_eq n args axes f i b args' : Forall2 (axis_ok n) (flat_map flatten args) axes -> sliced i axes args args' -> call args axes f i b = f b args'.
Proof.
  intros Hax Hs. unfold call, call_unflat. destruct (unflat_args i args axes (eq_sym (Forall2_len _ _ _ Hax))) as (a & -> & Ha). cbn [rbind].
  now rewrite (sliced_fun _ _ _ _ _ Hs Ha).
Qed.

Lemma jax_vmap_calls objs s st f ia out_axes args axes :
  mk_stack objs = Ok s -> s_stack s = Some st -> flatten st <> [] ->
  flatten_axes (structure (Node tuple_tag args)) (Node tuple_tag ia) = Ok axes ->
  Forall2 (axis_ok (length objs)) (flat_map flatten args) axes ->
  jax_vmap f (Leaf (Some 0%Z) :: ia) out_axes (st :: args) =
  rbind (mapM (fun i => call args axes f i (nth i objs dflt)) (seq 0 (length objs))) (fun res =>
  rbind (same_structure res) (fun out_tree => stack_results out_tree out_axes (map flatten res))).
Proof.
  intros Hs Hst Hlf Hia Hax. destruct (mk_stack_some objs s st Hs Hst) as (Ho & Hne & Hsl & Hsh).
  unfold jax_vmap. unfold obj, axis in *. cbv zeta.
  assert (E0 : flatten_axes (structure (Node tuple_tag (st :: args))) (Node tuple_tag (Leaf (Some 0%Z) :: ia)) = Ok (map (fun _ => Some 0%Z) (flatten st) ++ axes)).
  { cbn [flatten_axes structure map] in Hia |- *. cbn [Nat.eqb] in Hia |- *. change (Nat.eqb tuple_tag tuple_tag) with true in *. cbn [rbind] in Hia |- *. cbv iota in Hia |- *. rewrite flatten_axes_leaf. cbn [rbind]. rewrite Hia. cbn [rbind]. f_equal. f_equal.
    pose proof (flatten_structure st) as L. clear - L. revert L. generalize (flatten (structure st)) as a. generalize (flatten st) as b. induction b as [|y b IH]; intros [|x a] L; try discriminate; [reflexivity|]. cbn. f_equal. apply IH. cbn in L. lia. }
  rewrite E0. cbn [rbind].
  assert (Hall : Forall2 (axis_ok (length objs)) (flatten (Node tuple_tag (st :: args))) (map (fun _ => Some 0%Z) (flatten st) ++ axes)).
  { cbn [flatten flat_map]. apply F2_app; [|exact Hax]. clear - Hsh. induction Hsh as [|x l (s' & Hx) Hl IH]; cbn [map]; constructor; [|exact IH]. unfold axis_ok. rewrite Hx. cbn [length nth Z.to_nat]. split; [lia|reflexivity]. }
  set (xs := flatten (Node tuple_tag (st :: args))) in *. set (axs := map (fun _ => Some 0%Z) (flatten st) ++ axes) in *.
  assert (Hin : forall e, In e (combine xs axs) -> axis_ok (length objs) (fst e) (snd e)) by (intros e He; exact (In_combine_F2 _ _ _ e Hall He)).
  destruct (sizes_total (length objs) _ Hin) as (ms & Hms). unfold axis in *. rewrite Hms. cbn [rbind]. destruct (sizes_ok (length objs) _ ms Hin Hms) as [Hsz Hslc].
  rewrite combine_map_fst in Hslc by (exact (Forall2_len _ _ _ Hall)).
  assert (Hnz : sizes ms <> []).
  { apply (sizes_nonempty _ _ Hms). unfold xs, axs. cbn [flatten flat_map]. destruct (flatten st) as [|x l]; [contradiction|]. exists x, 0%Z. now left. }
  destruct (sizes ms) as [|n0 ns]; [contradiction|]. rewrite (Hsz n0 (or_introl eq_refl)) in *.
  replace (forallb (Nat.eqb (length objs)) ns) with true.
  2:{ symmetry. apply forallb_forall. intros m Hm. apply Nat.eqb_eq. symmetry. apply Hsz. now right. }
  f_equal. apply mapM_ext. intros i Hi. apply in_seq in Hi. rewrite Hslc.
  destruct (unflatten_ok (structure (Node tuple_tag (st :: args))) (map (sl i) (combine xs axs))) as (tr & H1 & H2 & H3).
  { rewrite map_length, combine_length, <- (Forall2_len _ _ _ Hall), Nat.min_id, flatten_structure. reflexivity. }
  rewrite H1. cbn [rbind]. destruct tr as [|g [|o' args']]; cbn [structure map] in H2; [discriminate|discriminate|]. injection H2 as -> H2a H2b.
  destruct (Hsl i ltac:(lia)) as [Hs1 Hs2].
  cbn [flatten flat_map] in H3. unfold xs, axs in H3. cbn [flatten flat_map] in H3. rewrite combine_app in H3 by now rewrite map_length. rewrite map_app in H3.
  assert (E1 : map (sl i) (combine (flatten st) (map (fun _ : arr => Some 0%Z) (flatten st))) = flatten (nth i objs dflt)).
  { rewrite <- Hs2. generalize (flatten st) as l. induction l as [|x l IH]; [reflexivity|]. cbn [map combine]. rewrite IH. reflexivity. }
  unfold axis in *. rewrite E1 in H3.
  assert (Lo : length (flatten o') = length (flatten (nth i objs dflt))) by (rewrite <- (flatten_structure o'), H2a, <- Hs1; apply flatten_structure).
  assert (E2 : flatten o' = flatten (nth i objs dflt) /\ flat_map flatten args' = map (sl i) (combine (flat_map flatten args) axes)).
  { apply (f_equal (firstn (length (flatten o')))) in H3 as Hf. apply (f_equal (skipn (length (flatten o')))) in H3 as Hk.
    rewrite Lo in Hf at 2. rewrite Lo in Hk at 2. rewrite !firstn_app, !Nat.sub_diag, !firstn_all, !firstn_O, !app_nil_r in Hf.
    rewrite !skipn_app, !Nat.sub_diag, !skipn_all, !skipn_O in Hk. auto. }
  destruct E2 as [E2 E3]. assert (Eo : o' = nth i objs dflt) by (apply tree_ext; [congruence|exact E2]). rewrite Eo.
  symmetry. apply (call_eq (length objs)); [exact Hax|]. split; [exact H2b|]. rewrite E3. apply sliced_Forall3. symmetry. exact (Forall2_len _ _ _ Hax).
Qed.

Section Loop.
Variables (n : nat) (args : list (tree arr)) (axes : list axis) (f : func_t).
Hypothesis Hax : Forall2 (axis_ok n) (flat_map flatten args) axes.
Lemma loop_calls : forall bodies k res ot r,
  loop f (structure (Node tuple_tag args)) (flat_map flatten args) axes k bodies ot res = Ok r ->
  exists S, (ot = None \/ ot = Some S) /\ forall i, i < length bodies -> exists t, call args axes f (k + i) (nth i bodies dflt) = Ok t /\ structure t = S.
Proof.
  induction bodies as [|b bodies IH]; intros k res ot r E.
  - destruct ot as [S|]; [exists S|exists (Leaf tt)]; (split; [auto|intros i Hi; cbn in Hi; lia]).
  - cbn [loop] in E. rewrite (index_leaves n args axes Hax) in E. cbn [rbind] in E.
    destruct (call_unflat f (structure (Node tuple_tag args)) b (map (sl k) (combine (flat_map flatten args) axes))) as [t|] eqn:Ec; [|discriminate]. cbn [rbind] in E. cbv zeta in E.
    assert (G : exists S, S = structure t /\ (ot = None \/ ot = Some S) /\ loop f (structure (Node tuple_tag args)) (flat_map flatten args) axes (Datatypes.S k) bodies (Some S) (res ++ [flatten t]) = Ok r).
    { exists (structure t). destruct ot as [S|]; [|auto]. destruct (tree_eqb (structure t) S) eqn:Et; [|discriminate]. apply tree_eqb_eq in Et. subst S. auto. }
    destruct G as (S & HS & Hot & E'). apply IH in E'. destruct E' as (S' & [H|H] & Hi); [discriminate|]. injection H as <-. exists S. split; [exact Hot|].
    intros [|i] Hlt; cbn [nth].
    + exists t. rewrite Nat.add_0_r. auto.
    + rewrite Nat.add_succ_r. apply Hi. cbn in Hlt. lia.
Qed.
End Loop.

Lemma vmap_success objs s f in_axes out_axes args axes out :
  mk_stack objs = Ok s -> (forall o, In o objs -> flatten o <> []) ->
  flatten_axes (structure (Node tuple_tag args)) (Node tuple_tag (norm_in_axes in_axes args)) = Ok axes ->
  Forall2 (axis_ok (length objs)) (flat_map flatten args) axes ->
  stack_vmap s f in_axes out_axes args = Ok out ->
  exists S, forall i args', i < length objs -> sliced i axes args args' -> exists t, f (nth i objs dflt) args' = Ok t /\ structure t = S.
Proof.
  intros Hs Hlv Hia Hax E. unfold stack_vmap in E. cbv zeta in E. destruct (s_stack s) as [st|] eqn:Est.
  - assert (Hlf : flatten st <> []).
    { destruct (mk_stack_some objs s st Hs Est) as (Ho & Hne & Hsl & _). assert (H0 : 0 < length objs) by (destruct objs; [contradiction|cbn; lia]).
      destruct (Hsl 0 H0) as [Hst _]. intros E0. apply (Hlv (nth 0 objs dflt)); [now apply nth_In|]. apply length_zero_iff_nil. rewrite <- flatten_structure, Hst, flatten_structure, E0. reflexivity. }
    rewrite (jax_vmap_calls objs s st f _ out_axes args axes Hs Est Hlf Hia Hax) in E.
    destruct (mapM _ (seq 0 (length objs))) as [res|] eqn:Em; [|discriminate]. cbn [rbind] in E. destruct (same_structure res) as [S|] eqn:Es; [|discriminate].
    exists S. intros i args' Hi Hsl. apply mapM_inv in Em.
    destruct (nth_error res i) as [t|] eqn:Et; [|apply nth_error_None in Et; apply Forall2_len in Em; rewrite seq_length in Em; lia].
    pose proof (Forall2_nth_error _ _ _ i i t Em) as Hc. cbv beta in Hc. rewrite (call_eq (length objs) args axes f i _ args' Hax Hsl) in Hc.
    exists t. split; [apply Hc; [|exact Et]; rewrite (nth_error_nth' _ 0) by (now rewrite seq_length); now rewrite seq_nth|].
    unfold same_structure in Es. destruct res as [|t0 ts]; [discriminate|]. destruct (forallb _ (t0 :: ts)) eqn:Ef; [|discriminate]. injection Es as <-.
    rewrite forallb_forall in Ef. apply tree_eqb_eq. apply Ef. eapply nth_error_In. exact Et.
  - unfold vmap_loop in E. cbv zeta in E. rewrite (mk_stack_none objs s Hs Est) in E. rewrite Hia in E. cbn [rbind flatten] in E.
    destruct (loop f _ (flat_map flatten args) axes 0 objs None []) as [r|] eqn:El; [|discriminate].
    destruct (loop_calls (length objs) args axes f Hax _ _ _ _ _ El) as (S & _ & H). exists S. intros i args' Hi Hsl. destruct (H i Hi) as (t & Ht & HS). cbn [Nat.add] in Ht.
    rewrite (call_eq (length objs) args axes f i _ args' Hax Hsl) in Ht. eauto.
Qed.
