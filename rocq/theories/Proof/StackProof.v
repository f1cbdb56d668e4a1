From Coq Require Import Reals ZArith List Bool Arith Lia.
From Verif Require Import Base.RealAux Model.Stack Spec.StackSpec.
Import ListNotations.
Local Open Scope nat_scope.

Section TreeInd.
Variable A : Type.
Variable P : tree A -> Prop.
Hypothesis HL : forall a, P (Leaf a).
Hypothesis HN : forall g ch, Forall P ch -> P (Node g ch).
Fixpoint tree_ind' (t : tree A) : P t :=
  match t with
  | Leaf a => HL a
  | Node g ch => HN g ch ((fix go l : Forall P l := match l with [] => Forall_nil _ | a :: l => Forall_cons a (tree_ind' a) (go l) end) ch)
  end.
End TreeInd.

Lemma tree_eqb_eq s : forall t, tree_eqb s t = true <-> s = t.
Proof.
  induction s as [a|g ch IH] using tree_ind'; intros [b|g' ch']; cbn [tree_eqb].
  - destruct a, b. tauto.
  - split; discriminate.
  - split; discriminate.
  - rewrite andb_true_iff, Nat.eqb_eq.
    assert (H : (fix all l l' := match l, l' with [], [] => true | a :: l, b :: l' => tree_eqb a b && all l l' | _, _ => false end) ch ch' = true <-> ch = ch').
    { revert ch'. induction IH as [|a l Ha Hl IHl]; intros [|b l']; try (split; [discriminate|discriminate] || tauto).
      rewrite andb_true_iff, Ha, IHl. split; [intros [-> ->]; reflexivity|intros E; injection E; auto]. }
    rewrite H. split; [intros [-> ->]; reflexivity|intros E; injection E; auto].
Qed.
Lemma flatten_structure {A} (t : tree A) : length (flatten (structure t)) = length (flatten t).
Proof.
  induction t as [a|g ch IH] using tree_ind'; [reflexivity|]. cbn [structure flatten]. induction IH as [|a l Ha Hl IHl]; [reflexivity|].
  cbn [map flat_map]. now rewrite !app_length, Ha, IHl.
Qed.
Lemma structure_structure {A} (t : tree A) : structure (structure t) = structure t.
Proof.
  induction t as [a|g ch IH] using tree_ind'; [reflexivity|]. cbn [structure]. f_equal. rewrite map_map. induction IH as [|a l Ha Hl IHl]; [reflexivity|]. cbn [map]. now rewrite Ha, IHl.
Qed.
Lemma structure_unit (s : tree unit) : structure s = s.
Proof.
  induction s as [[]|g ch IH] using tree_ind'; [reflexivity|]. cbn [structure]. f_equal. induction IH as [|a l Ha Hl IHl]; [reflexivity|]. cbn [map]. now rewrite Ha, IHl.
Qed.
Lemma unflatten_s_ok {A} (s : tree unit) : forall (l r : list A), length l = length (flatten s) ->
  exists t, unflatten_s s (l ++ r) = Some (t, r) /\ structure t = s /\ flatten t = l.
Proof.
  induction s as [[]|g ch IH] using tree_ind'; intros l r Hl.
  - destruct l as [|a [|]]; try discriminate. exists (Leaf a). auto.
  - cbn [unflatten_s]. assert (H : exists ts, (fix go ch l := match ch with [] => Some ([], l) | c :: ch => match unflatten_s c l with None => None | Some (t, l) => match go ch l with None => None | Some (ts, l) => Some (t :: ts, l) end end end) ch (l ++ r) = Some (ts, r) /\ map structure ts = ch /\ flat_map flatten ts = l).
    { cbn [flatten] in Hl. revert l Hl. induction IH as [|c ch Hc _ IHc]; intros l Hl.
      - destruct l; [|discriminate]. exists []. auto.
      - cbn [flat_map] in Hl. rewrite app_length in Hl.
        assert (E : l = firstn (length (flatten c)) l ++ skipn (length (flatten c)) l) by (symmetry; apply firstn_skipn).
        assert (L1 : length (firstn (length (flatten c)) l) = length (flatten c)) by (rewrite firstn_length; lia).
        assert (L2 : length (skipn (length (flatten c)) l) = length (flat_map flatten ch)) by (rewrite skipn_length; lia).
        destruct (IHc _ L2) as (ts & H1 & H2 & H3). destruct (Hc _ (skipn (length (flatten c)) l ++ r) L1) as (t & H4 & H5 & H6).
        exists (t :: ts). rewrite app_assoc, <- E in H4. rewrite H4, H1. cbn [map flat_map]. rewrite H2, H3, H5, H6, <- E. auto. }
    destruct H as (ts & -> & H2 & H3). exists (Node g ts). cbn [structure flatten]. now rewrite H2, H3.
Qed.
Lemma unflatten_ok {A} (s : tree unit) (l : list A) : length l = length (flatten s) ->
  exists t, unflatten s l = Ok t /\ structure t = s /\ flatten t = l.
Proof.
  intros H. destruct (unflatten_s_ok s l [] H) as (t & H1 & H2). rewrite app_nil_r in H1. exists t. unfold unflatten. now rewrite H1.
Qed.
Lemma tree_ext {A} (t t' : tree A) : structure t = structure t' -> flatten t = flatten t' -> t = t'.
Proof.
  intros Hs Hf.
  assert (H : forall u : tree A, unflatten_s (structure u) (flatten u ++ []) = Some (u, [])).
  { clear. intros u. generalize (@nil A) as r. induction u as [a|g ch IH] using tree_ind'; intros r; [reflexivity|].
    cbn [unflatten_s structure flatten].
    assert (H : (fix go ch l := match ch with [] => Some ([], l) | c :: ch => match unflatten_s c l with None => None | Some (t, l) => match go ch l with None => None | Some (ts, l) => Some (t :: ts, l) end end end) (map structure ch) (flat_map flatten ch ++ r) = Some (ch, r)).
    { induction IH as [|c ch Hc _ IHc]; [reflexivity|]. cbn [map flat_map]. rewrite <- app_assoc, Hc, IHc. reflexivity. }
    now rewrite H. }
  pose proof (H t) as H1. pose proof (H t') as H2. rewrite Hs, Hf, H2 in H1. now injection H1.
Qed.
Lemma flatten_axes_length s : forall p axes, flatten_axes s p = Ok axes -> length axes = length (flatten s).
Proof.
  induction s as [[]|g ch IH] using tree_ind'; intros [a|g' ps] axes; cbn [flatten_axes].
  - intros E. injection E as <-. reflexivity.
  - discriminate.
  - intros E. injection E as <-. now rewrite map_length.
  - destruct (Nat.eqb g' g); [|discriminate]. cbn [flatten]. revert ps axes. induction IH as [|c ch Hc _ IHc]; intros [|p ps] axes; try discriminate.
    + intros E. injection E as <-. reflexivity.
    + destruct (flatten_axes c p) as [a|] eqn:E1; [|discriminate]. cbn [rbind].
      match goal with |- context [rbind ?X _] => destruct X as [b|] eqn:E2 end; [|discriminate]. cbn [rbind]. intros E. injection E as <-.
      cbn [flat_map]. rewrite !app_length, (Hc _ _ E1), (IHc _ _ E2). reflexivity.
Qed.

Lemma mapM_ok {A B} (f : A -> result B) (g : A -> B) l : (forall a, In a l -> f a = Ok (g a)) -> mapM f l = Ok (map g l).
Proof. induction l as [|a l IH]; intros H; [reflexivity|]. cbn [mapM map]. rewrite H by now left. cbn [rbind]. rewrite IH by (intros; apply H; now right). reflexivity. Qed.
Lemma mapM_inv {A B} (f : A -> result B) l bs : mapM f l = Ok bs -> Forall2 (fun a b => f a = Ok b) l bs.
Proof.
  revert bs. induction l as [|a l IH]; intros bs; cbn [mapM]; [intros E; injection E as <-; constructor|].
  destruct (f a) as [b|] eqn:E1; [|discriminate]. cbn [rbind]. destruct (mapM f l) as [bs'|] eqn:E2; [|discriminate]. cbn [rbind]. intros E. injection E as <-.
  constructor; [exact E1|]. now apply IH.
Qed.

(** transposition of lists of length k *)
Lemma transpose_length {A} k (ls : list (list A)) : length (transpose k ls) = k.
Proof. revert ls. induction k as [|k IH]; intros ls; [reflexivity|]. cbn [transpose length]. now rewrite IH. Qed.
Lemma transpose_nth {A} (d : A) k : forall (ls : list (list A)) j, (forall l, In l ls -> length l = k) -> j < k ->
  nth j (transpose k ls) [] = map (fun l => nth j l d) ls.
Proof.
  induction k as [|k IH]; intros ls j Hl Hj; [lia|]. cbn [transpose]. destruct j as [|j].
  - cbn [nth]. clear IH. induction ls as [|l ls IHl]; [reflexivity|]. cbn [flat_map map]. rewrite IHl by (intros; apply Hl; now right).
    specialize (Hl l (or_introl eq_refl)). destruct l; [discriminate|reflexivity].
  - cbn [nth]. rewrite IH; [|intros l Hi; apply in_map_iff in Hi; destruct Hi as (l' & <- & Hi); specialize (Hl l' Hi); destruct l'; [discriminate|cbn in *; lia]|lia].
    rewrite map_map. apply map_ext_in. intros l Hi. specialize (Hl l Hi). destruct l; [discriminate|reflexivity].
Qed.

Lemma shape_eqb_eq s t : shape_eqb s t = true <-> s = t.
Proof. unfold shape_eqb. destruct (list_eq_dec Nat.eq_dec s t); split; intros; try assumption; try reflexivity; [discriminate|contradiction]. Qed.
Lemma jnp_stack_inv parts a x : jnp_stack parts a = Ok x -> exists p b, In p parts /\ (forall q, In q parts -> ashape q = ashape p) /\
  normalize_axis (S (length (ashape p))) a = Ok b /\ x = stack_at b parts (ashape p).
Proof.
  unfold jnp_stack. destruct parts as [|p ps]; [discriminate|]. destruct (forallb _ (p :: ps)) eqn:E; [|discriminate].
  destruct (normalize_axis (S (length (ashape p))) a) as [b|] eqn:Ea; [|discriminate]. cbn [rbind]. intros H. injection H as <-.
  exists p, b. split; [now left|]. split; [|auto]. intros q Hq. rewrite forallb_forall in E. apply shape_eqb_eq. now apply E.
Qed.
Lemma jnp_stack_ok parts a p : In p parts -> (forall q, In q parts -> ashape q = ashape p) -> (0 <= a <= Z.of_nat (length (ashape p)))%Z ->
  jnp_stack parts a = Ok (stack_at (Z.to_nat a) parts (ashape p)).
Proof.
  intros Hp Hq Ha. unfold jnp_stack. destruct parts as [|p0 ps]; [destruct Hp|].
  assert (E0 : ashape p0 = ashape p) by (apply Hq; now left).
  replace (forallb _ (p0 :: ps)) with true.
  - rewrite E0. unfold normalize_axis. replace ((0 <=? a)%Z && (a <? Z.of_nat (S (length (ashape p))))%Z)%bool with true; [reflexivity|].
    symmetry. apply andb_true_iff. split; [apply Z.leb_le; lia|apply Z.ltb_lt; lia].
  - symmetry. apply forallb_forall. intros q Hi. apply shape_eqb_eq. rewrite E0. now apply Hq.
Qed.
Lemma insert_remove {A} a (x d : A) l : a <= length l -> nth a (insert_at a x l) d = x /\ remove_at a (insert_at a x l) = l.
Proof.
  intros H. unfold insert_at, remove_at. assert (L : length (firstn a l) = a) by (rewrite firstn_length; lia). split.
  - rewrite app_nth2 by lia. now rewrite L, Nat.sub_diag.
  - rewrite firstn_app, L, Nat.sub_diag. cbn [firstn]. rewrite app_nil_r, firstn_firstn, Nat.min_id.
    rewrite skipn_app, L. replace (S a - a) with 1 by lia. change (skipn 1 (x :: skipn a l)) with (skipn a l). rewrite (skipn_all2 (firstn a l)) by lia. cbn [app]. apply firstn_skipn.
Qed.
Lemma in_range_length s idx : in_range s idx -> length idx = length s.
Proof. intros H. induction H; cbn; auto. Qed.
Lemma take_stack_at a i parts s : a <= length s -> i < length parts -> (forall q, In q parts -> ashape q = s) ->
  arr_eq (take a i (stack_at a parts s)) (nth i parts (Arr [] (fun _ => 0%R))).
Proof.
  intros Ha Hi Hs. assert (Hn : ashape (nth i parts (Arr [] (fun _ => 0%R))) = s) by (apply Hs, nth_In; exact Hi).
  destruct (insert_remove a (length parts) 0 s Ha) as [E1 E2].
  unfold take, stack_at. cbn [ashape aget]. split; cbn [ashape]; [now rewrite E2|]. rewrite E2, E1. intros idx Hidx. apply in_range_length in Hidx.
  cbn [aget]. destruct (insert_remove a (Nat.min i (length parts - 1)) 0 idx ltac:(lia)) as [-> ->]. now replace (Nat.min i (length parts - 1)) with i by lia.
Qed.
Lemma take_stack_0 i parts s : i < length parts -> (forall q, In q parts -> ashape q = s) ->
  take 0 i (stack_at 0 parts s) = nth i parts (Arr [] (fun _ => 0%R)).
Proof.
  intros Hi Hs. assert (Hn : ashape (nth i parts (Arr [] (fun _ => 0%R))) = s) by (apply Hs, nth_In; exact Hi).
  unfold take, stack_at, insert_at, remove_at. cbn [ashape aget firstn skipn app nth tl].
  replace (Nat.min i (length parts - 1)) with i by lia. destruct (nth i parts (Arr [] (fun _ => 0%R))) as [s' g] eqn:E. cbn [ashape aget] in *. now rewrite Hn.
Qed.
Lemma take_slice_of a i x : a < length (ashape x) -> i < nth a (ashape x) 0 -> slice_of a i x (take a i x).
Proof.
  intros Ha Hi. unfold slice_of, take. cbn [ashape aget]. split; [exact Ha|]. split; [exact Hi|]. split; [reflexivity|]. intros idx _.
  now replace (Nat.min i (nth a (ashape x) 0 - 1)) with i by lia.
Qed.

(** * Common normal form of the two paths *)
Definition dflt : obj := Node 0 [].
Lemma Forall2_len {A B} (P : A -> B -> Prop) l l' : Forall2 P l l' -> length l = length l'.
Proof. intros H. induction H; cbn; auto. Qed.
Lemma Forall2_nth_error {A B} (P : A -> B -> Prop) l l' j a b : Forall2 P l l' -> nth_error l j = Some a -> nth_error l' j = Some b -> P a b.
Proof. intros H. revert j. induction H; intros [|j]; cbn; try discriminate; [intros E E'; injection E as <-; injection E' as <-; assumption|apply IHForall2]. Qed.

(** the stacked object, sliced, is the original object *)
Lemma mk_stack_some objs s st : mk_stack objs = Ok s -> s_stack s = Some st ->
  s_objects s = objs /\ objs <> [] /\
  (forall i, i < length objs -> structure (nth i objs dflt) = structure st /\ map (take 0 i) (flatten st) = flatten (nth i objs dflt)) /\
  Forall (fun x => exists s', ashape x = length objs :: s') (flatten st).
Proof.
  unfold mk_stack. destruct objs as [|o os]; [intros E; injection E as <-; discriminate|].
  cbv iota beta. set (objs := o :: os) in *. match goal with |- context [forallb ?g objs] => destruct (forallb g objs) eqn:Ef end; [|intros E; injection E as <-; discriminate].
  match goal with |- context [mapM ?g ?l] => destruct (mapM g l) as [leaves|] eqn:Em end; [|discriminate]. cbn [rbind]. destruct (unflatten (structure o) leaves) as [t|] eqn:Eu; [|discriminate]. cbn [rbind].
  intros E. injection E as <-. cbn [s_stack s_objects]. intros E. injection E as <-.
  assert (Hst : forall o', In o' objs -> structure o' = structure o).
  { intros o' Ho. rewrite forallb_forall in Ef. apply tree_eqb_eq. now apply Ef. }
  assert (Hlen : forall l, In l (map flatten objs) -> length l = length (flatten o)).
  { intros l Hl. apply in_map_iff in Hl. destruct Hl as (o' & <- & Ho). rewrite <- (flatten_structure o'), (Hst o' Ho). apply flatten_structure. }
  apply mapM_inv in Em. pose proof (Forall2_len _ _ _ Em) as Hll. rewrite transpose_length in Hll.
  destruct (unflatten_ok (structure o) leaves) as (t' & H1 & H2 & H3); [rewrite flatten_structure; lia|]. rewrite Eu in H1. injection H1 as <-.
  assert (Hleaf : forall j, j < length leaves -> exists p, In p (map (fun l => nth j l (Arr [] (fun _ => 0%R))) (map flatten objs)) /\
     (forall q, In q (map (fun l => nth j l (Arr [] (fun _ => 0%R))) (map flatten objs)) -> ashape q = ashape p) /\
     nth j leaves (Arr [] (fun _ => 0%R)) = stack_at 0 (map (fun l => nth j l (Arr [] (fun _ => 0%R))) (map flatten objs)) (ashape p)).
  { intros j Hj. assert (E := transpose_nth (Arr [] (fun _ => 0%R)) _ _ j Hlen ltac:(lia)).
    assert (P : jnp_stack (map (fun l => nth j l (Arr [] (fun _ => 0%R))) (map flatten objs)) 0 = Ok (nth j leaves (Arr [] (fun _ => 0%R)))).
    { rewrite <- E. eapply (Forall2_nth_error _ _ _ j _ _ Em); [apply nth_error_nth'; rewrite transpose_length; lia|apply nth_error_nth'; exact Hj]. }
    destruct (jnp_stack_inv _ _ _ P) as (p & b & Hp & Hq & Hb & Hx). exists p. split; [exact Hp|]. split; [exact Hq|].
    unfold normalize_axis in Hb. cbn in Hb. injection Hb as <-. exact Hx. }
  split; [reflexivity|]. split; [discriminate|]. split.
  - intros i Hi. rewrite H2. split; [apply Hst, nth_In; exact Hi|]. rewrite H3.
    assert (Lf : length (flatten (nth i objs dflt)) = length leaves) by (rewrite (Hlen (flatten (nth i objs dflt))); [lia|apply in_map, nth_In; exact Hi]).
    apply (nth_ext _ _ (take 0 i (Arr [] (fun _ => 0%R))) (Arr [] (fun _ => 0%R))); rewrite map_length; [lia|]. intros j Hj. rewrite map_nth.
    destruct (Hleaf j Hj) as (p & Hp & Hq & ->). rewrite take_stack_0; [|rewrite !map_length; exact Hi|exact Hq].
    rewrite (nth_indep _ _ (nth j (flatten dflt) (Arr [] (fun _ => 0%R)))) by (rewrite !map_length; exact Hi).
    rewrite (map_nth (fun l => nth j l (Arr [] (fun _ => 0%R)))). f_equal. apply (map_nth flatten).
  - rewrite H3. apply Forall_forall. intros x Hx. apply (In_nth _ _ (Arr [] (fun _ => 0%R))) in Hx. destruct Hx as (j & Hj & <-).
    destruct (Hleaf j Hj) as (p & _ & _ & ->). exists (ashape p). unfold stack_at, insert_at. cbn [ashape firstn skipn app]. now rewrite !map_length.
Qed.
Lemma mk_stack_none objs s : mk_stack objs = Ok s -> s_stack s = None -> s_objects s = objs.
Proof.
  unfold mk_stack. destruct objs as [|o os]; [intros E; injection E as <-; reflexivity|]. cbv iota beta. match goal with |- context [forallb ?g ?l] => destruct (forallb g l) end; [|intros E; injection E as <-; reflexivity].
  match goal with |- context [mapM ?g ?l] => destruct (mapM g l) as [leaves|] end; [|discriminate]. cbn [rbind]. destruct (unflatten (structure o) leaves); [|discriminate]. cbn [rbind]. intros E. injection E as <-. discriminate.
Qed.

(** leaves of the i-th call *)
Definition sl (i : nat) (e : arr * axis) : arr := match snd e with None => fst e | Some a => take (Z.to_nat a) i (fst e) end.
Lemma sliced_Forall3 i xs axes : length axes = length xs -> Forall3 (leaf_slice i) xs axes (map (sl i) (combine xs axes)).
Proof.
  revert axes. induction xs as [|x xs IH]; intros [|a axes] H; try discriminate; constructor; [|apply IH; cbn in H; lia].
  unfold sl, leaf_slice. cbn [fst snd]. now destruct a.
Qed.
Lemma unflat_args i args axes : length axes = length (flat_map flatten args) ->
  exists args', unflatten (structure (Node tuple_tag args)) (map (sl i) (combine (flat_map flatten args) axes)) = Ok (Node tuple_tag args') /\ sliced i axes args args'.
Proof.
  intros H. destruct (unflatten_ok (structure (Node tuple_tag args)) (map (sl i) (combine (flat_map flatten args) axes))) as (t & H1 & H2 & H3).
  { rewrite map_length, combine_length, H, Nat.min_id, flatten_structure. reflexivity. }
  destruct t as [|g args']; [discriminate|]. cbn [structure] in H2. injection H2 as -> H2. exists args'. split; [exact H1|]. split; [exact H2|].
  cbn [flatten] in H3. rewrite H3. now apply sliced_Forall3.
Qed.
Section Paths.
Variables (n : nat) (args : list (tree arr)) (axes : list axis).
Hypothesis Hax : Forall2 (axis_ok n) (flat_map flatten args) axes.
Let Hlen : length axes = length (flat_map flatten args) := eq_sym (Forall2_len _ _ _ Hax).
Lemma index_leaves i : mapM (fun e => index_helper i (fst e) (snd e)) (combine (flat_map flatten args) axes) = Ok (map (sl i) (combine (flat_map flatten args) axes)).
Proof.
  apply mapM_ok. intros [x a] Hin. cbn [fst snd]. unfold index_helper, sl. cbn [fst snd]. destruct a as [a|]; [|reflexivity].
  assert (H : axis_ok n x (Some a)). { clear - Hax Hin. revert Hin. induction Hax; cbn [combine]; [intros []|]. intros [E|H']; [injection E as <- <-; assumption|auto]. }
  destruct H as [H _]. destruct (Nat.ltb_spec (Z.to_nat a) (length (ashape x))); [reflexivity|lia].
Qed.
Variable f : func_t.
(** the i-th call, as a function of the body *)
Definition call (i : nat) (b : obj) : result (tree arr) :=
  call_unflat f (structure (Node tuple_tag args)) b (map (sl i) (combine (flat_map flatten args) axes)).
Lemma call_sliced i b t : (forall args', sliced i axes args args' -> f b args' = Ok t) -> call i b = Ok t.
Proof.
  intros H. unfold call, call_unflat. destruct (unflat_args i args axes Hlen) as (args' & -> & Hs). cbn [rbind]. now apply H.
Qed.
Lemma loop_ok (t : nat -> tree arr) S0 : forall bodies k res ot,
  (forall i, i < length bodies -> call (k + i) (nth i bodies dflt) = Ok (t (k + i)) /\ structure (t (k + i)) = S0) -> (ot = None \/ ot = Some S0) ->
  loop f (structure (Node tuple_tag args)) (flat_map flatten args) axes k bodies ot res =
  Ok (match bodies with [] => ot | _ => Some S0 end, res ++ map (fun i => flatten (t i)) (seq k (length bodies))).
Proof.
  induction bodies as [|b bodies IH]; intros k res ot H Hot; [cbn; now rewrite app_nil_r|]. cbn [loop]. rewrite index_leaves. cbn [rbind].
  destruct (H 0 ltac:(cbn; lia)) as [H0 H0']. rewrite Nat.add_0_r in *. cbn [nth] in H0. unfold call in H0. rewrite H0. cbn [rbind]. cbv zeta. rewrite H0'.
  assert (E : loop f (structure (Node tuple_tag args)) (flat_map flatten args) axes (S k) bodies (Some S0) (res ++ [flatten (t k)]) =
     Ok (Some S0, res ++ map (fun i => flatten (t i)) (seq k (length (b :: bodies))))).
  { rewrite IH; [|intros i Hi; specialize (H (S i) ltac:(cbn; lia)); rewrite Nat.add_succ_r in H; exact H|now right].
    rewrite <- app_assoc. cbn [length seq map app]. destruct bodies; reflexivity. }
  destruct Hot as [-> | ->]; [exact E|]. replace (tree_eqb S0 S0) with true by (symmetry; now apply tree_eqb_eq). exact E.
Qed.
Lemma sizes_ok (l : list (arr * axis)) ms : (forall e, In e l -> axis_ok n (fst e) (snd e)) -> mapM (fun e => mapped_size (fst e) (snd e)) l = Ok ms ->
  (forall m, In m (sizes ms) -> m = n) /\ forall i, map (fun e => slice i (fst e) (snd e)) (combine (map fst l) ms) = map (sl i) l.
Proof.
  clear Hlen Hax. revert ms. induction l as [|[x a] l IH]; intros ms H E; cbn [mapM] in E.
  - injection E as <-. split; [intros m []|reflexivity].
  - destruct (mapped_size x a) as [m|] eqn:Em; cbn [rbind fst snd] in E; rewrite Em in E; [|discriminate]. cbn [rbind] in E.
    destruct (mapM _ l) as [ms'|] eqn:E'; [|discriminate]. cbn [rbind] in E. injection E as <-.
    destruct (IH ms' ltac:(intros; apply H; now right) eq_refl) as [I1 I2]. pose proof (H (x, a) (or_introl eq_refl)) as Ha. cbn [fst snd] in Ha.
    destruct a as [a|]; cbn [mapped_size axis_ok] in *.
    + unfold normalize_axis in Em. destruct Ha as [Ha Hn]. replace ((0 <=? a)%Z && (a <? Z.of_nat (length (ashape x)))%Z)%bool with true in Em by (symmetry; apply andb_true_iff; split; [apply Z.leb_le|apply Z.ltb_lt]; lia).
      cbn [rbind] in Em. injection Em as <-. split.
      * cbn [sizes]. intros m [<-|Hm]; [exact Hn|now apply I1].
      * intros i. cbn [map combine]. rewrite I2. reflexivity.
    + injection Em as <-. split; [exact I1|]. intros i. cbn [map combine]. rewrite I2. reflexivity.
Qed.
Lemma sizes_total (l : list (arr * axis)) : (forall e, In e l -> axis_ok n (fst e) (snd e)) -> exists ms, mapM (fun e => mapped_size (fst e) (snd e)) l = Ok ms.
Proof.
  clear Hlen Hax. induction l as [|[x a] l IH]; intros H; [eexists; reflexivity|]. destruct IH as (ms & E); [intros; apply H; now right|]. cbn [mapM fst snd].
  pose proof (H (x, a) (or_introl eq_refl)) as Ha. cbn [fst snd] in Ha. destruct a as [a|]; cbn [mapped_size axis_ok] in *.
  - unfold normalize_axis. destruct Ha as [Ha Hn]. replace ((0 <=? a)%Z && (a <? Z.of_nat (length (ashape x)))%Z)%bool with true by (symmetry; apply andb_true_iff; split; [apply Z.leb_le|apply Z.ltb_lt]; lia).
    cbn [rbind]. rewrite E. eexists. reflexivity.
  - cbn [rbind]. rewrite E. eexists. reflexivity.
Qed.
End Paths.

Lemma vmap_loop_ok objs f ia out_axes args axes t S0 :
  flatten_axes (structure (Node tuple_tag args)) (Node tuple_tag ia) = Ok axes ->
  Forall2 (axis_ok (length objs)) (flat_map flatten args) axes -> objs <> [] ->
  (forall i, i < length objs -> (forall args', sliced i axes args args' -> f (nth i objs dflt) args' = Ok (t i)) /\ structure (t i) = S0) ->
  vmap_loop objs f ia out_axes args = stack_results S0 out_axes (map (fun i => flatten (t i)) (seq 0 (length objs))).
Proof.
  intros Hia Hax Hne H. unfold vmap_loop. cbv zeta. rewrite Hia. cbn [rbind flatten].
  rewrite (loop_ok (length objs) args axes Hax f t S0 objs 0 [] None).
  - cbn [rbind app]. destruct objs; [contradiction|reflexivity].
  - intros i Hi. cbn [Nat.add]. destruct (H i Hi) as [H1 H2]. split; [|exact H2]. now apply (call_sliced (length objs) args axes Hax).
  - now left.
Qed.
Lemma combine_map_fst {A B} (l : list A) (l' : list B) : length l = length l' -> map fst (combine l l') = l.
Proof. revert l'. induction l as [|a l IH]; intros [|b l'] H; try discriminate; [reflexivity|]. cbn [combine map fst]. rewrite IH; [reflexivity|cbn in H; lia]. Qed.
Lemma In_combine_F2 {A B} (P : A -> B -> Prop) l l' e : Forall2 P l l' -> In e (combine l l') -> P (fst e) (snd e).
Proof. intros H. induction H; cbn [combine]; [intros []|]. intros [<-|H']; auto. Qed.
Lemma F2_app {A B} (P : A -> B -> Prop) a b c d : Forall2 P a b -> Forall2 P c d -> Forall2 P (a ++ c) (b ++ d).
Proof. intros H H'. induction H; cbn; [exact H'|constructor; assumption]. Qed.
Lemma combine_app {A B} (a c : list A) (b d : list B) : length a = length b -> combine (a ++ c) (b ++ d) = combine a b ++ combine c d.
Proof. revert b. induction a as [|x a IH]; intros [|y b] H; try discriminate; [reflexivity|]. cbn. rewrite IH; [reflexivity|cbn in H; lia]. Qed.
Lemma sizes_nonempty (l : list (arr * axis)) ms : mapM (fun e => mapped_size (fst e) (snd e)) l = Ok ms -> (exists x a, In (x, Some a) l) -> sizes ms <> [].
Proof.
  revert ms. induction l as [|[x a] l IH]; intros ms E (x' & a' & Hin); [destruct Hin|]. cbn [mapM fst snd] in E.
  destruct (mapped_size x a) as [m|] eqn:Em; [|discriminate]. cbn [rbind] in E. destruct (mapM _ l) as [ms'|] eqn:E'; [|discriminate]. cbn [rbind] in E. injection E as <-.
  destruct Hin as [Hin|Hin].
  - injection Hin as -> ->. cbn [mapped_size] in Em. destruct (normalize_axis _ _); [|discriminate]. injection Em as <-. discriminate.
  - specialize (IH ms' eq_refl (ex_intro _ x' (ex_intro _ a' Hin))). cbn [sizes]. destruct m as [[? ?]|]; [discriminate|exact IH].
Qed.
Lemma flatten_axes_leaf s a : flatten_axes s (Leaf a) = Ok (map (fun _ => a) (flatten s)).
Proof. now destruct s. Qed.
Lemma jax_vmap_ok objs s st f ia out_axes args axes t S0 :
  mk_stack objs = Ok s -> s_stack s = Some st -> flatten st <> [] ->
  flatten_axes (structure (Node tuple_tag args)) (Node tuple_tag ia) = Ok axes ->
  Forall2 (axis_ok (length objs)) (flat_map flatten args) axes ->
  (forall i, i < length objs -> (forall args', sliced i axes args args' -> f (nth i objs dflt) args' = Ok (t i)) /\ structure (t i) = S0) ->
  jax_vmap f (Leaf (Some 0%Z) :: ia) out_axes (st :: args) = stack_results S0 out_axes (map (fun i => flatten (t i)) (seq 0 (length objs))).
Proof.
  intros Hs Hst Hlf Hia Hax H. destruct (mk_stack_some objs s st Hs Hst) as (Ho & Hne & Hsl & Hsh).
  unfold jax_vmap. unfold obj, axis in *. cbv zeta.
  assert (E0 : flatten_axes (structure (Node tuple_tag (st :: args))) (Node tuple_tag (Leaf (Some 0%Z) :: ia)) = Ok (map (fun _ => Some 0%Z) (flatten st) ++ axes)).
  { cbn [flatten_axes structure map] in Hia |- *. cbn [Nat.eqb] in Hia |- *. change (Nat.eqb tuple_tag tuple_tag) with true in *. cbn [rbind] in Hia |- *. cbv iota in Hia |- *. rewrite flatten_axes_leaf. cbn [rbind]. rewrite Hia. cbn [rbind]. f_equal. f_equal.
    pose proof (flatten_structure st) as L. clear - L. revert L. generalize (flatten (structure st)) as a. generalize (flatten st) as b. induction b as [|y b IH]; intros [|x a] L; try discriminate; [reflexivity|]. cbn. f_equal. apply IH. cbn in L. lia. }
  rewrite E0. cbn [rbind].
  assert (Hall : Forall2 (axis_ok (length objs)) (flatten (Node tuple_tag (st :: args))) (map (fun _ => Some 0%Z) (flatten st) ++ axes)).
  { cbn [flatten flat_map]. apply F2_app; [|exact Hax]. clear - Hsh. induction Hsh as [|x l (s' & Hx) Hl IH]; cbn [map]; constructor; [|exact IH]. unfold axis_ok. rewrite Hx. cbn [length nth Z.to_nat]. split; [lia|reflexivity]. }
  set (xs := flatten (Node tuple_tag (st :: args))) in *. set (axs := map (fun _ => Some 0%Z) (flatten st) ++ axes) in *.
  assert (Hin : forall e, In e (combine xs axs) -> axis_ok (length objs) (fst e) (snd e)) by (intros e He; exact (In_combine_F2 _ _ _ e Hall He)).
  destruct (sizes_total (length objs) _ Hin) as (ms & Hms). unfold axis in *. rewrite Hms. cbn [rbind]. destruct (sizes_ok (length objs) _ ms Hin Hms) as [Hsz Hslc].
  rewrite combine_map_fst in Hslc by (exact (Forall2_len _ _ _ Hall)).
  assert (Hnz : sizes ms <> []).
  { apply (sizes_nonempty _ _ Hms). unfold xs, axs. cbn [flatten flat_map]. destruct (flatten st) as [|x l]; [contradiction|]. exists x, 0%Z. now left. }
  destruct (sizes ms) as [|n0 ns]; [contradiction|]. rewrite (Hsz n0 (or_introl eq_refl)) in *.
  replace (forallb (Nat.eqb (length objs)) ns) with true.
  2:{ symmetry. apply forallb_forall. intros m Hm. apply Nat.eqb_eq. symmetry. apply Hsz. now right. }
  rewrite (mapM_ok _ t).
  - cbn [rbind]. unfold same_structure. destruct objs as [|o objs']; [contradiction|]. set (objs := o :: objs') in *.
    assert (EL : map t (seq 0 (length objs)) = t 0 :: map t (seq 1 (length objs'))) by reflexivity. rewrite EL.
    replace (forallb _ (t 0 :: map t (seq 1 (length objs')))) with true.
    + cbn [rbind]. rewrite (proj2 (H 0 ltac:(cbn; lia))). f_equal. rewrite <- EL, map_map. reflexivity.
    + symmetry. apply forallb_forall. rewrite <- EL. intros t' Ht. apply in_map_iff in Ht. destruct Ht as (i & <- & Hi). apply in_seq in Hi.
      apply tree_eqb_eq. rewrite (proj2 (H i ltac:(lia))), (proj2 (H 0 ltac:(cbn; lia))). reflexivity.
  - intros i Hi. apply in_seq in Hi. rewrite Hslc.
    destruct (unflatten_ok (structure (Node tuple_tag (st :: args))) (map (sl i) (combine xs axs))) as (tr & H1 & H2 & H3).
    { rewrite map_length, combine_length, <- (Forall2_len _ _ _ Hall), Nat.min_id, flatten_structure. reflexivity. }
    rewrite H1. cbn [rbind]. destruct tr as [|g [|o' args']]; cbn [structure map] in H2; [discriminate|discriminate|]. injection H2 as -> H2a H2b.
    destruct (Hsl i ltac:(lia)) as [Hs1 Hs2].
    cbn [flatten flat_map] in H3. unfold xs, axs in H3. cbn [flatten flat_map] in H3. rewrite combine_app in H3 by now rewrite map_length. rewrite map_app in H3.
    assert (E1 : map (sl i) (combine (flatten st) (map (fun _ : arr => Some 0%Z) (flatten st))) = flatten (nth i objs dflt)).
    { rewrite <- Hs2. generalize (flatten st) as l. induction l as [|x l IH]; [reflexivity|]. cbn [map combine]. rewrite IH. reflexivity. }
    unfold axis in *. rewrite E1 in H3.
    assert (Lo : length (flatten o') = length (flatten (nth i objs dflt))) by (rewrite <- (flatten_structure o'), H2a, <- Hs1; apply flatten_structure).
    assert (E2 : flatten o' = flatten (nth i objs dflt) /\ flat_map flatten args' = map (sl i) (combine (flat_map flatten args) axes)).
    { apply (f_equal (firstn (length (flatten o')))) in H3 as Hf. apply (f_equal (skipn (length (flatten o')))) in H3 as Hk.
      rewrite Lo in Hf at 2. rewrite Lo in Hk at 2. rewrite !firstn_app, !Nat.sub_diag, !firstn_all, !firstn_O, !app_nil_r in Hf.
      rewrite !skipn_app, !Nat.sub_diag, !skipn_all, !skipn_O in Hk. auto. }
    destruct E2 as [E2 E3]. assert (Eo : o' = nth i objs dflt) by (apply tree_ext; [congruence|exact E2]). rewrite Eo.
    apply (H i ltac:(lia)). split; [exact H2b|]. rewrite E3. apply sliced_Forall3. symmetry. exact (Forall2_len _ _ _ Hax).
Qed.

Notation d0 := (Arr [] (fun _ => 0%R)).
Lemma combine_nth_error {A B} (l : list A) (l' : list B) j e : nth_error (combine l l') j = Some e -> nth_error l j = Some (fst e) /\ nth_error l' j = Some (snd e).
Proof. revert l' j. induction l as [|a l IH]; intros [|b l'] [|j]; cbn; try discriminate; [intros E; injection E as <-; auto|apply IH]. Qed.
Lemma In_nth_error' {A} (l : list A) x : In x l -> exists j, nth_error l j = Some x.
Proof. apply In_nth_error. Qed.
Lemma stack_results_ok n (t : nat -> tree arr) out_axes oax : 0 < n ->
  (forall i, i < n -> structure (t i) = structure (t 0) /\ map ashape (flatten (t i)) = map ashape (flatten (t 0))) ->
  flatten_axes (structure (t 0)) out_axes = Ok oax -> Forall2 out_ok (flatten (t 0)) oax ->
  exists out, stack_results (structure (t 0)) out_axes (map (fun i => flatten (t i)) (seq 0 n)) = Ok out /\ structure out = structure (t 0) /\
    forall j x, nth_error (flatten out) j = Some x ->
      match nth j oax None with
      | None => nth_error (flatten (t 0)) j = Some x
      | Some a => length (ashape x) = S (length (ashape (nth j (flatten (t 0)) d0))) /\ nth (Z.to_nat a) (ashape x) 0 = n /\
                  forall i, i < n -> exists y, nth_error (flatten (t i)) j = Some y /\ arr_eq (take (Z.to_nat a) i x) y
      end.
Proof.
  intros Hn Hst Hax Hok. unfold stack_results. rewrite Hax. cbn [rbind].
  set (k := length (flatten (structure (t 0)))). set (ls := map (fun i => flatten (t i)) (seq 0 n)).
  assert (Hk : k = length (flatten (t 0))) by apply flatten_structure.
  assert (Hls : forall l, In l ls -> length l = k).
  { intros l Hl. apply in_map_iff in Hl. destruct Hl as (i & <- & Hi). apply in_seq in Hi. rewrite <- (flatten_structure (t i)), (proj1 (Hst i ltac:(lia))). reflexivity. }
  pose proof (Forall2_len _ _ _ Hok) as Hlo.
  assert (Hpart : forall j, j < k -> nth j (transpose k ls) [] = map (fun i => nth j (flatten (t i)) d0) (seq 0 n)).
  { intros j Hj. rewrite (transpose_nth d0 k ls j Hls Hj). unfold ls. now rewrite map_map. }
  assert (Hshape : forall i j, i < n -> ashape (nth j (flatten (t i)) d0) = ashape (nth j (flatten (t 0)) d0)).
  { intros i j Hi. rewrite <- !(map_nth ashape). now rewrite (proj2 (Hst i Hi)). }
  set (g := fun e : axis * list arr => match fst e with None => hd d0 (snd e) | Some a => stack_at (Z.to_nat a) (snd e) (ashape (hd d0 (snd e))) end).
  rewrite (mapM_ok _ g).
  - cbn [rbind]. destruct (unflatten_ok (structure (t 0)) (map g (combine oax (transpose k ls)))) as (out & H1 & H2 & H3).
    { rewrite map_length, combine_length, transpose_length. fold k. lia. }
    exists out. split; [exact H1|]. split; [exact H2|]. intros j x Hx. rewrite H3 in Hx. rewrite nth_error_map in Hx.
    destruct (nth_error (combine oax (transpose k ls)) j) as [[a parts]|] eqn:Ec; [|discriminate]. injection Hx as <-.
    apply combine_nth_error in Ec. destruct Ec as [Ea Ep]. cbn [fst snd] in *.
    assert (Hj : j < k) by (rewrite <- (transpose_length k ls); apply nth_error_Some; congruence).
    apply (nth_error_nth _ _ []) in Ep. rewrite Hpart in Ep by exact Hj. assert (En : nth j oax None = a) by (apply nth_error_nth; exact Ea). unfold axis in *. rewrite En. subst parts. unfold g. cbn [fst snd].
    destruct n as [|n']; [lia|]. cbn [seq map hd].
    assert (Oj : out_ok (nth j (flatten (t 0)) d0) a). { eapply (Forall2_nth_error _ _ _ j _ _ Hok); [apply nth_error_nth'; lia|exact Ea]. }
    destruct a as [a|]; [|apply nth_error_nth'; lia]. cbn [out_ok] in Oj.
    set (parts := nth j (flatten (t 0)) d0 :: map (fun i => nth j (flatten (t i)) d0) (seq 1 n')).
    assert (Hparts : parts = map (fun i => nth j (flatten (t i)) d0) (seq 0 (S n'))) by reflexivity.
    assert (Lp : length parts = S n') by (rewrite Hparts, map_length, seq_length; reflexivity).
    assert (Hq : forall q, In q parts -> ashape q = ashape (nth j (flatten (t 0)) d0)).
    { rewrite Hparts. intros q Hq. apply in_map_iff in Hq. destruct Hq as (i & <- & Hi). apply in_seq in Hi. apply Hshape. lia. }
    split; [|split].
    + unfold stack_at. cbn [ashape]. unfold insert_at. rewrite app_length. cbn [length]. rewrite firstn_length, skipn_length. lia.
    + unfold stack_at. cbn [ashape]. rewrite <- Lp. apply insert_remove. lia.
    + intros i Hi. exists (nth j (flatten (t i)) d0). split; [apply nth_error_nth'; rewrite (Hls (flatten (t i))); [exact Hj|]; unfold ls; apply (in_map (fun i => flatten (t i))); apply in_seq; lia|].
      replace (nth j (flatten (t i)) d0) with (nth i parts d0).
      * apply take_stack_at; [lia|lia|exact Hq].
      * rewrite Hparts. rewrite (nth_indep _ d0 (nth j (flatten (t 0)) d0)) by (rewrite map_length, seq_length; exact Hi). rewrite (map_nth (fun i => nth j (flatten (t i)) d0)). now rewrite seq_nth by exact Hi.
  - intros [a parts] Hin. apply In_nth_error' in Hin. destruct Hin as (j & Hj). apply combine_nth_error in Hj. destruct Hj as [Ea Ep]. cbn [fst snd] in *.
    assert (Hj : j < k) by (rewrite <- (transpose_length k ls); apply nth_error_Some; congruence).
    apply (nth_error_nth _ _ []) in Ep. rewrite Hpart in Ep by exact Hj. subst parts. unfold g. cbn [fst snd]. destruct n as [|n']; [lia|].
    assert (Oj : out_ok (nth j (flatten (t 0)) d0) a). { eapply (Forall2_nth_error _ _ _ j _ _ Hok); [apply nth_error_nth'; lia|exact Ea]. }
    destruct a as [a|]; [|reflexivity]. cbn [out_ok] in Oj. cbn [seq map hd]. apply jnp_stack_ok; [now left| |exact Oj].
    intros q Hq. change (In q (map (fun i => nth j (flatten (t i)) d0) (seq 0 (S n')))) in Hq. apply in_map_iff in Hq. destruct Hq as (i & <- & Hi). apply in_seq in Hi. apply Hshape. lia.
Qed.
