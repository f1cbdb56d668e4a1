(** The methods of System row by row: instances of the theorem about ObjectStack.vmap. *)
From Coq Require Import Reals ZArith List Bool Arith Lia Lra.
From Verif Require Import Base.RealAux Model.Keplerian Model.LimbDark Model.LightCurves Model.Stack Model.SystemMethods Spec.StackSpec Spec.SystemMethodsSpec Spec.TransitSpec Proof.StackProof.
From Verif Require Properties.StackProps.
Import ListNotations.
Local Open Scope nat_scope.

Lemma get_orbital_tree o : get_orbital (orbital_tree o) = Some o.
Proof.
  destruct o as [[cm cr cd] tr tm p a si ci b m r e nd k plx].
  destruct m, r, e as [[[? ?] ?]|], nd as [[? ?]|], k, plx; reflexivity.
Qed.
Lemma orbital_tree_inj o o' : orbital_tree o = orbital_tree o' -> o = o'.
Proof. intros E. pose proof (get_orbital_tree o) as H. rewrite E, get_orbital_tree in H. congruence. Qed.
Lemma orbital_tree_leaves o : flatten (orbital_tree o) <> [].
Proof. discriminate. Qed.
Lemma orbital_tree_scalars o a : In a (flatten (orbital_tree o)) -> ashape a = [].
Proof.
  intros H. assert (F : Forall (fun a => ashape a = []) (flatten (orbital_tree o))); [|exact (proj1 (Forall_forall _ _) F a H)]. clear H a.
  destruct o as [[cm cr cd] tr tm p a si ci b m r e nd k plx].
  destruct m, r, e as [[[? ?] ?]|], nd as [[? ?]|], k, plx; repeat constructor.
Qed.

Lemma mapM_total {A B} (f : A -> result B) l : (forall a, In a l -> exists b, f a = Ok b) -> exists bs, mapM f l = Ok bs.
Proof.
  induction l as [|a l IH]; intros H; [eexists; reflexivity|]. destruct (H a (or_introl eq_refl)) as [b Hb]. destruct IH as [bs E]; [intros; apply H; now right|].
  cbn [mapM]. rewrite Hb. cbn [rbind]. rewrite E. eexists. reflexivity.
Qed.
Lemma mk_stack_scalars objs : (forall o a, In o objs -> In a (flatten o) -> ashape a = []) -> exists s, mk_stack objs = Ok s.
Proof.
  intros H. unfold mk_stack. destruct objs as [|o os]; [eexists; reflexivity|]. set (objs := o :: os) in *. cbv iota beta.
  destruct (forallb (fun o' => tree_eqb (structure o') (structure o)) objs) eqn:Ef; [|eexists; reflexivity].
  assert (Hst : forall o', In o' objs -> structure o' = structure o).
  { intros o' Ho. rewrite forallb_forall in Ef. apply tree_eqb_eq. now apply Ef. }
  assert (Hlen : forall l, In l (map flatten objs) -> length l = length (flatten o)).
  { intros l Hl. apply in_map_iff in Hl. destruct Hl as (o' & <- & Ho). rewrite <- (flatten_structure o'), (Hst o' Ho). apply flatten_structure. }
  destruct (mapM_total (fun parts => jnp_stack parts 0) (transpose (length (flatten o)) (map flatten objs))) as [leaves El].
  { intros parts Hp. apply (In_nth _ _ []) in Hp. destruct Hp as (j & Hj & <-). rewrite transpose_length in Hj.
    rewrite (transpose_nth (Arr [] (fun _ => 0%R)) _ _ j Hlen Hj).
    assert (Hs : forall q, In q (map (fun l => nth j l (Arr [] (fun _ => 0%R))) (map flatten objs)) -> ashape q = []).
    { intros q Hq. apply in_map_iff in Hq. destruct Hq as (l & <- & Hl). pose proof (Hlen l Hl) as L. apply in_map_iff in Hl. destruct Hl as (o' & <- & Ho). apply (H o'); [exact Ho|]. apply nth_In. lia. }
    eexists. apply (jnp_stack_ok _ 0 (nth j (flatten o) (Arr [] (fun _ => 0%R)))).
    - cbn [map objs]. now left.
    - intros q Hq. rewrite (Hs q Hq). symmetry. apply Hs. cbn [map objs]. now left.
    - lia. }
  rewrite El. cbn [rbind]. apply mapM_inv, Forall2_len in El. rewrite transpose_length in El.
  destruct (unflatten_ok (structure o) leaves) as (t' & H1 & _); [rewrite flatten_structure; lia|]. rewrite H1. eexists. reflexivity.
Qed.
Lemma sys_stack_ok s : exists st, sys_stack s = Ok st.
Proof. apply mk_stack_scalars. intros o a Ho. apply in_map_iff in Ho. destruct Ho as (o' & <- & _). apply orbital_tree_scalars. Qed.

(** the arguments of an unmapped call *)
Lemma leaf_slice_none {A} i xs (ys : list A) zs : Forall3 (leaf_slice i) xs (map (fun _ => None) ys) zs -> length ys = length xs -> zs = xs.
Proof.
  revert ys zs. induction xs as [|x xs IH]; intros [|y ys] zs H L; try discriminate; inversion H; subst; [reflexivity|]. cbn in *. f_equal; [assumption|]. apply (IH ys); [assumption|lia].
Qed.
Lemma flatten_axes_none (args : list (tree arr)) :
  flatten_axes (structure (Node tuple_tag args)) (Node tuple_tag (norm_in_axes (AxisAll None) args)) = Ok (map (fun _ => None) (flat_map flatten args)).
Proof.
  cbn [structure flatten_axes norm_in_axes]. change (Nat.eqb tuple_tag tuple_tag) with true. cbv iota.
  induction args as [|a args IH]; [reflexivity|]. cbn [map flat_map]. rewrite flatten_axes_leaf. cbn [rbind]. rewrite IH. cbn [rbind]. f_equal. rewrite map_app. f_equal.
  pose proof (flatten_structure a) as L. revert L. generalize (flatten (structure a)) as x. generalize (flatten a) as y. clear. induction y as [|b y IH]; intros [|x l] L; try discriminate; [reflexivity|]. cbn. f_equal. apply IH. cbn in L. lia.
Qed.
Lemma sliced_none i (args args' : list (tree arr)) : sliced i (map (fun _ => None) (flat_map flatten args)) args args' -> args' = args.
Proof.
  intros [Hs Hl]. apply leaf_slice_none in Hl; [|reflexivity].
  assert (E : Node tuple_tag args' = Node tuple_tag args); [|congruence]. apply tree_ext; cbn [structure flatten]; [now rewrite Hs|exact Hl].
Qed.
Lemma nth_error_nth_map bodies i o : nth_error bodies i = Some o -> nth i (map orbital_tree bodies) (Node 0 []) = orbital_tree o.
Proof. intros H. apply (map_nth_error orbital_tree) in H. now apply nth_error_nth. Qed.

(** what vmap returns when the calls succeed with the same structure and shapes *)
Lemma map_calls s f args (v : orbital -> tree arr) : sys_bodies s <> [] ->
  (forall o, In o (sys_bodies s) -> f (orbital_tree o) args = Ok (v o)) ->
  (forall o o', In o (sys_bodies s) -> In o' (sys_bodies s) -> structure (v o) = structure (v o') /\ map ashape (flatten (v o)) = map ashape (flatten (v o'))) ->
  exists out, body_vmap s f (AxisAll None) (Leaf (Some 0%Z)) args = Ok out /\
    forall i o, nth_error (sys_bodies s) i = Some o -> structure out = structure (v o) /\
      forall j y, nth_error (flatten (v o)) j = Some y -> exists x, nth_error (flatten out) j = Some x /\ ashape x = length (sys_bodies s) :: ashape y /\
        forall idx, in_range (ashape y) idx -> aget y idx = aget x (i :: idx).
Proof.
  intros Hne Hf Hs. destruct (sys_stack_ok s) as [st Est]. unfold body_vmap. rewrite Est. cbn [rbind].
  set (bodies := sys_bodies s) in *. destruct bodies as [|o0 os] eqn:Eb; [contradiction|]. set (bs := o0 :: os) in *.
  set (t := fun i => v (nth i bs o0)).
  assert (Hin : forall i, i < length bs -> In (nth i bs o0) bs) by (intros; now apply nth_In).
  assert (H0 : 0 < length bs) by (cbn; lia).
  destruct (StackProps.C44_vmap_is_pointwise (map orbital_tree bs) st f (AxisAll None) (Leaf (Some 0%Z)) args (map (fun _ => None) (flat_map flatten args))
    (map (fun _ => Some 0%Z) (flatten (structure (t 0)))) t) as (out & E & Es & Hl).
  - rewrite <- Est. unfold sys_stack. f_equal. f_equal. symmetry. exact Eb.
  - split.
    + discriminate.
    + intros o Ho. apply in_map_iff in Ho. destruct Ho as (o' & <- & _). apply orbital_tree_leaves.
    + apply flatten_axes_none.
    + generalize (flat_map flatten args) as l. induction l; constructor; [exact I|assumption].
    + intros i args' Hi Hsl. rewrite map_length in Hi. apply sliced_none in Hsl. subst args'.
      transitivity (f (orbital_tree (nth i bs o0)) args); [f_equal; apply nth_error_nth_map; now apply nth_error_nth'|]. apply Hf. now apply Hin.
    + intros i Hi. rewrite map_length in Hi. unfold t. apply Hs; now apply Hin.
    + apply flatten_axes_leaf.
    + pose proof (flatten_structure (t 0)) as L. revert L. generalize (flatten (structure (t 0))) as x. generalize (flatten (t 0)) as y. clear. induction y as [|b y IH]; intros [|x l] L; try discriminate; constructor; [cbn; lia|]. apply IH. cbn in L. lia.
  - exists out. split; [exact E|]. rewrite map_length in Hl. intros i o Hi.
    assert (Hio : i < length bs) by (apply nth_error_Some; congruence). assert (Eo : nth i bs o0 = o) by (now apply nth_error_nth).
    split; [rewrite Es; unfold t; apply Hs; [now apply Hin|rewrite <- Eo; now apply Hin]|].
    intros j y Hy. assert (Hst := Hs o (nth 0 bs o0) ltac:(rewrite <- Eo; now apply Hin) ltac:(now apply Hin)).
    assert (Hlen : length (flatten out) = length (flatten (v o))). { rewrite <- (flatten_structure out), Es. unfold t. rewrite <- (proj1 Hst). apply flatten_structure. }
    assert (Hj : j < length (flatten out)) by (rewrite Hlen; apply nth_error_Some; congruence).
    destruct (nth_error (flatten out) j) as [x|] eqn:Ex; [|apply nth_error_None in Ex; lia]. exists x. split; [reflexivity|].
    specialize (Hl j x Ex). unfold output_leaf in Hl.
    assert (En : nth j (map (fun _ => Some 0%Z) (flatten (structure (t 0)))) None = Some 0%Z).
    { assert (Hj' : j < length (flatten (structure (t 0)))) by (rewrite <- Es, flatten_structure; exact Hj). revert Hj'. generalize (flatten (structure (t 0))) as l. clear. intros l. revert j. induction l as [|a l IH]; intros [|j] H; cbn in *; try lia; [reflexivity|apply IH; lia]. }
    unfold axis in *. rewrite En in Hl. destruct Hl as [L1 L2]. cbn [Z.to_nat] in *. destruct (L2 i Hio) as (y' & Hy' & S1 & S2 & S3 & S4).
    unfold t in Hy'. rewrite Eo, Hy in Hy'. injection Hy' as <-. cbn [firstn skipn app] in *.
    destruct (ashape x) as [|n0 sh] eqn:Esh; [cbn in S1; lia|]. cbn in L1, S3. split; [now rewrite L1, S3|]. exact S4.
Qed.

(** ... and when they succeed with different structures *)
Lemma loop_mismatch args f v S0 : forall bodies k res,
  (forall o, In o bodies -> f (orbital_tree o) args = Ok (v o)) -> (exists o, In o bodies /\ structure (v o) <> S0) ->
  loop f (structure (Node tuple_tag args)) (flat_map flatten args) (map (fun _ => None) (flat_map flatten args)) k (map orbital_tree bodies) (Some S0) res = Err ValueError.
Proof.
  assert (Hax : forall n, Forall2 (axis_ok n) (flat_map flatten args) (map (fun _ => None) (flat_map flatten args))).
  { intros n. generalize (flat_map flatten args) as l. induction l; constructor; [exact I|assumption]. }
  induction bodies as [|b bodies IH]; intros k res Hf (o & Ho & Hne); [destruct Ho|]. cbn [map loop]. rewrite (index_leaves 0 args _ (Hax 0)). cbn [rbind].
  assert (Hc : call args (map (fun _ => None) (flat_map flatten args)) f k (orbital_tree b) = Ok (v b)).
  { apply (call_sliced 0 args _ (Hax 0)). intros args' Hsl. apply sliced_none in Hsl. subst. apply Hf. now left. }
  unfold call in Hc. rewrite Hc. cbn [rbind]. cbv zeta. destruct (tree_eqb (structure (v b)) S0) eqn:E; [|reflexivity].
  apply tree_eqb_eq in E. rewrite E. apply IH; [intros; apply Hf; now right|]. exists o. split; [|exact Hne]. destruct Ho as [<- | Ho]; [contradiction|exact Ho].
Qed.
Lemma map_mismatch s f args (v : orbital -> tree arr) :
  (forall o, In o (sys_bodies s) -> f (orbital_tree o) args = Ok (v o)) ->
  (exists o o', In o (sys_bodies s) /\ In o' (sys_bodies s) /\ structure (v o) <> structure (v o') /\ structure (orbital_tree o) <> structure (orbital_tree o')) ->
  body_vmap s f (AxisAll None) (Leaf (Some 0%Z)) args = Err ValueError.
Proof.
  intros Hf (o & o' & Ho & Ho' & Hv & Hne). unfold body_vmap, sys_stack.
  rewrite (StackProps.C44_constructor_heterogeneous (map orbital_tree (sys_bodies s)) (orbital_tree o) (orbital_tree o')) by (auto using in_map).
  cbn [rbind]. unfold stack_vmap. cbn [s_stack s_objects]. cbv zeta. unfold vmap_loop. cbv zeta. rewrite flatten_axes_none. cbn [rbind].
  assert (Hax : forall n, Forall2 (axis_ok n) (flat_map flatten args) (map (fun _ => None) (flat_map flatten args))).
  { intros n. generalize (flat_map flatten args) as l. induction l; constructor; [exact I|assumption]. }
  destruct (sys_bodies s) as [|b bodies]; [destruct Ho|]. cbn [map loop flatten]. rewrite (index_leaves 0 args _ (Hax 0)). cbn [rbind].
  assert (Hc : call args (map (fun _ => None) (flat_map flatten args)) f 0 (orbital_tree b) = Ok (v b)).
  { apply (call_sliced 0 args _ (Hax 0)). intros args' Hsl. apply sliced_none in Hsl. subst. apply Hf. now left. }
  unfold call in Hc. rewrite Hc. cbn [rbind]. cbv zeta. rewrite (loop_mismatch args f v (structure (v b)) bodies); [reflexivity|intros; apply Hf; now right|].
  destruct (tree_eqb (structure (v o)) (structure (v b))) eqn:E.
  - apply tree_eqb_eq in E. exists o'. destruct Ho' as [<- | Ho']; [congruence|]. split; [exact Ho'|congruence].
  - exists o. assert (structure (v o) <> structure (v b)) by (intros E'; apply tree_eqb_eq in E'; congruence). destruct Ho as [<- | Ho]; [congruence|]. split; assumption.
Qed.
Definition given {A} (o : option A) : bool := match o with Some _ => true | None => false end.
Lemma structure_fields o o' : structure (orbital_tree o) = structure (orbital_tree o') ->
  given (ob_parallax o) = given (ob_parallax o') /\ given (ob_semiamplitude o) = given (ob_semiamplitude o') /\ given (ob_radius o) = given (ob_radius o') /\ given (ob_mass o) = given (ob_mass o').
Proof.
  intros E. unfold orbital_tree, q_option in E. cbn [structure map] in E. injection E as Em Er _ _ _ _ _ Ek Ep.
  destruct (ob_mass o), (ob_mass o'); cbn in Em; try discriminate Em; destruct (ob_radius o), (ob_radius o'); cbn in Er; try discriminate Er;
  destruct (ob_semiamplitude o), (ob_semiamplitude o'); cbn in Ek; try discriminate Ek; destruct (ob_parallax o), (ob_parallax o'); cbn in Ep; try discriminate Ep; cbn; auto.
Qed.

Lemma out_triple (out : tree arr) u : structure out = Node tuple_tag [Node u [Leaf tt]; Node u [Leaf tt]; Node u [Leaf tt]] ->
  exists X Y Z, out = Node tuple_tag [Node u [Leaf X]; Node u [Leaf Y]; Node u [Leaf Z]].
Proof.
  destruct out as [|g l]; [discriminate|]. cbn [structure]. intros E. injection E as -> E.
  destruct l as [|[|u1 [|[X|] [|]]] [|[|u2 [|[Y|] [|]]] [|[|u3 [|[Z|] [|]]] [|]]]]; try discriminate E. cbn in E. injection E as -> -> ->. eauto.
Qed.
Lemma out_single (out : tree arr) u : structure out = Node u [Leaf tt] -> exists X, out = Node u [Leaf X].
Proof. destruct out as [|g [|[X|] [|]]]; try discriminate. cbn. intros E. injection E as ->. eauto. Qed.

Section Methods.
Variables (s : system) (t : tree arr) (ts : arr).
Hypothesis Hne : sys_bodies s <> [].
Hypothesis Ht : get_time t = Some ts.
Lemma vector_ok unit_of value u : (forall o, In o (sys_bodies s) -> unit_of o = u) -> (forall o, In o (sys_bodies s) -> forall x, exists v, value o x = Ok v) ->
  exists out, map_method s (vector_method unit_of value) t = Ok out /\ vector_rows u (sys_bodies s) ts value out.
Proof.
  intros Hu Hv. unfold map_method.
  set (v := fun o : orbital => Node tuple_tag [quantity u (Arr (ashape ts) (fun idx => x_of (value o (aget ts idx))));
                              quantity u (Arr (ashape ts) (fun idx => y_of (value o (aget ts idx))));
                              quantity u (Arr (ashape ts) (fun idx => z_of (value o (aget ts idx))))]).
  destruct (map_calls s (vector_method unit_of value) [t] v Hne) as (out & E & H).
  - intros o Ho. unfold vector_method. rewrite get_orbital_tree, Ht. destruct (Hv o Ho 0%R) as [w Hw]. rewrite Hw. cbn [rbind]. now rewrite (Hu o Ho).
  - intros o o' _ _. split; reflexivity.
  - exists out. split; [exact E|]. destruct (sys_bodies s) as [|o0 os] eqn:Eb; [contradiction|].
    destruct (out_triple out u) as (X & Y & Z & ->); [exact (proj1 (H 0 o0 eq_refl))|]. exists X, Y, Z. split; [reflexivity|].
    destruct (H 0 o0 eq_refl) as [_ H0].
    destruct (H0 0 _ eq_refl) as (x & Ex & S1 & _). injection Ex as <-. destruct (H0 1 _ eq_refl) as (x & Ex & S2 & _). injection Ex as <-. destruct (H0 2 _ eq_refl) as (x & Ex & S3 & _). injection Ex as <-.
    split; [exact S1|]. split; [exact S2|]. split; [exact S3|]. intros i o idx Hi Hidx. destruct (H i o Hi) as [_ Hj].
    destruct (Hj 0 _ eq_refl) as (x & Ex & _ & V1). injection Ex as <-. destruct (Hj 1 _ eq_refl) as (x & Ex & _ & V2). injection Ex as <-. destruct (Hj 2 _ eq_refl) as (x & Ex & _ & V3). injection Ex as <-.
    cbn [ashape aget] in *. rewrite <- (V1 idx Hidx), <- (V2 idx Hidx), <- (V3 idx Hidx).
    destruct (Hv o (nth_error_In _ _ Hi) (aget ts idx)) as [[[a b] c] Hw]. rewrite Hw. reflexivity.
Qed.
Lemma scalar_ok unit_of value u : (forall o, In o (sys_bodies s) -> unit_of o = u) ->
  exists out, map_method s (scalar_method unit_of value) t = Ok out /\ scalar_rows u (sys_bodies s) ts value out.
Proof.
  intros Hu. unfold map_method. set (v := fun o : orbital => quantity u (Arr (ashape ts) (fun idx => value o (aget ts idx)))).
  destruct (map_calls s (scalar_method unit_of value) [t] v Hne) as (out & E & H).
  - intros o Ho. unfold scalar_method. rewrite get_orbital_tree, Ht. now rewrite (Hu o Ho).
  - intros o o' _ _. split; reflexivity.
  - exists out. split; [exact E|]. destruct (sys_bodies s) as [|o0 os] eqn:Eb; [contradiction|].
    destruct (out_single out u) as (X & ->); [exact (proj1 (H 0 o0 eq_refl))|]. exists X. split; [reflexivity|]. destruct (H 0 o0 eq_refl) as [_ H0].
    destruct (H0 0 _ eq_refl) as (x & Ex & S1 & _). injection Ex as <-. split; [exact S1|]. intros i o idx Hi Hidx. destruct (H i o Hi) as [_ Hj].
    destruct (Hj 0 _ eq_refl) as (x & Ex & _ & V1). injection Ex as <-. symmetry. exact (V1 idx Hidx).
Qed.
Lemma unit_structures u u' a b c a' b' c' : u <> u' ->
  structure (Node tuple_tag [quantity u a; quantity u b; quantity u c]) <> structure (Node tuple_tag [quantity u' a'; quantity u' b'; quantity u' c']).
Proof. intros H E. cbn in E. injection E as E _. auto. Qed.
Lemma vector_mixed unit_of value : (forall o, In o (sys_bodies s) -> forall x, exists v, value o x = Ok v) ->
  (exists o o', In o (sys_bodies s) /\ In o' (sys_bodies s) /\ unit_of o <> unit_of o' /\ structure (orbital_tree o) <> structure (orbital_tree o')) ->
  map_method s (vector_method unit_of value) t = Err ValueError.
Proof.
  intros Hv (o & o' & Ho & Ho' & Hu & Hn). unfold map_method.
  apply (map_mismatch s _ [t] (fun o : orbital => Node tuple_tag [quantity (unit_of o) (Arr (ashape ts) (fun idx => x_of (value o (aget ts idx))));
                              quantity (unit_of o) (Arr (ashape ts) (fun idx => y_of (value o (aget ts idx))));
                              quantity (unit_of o) (Arr (ashape ts) (fun idx => z_of (value o (aget ts idx))))])).
  - intros q Hq. unfold vector_method. rewrite get_orbital_tree, Ht. destruct (Hv q Hq 0%R) as [w Hw]. rewrite Hw. reflexivity.
  - exists o, o'. split; [exact Ho|]. split; [exact Ho'|]. split; [now apply unit_structures|exact Hn].
Qed.
Lemma scalar_mixed unit_of value :
  (exists o o', In o (sys_bodies s) /\ In o' (sys_bodies s) /\ unit_of o <> unit_of o' /\ structure (orbital_tree o) <> structure (orbital_tree o')) ->
  map_method s (scalar_method unit_of value) t = Err ValueError.
Proof.
  intros (o & o' & Ho & Ho' & Hu & Hn). unfold map_method.
  apply (map_mismatch s _ [t] (fun o : orbital => quantity (unit_of o) (Arr (ashape ts) (fun idx => value o (aget ts idx))))).
  - intros q Hq. unfold scalar_method. rewrite get_orbital_tree, Ht. reflexivity.
  - exists o, o'. split; [exact Ho|]. split; [exact Ho'|]. split; [|exact Hn]. cbn. intros E. injection E as E. auto.
Qed.
End Methods.

Lemma position_unit_of o : position_unit o = if has_parallax o then u_arcsec else u_R_sun.
Proof. unfold position_unit, has_parallax. now destruct (ob_parallax o). Qed.
Lemma velocity_unit_of o : velocity_unit o = if angular_velocity o then u_arcsec_per_day else u_R_sun_per_day.
Proof. unfold velocity_unit, angular_velocity, has_parallax. now destruct (ob_semiamplitude o), (ob_parallax o). Qed.
Lemma mixed_positions s : mixed has_parallax (sys_bodies s) ->
  exists o o', In o (sys_bodies s) /\ In o' (sys_bodies s) /\ position_unit o <> position_unit o' /\ structure (orbital_tree o) <> structure (orbital_tree o').
Proof.
  intros (o & o' & Ho & Ho' & H). exists o, o'. split; [exact Ho|]. split; [exact Ho'|]. split.
  - rewrite !position_unit_of. destruct (has_parallax o), (has_parallax o'); congruence || (cbv; discriminate).
  - intros E. apply structure_fields in E. destruct E as [E _]. unfold has_parallax in H. unfold given in E. contradiction.
Qed.
Lemma mixed_velocities s : mixed angular_velocity (sys_bodies s) ->
  exists o o', In o (sys_bodies s) /\ In o' (sys_bodies s) /\ velocity_unit o <> velocity_unit o' /\ structure (orbital_tree o) <> structure (orbital_tree o').
Proof.
  intros (o & o' & Ho & Ho' & H). exists o, o'. split; [exact Ho|]. split; [exact Ho'|]. split.
  - rewrite !velocity_unit_of. destruct (angular_velocity o), (angular_velocity o'); congruence || (cbv; discriminate).
  - intros E. apply structure_fields in E. destruct E as (E1 & E2 & _). unfold angular_velocity, has_parallax in H. unfold given in *.
    destruct (ob_semiamplitude o), (ob_semiamplitude o'), (ob_parallax o), (ob_parallax o'); congruence.
Qed.

(** radii *)
Lemma central_radius_ok s : sys_bodies s <> [] ->
  exists X, sys_central_radius s = Ok (Node u_R_sun [Leaf X]) /\ ashape X = [length (sys_bodies s)] /\
    forall i o, nth_error (sys_bodies s) i = Some o -> aget X [i] = c_radius (ob_central o).
Proof.
  intros Hne. destruct (map_calls s (field_method (fun o => q_scalar u_R_sun (ob_central_radius o))) [] (fun o => q_scalar u_R_sun (ob_central_radius o)) Hne) as (out & E & H).
  - intros o Ho. unfold field_method. now rewrite get_orbital_tree.
  - intros o o' _ _. split; reflexivity.
  - destruct (sys_bodies s) as [|o0 os] eqn:Eb; [contradiction|]. destruct (out_single out u_R_sun) as (X & ->); [exact (proj1 (H 0 o0 eq_refl))|].
    exists X. split; [exact E|]. destruct (H 0 o0 eq_refl) as [_ H0]. destruct (H0 0 _ eq_refl) as (x & Ex & S1 & _). injection Ex as <-. split; [exact S1|].
    intros i o Hi. destruct (H i o Hi) as [_ Hj]. destruct (Hj 0 _ eq_refl) as (x & Ex & _ & V1). injection Ex as <-. symmetry. apply (V1 []). constructor.
Qed.
Lemma radius_ok s : sys_bodies s <> [] -> (forall o, In o (sys_bodies s) -> ob_radius o <> None) ->
  exists X, sys_radius s = Ok (Node u_R_sun [Leaf X]) /\ ashape X = [length (sys_bodies s)] /\
    forall i o, nth_error (sys_bodies s) i = Some o -> ob_radius o = Some (aget X [i]).
Proof.
  intros Hne Hr. destruct (map_calls s (field_method (fun o => q_option u_R_sun (ob_radius o))) [] (fun o => q_option u_R_sun (ob_radius o)) Hne) as (out & E & H).
  - intros o Ho. unfold field_method. now rewrite get_orbital_tree.
  - intros o o' Ho Ho'. pose proof (Hr o Ho). pose proof (Hr o' Ho'). destruct (ob_radius o), (ob_radius o'); try contradiction. split; reflexivity.
  - destruct (sys_bodies s) as [|o0 os] eqn:Eb; [contradiction|].
    assert (G : forall o, In o (o0 :: os) -> exists r, ob_radius o = Some r). { intros o Ho. pose proof (Hr o Ho). destruct (ob_radius o); [eauto|contradiction]. }
    destruct (G o0 (or_introl eq_refl)) as [r0 R0]. destruct (H 0 o0 eq_refl) as [H1 H0]. rewrite R0 in H1, H0. destruct (out_single out u_R_sun) as (X & ->); [exact H1|].
    exists X. split; [exact E|]. destruct (H0 0 _ eq_refl) as (x & Ex & S1 & _). injection Ex as <-. split; [exact S1|].
    intros i o Hi. destruct (G o (nth_error_In _ _ Hi)) as [r Er]. destruct (H i o Hi) as [_ Hj]. rewrite Er in Hj. destruct (Hj 0 _ eq_refl) as (x & Ex & _ & V1). injection Ex as <-. rewrite Er. f_equal. apply (V1 []). constructor.
Qed.
Lemma radius_missing s : (exists o, In o (sys_bodies s) /\ ob_radius o = None) -> exists e, rbind (sys_radius s) get_quantity = Err e.
Proof.
  intros (o & Ho & Hr).
  assert (Hne : sys_bodies s <> []) by (intros E; rewrite E in Ho; destruct Ho).
  assert (Hf : forall o, In o (sys_bodies s) -> field_method (fun o => q_option u_R_sun (ob_radius o)) (orbital_tree o) [] = Ok (q_option u_R_sun (ob_radius o))).
  { intros q _. unfold field_method. now rewrite get_orbital_tree. }
  destruct (existsb (fun o => given (ob_radius o)) (sys_bodies s)) eqn:Ex.
  - apply existsb_exists in Ex. destruct Ex as (o' & Ho' & Hg). exists ValueError. unfold sys_radius.
    change (rbind (body_vmap s (field_method (fun o => q_option u_R_sun (ob_radius o))) (AxisAll None) (Leaf (Some 0%Z)) []) get_quantity = Err ValueError).
    rewrite (map_mismatch s _ [] (fun o => q_option u_R_sun (ob_radius o)) Hf); [reflexivity|]. exists o, o'. split; [exact Ho|]. split; [exact Ho'|]. split.
    + rewrite Hr. destruct (ob_radius o'); [discriminate|discriminate Hg].
    + intros E. apply structure_fields in E. destruct E as (_ & _ & E & _). rewrite Hr in E. rewrite Hg in E. discriminate.
  - exists TypeError. assert (N : forall o, In o (sys_bodies s) -> ob_radius o = None).
    { intros q Hq. destruct (ob_radius q) eqn:Eq; [|reflexivity]. assert (X : existsb (fun o => given (ob_radius o)) (sys_bodies s) = true); [|congruence]. apply existsb_exists. exists q. split; [exact Hq|]. now rewrite Eq. }
    destruct (map_calls s _ [] _ Hne Hf) as (out & E & H).
    + intros q q' Hq Hq'. rewrite (N q Hq), (N q' Hq'). split; reflexivity.
    + unfold sys_radius. change (body_vmap s (field_method (fun o => q_option u_R_sun (ob_radius o))) (AxisAll (Some 0%Z)) (Leaf (Some 0%Z)) []) with (body_vmap s (field_method (fun o => q_option u_R_sun (ob_radius o))) (AxisAll None) (Leaf (Some 0%Z)) []).
      rewrite E. cbn [rbind]. apply In_nth_error in Ho. destruct Ho as [i Hi]. destruct (H i o Hi) as [Hs _]. rewrite Hr in Hs. cbn in Hs. destruct out as [|g [|]]; try discriminate. reflexivity.
Qed.

(** light curves *)
Section Light.
Variables (au : R) (kep : R -> R -> R * R) (eps : R) (quad : list (R * R)) (s : system) (u : list R) (time : R).
Hypothesis Hne : sys_bodies s <> [].
Lemma light_ok : (forall o, In o (sys_bodies s) -> ob_parallax o = None /\ ob_radius o <> None) ->
  exists l, system_light_curve au kep eps quad s u time = Ok l /\ length l = length (sys_bodies s) /\
    forall i o rp, nth_error (sys_bodies s) i = Some o -> ob_radius o = Some rp ->
      nth_error l i = Some (transit_light_curve eps quad (kep_lc_orbit au kep (ob_central o) o rp) u time).
Proof.
  intros H. unfold system_light_curve.
  destruct (central_radius_ok s Hne) as (RS & -> & _ & VS). cbn [rbind get_quantity].
  destruct (vector_ok s (q_scalar u_day time) (scalar time) Hne eq_refl position_unit (fun o t => Ok (relative_position au kep o t None)) u_R_sun) as (out & E & X & Y & Z & -> & SX & SY & SZ & V).
  - intros o Ho. unfold position_unit. now rewrite (proj1 (H o Ho)).
  - intros o _ x. eauto.
  - unfold sys_relative_position. rewrite E. cbn [rbind get_quantity]. change (Nat.eqb u_R_sun u_R_sun) with true. cbn [negb].
    destruct (radius_ok s Hne) as (RR & -> & _ & VR); [intros; now apply H|]. cbn [rbind get_quantity]. change (Nat.eqb u_R_sun u_R_sun) with true. cbn [negb].
    eexists. split; [reflexivity|]. unfold sys_shape. split; [now rewrite map_length, seq_length|].
    intros i o rp Hi Hrp. assert (Hil : i < length (sys_bodies s)) by (apply nth_error_Some; congruence).
    rewrite nth_error_map, (nth_error_nth' _ 0) by (now rewrite seq_length). rewrite seq_nth by exact Hil. cbn [option_map Nat.add]. f_equal.
    specialize (V i o [] Hi ltac:(constructor)). cbn [scalar aget] in V. injection V as V.
    unfold transit_light_curve, kep_lc_orbit. cbn [lo_central_radius lo_radius lo_relative_position]. unfold vec in *. rewrite V. unfold entry. cbv zeta. rewrite (VS i o Hi). pose proof (VR i o Hi) as W. rewrite Hrp in W. injection W as ->. reflexivity.
Qed.
Lemma light_fails : (exists o, In o (sys_bodies s) /\ (ob_parallax o <> None \/ ob_radius o = None)) -> exists e, system_light_curve au kep eps quad s u time = Err e.
Proof.
  intros (o & Ho & H). unfold system_light_curve. destruct (central_radius_ok s Hne) as (RS & -> & _ & VS). cbn [rbind get_quantity].
  set (V := fun (o : orbital) (t : R) => Ok (relative_position au kep o t None)).
  destruct (existsb has_parallax (sys_bodies s)) eqn:Ex.
  - apply existsb_exists in Ex. destruct Ex as (o1 & Ho1 & Hp1).
    destruct (forallb has_parallax (sys_bodies s)) eqn:Ef.
    + rewrite forallb_forall in Ef. destruct (vector_ok s (q_scalar u_day time) (scalar time) Hne eq_refl position_unit V u_arcsec) as (out & E & X & Y & Z & -> & _).
      * intros q Hq. rewrite position_unit_of, (Ef q Hq). reflexivity.
      * intros q _ x. unfold V. eauto.
      * unfold sys_relative_position. fold V. rewrite E. cbn [rbind get_quantity]. change (Nat.eqb u_arcsec u_R_sun) with false. cbn [negb]. eauto.
    + assert (Hm : mixed has_parallax (sys_bodies s)).
      { assert (Hx : exists q, In q (sys_bodies s) /\ has_parallax q = false).
        { clear - Ef. induction (sys_bodies s) as [|a l IH]; [discriminate|]. cbn in Ef. destruct (has_parallax a) eqn:Ea; [|exists a; split; [now left|exact Ea]]. destruct (IH Ef) as (q & Hq & E). exists q. split; [now right|exact E]. }
        destruct Hx as (q & Hq & Eq). exists o1, q. split; [exact Ho1|]. split; [exact Hq|]. congruence. }
      unfold sys_relative_position. fold V. rewrite (vector_mixed s (q_scalar u_day time) (scalar time) eq_refl position_unit V); [cbn [rbind]; eauto|intros q _ x; unfold V; eauto|]. now apply mixed_positions.
  - assert (N : forall q, In q (sys_bodies s) -> ob_parallax q = None).
    { intros q Hq. destruct (ob_parallax q) eqn:Eq; [|reflexivity]. assert (W : existsb has_parallax (sys_bodies s) = true); [|congruence]. apply existsb_exists. exists q. split; [exact Hq|]. unfold has_parallax. now rewrite Eq. }
    destruct H as [H|H]; [now rewrite (N o Ho) in H|].
    destruct (vector_ok s (q_scalar u_day time) (scalar time) Hne eq_refl position_unit V u_R_sun) as (out & E & X & Y & Z & -> & _).
    + intros q Hq. unfold position_unit. now rewrite (N q Hq).
    + intros q _ x. unfold V. eauto.
    + unfold sys_relative_position. fold V. rewrite E. cbn [rbind get_quantity]. change (Nat.eqb u_R_sun u_R_sun) with true. cbn [negb].
      destruct (radius_missing s) as [e He]; [eauto|]. rewrite He. cbn [rbind]. eauto.
Qed.
End Light.

(** a call that raises for one body makes the whole call raise *)
From Verif Require Import Proof.StackFail.
Lemma sliced_self i (args : list (tree arr)) : sliced i (map (fun _ => None) (flat_map flatten args)) args args.
Proof. split; [reflexivity|]. generalize (flat_map flatten args) as l. induction l; constructor; [reflexivity|assumption]. Qed.
Lemma map_fails s f t o e : In o (sys_bodies s) -> f (orbital_tree o) [t] = Err e -> exists e', map_method s f t = Err e'.
Proof.
  intros Ho Hf. unfold map_method, body_vmap. destruct (sys_stack_ok s) as [st Est]. rewrite Est. cbn [rbind].
  destruct (stack_vmap st f (AxisAll None) (Leaf (Some 0%Z)) [t]) as [out|e'] eqn:E; [|eauto]. exfalso.
  destruct (vmap_success (map orbital_tree (sys_bodies s)) st f (AxisAll None) (Leaf (Some 0%Z)) [t] (map (fun _ => None) (flat_map flatten [t])) out Est) as (S & H).
  - intros q Hq. apply in_map_iff in Hq. destruct Hq as (q' & <- & _). apply orbital_tree_leaves.
  - apply flatten_axes_none.
  - generalize (flat_map flatten [t]) as l. induction l; constructor; [exact I|assumption].
  - exact E.
  - apply In_nth_error in Ho. destruct Ho as [i Hi].
    destruct (H i [t]) as (v & Hv & _); [rewrite map_length; apply nth_error_Some; congruence|apply sliced_self|].
    assert (Hv' : f (orbital_tree o) [t] = Ok v) by (rewrite <- (nth_error_nth_map _ _ _ Hi); exact Hv). congruence.
Qed.
Lemma central_position_mass au kep s t ts : get_time t = Some ts -> (exists o, In o (sys_bodies s) /\ ob_mass o = None) -> exists e, sys_central_position au kep s t = Err e.
Proof.
  intros Ht (o & Ho & Hm). apply (map_fails s _ t o TypeError Ho). unfold vector_method. rewrite get_orbital_tree, Ht. unfold central_position. rewrite Hm. reflexivity.
Qed.
Lemma no_bodies s f t : sys_bodies s = [] -> exists e, map_method s f t = Err e.
Proof. intros E. unfold map_method, body_vmap, sys_stack. rewrite E. exact (StackProps.C44_empty_stack _ _ _ _). Qed.
