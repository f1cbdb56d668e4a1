From Coq Require Import Reals ZArith List Bool String Lra.
From Verif Require Import Base.RealAux Base.Dict Model.Units Spec.UnitsSpec.
Import ListNotations.
Open Scope R_scope.

Section ValInd.
Variable P : val -> Prop.
Hypothesis H1 : forall x, P (VPlain x).
Hypothesis H2 : forall m u, P (VQ m u).
Hypothesis H3 : P VNone.
Hypothesis H4 : forall g ch, Forall P ch -> P (VNode g ch).
Fixpoint val_ind' (v : val) : P v :=
  match v with
  | VPlain x => H1 x | VQ m u => H2 m u | VNone => H3
  | VNode g ch => H4 g ch ((fix go l : Forall P l := match l with [] => Forall_nil _ | a :: l => Forall_cons a (val_ind' a) (go l) end) ch)
  end.
End ValInd.
Definition map_list (strict : bool) := fix go ch us := match ch, us with
  | [], [] => Ok []
  | c :: ch, u :: us => rbind (map_units strict c u) (fun c => rbind (go ch us) (fun r => Ok (c :: r)))
  | _, _ => Err ValueError end.
Lemma map_node strict g ch g' us : map_units strict (VNode g ch) (UNode g' us) =
  if Nat.eqb g g' then rbind (map_list strict ch us) (fun ch => Ok (VNode g ch)) else Err ValueError.
Proof. reflexivity. Qed.
Lemma dim_eqb_eq a b : dim_eqb a b = true <-> a = b.
Proof. unfold dim_eqb. destruct (list_eq_dec Z.eq_dec a b); split; intros; try assumption; try reflexivity; [discriminate|contradiction]. Qed.

Lemma map_units_sound strict v : forall u w, spec_ok u -> map_units strict v u = Ok w -> normalised v u w.
Proof.
  induction v as [x|m u'| |g ch IH] using val_ind'; intros u w Hu E.
  - destruct u as [|u|]; cbn in E; [injection E as <-; constructor|destruct strict; [discriminate|injection E as <-; constructor]|discriminate].
  - destruct u as [|u|]; cbn in E; [injection E as <-; constructor| |discriminate]. unfold q_to in E. destruct (dim_eqb _ _) eqn:Ed; [|discriminate].
    injection E as <-. apply dim_eqb_eq in Ed. constructor; [exact Ed|]. unfold physical. inversion Hu; subst. unfold unit_ok in *. field. lra.
  - destruct u; cbn in E; [injection E as <-; constructor|discriminate|discriminate].
  - destruct u as [| |g' us]; [discriminate|discriminate|]. rewrite map_node in E. destruct (Nat.eqb_spec g g') as [<-|]; [|discriminate].
    destruct (map_list strict ch us) as [ws|] eqn:El; [|discriminate]. cbn [rbind] in E. injection E as <-. constructor.
    inversion Hu as [| |? ? Hall]; subst. clear Hu. revert us ws Hall El. induction IH as [|c ch Hc _ IHc]; intros [|u us] ws Hall El; try discriminate.
    + injection El as <-. constructor.
    + cbn [map_list] in El. destruct (map_units strict c u) as [c'|] eqn:Ec; [|discriminate]. cbn [rbind] in El. fold (map_list strict) in El. destruct (map_list strict ch us) as [ws'|] eqn:El'; [|discriminate].
      cbn [rbind] in El. injection El as <-. inversion Hall; subst. constructor; [now apply Hc|now apply IHc].
Qed.
Lemma normalised_complete v : forall u w, spec_ok u -> normalised v u w -> map_units false v u = Ok w.
Proof.
  induction v as [x|m u'| |g ch IH] using val_ind'; intros u w Hu H; inversion H; subst; try reflexivity.
  - cbn. unfold q_to. replace (dim_eqb (u_dim u') (u_dim u0)) with true by (symmetry; now apply dim_eqb_eq). repeat f_equal.
    inversion Hu; subst. unfold physical, unit_ok in *. apply (Rmult_eq_reg_r (u_scale u0)); [|lra]. replace (m * u_scale u' / u_scale u0 * u_scale u0) with (m * u_scale u') by (field; lra). lra.
  - rewrite map_node, Nat.eqb_refl.
    match goal with Hl : normalised_list ch us ws |- _ => assert (El : map_list false ch us = Ok ws); [|now rewrite El]; clear H; rename Hl into HL end.
    inversion Hu as [| |? ? Hall]; subst. clear Hu. revert us ws Hall HL. induction IH as [|c ch Hc _ IHc]; intros us ws Hall HL; inversion HL; subst; [reflexivity|].
    inversion Hall; subst. cbn [map_list]. rewrite (Hc u w) by assumption. cbn [rbind]. fold (map_list false). rewrite (IHc us0 ws0) by assumption. reflexivity.
Qed.
(** the strict flag only rejects *)
Lemma map_units_strict v : forall u w, map_units true v u = Ok w -> map_units false v u = Ok w.
Proof.
  induction v as [x|m u'| |g ch IH] using val_ind'; intros u w E.
  - destruct u; cbn in E; [exact E|discriminate|discriminate].
  - destruct u; exact E.
  - exact E.
  - destruct u as [| |g' us]; [discriminate|discriminate|]. rewrite map_node in *. destruct (Nat.eqb g g'); [|discriminate].
    destruct (map_list true ch us) as [ws|] eqn:El; [|discriminate]. assert (El' : map_list false ch us = Ok ws); [|rewrite El'; exact E].
    clear E. revert us ws El. induction IH as [|c ch Hc _ IHc]; intros [|u us] ws El; try discriminate; [exact El|]. cbn [map_list] in *. fold (map_list true) in El. fold (map_list false).
    destruct (map_units true c u) as [c'|] eqn:Ec; [|discriminate]. rewrite (Hc u c' Ec). cbn [rbind] in *. destruct (map_list true ch us) as [ws'|] eqn:El'; [|discriminate]. cbn [rbind] in *. injection El as <-.
    rewrite (IHc us ws' El'). reflexivity.
Qed.
Lemma map_units_strict_iff v : forall u w, map_units true v u = Ok w <-> (map_units false v u = Ok w /\ all_quantities v u).
Proof.
  induction v as [x|m u'| |g ch IH] using val_ind'; intros u w.
  - destruct u as [|u|g us]; cbn.
    + split; [intros E; split; [exact E|constructor]|tauto].
    + split; [discriminate|intros [_ H]; inversion H].
    + split; [discriminate|intros [? _]; discriminate].
  - destruct u; cbn; (split; [intros E; split; [exact E|constructor]|tauto]).
  - destruct u; cbn; (split; [intros E; split; [exact E|]; try discriminate; constructor|tauto]).
  - destruct u as [| |g' us]; try (cbn; split; [discriminate|intros [? ?]; discriminate]). rewrite !map_node. destruct (Nat.eqb_spec g g') as [<-|]; [|split; [discriminate|intros [? ?]; discriminate]].
    assert (H : forall ws, map_list true ch us = Ok ws <-> (map_list false ch us = Ok ws /\ Forall2 all_quantities ch us)).
    { revert us. induction IH as [|c ch Hc _ IHc]; intros [|u us] ws; cbn [map_list]; try (split; [discriminate|intros [? ?]; discriminate]).
      - split; [intros E; split; [exact E|constructor]|tauto].
      - fold (map_list true). fold (map_list false). split.
        + destruct (map_units true c u) as [c'|] eqn:Ec; [|discriminate]. cbn [rbind]. destruct (map_list true ch us) as [ws'|] eqn:El; [|discriminate]. cbn [rbind]. intros E. injection E as <-.
          apply Hc in Ec. apply IHc in El. destruct Ec as [-> Ha], El as [-> Hb]. split; [reflexivity|constructor; assumption].
        + intros [E Ha]. inversion Ha; subst. destruct (map_units false c u) as [c'|] eqn:Ec; [|discriminate]. cbn [rbind] in E. destruct (map_list false ch us) as [ws'|] eqn:El; [|discriminate]. cbn [rbind] in E. injection E as <-.
          rewrite (proj2 (Hc u c') (conj Ec H2)). cbn [rbind]. rewrite (proj2 (IHc us ws') (conj El H4)). reflexivity. }
    split.
    + destruct (map_list true ch us) as [ws|] eqn:El; [|discriminate]. destruct (proj1 (H ws) eq_refl) as [E Ha]. rewrite E. intros E'. split; [exact E'|constructor; exact Ha].
    + intros [E Ha]. inversion Ha; subst. destruct (map_list false ch us) as [ws|] eqn:El; [|discriminate]. rewrite (proj2 (H ws) (conj eq_refl H1)). exact E.
Qed.
(** converting twice *)
Lemma map_units_idem strict v : forall u w, spec_ok u -> map_units false v u = Ok w -> map_units strict w u = Ok w.
Proof.
  induction v as [x|m u'| |g ch IH] using val_ind'; intros u w Hu E.
  - destruct u as [|u|]; cbn in E; [injection E as <-; reflexivity| |discriminate]. injection E as <-. cbn. unfold q_to. replace (dim_eqb (u_dim u) (u_dim u)) with true by (symmetry; now apply dim_eqb_eq).
    inversion Hu; subst. unfold unit_ok in *. replace (x * u_scale u / u_scale u) with x by (field; lra). reflexivity.
  - destruct u as [|u|]; cbn in E; [injection E as <-; reflexivity| |discriminate]. unfold q_to in E. destruct (dim_eqb (u_dim u') (u_dim u)) eqn:Ed; [|discriminate]. injection E as <-.
    cbn. unfold q_to. replace (dim_eqb (u_dim u) (u_dim u)) with true by (symmetry; now apply dim_eqb_eq). inversion Hu; subst. unfold unit_ok in *. replace (m * u_scale u' / u_scale u * u_scale u / u_scale u) with (m * u_scale u' / u_scale u) by (field; lra). reflexivity.
  - destruct u; cbn in E; [injection E as <-; reflexivity|discriminate|discriminate].
  - destruct u as [| |g' us]; [discriminate|discriminate|]. rewrite map_node in E. destruct (Nat.eqb_spec g g') as [<-|]; [|discriminate].
    destruct (map_list false ch us) as [ws|] eqn:El; [|discriminate]. cbn [rbind] in E. injection E as <-. rewrite map_node, Nat.eqb_refl.
    assert (El' : map_list strict ws us = Ok ws); [|now rewrite El'].
    inversion Hu as [| |? ? Hall]; subst. clear Hu. revert us ws Hall El. induction IH as [|c ch Hc _ IHc]; intros [|u us] ws Hall El; try discriminate; [injection El as <-; reflexivity|].
    cbn [map_list] in El. fold (map_list false) in El. destruct (map_units false c u) as [c'|] eqn:Ec; [|discriminate]. cbn [rbind] in El. destruct (map_list false ch us) as [ws'|] eqn:El'; [|discriminate]. cbn [rbind] in El. injection El as <-.
    inversion Hall; subst. cbn [map_list]. rewrite (Hc u c') by assumption. cbn [rbind]. fold (map_list strict). rewrite (IHc us ws') by assumption. reflexivity.
Qed.

(** * The wrapper *)
Lemma find_param_name n sig p : find_param n sig = Some p -> p_name p = n.
Proof. induction sig as [|q sig IH]; cbn; [discriminate|]. unfold seqb. destruct (String.eqb_spec n (p_name q)) as [->|]; [intros E; injection E as <-; reflexivity|exact IH]. Qed.
Definition units_ok (units : list (string * uspec)) : Prop := forall n, spec_ok (unit_of units n).
Lemma convert_arg_sound strict sig units e e' : units_ok units -> convert_arg strict sig units e = Ok e' -> arg_normalised sig units e e'.
Proof.
  intros Hu. destruct e as [n v]. unfold convert_arg, arg_normalised. cbn [fst snd].
  assert (H0 : forall E : (match unit_of units n with UNone => Ok (n, v) | u => rbind (map_units strict v u) (fun v => Ok (n, v)) end = Ok e'),
     fst e' = n /\ ((unit_of units n = UNone /\ snd e' = v) \/ normalised v (unit_of units n) (snd e'))).
  { intros E. specialize (Hu n). destruct (unit_of units n) as [|u|g us] eqn:Eu.
    - injection E as <-. auto.
    - destruct (map_units strict v (UUnit u)) as [w|] eqn:Em; [|discriminate]. injection E as <-. split; [reflexivity|]. right. now apply (map_units_sound strict).
    - destruct (map_units strict v (UNode g us)) as [w|] eqn:Em; [|discriminate]. injection E as <-. split; [reflexivity|]. right. now apply (map_units_sound strict). }
  destruct v as [x|m u'| |g ch]; try (intros E; destruct (H0 E) as [H1 [H2|H2]]; auto; fail).
  destruct (find_param n sig) as [[n' k [[| | |]|]]|] eqn:Ef; try (intros E; destruct (H0 E) as [H1 [H2|H2]]; auto; fail).
  intros E. injection E as <-. split; [reflexivity|]. left. split; [reflexivity|]. split; [|reflexivity]. apply find_param_name in Ef as En. cbn in En. subst n'. now exists k.
Qed.
Lemma convert_all_sound strict sig units b b' : units_ok units -> convert_all strict sig units b = Ok b' -> Forall2 (arg_normalised sig units) b b'.
Proof.
  intros Hu. revert b'. induction b as [|e b IH]; intros b' E; cbn [convert_all] in E; [injection E as <-; constructor|].
  destruct (convert_arg strict sig units e) as [e'|] eqn:Ee; [|discriminate]. cbn [rbind] in E. destruct (convert_all strict sig units b) as [b1|] eqn:Eb; [|discriminate]. cbn [rbind] in E. injection E as <-.
  constructor; [now apply (convert_arg_sound strict)|now apply IH].
Qed.
Lemma convert_arg_idem strict strict' sig units e e' : units_ok units -> convert_arg strict sig units e = Ok e' -> convert_arg strict' sig units e' = Ok e'.
Proof.
  intros Hu. destruct e as [n v]. unfold convert_arg.
  assert (H0 : forall v, match unit_of units n with UNone => Ok (n, v) | u => rbind (map_units strict v u) (fun v => Ok (n, v)) end = Ok e' ->
     e' = (n, snd e') /\ match unit_of units n with UNone => Ok (n, snd e') | u => rbind (map_units strict' (snd e') u) (fun v => Ok (n, v)) end = Ok e').
  { intros v0 E. specialize (Hu n). destruct (unit_of units n) as [|u|g us] eqn:Eu.
    - injection E as <-. auto.
    - destruct (map_units strict v0 (UUnit u)) as [w|] eqn:Em; [|discriminate]. injection E as <-. split; [reflexivity|]. cbn [snd].
      assert (Em' : map_units false v0 (UUnit u) = Ok w) by (destruct strict; [now apply map_units_strict|exact Em]). now rewrite (map_units_idem strict' v0 _ w Hu Em').
    - destruct (map_units strict v0 (UNode g us)) as [w|] eqn:Em; [|discriminate]. injection E as <-. split; [reflexivity|]. cbn [snd].
      assert (Em' : map_units false v0 (UNode g us) = Ok w) by (destruct strict; [now apply map_units_strict|exact Em]). now rewrite (map_units_idem strict' v0 _ w Hu Em'). }
  assert (H1 : forall w, e' = (n, w) -> match unit_of units n with UNone => Ok (n, w) | u => rbind (map_units strict' w u) (fun v => Ok (n, v)) end = Ok (n, w) ->
     (let '(n, v) := e' in match v, find_param n sig with VNone, Some (Param _ _ (Some VNone)) => Ok (n, v) | _, _ => match unit_of units n with UNone => Ok (n, v) | u => rbind (map_units strict' v u) (fun v => Ok (n, v)) end end) = Ok e').
  { intros w -> E. destruct w; try exact E. destruct (find_param n sig) as [[? ? [[| | |]|]]|]; try exact E. reflexivity. }
  assert (H2 : forall v, match unit_of units n with UNone => Ok (n, v) | u => rbind (map_units strict v u) (fun v => Ok (n, v)) end = Ok e' ->
     (let '(n, v) := e' in match v, find_param n sig with VNone, Some (Param _ _ (Some VNone)) => Ok (n, v) | _, _ => match unit_of units n with UNone => Ok (n, v) | u => rbind (map_units strict' v u) (fun v => Ok (n, v)) end end) = Ok e').
  { intros v0 E. destruct (H0 v0 E) as [Ee E']. apply (H1 (snd e') Ee). etransitivity; [exact E'|]. f_equal. exact Ee. }
  destruct v as [x|m u'| |g ch]; try (apply H2).
  destruct (find_param n sig) as [[n' k [[| | |]|]]|] eqn:Ef; try (apply H2).
  intros E. injection E as <-. rewrite Ef. reflexivity.
Qed.
Lemma convert_all_idem strict strict' sig units b b' : units_ok units -> convert_all strict sig units b = Ok b' -> convert_all strict' sig units b' = Ok b'.
Proof.
  intros Hu. revert b'. induction b as [|e b IH]; intros b' E; cbn [convert_all] in E; [injection E as <-; reflexivity|].
  destruct (convert_arg strict sig units e) as [e'|] eqn:Ee; [|discriminate]. cbn [rbind] in E. destruct (convert_all strict sig units b) as [b1|] eqn:Eb; [|discriminate]. cbn [rbind] in E. injection E as <-.
  cbn [convert_all]. rewrite (convert_arg_idem strict strict' sig units e e' Hu Ee). cbn [rbind]. rewrite (IH b1 eq_refl). reflexivity.
Qed.
