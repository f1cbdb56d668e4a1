(** C45: units/decorator.py and units/field.py *)
From Coq Require Import Reals ZArith List Bool String Lra.
From Verif Require Import Base.RealAux Base.Dict Model.Units Spec.UnitsSpec Proof.UnitsProof.
Import ListNotations.
Open Scope R_scope.

(** whenever the call reaches the function, every argument has been normalised to the declared units
    (or passed through because it is None with default None, or because no unit is declared) *)
Theorem C45_arguments_normalised : forall B strict units sig (func : list (string * val) -> result B) call args kwargs b,
  (forall n, spec_ok (unit_of units n)) -> quantity_input strict units sig func = Ok call -> bind sig args kwargs = Ok b ->
  (exists b', call args kwargs = func b' /\ Forall2 (arg_normalised sig units) b b') \/ (exists e, call args kwargs = Err e).
Proof.
  intros B strict units sig func call args kwargs b Hu Hq Hb. unfold quantity_input in Hq. destruct (check_decoration sig units); [|discriminate]. injection Hq as <-.
  rewrite Hb. cbn [rbind]. destruct (convert_all strict sig units b) as [b'|e] eqn:E; [left; exists b'|right; now exists e].
  split; [reflexivity|]. now apply (convert_all_sound strict).
Qed.
Print Assumptions C45_arguments_normalised.

(** conversion of one value: succeeds exactly when the value can be normalised, with that result *)
Theorem C45_conversion_spec : forall v u w, spec_ok u -> (map_units false v u = Ok w <-> normalised v u w).
Proof. intros v u w Hu. split; [now apply map_units_sound|now apply normalised_complete]. Qed.
Print Assumptions C45_conversion_spec.
(** strict mode accepts exactly the values all of whose unit-carrying leaves are quantities *)
Theorem C45_strict_spec : forall v u w, map_units true v u = Ok w <-> (map_units false v u = Ok w /\ all_quantities v u).
Proof. exact map_units_strict_iff. Qed.
Print Assumptions C45_strict_spec.
(** single leaves: the four cases *)
Theorem C45_leaf_cases : forall x m u u', unit_ok u ->
  map_units false (VPlain x) (UUnit u) = Ok (VQ x u) /\
  map_units true (VPlain x) (UUnit u) = Err ValueError /\
  (same_dimension u' u -> forall strict, exists m', map_units strict (VQ m u') (UUnit u) = Ok (VQ m' u) /\ physical m' u = physical m u') /\
  (~ same_dimension u' u -> forall strict, map_units strict (VQ m u') (UUnit u) = Err DimensionalityError).
Proof.
  intros x m u u' Hu. split; [reflexivity|]. split; [reflexivity|]. split.
  - intros Hd strict. exists (m * u_scale u' / u_scale u). cbn. unfold q_to. rewrite (proj2 (dim_eqb_eq _ _) Hd). split; [reflexivity|]. unfold physical, unit_ok in *. field. lra.
  - intros Hd strict. cbn. unfold q_to. destruct (dim_eqb (u_dim u') (u_dim u)) eqn:E; [|reflexivity]. apply dim_eqb_eq in E. contradiction.
Qed.
Print Assumptions C45_leaf_cases.
(** converting to another unit and back is the identity *)
Theorem C45_round_trip : forall m u u', unit_ok u -> unit_ok u' -> same_dimension u u' ->
  rbind (map_units false (VQ m u) (UUnit u')) (fun v => map_units false v (UUnit u)) = Ok (VQ m u).
Proof.
  intros m u u' Hu Hu' Hd. cbn. unfold q_to. rewrite (proj2 (dim_eqb_eq _ _) Hd). cbn. unfold q_to. rewrite (proj2 (dim_eqb_eq _ _) (eq_sym Hd)).
  unfold unit_ok in *. replace (m * u_scale u / u_scale u' * u_scale u' / u_scale u) with m by (field; lra). reflexivity.
Qed.
Print Assumptions C45_round_trip.
(** applying the conversion twice (even strictly the second time) is the same as applying it once *)
Theorem C45_idempotent : forall strict strict' units sig b b',
  (forall n, spec_ok (unit_of units n)) -> convert_all strict sig units b = Ok b' -> convert_all strict' sig units b' = Ok b'.
Proof. intros. eapply convert_all_idem; eassumption. Qed.
Print Assumptions C45_idempotent.
(** undeclared parameters are untouched; None with default None passes through *)
Theorem C45_pass_through : forall strict units sig n v,
  (unit_of units n = UNone -> convert_arg strict sig units (n, v) = Ok (n, v)) /\
  (forall k, find_param n sig = Some (Param n k (Some VNone)) -> convert_arg strict sig units (n, VNone) = Ok (n, VNone)).
Proof.
  intros strict units sig n v. split.
  - intros E. unfold convert_arg. rewrite E. destruct v; try reflexivity. destruct (find_param n sig) as [[? ? [[| | |]|]]|]; reflexivity.
  - intros k E. unfold convert_arg. now rewrite E.
Qed.
Print Assumptions C45_pass_through.
(** an explicit None for a parameter with a unit and a default other than None raises ValueError *)
Theorem C45_none_without_none_default : forall strict units sig n p u,
  find_param n sig = Some p -> p_default p <> Some VNone -> unit_of units n = UUnit u ->
  convert_arg strict sig units (n, VNone) = Err ValueError.
Proof.
  intros strict units sig n [n' k d] u Hp Hd Hu. unfold convert_arg. rewrite Hp, Hu. cbn in Hd. destruct d as [[| | |]|]; try reflexivity. now contradiction Hd.
Qed.
Print Assumptions C45_none_without_none_default.
(** units for unknown or variadic parameters are rejected at decoration time; otherwise decoration succeeds *)
Theorem C45_decoration_check : forall B strict units sig (func : list (string * val) -> result B),
  (exists call, quantity_input strict units sig func = Ok call) <->
  (forall n u, In (n, u) units -> exists p, find_param n sig = Some p /\ p_kind p <> VarPos /\ p_kind p <> VarKw).
Proof.
  intros B strict units sig func. unfold quantity_input, check_decoration.
  assert (H : forallb (fun e => match find_param (fst e) sig with Some p => negb (is_var (p_kind p)) | None => false end) units = true <->
              (forall n u, In (n, u) units -> exists p, find_param n sig = Some p /\ p_kind p <> VarPos /\ p_kind p <> VarKw)).
  { rewrite forallb_forall. split.
    - intros H n u Hi. specialize (H (n, u) Hi). cbn [fst] in H. destruct (find_param n sig) as [p|]; [|discriminate]. exists p. split; [reflexivity|]. destruct (p_kind p); try discriminate; split; discriminate.
    - intros H [n u] Hi. cbn [fst]. destruct (H n u Hi) as (p & -> & H1 & H2). destruct (p_kind p); try reflexivity; contradiction. }
  destruct (forallb _ units) eqn:E.
  - split; [intros _; now apply H|intros _; eexists; reflexivity].
  - split; [intros (c & Hc); discriminate|intros H'; apply H in H'; discriminate].
Qed.
Print Assumptions C45_decoration_check.
(** fields: None stays None; other values are normalised like arguments *)
Theorem C45_field : forall strict u original v w, spec_ok u -> u <> UNone -> field_converter strict u original v = Ok w ->
  (v = VNone /\ w = VNone) \/ (exists v', original v = Ok v' /\ normalised v' u w).
Proof.
  intros strict u original v w Hu Hn E.
  assert (E' : match v with VNone => Ok VNone | _ => rbind (original v) (fun v => map_units strict v u) end = Ok w) by (destruct u; [contradiction|exact E|exact E]).
  assert (G : rbind (original v) (fun v => map_units strict v u) = Ok w -> exists v', original v = Ok v' /\ normalised v' u w).
  { destruct (original v) as [v'|]; [|discriminate]. cbn [rbind]. intros Em. exists v'. split; [reflexivity|]. now apply (map_units_sound strict). }
  destruct v; [right; now apply G|right; now apply G|left; injection E' as <-; auto|right; now apply G].
Qed.
Print Assumptions C45_field.

Open Scope string_scope.
Definition ex_day : unit_t := Unit [0; 1]%Z 86400.
Definition ex_sec : unit_t := Unit [0; 1]%Z 1.
Definition ex_sig : list param := [Param "t" PosOrKw None; Param "parallax" PosOrKw (Some VNone)].
Example C45_sat : (forall n, spec_ok (unit_of [("t", UUnit ex_day)] n)) /\
  bind ex_sig [VQ 43200 ex_sec] [] = Ok [("t", VQ 43200 ex_sec); ("parallax", VNone)] /\
  convert_all false ex_sig [("t", UUnit ex_day)] [("t", VQ 43200 ex_sec); ("parallax", VNone)] = Ok [("t", VQ (43200 * 1 / 86400) ex_day); ("parallax", VNone)].
Proof.
  split; [|split; reflexivity]. intros n. unfold unit_of. cbn [dget]. destruct (seqb n "t"); constructor. unfold unit_ok. cbn. lra.
Qed.
