(** Gradients of the geometry of an occultation and of the design vector. *)
From Coq Require Import Reals List Bool Arith ZArith Lia Lra Psatz.
From Coquelicot Require Import Hierarchy Derive Continuity Rbar Rcomplements ElemFct AutoDerive.
From Verif Require Import Base.RealAux Base.Dict Model.LimbDark Model.Poly Model.Basis Model.S2fft Model.Rotation Model.Solution Model.SolutionVector Model.Ylm Model.RvMap Model.Surface Model.StarryLightCurve Model.AutoDiff Model.LightCurveGrad Model.TransitGrad Model.StarryGrad.
From Verif Require Import Spec.LimbDarkSpec Spec.OccultSpec Spec.AutoDiffSpec Spec.StarryGradSpec.
From Verif Require Import Proof.AutoDiff Proof.Occult Proof.LightCurveGrad Proof.LightCurveDeriv Proof.LightCurveTangent Proof.LightCurveGradFacts Proof.TransitGrad Proof.StarryGrad Proof.StarryGradFlux.
From Verif Require Proof.RTProof Proof.OccultedFlux Proof.StarryProof.
Import ListNotations.
Local Open Scope R_scope.

(** ** lists of finite traced numbers *)
Notation FL := (List.Forall2 fin).
Lemma FL_map {A} (l : list A) f g : (forall a, fin (f a) (g a)) -> FL (map f l) (map g l).
Proof. intros H. induction l; cbn; constructor; auto. Qed.
Lemma FL_flat_map {A} (l : list A) f g : (forall a, FL (f a) (g a)) -> FL (flat_map f l) (flat_map g l).
Proof. intros H. induction l; cbn; [constructor|]. apply List.Forall2_app; auto. Qed.
Lemma FL_nth ds vs n : FL ds vs -> fin (nth n ds (cst 0)) (nth n vs 0).
Proof. intros H. revert n. induction H; intros [|n]; cbn; try apply fin_cst; auto. Qed.
Lemma FL_cst l : FL (map cst l) l.
Proof. induction l; cbn; constructor; [apply fin_cst|assumption]. Qed.
Lemma FL_where c a b v w : FL a v -> FL b w -> length a = length b -> FL (dwhere_l c a b) (if c then v else w).
Proof.
  intros Ha. revert b w. induction Ha as [|x y a v Hx Ha IH]; intros b w Hb L; destruct Hb as [|x' y' b w Hx' Hb]; cbn in *; try discriminate; [destruct c; constructor|].
  injection L as L. specialize (IH b w Hb L). unfold dwhere_l in IH. destruct c; constructor; try exact IH; [exact (fin_where true _ _ _ _ Hx Hx')|exact (fin_where false _ _ _ _ Hx Hx')].
Qed.
Lemma FL_vec_mat N v w M : FL v w -> FL (vec_mat_d N v M) (vec_mat N w M).
Proof. intros H. apply (FL_map (seq 0 N) _ (fun c => bigsum N (fun r => nth r w 0 * M (Z.of_nat r) (Z.of_nat c)))). intros c. apply fin_bigsum. intros i _. apply fin_mul; [now apply FL_nth|apply fin_cst]. Qed.
Lemma TL_vec_mat s N f d M : TL f s d -> TL (fun z => vec_mat N (f z) M) s (vec_mat_d N d M).
Proof.
  intros H. apply (TL_map s (seq 0 N) (fun c z => bigsum N (fun r => nth r (f z) 0 * M (Z.of_nat r) (Z.of_nat c)))). intros c.
  apply (tracks_bigsum (fun r z => nth r (f z) 0 * M (Z.of_nat r) (Z.of_nat c))). intros i _. apply (tracks_mul (fun z => nth i (f z) 0) (fun _ => M (Z.of_nat i) (Z.of_nat c))); [now apply TL_nth|apply tracks_cst].
Qed.
Lemma TL_fin f s d : TL f s d -> FL d (f s).
Proof. intros (fs & H & E). rewrite E. exact (trackl_fin _ _ _ H). Qed.
(** a selection between lists; the functions not selected need only be finite *)
Lemma TL_where (c : R -> bool) f g s a b : stable c s -> FL a (f s) -> FL b (g s) -> (forall z, length (f z) = length a) -> (forall z, length (g z) = length a) -> length b = length a ->
  (c s = true -> TL f s a) -> (c s = false -> TL g s b) -> TL (fun z => if c z then f z else g z) s (dwhere_l (c s) a b).
Proof.
  intros Sc Fa Fb Lf Lg Lb Ta Tb.
  exists (map (fun i z => if c z then nth i (f z) 0 else nth i (g z) 0) (seq 0 (length a))). split.
  - assert (Ed : dwhere_l (c s) a b = map (fun i => dwhere (c s) (nth i a (cst 0)) (nth i b (cst 0))) (seq 0 (length a))).
    { apply (nth_ext _ _ (cst 0) (cst 0)); unfold dwhere_l; rewrite !map_length, combine_length, ?seq_length, Lb, Nat.min_id; [reflexivity|].
      intros n Hn. rewrite (nth_indep _ (cst 0) (dwhere (c s) (fst (cst 0, cst 0)) (snd (cst 0, cst 0)))) by (rewrite map_length, combine_length, Lb, Nat.min_id; exact Hn).
      rewrite (map_nth (fun p => dwhere (c s) (fst p) (snd p))). rewrite combine_nth by now symmetry. cbn [fst snd].
      rewrite (nth_indep (map _ (seq 0 (length a))) (cst 0) ((fun i => dwhere (c s) (nth i a (cst 0)) (nth i b (cst 0))) 0%nat)) by (rewrite map_length, seq_length; exact Hn).
      rewrite (map_nth (fun i => dwhere (c s) (nth i a (cst 0)) (nth i b (cst 0)))). now rewrite seq_nth. }
    rewrite Ed. apply (trackl_seq (fun z i => if c z then nth i (f z) 0 else nth i (g z) 0)). intros i.
    apply (tracks_where c (fun z => nth i (f z) 0) (fun z => nth i (g z) 0) s _ _ _ _ Sc (FL_nth _ _ i Fa) (FL_nth _ _ i Fb)); intros E; now apply TL_nth; auto.
  - intros z. rewrite map_map. destruct (c z); [rewrite <- (Lf z)|rewrite <- (Lg z)]; symmetry; apply nth_seq_map.
Qed.

(** ** the position angle: defined modulo a turn, so that its cosine and its sine are differentiable even where the
    angle jumps *)
Lemma cs_atan2 x y : ~ (x = 0 /\ y = 0) -> 0 < x ^ 2 + y ^ 2 /\ cos (atan2 x y) = y / sqrt (x ^ 2 + y ^ 2) /\ sin (atan2 x y) = x / sqrt (x ^ 2 + y ^ 2).
Proof.
  intros N. assert (P : 0 < x ^ 2 + y ^ 2).
  { destruct (Req_EM_T x 0) as [E|E]; [destruct (Req_EM_T y 0) as [E'|E']; [now contradiction N|]|].
    - assert (0 < y ^ 2) by (apply pow2_gt_0; exact E'). assert (0 <= x ^ 2) by apply pow2_ge_0. lra.
    - assert (0 < x ^ 2) by (apply pow2_gt_0; exact E). assert (0 <= y ^ 2) by apply pow2_ge_0. lra. }
  split; [exact P|]. destruct (OccultedFlux.polar_atan2 x y) as [A B]. assert (0 < sqrt (x ^ 2 + y ^ 2)) by now apply sqrt_lt_R0.
  split; [rewrite <- B at 2|rewrite <- A at 2]; field; lra.
Qed.
Lemma cos_slope a b ta tb q : q <> 0 -> q * q = a ^ 2 + b ^ 2 ->
  1 * tb * / q + b * (- ((1 * ta * ((1 + 1) * (a * 1)) + 1 * tb * ((1 + 1) * (b * 1))) * / (2 * q)) * / (q * q)) = - ((ta * (b / (b ^ 2 + a ^ 2)) + tb * (- a / (b ^ 2 + a ^ 2))) * (a / q)).
Proof.
  intros Hq E. replace (b ^ 2 + a ^ 2) with (q * q) by (rewrite E; ring).
  transitivity ((tb * (q * q) - b * (a * ta + b * tb)) / (q * q * q)); [field; exact Hq|]. rewrite E at 1.
  transitivity (- (ta * b * a - tb * a * a) / (q * q * q)); [f_equal; ring|field; exact Hq].
Qed.
Lemma sin_slope a b ta tb q : q <> 0 -> q * q = a ^ 2 + b ^ 2 ->
  1 * ta * / q + a * (- ((1 * ta * ((1 + 1) * (a * 1)) + 1 * tb * ((1 + 1) * (b * 1))) * / (2 * q)) * / (q * q)) = (ta * (b / (b ^ 2 + a ^ 2)) + tb * (- a / (b ^ 2 + a ^ 2))) * (b / q).
Proof.
  intros Hq E. replace (b ^ 2 + a ^ 2) with (q * q) by (rewrite E; ring).
  transitivity ((ta * (q * q) - a * (a * ta + b * tb)) / (q * q * q)); [field; exact Hq|]. rewrite E at 1.
  transitivity ((ta * b * b - tb * a * b) / (q * q * q)); [f_equal; ring|field; exact Hq].
Qed.
Lemma angle_atan2 x y s X Y : tracks x s X -> tracks y s Y -> ~ (x s = 0 /\ y s = 0) -> angle (fun z => atan2 (x z) (y z)) s (datan2 X Y).
Proof.
  intros HX HY N. destruct (cs_atan2 _ _ N) as (P & C & S). assert (F : fin (datan2 X Y) (atan2 (x s) (y s))).
  { apply fin_atan2; [exact (tracks_fin _ _ _ HX)|exact (tracks_fin _ _ _ HY)|]. destruct (Req_EM_T (y s) 0), (Req_EM_T (x s) 0); tauto. }
  split; [exact F|].
  assert (LP : locally s (fun z => 0 < x z ^ 2 + y z ^ 2)).
  { apply (locally_lt (fun _ => 0)); [apply continuous_const| |exact P]. apply (tracks_cont _ _ (dadd (dpow2 X) (dpow2 Y))). apply tracks_add; now apply tracks_pow2. }
  destruct HX as (tx & -> & DX), HY as (ty & -> & DY). unfold datan2 in *. cbn [AutoDiff.val] in *. destruct (Req_EM_T (y s ^ 2 + x s ^ 2) 0); [lra|]. cbn [lift2] in *.
  assert (EX : ex_derive x s) by now exists tx. assert (EY : ex_derive y s) by now exists ty.
  assert (UX : Derive x s = tx) by now apply is_derive_unique. assert (UY : Derive y s = ty) by now apply is_derive_unique.
  assert (PS : 0 < sqrt (x s ^ 2 + y s ^ 2)) by now apply sqrt_lt_R0. assert (QS : sqrt (x s ^ 2 + y s ^ 2) * sqrt (x s ^ 2 + y s ^ 2) = x s ^ 2 + y s ^ 2) by (apply sqrt_sqrt; lra).
  split; (eexists; split; [reflexivity|]).
  - apply (is_derive_ext_loc (fun z => y z / sqrt (x z ^ 2 + y z ^ 2))).
    { revert LP. apply filter_imp. intros z Hz. symmetry. apply cs_atan2. intros [E1 E2]. rewrite E1, E2 in Hz. lra. }
    rewrite S. auto_derive.
    { split; [assumption|]. split; [assumption|]. split; [assumption|]. split; [cbn [pow] in P; lra|]. split; [|exact I]. apply Rgt_not_eq. exact PS. }
    change (Derive (fun x0 : R => x x0) s) with (Derive x s). change (Derive (fun x0 : R => y x0) s) with (Derive y s). rewrite UX, UY. apply (cos_slope (x s) (y s) tx ty (sqrt (x s ^ 2 + y s ^ 2))); [lra|exact QS].
  - apply (is_derive_ext_loc (fun z => x z / sqrt (x z ^ 2 + y z ^ 2))).
    { revert LP. apply filter_imp. intros z Hz. symmetry. apply cs_atan2. intros [E1 E2]. rewrite E1, E2 in Hz. lra. }
    rewrite C. auto_derive.
    { split; [assumption|]. split; [assumption|]. split; [assumption|]. split; [cbn [pow] in P; lra|]. split; [|exact I]. apply Rgt_not_eq. exact PS. }
    change (Derive (fun x0 : R => x x0) s) with (Derive x s). change (Derive (fun x0 : R => y x0) s) with (Derive y s). rewrite UX, UY. apply (sin_slope (x s) (y s) tx ty (sqrt (x s ^ 2 + y s ^ 2))); [lra|exact QS].
Qed.

(** ** the occultor *)
Lemma sq_pos x y : ~ (x = 0 /\ y = 0) -> 0 < x² + y².
Proof. intros N. destruct (cs_atan2 x y N) as (P & _). unfold Rsqr. lra. Qed.
Section Geometry.
Variables (R' X Y Z : D).
Notation d := (geometry_d R' X Y Z).
Lemma geometry_fin r x y z : fin R' r -> fin X x -> fin Y y -> fin Z z -> ~ (x = 0 /\ y = 0) ->
  let g := geometry r (Some x) (Some y) (Some z) in
  gd_occ d = og_occ g /\ fin (gd_b d) (og_b g) /\ fin (gd_r d) (og_r g) /\ fin (gd_theta_z d) (og_theta_z g) /\
  ~ (Rabs (og_b g) = 0 /\ Rabs (og_r g) = 1) /\ ~ (Rabs (og_b g) = 1 /\ Rabs (og_r g) = 0).
Proof.
  intros HR HX HY HZ N. cbv zeta. unfold geometry_d, geometry. cbn [gd_occ gd_b gd_r gd_theta_z og_occ og_b og_r og_theta_z none0]. pose proof (sq_pos x y N) as P.
  assert (FS : fin (dsqrt (dadd (dsq X) (dsq Y))) (sqrt (x² + y²))) by (apply fin_sqrt'; [fin|exact P]).
  rewrite (fin_val _ _ FS), (fin_val _ _ HR), (fin_val _ _ HZ). set (c := (Rgeb (sqrt (x² + y²)) (1 + r) || Rleb z 0)%bool) in *.
  assert (PS : 0 < sqrt (x² + y²)) by now apply sqrt_lt_R0.
  split; [reflexivity|]. split; [apply fin_where; fin|]. split; [apply fin_where; fin|]. split.
  - apply fin_atan2; [exact HX|exact HY|]. destruct (Req_EM_T y 0), (Req_EM_T x 0); tauto.
  - destruct c eqn:Ec; cbn [where_]; [rewrite Rabs_R1; split; intros [H1 H2]; lra|]. split; intros [H1 H2].
    + apply Rabs_no_R0 in H1; [exact H1|lra].
    + rewrite Rabs_pos_eq in H1 by lra. assert (r = 0) by (destruct (Req_EM_T r 0) as [E|E]; [exact E|now apply Rabs_no_R0 in E]). subst r.
      unfold c in Ec. apply orb_false_iff in Ec. destruct Ec as [Ec _]. unfold Rgeb in Ec. apply Rleb_false in Ec. lra.
Qed.
(** nothing hidden: the solution vector is evaluated at (1, 1) with tangents 0 *)
Lemma geometry_free r x y z : fin R' r -> fin X x -> fin Y y -> fin Z z -> ~ (x = 0 /\ y = 0) -> og_occ (geometry r (Some x) (Some y) (Some z)) = false ->
  gd_occ d = false /\ gd_b d = cst 1 /\ gd_r d = cst 1.
Proof.
  intros HR HX HY HZ N Ho. unfold geometry_d, geometry in *. cbn [gd_occ gd_b gd_r og_occ none0] in *. pose proof (sq_pos x y N) as P.
  assert (FS : fin (dsqrt (dadd (dsq X) (dsq Y))) (sqrt (x² + y²))) by (apply fin_sqrt'; [fin|exact P]).
  rewrite (fin_val _ _ FS), (fin_val _ _ HR), (fin_val _ _ HZ). rewrite Ho. apply negb_false_iff in Ho. rewrite Ho. destruct FS as (t & ->), HR as (t' & ->). repeat split.
Qed.
(** at x = y = 0 the distance has no derivative *)
Lemma geometry_none : fin X 0 -> fin Y 0 -> gd_b d = None.
Proof.
  intros HX HY. unfold geometry_d. cbn [gd_b]. assert (E : dsqrt (dadd (dsq X) (dsq Y)) = None); [|rewrite E; apply where_none].
  unfold dsqrt. rewrite (fin_val (dadd (dsq X) (dsq Y)) (0² + 0²)) by fin. replace (Rleb (0² + 0²) 0) with true by (symmetry; apply Rleb_true; unfold Rsqr; lra). reflexivity.
Qed.
End Geometry.
Section GeometryT.
Variables (r x y z : R -> R) (s : R) (R' X Y Z : D).
Hypotheses (HR : tracks r s R') (HX : tracks x s X) (HY : tracks y s Y) (HZ : tracks z s Z) (N : ~ (x s = 0 /\ y s = 0)).
Hypotheses (Nb : sqrt (x s ^ 2 + y s ^ 2) <> 1 + r s) (Nz : z s <> 0).
Notation d := (geometry_d R' X Y Z).
Let g w := geometry (r w) (Some (x w)) (Some (y w)) (Some (z w)).
Lemma tracks_sep : tracks (fun w => sqrt ((x w)² + (y w)²)) s (dsqrt (dadd (dsq X) (dsq Y))).
Proof. apply (tracks_sqrt' (fun w => (x w)² + (y w)²)); [trk|now apply sq_pos]. Qed.
Lemma stable_occ : stable (fun w => og_occ (g w)) s.
Proof.
  apply (stable_ext (fun w => negb (Rgeb (sqrt ((x w)² + (y w)²)) (1 + r w) || Rleb (z w) 0)%bool)); [reflexivity|].
  assert (G : stable (fun w => (Rgeb (sqrt ((x w)² + (y w)²)) (1 + r w) || Rleb (z w) 0)%bool) s).
  { apply stable_orb.
    - apply stable_geb; [exact (tracks_cont _ _ _ tracks_sep)| |].
      + apply (tracks_cont _ _ (dadd (cst 1) R')). trk.
      + intros E. apply Nb. rewrite <- E. f_equal. unfold Rsqr. ring.
    - apply stable_leb; [exact (tracks_cont _ _ _ HZ)|apply continuous_const|exact Nz]. }
  unfold stable in *. revert G. apply filter_imp. intros w ->. reflexivity.
Qed.
Lemma geometry_tracks : gd_occ d = og_occ (g s) /\ tracks (fun w => og_b (g w)) s (gd_b d) /\ tracks (fun w => og_r (g w)) s (gd_r d) /\
  angle (fun w => og_theta_z (g w)) s (gd_theta_z d).
Proof.
  pose proof (geometry_fin R' X Y Z _ _ _ _ (tracks_fin _ _ _ HR) (tracks_fin _ _ _ HX) (tracks_fin _ _ _ HY) (tracks_fin _ _ _ HZ) N) as (E & _ & _ & _ & _).
  split; [exact E|]. pose proof tracks_sep as TS. set (c := fun w => negb (og_occ (g w))).
  assert (Sc : stable c s). { pose proof stable_occ as G. unfold stable, c in *. revert G. apply filter_imp. intros w ->. reflexivity. }
  assert (Ec : forall w, (Rgeb (sqrt ((x w)² + (y w)²)) (1 + r w) || Rleb (z w) 0)%bool = c w) by (intros w; unfold c, g, geometry; cbn [og_occ none0]; now rewrite negb_involutive).
  assert (Ed : (Rgeb (AutoDiff.val (dsqrt (dadd (dsq X) (dsq Y)))) (1 + AutoDiff.val R') || Rleb (AutoDiff.val Z) 0)%bool = c s).
  { rewrite (fin_val _ _ (tracks_fin _ _ _ TS)), (fin_val _ _ (tracks_fin _ _ _ HR)), (fin_val _ _ (tracks_fin _ _ _ HZ)). apply Ec. }
  assert (Hb : gd_b d = dwhere (c s) (cst 1) (dsqrt (dadd (dsq X) (dsq Y)))) by (rewrite <- Ed; reflexivity).
  assert (Hr : gd_r d = dwhere (c s) (cst 1) R') by (rewrite <- Ed; reflexivity).
  split; [|split].
  - rewrite Hb. apply (tracks_ext' (fun w => if c w then 1 else sqrt ((x w)² + (y w)²))).
    + intros w. rewrite <- Ec. reflexivity.
    + apply (tracks_where c (fun _ => 1) _ s _ _ 1 _ Sc (fin_cst 1) (tracks_fin _ _ _ TS)); [intros _; apply tracks_cst|intros _; exact TS].
  - rewrite Hr. apply (tracks_ext' (fun w => if c w then 1 else r w)).
    + intros w. rewrite <- Ec. reflexivity.
    + apply (tracks_where c (fun _ => 1) r s _ _ 1 _ Sc (fin_cst 1) (tracks_fin _ _ _ HR)); [intros _; apply tracks_cst|intros _; exact HR].
  - apply (angle_atan2 x y); assumption.
Qed.
End GeometryT.

(** ** the solution vector *)
Lemma q0_none : q_entry_d None 0 0 = None.
Proof.
  unfold q_entry_d. cbn [Nat.eqb andb Nat.mul Nat.sub Nat.modulo Nat.divmod Nat.div fst snd Nat.add]. cbn [q_get_d q_low_d]. unfold ddiv. destruct (Req_EM_T _ _); reflexivity.
Qed.
Section Solution.
Variables (eps : R) (low high : list (R * R)).
Hypothesis He : 0 < eps.
Definition sol_list (l_max : nat) (b r : R) : list R := flat_map (fun l => map (fun nu => sol_entry eps low high b r l nu) (seq 0 (2 * l + 1))) (seq 0 (l_max + 1)).
Definition sol_list_d (l_max : nat) (b r : D) : list D := flat_map (fun l => map (fun nu => sol_entry_d eps low high b r l nu) (seq 0 (2 * l + 1))) (seq 0 (l_max + 1)).
Lemma fin_sol_list l_max x y b r : fin x b -> fin y r -> ~ (Rabs b = 0 /\ Rabs r = 1) -> ~ (Rabs b = 1 /\ Rabs r = 0) -> FL (sol_list_d l_max x y) (sol_list l_max b r).
Proof. intros Hx Hy N1 N2. apply FL_flat_map. intros l. apply FL_map. intros nu. now apply fin_sol_entry. Qed.
Lemma TL_sol_list l_max b r s x y : tracks b s x -> tracks r s y -> starry_regular_point eps high (b s) (r s) -> TL (fun z => sol_list l_max (b z) (r z)) s (sol_list_d l_max x y).
Proof.
  intros Hb Hr H. apply (TL_flat_map s (seq 0 (l_max + 1)) (fun l z => map (fun nu => sol_entry eps low high (b z) (r z) l nu) (seq 0 (2 * l + 1)))). intros l.
  apply (TL_map s (seq 0 (2 * l + 1)) (fun nu z => sol_entry eps low high (b z) (r z) l nu)). intros nu. now apply tracks_sol_entry.
Qed.
Lemma entry0_none y : sol_entry_d eps low high None y 0 0 = None.
Proof.
  unfold sol_entry_d. cbn [dabs lift1]. set (Y := dabs y).
  assert (EK : snd (sol_kappas_d eps None Y) = None).
  { unfold sol_kappas_d. cbn [fst snd dsq lift1]. set (q := dsub None _). assert (Eq : q = None) by reflexivity. rewrite Eq. unfold datan2. destruct (Req_EM_T _ _); [reflexivity|]. apply lift2_none_r. }
  destruct (sol_kappas_d eps None Y) as [k0 k1]. cbn [snd] in EK. subst k1. unfold dsub. rewrite lift2_none_r, q0_none. apply lift2_none_l.
Qed.
Lemma p0_none X Y : pint_entry_d eps low high X Y None 0 0 = None.
Proof.
  unfold pint_entry_d. cbv zeta. cbn [Nat.eqb andb Nat.mul Nat.sub Nat.modulo Nat.divmod Nat.div fst snd Nat.add]. unfold p_sum_d. unfold dmul at 1 2. rewrite lift2_none_r. apply lift2_none_l.
Qed.
(** the entry 0 at the two singular points *)
Lemma entry0_singular x y b r : fin x b -> fin y r -> (Rabs b = 0 /\ Rabs r = 1) \/ (Rabs b = 1 /\ Rabs r = 0) -> sol_entry_d eps low high x y 0 0 = None.
Proof.
  intros Hx0 Hy0 N. assert (Hx : fin (dabs x) (Rabs b)) by now apply fin_abs. assert (Hy : fin (dabs y) (Rabs r)) by now apply fin_abs.
  unfold sol_entry_d. set (X := dabs x) in *. set (Y := dabs y) in *.
  assert (EK : fst (sol_kappas_d eps X Y) = None).
  { unfold sol_kappas_d. cbn [fst snd]. rewrite (fin_val _ _ Hx), (fin_val _ _ Hy).
    assert (Ec : (Rgtb (Rabs b) (Rabs (1 - Rabs r)) && Rltb (Rabs b) (1 + Rabs r))%bool = false).
    { apply andb_false_iff. destruct N as [[-> ->]|[-> ->]]; [left; apply Rltb_false; replace (1 - 1) with 0 by ring; rewrite Rabs_R0; lra|right; apply Rltb_false; lra]. }
    rewrite Ec. assert (Fk : fin (kite_area_d eps Y (dwhere false X (cst 1)) (cst 1)) (kite_area (Rabs r) 1 1)) by (apply fin_kite; [exact He|exact Hy|apply (fin_where false _ _ _ 1 Hx (fin_cst 1))|apply fin_cst]).
    destruct Fk as (t & ->). change (dwhere false (Some (kite_area (Rabs r) 1 1, t)) (cst 0)) with (cst 0).
    match goal with |- datan2 _ ?d = None => assert (Fd : fin d 0) end.
    { replace 0 with ((Rabs b)² + (Rabs r - 1) * (Rabs r + 1)) by (destruct N as [[-> ->]|[-> ->]]; unfold Rsqr; ring). fin. }
    destruct Fd as (u & ->). unfold datan2, cst. cbn [AutoDiff.val]. destruct (Req_EM_T (0 ^ 2 + 0 ^ 2) 0) as [_|n]; [reflexivity|exfalso; apply n; ring]. }
  destruct (sol_kappas_d eps X Y) as [k0 k1]. cbn [fst] in EK. subst k0. rewrite p0_none. unfold dsub. apply lift2_none_r.
Qed.

(** as results *)
Lemma solution_fin l_max x y b r : fin x b -> fin y r -> ~ (Rabs b = 0 /\ Rabs r = 1) -> ~ (Rabs b = 1 /\ Rabs r = 0) -> l_max <> 0%nat ->
  exists d v, starry_solution_d eps low high l_max x y = Ok d /\ starry_solution eps low high l_max b r = Ok v /\ FL d v.
Proof.
  intros Hx Hy N1 N2 H0. unfold starry_solution_d, starry_solution. destruct (l_max =? 0)%nat eqn:E; [apply Nat.eqb_eq in E; contradiction|].
  exists (sol_list_d l_max x y), (sol_list l_max b r). split; [reflexivity|]. split; [reflexivity|]. exact (fin_sol_list l_max x y b r Hx Hy N1 N2).
Qed.
Lemma solution_tracks l_max b r s x y : tracks b s x -> tracks r s y -> starry_regular_point eps high (b s) (r s) -> l_max <> 0%nat ->
  exists d f, starry_solution_d eps low high l_max x y = Ok d /\ (forall z, starry_solution eps low high l_max (b z) (r z) = Ok (f z)) /\ TL f s d.
Proof.
  intros Hb Hr H H0. unfold starry_solution_d, starry_solution. destruct (l_max =? 0)%nat eqn:E; [apply Nat.eqb_eq in E; contradiction|].
  exists (sol_list_d l_max x y), (fun z => sol_list l_max (b z) (r z)). split; [reflexivity|]. split; [intros z; reflexivity|]. exact (TL_sol_list l_max b r s x y Hb Hr H).
Qed.
Lemma solution_outside l_max x y b r : fin x b -> fin y r -> ~ (Rabs b = 0 /\ Rabs r = 1) -> ~ (Rabs b = 1 /\ Rabs r = 0) -> 1 + Rabs r <= Rabs b \/ 1 + Rabs b <= Rabs r -> l_max <> 0%nat ->
  exists v, starry_solution eps low high l_max b r = Ok v /\ starry_solution_d eps low high l_max x y = Ok (map cst v) /\
  (1 + Rabs b <= Rabs r -> forall c, In c v -> c = 0).
Proof.
  intros Hx Hy N1 N2 Ho H0. unfold starry_solution_d, starry_solution. destruct (l_max =? 0)%nat eqn:E; [apply Nat.eqb_eq in E; contradiction|].
  eexists. split; [reflexivity|]. split.
  - f_equal. rewrite !flat_map_concat_map, concat_map, !map_map. f_equal. apply map_ext. intros l. rewrite map_map. apply map_ext. intros nu. now apply outside_entry.
  - intros Hr c Hc. apply in_flat_map in Hc. destruct Hc as (l & _ & Hc). apply in_map_iff in Hc. destruct Hc as (nu & <- & _).
    destruct (outside_entry eps low high x y b r l nu He Hx Hy N1 N2 Ho) as [_ ->]. unfold outside_lam. rewrite (proj2 (Rleb_true _ _) Hr). apply q_entry_eclipse.
Qed.
Lemma solution_undefined l_max x y b r : fin x b -> fin y r -> (Rabs b = 0 /\ Rabs r = 1) \/ (Rabs b = 1 /\ Rabs r = 0) -> l_max <> 0%nat ->
  exists d, starry_solution_d eps low high l_max x y = Ok d /\ nth 0 d (cst 0) = None.
Proof.
  intros Hx Hy N H0. unfold starry_solution_d. destruct (l_max =? 0)%nat eqn:E; [apply Nat.eqb_eq in E; contradiction|].
  eexists. split; [reflexivity|]. rewrite Nat.add_comm. cbn [Nat.add seq flat_map Nat.mul map app nth]. now apply (entry0_singular x y b r).
Qed.

(** ** the design vector *)
Variable A2 : nat -> matrix.
Lemma sol_list_length l_max b r : length (sol_list l_max b r) = ((l_max + 1) * (l_max + 1))%nat.
Proof.
  unfold sol_list. induction l_max as [|n IH]; [reflexivity|]. replace (S n + 1)%nat with (S (n + 1)) by lia. rewrite seq_S, flat_map_app, app_length, IH. cbn [flat_map plus]. rewrite app_nil_r, map_length, seq_length. lia.
Qed.
Lemma design_fin deg R' X Y Z r x y z : fin R' r -> fin X x -> fin Y y -> fin Z z -> ~ (x = 0 /\ y = 0) -> deg <> 0%nat ->
  exists d v, design_matrix_d eps low high A2 deg (geometry_d R' X Y Z) = Ok d /\ design_matrix eps low high A2 deg (Some (geometry r (Some x) (Some y) (Some z))) = Ok v /\ FL d v.
Proof.
  intros HR HX HY HZ N H0. destruct (geometry_fin R' X Y Z r x y z HR HX HY HZ N) as (Eo & Fb & Fr & _ & N1 & N2).
  destruct (solution_fin deg _ _ _ _ Fb Fr N1 N2 H0) as (ds & vs & E1 & E2 & F). unfold design_matrix_d, design_matrix. rewrite E1, E2. cbn [rbind]. rewrite Eo.
  do 2 eexists. split; [reflexivity|]. split; [reflexivity|]. apply FL_where; [now apply FL_vec_mat|apply FL_cst|].
  unfold vec_mat_d. rewrite !map_length, seq_length, RTProof.rT_length. reflexivity.
Qed.
Lemma design_free deg R' X Y Z r x y z : fin R' r -> fin X x -> fin Y y -> fin Z z -> ~ (x = 0 /\ y = 0) -> deg <> 0%nat -> og_occ (geometry r (Some x) (Some y) (Some z)) = false ->
  design_matrix_d eps low high A2 deg (geometry_d R' X Y Z) = Ok (map cst (rT deg)).
Proof.
  intros HR HX HY HZ N H0 Ho. destruct (geometry_free R' X Y Z r x y z HR HX HY HZ N Ho) as (Eo & Eb & Er).
  assert (N1 : ~ (Rabs 1 = 0 /\ Rabs 1 = 1)) by (rewrite Rabs_R1; lra). assert (N2 : ~ (Rabs 1 = 1 /\ Rabs 1 = 0)) by (rewrite Rabs_R1; lra).
  destruct (solution_fin deg _ _ _ _ (fin_cst 1) (fin_cst 1) N1 N2 H0) as (ds & vs & E1 & E2 & F). unfold design_matrix_d. rewrite Eo, Eb, Er, E1. cbn [rbind]. f_equal.
  pose proof (FL_vec_mat ((deg + 1) * (deg + 1)) ds vs (A2 deg) F) as F2. set (v := vec_mat_d _ _ _) in *. assert (L : length v = length (rT deg)) by (unfold v, vec_mat_d; rewrite map_length, seq_length, RTProof.rT_length; reflexivity).
  clearbody v. revert F2 L. generalize (rT deg). generalize (vec_mat ((deg + 1) * (deg + 1)) vs (A2 deg)). clear. intros w. revert w.
  induction v as [|a v IH]; intros w t F L; destruct t as [|b t]; cbn in L; try discriminate; [reflexivity|]. inversion F as [|? c ? w' (ta & ->) F']; subst. unfold dwhere_l. cbn. f_equal. apply (IH w'); [exact F'|]. now injection L.
Qed.
Lemma design_none deg R' X Y Z : fin X 0 -> fin Y 0 -> deg <> 0%nat ->
  exists d, design_matrix_d eps low high A2 deg (geometry_d R' X Y Z) = Ok d /\ length d = ((deg + 1) * (deg + 1))%nat /\ forall n, (n < (deg + 1) * (deg + 1))%nat -> nth n d (cst 0) = None.
Proof.
  intros HX HY H0. pose proof (geometry_none R' X Y Z HX HY) as Eb. unfold design_matrix_d. rewrite Eb. unfold starry_solution_d. destruct (deg =? 0)%nat eqn:E; [apply Nat.eqb_eq in E; contradiction|]. cbn [rbind].
  set (sT := flat_map _ _). set (N := ((deg + 1) * (deg + 1))%nat). eexists. split; [reflexivity|].
  assert (E0 : nth 0 sT (cst 0) = None).
  { unfold sT. rewrite Nat.add_comm. cbn [Nat.add seq flat_map Nat.mul map app nth]. apply entry0_none. }
  assert (EN : forall f k, f 0%nat = None -> dbigsum (S k) f = None).
  { intros f k Ef. induction k as [|k IH]; [cbn [dbigsum]; rewrite Ef; reflexivity|]. cbn [dbigsum] in *. rewrite IH. reflexivity. }
  assert (EV : vec_mat_d N sT (A2 deg) = repeat None N).
  { unfold vec_mat_d. assert (ER : forall l : list nat, repeat (None : D) (length l) = map (fun _ => None) l) by (induction l as [|? l IH]; [reflexivity|cbn [length repeat map]; f_equal; exact IH]).
    transitivity (map (fun _ : nat => (None : D)) (seq 0 N)); [|rewrite <- ER, seq_length; reflexivity]. apply map_ext. intros c. replace N with (S (N - 1)) by (unfold N; lia). apply EN. rewrite E0. reflexivity. }
  rewrite EV. assert (L : length (map cst (rT deg)) = N) by (rewrite map_length, RTProof.rT_length; reflexivity). revert L. generalize (map cst (rT deg)). clearbody N. clear. intros l L.
  split; [unfold dwhere_l; rewrite map_length, combine_length, repeat_length, L; apply Nat.min_id|]. intros n Hn. subst N. revert n Hn. induction l as [|a l IH]; intros n Hn; [inversion Hn|]. destruct n as [|n]; [reflexivity|]. cbn in Hn. apply (IH n). lia.
Qed.
Lemma design_tracks deg r x y z s R' X Y Z : tracks r s R' -> tracks x s X -> tracks y s Y -> tracks z s Z -> ~ (x s = 0 /\ y s = 0) ->
  sqrt (x s ^ 2 + y s ^ 2) <> 1 + r s -> z s <> 0 -> (sqrt (x s ^ 2 + y s ^ 2) < 1 + r s -> 0 < z s -> starry_regular_point eps high (sqrt (x s ^ 2 + y s ^ 2)) (r s)) -> deg <> 0%nat ->
  exists d f, design_matrix_d eps low high A2 deg (geometry_d R' X Y Z) = Ok d /\
  (forall w, design_matrix eps low high A2 deg (Some (geometry (r w) (Some (x w)) (Some (y w)) (Some (z w)))) = Ok (f w)) /\ TL f s d.
Proof.
  intros HR HX HY HZ N Nb Nz Hreg H0. set (g := fun w => geometry (r w) (Some (x w)) (Some (y w)) (Some (z w))).
  destruct (geometry_tracks r x y z s R' X Y Z HR HX HY HZ N Nb Nz) as (Eo & Tb & Tr & _). pose proof (stable_occ r x y z s R' X Y Z HR HX HY HZ N Nb Nz) as Sc.
  destruct (geometry_fin R' X Y Z _ _ _ _ (tracks_fin _ _ _ HR) (tracks_fin _ _ _ HX) (tracks_fin _ _ _ HY) (tracks_fin _ _ _ HZ) N) as (_ & Fb & Fr & _ & N1 & N2).
  change (stable (fun w => og_occ (g w)) s) in Sc.
  exists (dwhere_l (og_occ (g s)) (vec_mat_d ((deg + 1) * (deg + 1)) (sol_list_d deg (gd_b (geometry_d R' X Y Z)) (gd_r (geometry_d R' X Y Z))) (A2 deg)) (map cst (rT deg))),
    (fun w => if og_occ (g w) then vec_mat ((deg + 1) * (deg + 1)) (sol_list deg (og_b (g w)) (og_r (g w))) (A2 deg) else rT deg). split; [|split].
  - unfold design_matrix_d, starry_solution_d. destruct (deg =? 0)%nat eqn:E; [apply Nat.eqb_eq in E; contradiction|]. cbn [rbind]. rewrite Eo. reflexivity.
  - intros w. unfold design_matrix, starry_solution. destruct (deg =? 0)%nat eqn:E; [apply Nat.eqb_eq in E; contradiction|]. reflexivity.
  - assert (L : length (map cst (rT deg)) = ((deg + 1) * (deg + 1))%nat) by (rewrite map_length, RTProof.rT_length; reflexivity).
    apply (TL_where (fun w => og_occ (g w)) (fun w => vec_mat ((deg + 1) * (deg + 1)) (sol_list deg (og_b (g w)) (og_r (g w))) (A2 deg)) (fun _ => rT deg)).
    + exact Sc.
    + apply FL_vec_mat. now apply fin_sol_list.
    + apply FL_cst.
    + intros w. unfold vec_mat, vec_mat_d. now rewrite !map_length.
    + intros w. unfold vec_mat_d. rewrite map_length, seq_length, RTProof.rT_length. reflexivity.
    + rewrite L. unfold vec_mat_d. now rewrite map_length, seq_length.
    + intros E. apply (TL_vec_mat s _ (fun w => sol_list deg (og_b (g w)) (og_r (g w)))). apply (TL_sol_list deg (fun w => og_b (g w)) (fun w => og_r (g w))); [exact Tb|exact Tr|].
      apply StarryProof.geometry_occ in E. cbn [none0] in E. destruct E as [E1 E2]. specialize (Hreg E1 E2).
      assert (Ec : (Rgeb (sqrt ((x s)² + (y s)²)) (1 + r s) || Rleb (z s) 0)%bool = false).
      { apply orb_false_iff. replace ((x s)² + (y s)²) with (x s ^ 2 + y s ^ 2) by (unfold Rsqr; ring). split; [unfold Rgeb; apply Rleb_false; lra|apply Rleb_false; lra]. }
      unfold g, geometry. cbn [og_b og_r none0]. rewrite Ec. cbn [where_]. replace ((x s)² + (y s)²) with (x s ^ 2 + y s ^ 2) by (unfold Rsqr; ring). exact Hreg.
    + intros _. apply TL_cst.
Qed.
(** ** maps of degree 0 *)
Lemma uniform_none u R' X Y Z : fin X 0 -> fin Y 0 -> uniform_light_curve_d eps high u (geometry_d R' X Y Z) = None.
Proof. intros HX HY. unfold uniform_light_curve_d. rewrite (geometry_none R' X Y Z HX HY), light_curve_none. destruct (gd_occ _); reflexivity. Qed.
Lemma uniform_fin us u R' X Y Z r x y z : FL us u -> disk_flux u <> 0 -> fin R' r -> fin X x -> fin Y y -> fin Z z -> ~ (x = 0 /\ y = 0) ->
  let g := geometry r (Some x) (Some y) (Some z) in
  fin (uniform_light_curve_d eps high us (geometry_d R' X Y Z)) (1 + (if og_occ g then light_curve eps high u (og_b g) (og_r g) else 0)).
Proof.
  intros Hu Hf HR HX HY HZ N. cbv zeta. destruct (geometry_fin R' X Y Z r x y z HR HX HY HZ N) as (Eo & Fb & Fr & _ & N1 & N2). unfold uniform_light_curve_d. rewrite Eo.
  apply fin_add; [fin|]. apply fin_where; [|fin]. now apply fin_light_curve.
Qed.
Lemma uniform_tracks us xs r x y z s R' X Y Z : List.Forall2 (fun f a => tracks f s a) us xs -> disk_flux (map (fun f => f s) us) <> 0 -> tracks r s R' -> tracks x s X -> tracks y s Y -> tracks z s Z -> ~ (x s = 0 /\ y s = 0) ->
  sqrt (x s ^ 2 + y s ^ 2) <> 1 + r s -> z s <> 0 -> (sqrt (x s ^ 2 + y s ^ 2) < 1 + r s -> 0 < z s -> regular_point eps high (sqrt (x s ^ 2 + y s ^ 2)) (r s)) ->
  tracks (fun w => let g := geometry (r w) (Some (x w)) (Some (y w)) (Some (z w)) in 1 + (if og_occ g then light_curve eps high (map (fun f => f w) us) (og_b g) (og_r g) else 0)) s
    (uniform_light_curve_d eps high xs (geometry_d R' X Y Z)).
Proof.
  intros Hu Hf HR HX HY HZ N Nb Nz Hreg. cbv zeta. set (g := fun w => geometry (r w) (Some (x w)) (Some (y w)) (Some (z w))).
  destruct (geometry_tracks r x y z s R' X Y Z HR HX HY HZ N Nb Nz) as (Eo & Tb & Tr & _). pose proof (stable_occ r x y z s R' X Y Z HR HX HY HZ N Nb Nz) as Sc.
  destruct (geometry_fin R' X Y Z _ _ _ _ (tracks_fin _ _ _ HR) (tracks_fin _ _ _ HX) (tracks_fin _ _ _ HY) (tracks_fin _ _ _ HZ) N) as (_ & Fb & Fr & _ & N1 & N2).
  change (stable (fun w => og_occ (g w)) s) in Sc. unfold uniform_light_curve_d. rewrite Eo.
  apply (tracks_add (fun _ => 1)); [apply tracks_cst|].
  assert (FL0 := fin_light_curve eps high xs _ _ _ _ _ He (trackl_fin _ _ _ Hu) Fb Fr Hf N1 N2).
  apply (tracks_where (fun w => og_occ (g w)) (fun w => light_curve eps high (map (fun f => f w) us) (og_b (g w)) (og_r (g w))) (fun _ => 0) s _ _ _ _ Sc FL0 (fin_cst 0)); [|intros _; apply tracks_cst]. intros E.
  apply StarryProof.geometry_occ in E. cbn [none0] in E. destruct E as [E1 E2]. specialize (Hreg E1 E2).
  assert (Ec : (Rgeb (sqrt ((x s)² + (y s)²)) (1 + r s) || Rleb (z s) 0)%bool = false).
  { apply orb_false_iff. replace ((x s)² + (y s)²) with (x s ^ 2 + y s ^ 2) by (unfold Rsqr; ring). split; [unfold Rgeb; apply Rleb_false; lra|apply Rleb_false; lra]. }
  assert (Eb : og_b (g s) = sqrt (x s ^ 2 + y s ^ 2) /\ og_r (g s) = r s).
  { unfold g, geometry. cbn [og_b og_r none0]. rewrite Ec. cbn [where_]. split; [f_equal; unfold Rsqr; ring|reflexivity]. }
  destruct Eb as [Eb Er]. destruct Hreg as (Q1 & Q2 & Q3 & Q4).
  apply (tracks_light_curve eps high us (fun w => og_b (g w)) (fun w => og_r (g w))); try assumption; rewrite ?Eb, ?Er; assumption.
Qed.
End Solution.
