(** Facts about traced numbers: [fin] (the value is the ordinary one and the tangent is finite) and [tracks] (the tangent
    is the derivative) are preserved by the primitives. *)
From Coq Require Import Reals List Bool Arith Lia Lra.
From Coquelicot Require Import Hierarchy Derive Continuity Rbar Rcomplements AutoDerive ElemFct.
From Verif Require Import Base.RealAux Model.LimbDark Model.AutoDiff Spec.AutoDiffSpec.
Import ListNotations.
Local Open Scope R_scope.

Lemma tracks_fin f s x : tracks f s x -> fin x (f s).
Proof. intros (t & H & _). now exists t. Qed.
Lemma fin_val x v : fin x v -> val x = v.
Proof. intros (t & ->). reflexivity. Qed.
Lemma fin_cst v : fin (cst v) v.
Proof. now exists 0. Qed.
Lemma fin_lift1 f df x v : fin x v -> fin (lift1 f df x) (f v).
Proof. intros (t & ->). eexists. reflexivity. Qed.
Lemma fin_lift2 f df x y v w : fin x v -> fin y w -> fin (lift2 f df x y) (f v w).
Proof. intros (t & ->) (s & ->). eexists. reflexivity. Qed.
Lemma fin_neg x v : fin x v -> fin (dneg x) (- v). Proof. apply fin_lift1. Qed.
Lemma fin_add x y v w : fin x v -> fin y w -> fin (dadd x y) (v + w). Proof. apply fin_lift2. Qed.
Lemma fin_sub x y v w : fin x v -> fin y w -> fin (dsub x y) (v - w). Proof. apply fin_lift2. Qed.
Lemma fin_mul x y v w : fin x v -> fin y w -> fin (dmul x y) (v * w). Proof. apply fin_lift2. Qed.
Lemma fin_sq x v : fin x v -> fin (dsq x) (v²). Proof. apply (fin_lift1 Rsqr). Qed.
Lemma fin_abs x v : fin x v -> fin (dabs x) (Rabs v). Proof. apply fin_lift1. Qed.
Lemma fin_sin x v : fin x v -> fin (dsin x) (sin v). Proof. apply (fin_lift1 sin). Qed.
Lemma fin_cos x v : fin x v -> fin (dcos x) (cos v). Proof. apply (fin_lift1 cos). Qed.
Lemma fin_max x y v w : fin x v -> fin y w -> fin (dmax x y) (Rmax v w). Proof. apply fin_lift2. Qed.
Lemma fin_min x y v w : fin x v -> fin y w -> fin (dmin x y) (Rmin v w). Proof. apply fin_lift2. Qed.
Lemma fin_div x y v w : fin x v -> fin y w -> w <> 0 -> fin (ddiv x y) (v / w).
Proof. intros H H' Hw. unfold ddiv. rewrite (fin_val _ _ H'). destruct (Req_EM_T w 0); [contradiction|]. now apply fin_lift2. Qed.
Lemma fin_atan2 y x v w : fin y v -> fin x w -> w <> 0 \/ v <> 0 -> fin (datan2 y x) (atan2 v w).
Proof.
  intros H H' Hn. unfold datan2. rewrite (fin_val _ _ H), (fin_val _ _ H'). destruct (Req_EM_T (w ^ 2 + v ^ 2) 0) as [E|]; [|now apply fin_lift2].
  exfalso. assert (0 <= w ^ 2) by apply pow2_ge_0. assert (0 <= v ^ 2) by apply pow2_ge_0.
  destruct Hn as [Hn|Hn]; apply (pow_nonzero _ 2) in Hn; lra.
Qed.
Lemma fin_pow x v y : fin x v -> 0 <= v -> 1 <= y -> fin (dpow x y) (fpow v y).
Proof.
  intros H Hv Hy. unfold dpow. rewrite (fin_val _ _ H). replace (Rltb v 0) with false by (symmetry; apply Rltb_false; lra).
  replace (Rltb y 1) with false by (symmetry; apply Rltb_false; lra). rewrite andb_false_r. now apply (fin_lift1 (fun v => fpow v y)).
Qed.
Lemma fin_where c x y v w : fin x v -> fin y w -> fin (dwhere c x y) (if c then v else w).
Proof. intros (t & ->) (s & ->). destruct c; eexists; reflexivity. Qed.
Lemma zss_denom_nz eps v : 0 < eps -> zero_safe_sqrt_denom eps v <> 0.
Proof. intros H. unfold zero_safe_sqrt_denom. destruct (Rltb v (10 * eps)) eqn:E; [lra|]. apply Rltb_false in E. lra. Qed.
Lemma fin_sqrt eps x v : 0 < eps -> fin x v -> 0 <= v -> fin (dzero_safe_sqrt eps x) (zero_safe_sqrt v).
Proof.
  intros He H Hv. unfold dzero_safe_sqrt. rewrite (fin_val _ _ H). replace (Rltb v 0) with false by (symmetry; apply Rltb_false; lra).
  destruct (Req_EM_T (zero_safe_sqrt_denom eps v) 0) as [Z|_]; [now apply zss_denom_nz in Z|].
  destruct H as (t & ->). unfold zero_safe_sqrt_jvp, zero_safe_sqrt. eexists. reflexivity.
Qed.
Lemma fin_sum {A} (f : A -> D) (g : A -> R) l : (forall a, In a l -> fin (f a) (g a)) -> fin (dsum (map f l)) (Rsum (map g l)).
Proof.
  induction l as [|a l IH]; intros H; [apply fin_cst|]. cbn [map dsum Rsum fold_right]. apply fin_add; [apply H; now left|]. apply IH. intros; apply H; now right.
Qed.
Lemma fin_bigsum f g n : (forall i, (i < n)%nat -> fin (f i) (g i)) -> fin (dbigsum n f) (bigsum n g).
Proof. induction n as [|n IH]; intros H; [apply fin_cst|]. cbn [dbigsum bigsum]. apply fin_add; [apply IH; intros; apply H; lia|apply H; lia]. Qed.

(** conditions that do not change near a point *)
Definition stable (c : R -> bool) (s : R) : Prop := locally s (fun x => c x = c s).
Lemma cont_of (f : R -> R) (s t : R) : is_derive f s t -> continuous f s.
Proof. intros H. apply (ex_derive_continuous (V := R_NormedModule)). now exists t. Qed.
Lemma locally_lt (f g : R -> R) (s : R) : continuous f s -> continuous g s -> f s < g s -> locally s (fun x => f x < g x).
Proof.
  intros Hf Hg H. assert (Hd : continuous (fun x => g x - f x) s) by (apply (continuous_minus (V := R_NormedModule)); assumption).
  assert (Hl : locally (g s - f s) (fun y => 0 < y)) by (apply (locally_interval _ _ 0 p_infty); cbn; [lra|exact I|intros; assumption]).
  apply Hd in Hl. unfold filtermap in Hl. revert Hl. apply filter_imp. intros x Hx. lra.
Qed.
Lemma stable_ltb (f g : R -> R) (s : R) : continuous f s -> continuous g s -> f s <> g s -> stable (fun x => Rltb (f x) (g x)) s.
Proof.
  intros Hf Hg Hn. unfold stable. destruct (Rtotal_order (f s) (g s)) as [H|[H|H]]; [|contradiction|].
  - apply (filter_imp (fun x => f x < g x)); [|now apply locally_lt]. intros x Hx. transitivity true; [|symmetry]; now apply Rltb_true.
  - apply (filter_imp (fun x => g x < f x)); [|now apply locally_lt]. intros x Hx. transitivity false; [|symmetry]; apply Rltb_false; lra.
Qed.
Lemma stable_gtb (f g : R -> R) (s : R) : continuous f s -> continuous g s -> f s <> g s -> stable (fun x => Rgtb (f x) (g x)) s.
Proof. intros. apply (stable_ltb g f); auto. Qed.
Lemma stable_leb (f g : R -> R) (s : R) : continuous f s -> continuous g s -> f s <> g s -> stable (fun x => Rleb (f x) (g x)) s.
Proof.
  intros Hf Hg Hn. unfold stable. destruct (Rtotal_order (f s) (g s)) as [H|[H|H]]; [|contradiction|].
  - apply (filter_imp (fun x => f x < g x)); [|now apply locally_lt]. intros x Hx. transitivity true; [|symmetry]; apply Rleb_true; lra.
  - apply (filter_imp (fun x => g x < f x)); [|now apply locally_lt]. intros x Hx. transitivity false; [|symmetry]; apply Rleb_false; lra.
Qed.
Lemma stable_geb (f g : R -> R) (s : R) : continuous f s -> continuous g s -> f s <> g s -> stable (fun x => Rgeb (f x) (g x)) s.
Proof. intros. apply (stable_leb g f); auto. Qed.
Lemma stable_andb c d s : stable c s -> stable d s -> stable (fun x => c x && d x)%bool s.
Proof. unfold stable. intros H K. apply (filter_imp (fun x => c x = c s /\ d x = d s)); [intros x [-> ->]; reflexivity|now apply filter_and]. Qed.
Lemma stable_orb c d s : stable c s -> stable d s -> stable (fun x => c x || d x)%bool s.
Proof. unfold stable. intros H K. apply (filter_imp (fun x => c x = c s /\ d x = d s)); [intros x [-> ->]; reflexivity|now apply filter_and]. Qed.

Lemma tracks_ext f g s x : locally s (fun y => f y = g y) -> tracks f s x -> tracks g s x.
Proof.
  intros H (t & E & Hd). exists t. rewrite <- (locally_singleton s _ H). split; [exact E|]. now apply (is_derive_ext_loc f g s t H).
Qed.
Lemma tracks_ext' f g s x : (forall y, f y = g y) -> tracks f s x -> tracks g s x.
Proof. intros H. apply tracks_ext. now apply filter_forall. Qed.
Lemma tracks_cst v s : tracks (fun _ => v) s (cst v).
Proof. exists 0. split; [reflexivity|]. apply (is_derive_const (V := R_NormedModule)). Qed.
Lemma tracks_cont f s x : tracks f s x -> continuous f s.
Proof. intros (t & _ & H). exact (cont_of _ _ _ H). Qed.
Lemma tracks_neg f s x : tracks f s x -> tracks (fun y => - f y) s (dneg x).
Proof. intros (t & -> & H). exists (- t). split; [reflexivity|]. apply (is_derive_opp (V := R_NormedModule) f s t H). Qed.
Lemma tracks_add f g s x y : tracks f s x -> tracks g s y -> tracks (fun z => f z + g z) s (dadd x y).
Proof. intros (t & -> & H) (u & -> & K). exists (t + u). split; [reflexivity|]. apply (is_derive_plus (V := R_NormedModule) f g s t u H K). Qed.
Lemma tracks_sub f g s x y : tracks f s x -> tracks g s y -> tracks (fun z => f z - g z) s (dsub x y).
Proof. intros (t & -> & H) (u & -> & K). exists (t - u). split; [reflexivity|]. apply (is_derive_minus (V := R_NormedModule) f g s t u H K). Qed.
Lemma tracks_mul f g s x y : tracks f s x -> tracks g s y -> tracks (fun z => f z * g z) s (dmul x y).
Proof.
  intros (t & -> & H) (u & -> & K). eexists. split; [reflexivity|]. apply (is_derive_mult f g s t u H K). intros; apply Rmult_comm.
Qed.
Lemma tracks_div f g s x y : tracks f s x -> tracks g s y -> g s <> 0 -> tracks (fun z => f z / g z) s (ddiv x y).
Proof.
  intros (t & -> & H) (u & -> & K) Hg. unfold ddiv. cbn [val]. destruct (Req_EM_T (g s) 0); [contradiction|]. eexists. split; [reflexivity|].
  replace (t / g s + - u * f s / g s ^ 2) with ((t * g s - f s * u) / g s ^ 2) by (field; exact Hg). now apply is_derive_div.
Qed.
Lemma tracks_chain (h : R -> R) (dh : R) (df : R -> R -> R) f s t : is_derive f s t -> is_derive h (f s) dh -> df (f s) t = t * dh ->
  tracks (fun z => h (f z)) s (lift1 h df (Some (f s, t))).
Proof.
  intros H K E. eexists. split; [reflexivity|]. rewrite E. apply (is_derive_comp (V := R_NormedModule) h f s dh t K H).
Qed.
Lemma tracks_sq f s x : tracks f s x -> tracks (fun z => (f z)²) s (dsq x).
Proof.
  intros (t & -> & H). apply (tracks_chain Rsqr (2 * f s)); [exact H| |reflexivity].
  apply (is_derive_ext (fun y : R => y * y)); [reflexivity|]. auto_derive; [exact I|]. ring.
Qed.
Lemma tracks_sin f s x : tracks f s x -> tracks (fun z => sin (f z)) s (dsin x).
Proof. intros (t & -> & H). apply (tracks_chain sin (cos (f s))); [exact H|apply is_derive_sin|reflexivity]. Qed.
Lemma tracks_cos f s x : tracks f s x -> tracks (fun z => cos (f z)) s (dcos x).
Proof. intros (t & -> & H). apply (tracks_chain cos (- sin (f s))); [exact H|apply is_derive_cos|ring]. Qed.
Lemma tracks_abs f s x : tracks f s x -> f s <> 0 -> tracks (fun z => Rabs (f z)) s (dabs x).
Proof.
  intros (t & -> & H) Hn. eexists. split; [reflexivity|]. replace (t * sgn (f s)) with (sign (f s) * t); [now apply is_derive_Rabs|].
  rewrite Rmult_comm. f_equal. unfold sgn, sign. destruct (total_order_T 0 (f s)) as [[h|h]|h]; [|lra|].
  - replace (Rltb 0 (f s)) with true by (symmetry; now apply Rltb_true). reflexivity.
  - replace (Rltb 0 (f s)) with false by (symmetry; apply Rltb_false; lra). replace (Rltb (f s) 0) with true by (symmetry; apply Rltb_true; lra). ring.
Qed.
Lemma tracks_where (c : R -> bool) f g s x y v w : stable c s -> fin x v -> fin y w ->
  (c s = true -> tracks f s x) -> (c s = false -> tracks g s y) -> tracks (fun z => if c z then f z else g z) s (dwhere (c s) x y).
Proof.
  unfold stable. intros Hc (t & Ex) (u & Ey) Ht Hf. destruct (c s) eqn:E.
  - apply (tracks_ext f); [revert Hc; apply filter_imp; intros z Hz; now rewrite Hz|]. rewrite Ex, Ey. cbn [dwhere]. rewrite <- Ex. now apply Ht.
  - apply (tracks_ext g); [revert Hc; apply filter_imp; intros z Hz; now rewrite Hz|]. rewrite Ex, Ey. cbn [dwhere]. rewrite <- Ey. now apply Hf.
Qed.
(** the condition evaluated on the traced values *)
Lemma tracks_where' (c : R -> bool) b f g s x y v w : b = c s -> stable c s -> fin x v -> fin y w ->
  (c s = true -> tracks f s x) -> (c s = false -> tracks g s y) -> tracks (fun z => if c z then f z else g z) s (dwhere b x y).
Proof. intros ->. apply tracks_where. Qed.
Lemma balanced_eq v w : balanced v v w = if Req_EM_T w v then 1 / 2 else 1.
Proof. unfold balanced. destruct (Req_EM_T v v) as [_|n]; [|now contradiction n]. destruct (Req_EM_T w v); field. Qed.
Lemma balanced_ne v z w : v <> z -> balanced v z w = 0.
Proof. intros H. unfold balanced. destruct (Req_EM_T v z); [contradiction|]. destruct (Req_EM_T w z); field. Qed.
Lemma dmax_lt a a' b b' : a < b -> dmax (Some (a, a')) (Some (b, b')) = Some (b, b').
Proof.
  intros H. unfold dmax, lift2. rewrite Rmax_right by lra. rewrite balanced_ne by lra. rewrite balanced_eq. destruct (Req_EM_T a b); [lra|]. do 2 f_equal. ring.
Qed.
Lemma dmax_gt a a' b b' : b < a -> dmax (Some (a, a')) (Some (b, b')) = Some (a, a').
Proof.
  intros H. unfold dmax, lift2. rewrite Rmax_left by lra. rewrite (balanced_ne b) by lra. rewrite balanced_eq. destruct (Req_EM_T b a); [lra|]. do 2 f_equal. ring.
Qed.
Lemma dmax_eq a a' b' : dmax (Some (a, a')) (Some (a, b')) = Some (a, (a' + b') / 2).
Proof. unfold dmax, lift2. rewrite Rmax_left by lra. rewrite !balanced_eq. destruct (Req_EM_T a a); [|contradiction]. do 2 f_equal. field. Qed.
Lemma dmin_lt a a' b b' : a < b -> dmin (Some (a, a')) (Some (b, b')) = Some (a, a').
Proof.
  intros H. unfold dmin, lift2. rewrite Rmin_left by lra. rewrite (balanced_ne b) by lra. rewrite balanced_eq. destruct (Req_EM_T b a); [lra|]. do 2 f_equal. ring.
Qed.
Lemma dmin_gt a a' b b' : b < a -> dmin (Some (a, a')) (Some (b, b')) = Some (b, b').
Proof.
  intros H. unfold dmin, lift2. rewrite Rmin_right by lra. rewrite balanced_ne by lra. rewrite balanced_eq. destruct (Req_EM_T a b); [lra|]. do 2 f_equal. ring.
Qed.
Lemma dmin_eq a a' b' : dmin (Some (a, a')) (Some (a, b')) = Some (a, (a' + b') / 2).
Proof. unfold dmin, lift2. rewrite Rmin_left by lra. rewrite !balanced_eq. destruct (Req_EM_T a a); [|contradiction]. do 2 f_equal. field. Qed.
(** max(0, f) where f is positive *)
Lemma tracks_max0 f s x : tracks f s x -> 0 < f s -> tracks (fun z => Rmax 0 (f z)) s (dmax (cst 0) x).
Proof.
  intros (t & -> & H) Hp. exists t. rewrite Rmax_right by lra. split; [unfold cst; now apply dmax_lt|].
  apply (is_derive_ext_loc f); [|exact H].
  assert (Hl := locally_lt (fun _ => 0) f s (continuous_const 0 s) (cont_of f s t H) Hp). revert Hl. apply filter_imp. intros y Hy. rewrite Rmax_right; lra.
Qed.
Lemma tracks_sqrt eps f s x : tracks f s x -> 0 < f s -> 10 * eps <= f s -> tracks (fun z => zero_safe_sqrt (f z)) s (dzero_safe_sqrt eps x).
Proof.
  intros (t & -> & H) Hp He. unfold dzero_safe_sqrt. cbn [val]. replace (Rltb (f s) 0) with false by (symmetry; apply Rltb_false; lra).
  unfold zero_safe_sqrt_jvp, zero_safe_sqrt_denom. replace (Rltb (f s) (10 * eps)) with false by (symmetry; apply Rltb_false; lra). destruct (Req_EM_T (f s) 0) as [Z|_]; [lra|]. unfold zero_safe_sqrt. eexists. split; [reflexivity|].
  assert (Hs : 0 < sqrt (f s)) by now apply sqrt_lt_R0.
  replace (0.5 * t * sqrt (f s) / f s) with (t / (2 * sqrt (f s))).
  - apply (is_derive_sqrt f s t H Hp).
  - set (q := sqrt (f s)) in *. assert (E : f s = q * q) by (unfold q; rewrite sqrt_sqrt; lra). rewrite E at 1. replace 0.5 with (/ 2) by lra. field. lra.
Qed.
(** ... of a constant *)
Lemma tracks_sqrt_cst eps v s : 0 < eps -> 0 <= v -> tracks (fun _ => zero_safe_sqrt v) s (dzero_safe_sqrt eps (cst v)).
Proof.
  intros He Hv. unfold dzero_safe_sqrt, cst. cbn [val]. replace (Rltb v 0) with false by (symmetry; apply Rltb_false; lra).
  destruct (Req_EM_T (zero_safe_sqrt_denom eps v) 0) as [Z|_]; [now apply zss_denom_nz in Z|].
  unfold zero_safe_sqrt_jvp, zero_safe_sqrt. eexists. split; [reflexivity|]. replace (0.5 * 0 * sqrt v / _) with 0 by (unfold Rdiv; ring). apply (is_derive_const (V := R_NormedModule)).
Qed.
Lemma atan2_acot y x : 0 < y -> atan2 y x = PI / 2 - atan (x / y).
Proof.
  intros Hy. unfold atan2. assert (Ha : forall z, 0 < z -> atan (/ z) = PI / 2 - atan z) by (intros; now apply atan_inv).
  destruct (Rlt_dec 0 x).
  - replace (y / x) with (/ (x / y)) by (field; lra). apply Ha. now apply Rdiv_lt_0_compat.
  - destruct (Rlt_dec x 0).
    + destruct (Rle_dec 0 y); [|lra]. replace (y / x) with (- (/ (- x / y))) by (field; lra). rewrite atan_opp, Ha by (apply Rdiv_lt_0_compat; lra).
      replace (- x / y) with (- (x / y)) by (field; lra). rewrite atan_opp. lra.
    + assert (x = 0) by lra. subst x. destruct (Rlt_dec 0 y); [|lra]. replace (0 / y) with 0 by (unfold Rdiv; ring). rewrite atan_0. lra.
Qed.
Lemma tracks_atan2_pos f g s y x : tracks f s y -> tracks g s x -> 0 < f s -> tracks (fun z => atan2 (f z) (g z)) s (datan2 y x).
Proof.
  intros (t & -> & H) (u & -> & K) Hp. unfold datan2. cbn [val].
  assert (0 < g s ^ 2 + f s ^ 2) by (assert (0 <= g s ^ 2) by apply pow2_ge_0; assert (0 < f s ^ 2) by (apply pow_lt; lra); lra).
  destruct (Req_EM_T (g s ^ 2 + f s ^ 2) 0); [lra|]. eexists. split; [reflexivity|].
  apply (is_derive_ext_loc (fun z => PI / 2 - atan (g z / f z))).
  - assert (Hl := locally_lt (fun _ => 0) f s (continuous_const 0 s) (cont_of f s t H) Hp). revert Hl. apply filter_imp. intros z Hz. symmetry. now apply atan2_acot.
  - assert (Hq : is_derive (fun z => g z / f z) s ((u * f s - g s * t) / f s ^ 2)) by (apply is_derive_div; [exact K|exact H|lra]).
    assert (Ha : is_derive atan (g s / f s) (/ (1 + (g s / f s)²))) by (apply is_derive_atan).
    assert (Hc := is_derive_comp (V := R_NormedModule) atan (fun z => g z / f z) s _ _ Ha Hq).
    assert (Hm := is_derive_minus (V := R_NormedModule) (fun _ => PI / 2) (fun z => atan (g z / f z)) s 0 _ (is_derive_const (V := R_NormedModule) (PI / 2) s) Hc).
    match type of Hm with is_derive _ _ ?v => replace (t * (g s / (g s ^ 2 + f s ^ 2)) + u * (- f s / (g s ^ 2 + f s ^ 2))) with v end; [exact Hm|].
    unfold minus, plus, opp, scal, mult; cbn. unfold mult, Rsqr; cbn. field. split; [lra|]. lra.
Qed.
(** along the axis, away from the origin *)
Lemma tracks_atan2_zero g s y x : y = cst 0 -> tracks g s x -> g s <> 0 -> tracks (fun z => atan2 0 (g z)) s (datan2 y x).
Proof.
  intros -> (u & -> & K) Hn. unfold datan2, cst. cbn [val]. destruct (Req_EM_T (g s ^ 2 + 0 ^ 2) 0) as [E|_].
  { exfalso. assert (0 < g s ^ 2) by (apply pow2_gt_0; exact Hn). lra. }
  eexists. split; [reflexivity|]. replace (0 * _ + _) with 0 by (unfold Rdiv; ring).
  apply (is_derive_ext_loc (fun _ => atan2 0 (g s))); [|apply (is_derive_const (V := R_NormedModule))].
  destruct (Rtotal_order (g s) 0) as [Hlt|[|Hgt]]; [|contradiction|].
  - assert (Hl := locally_lt g (fun _ => 0) s (cont_of g s u K) (continuous_const 0 s) Hlt). revert Hl. apply filter_imp. intros z Hz. rewrite !atan2_0_neg; auto.
  - assert (Hl := locally_lt (fun _ => 0) g s (continuous_const 0 s) (cont_of g s u K) Hgt). revert Hl. apply filter_imp. intros z Hz. rewrite !atan2_0_pos; auto; lra.
Qed.
Lemma tracks_sum {A} (f : A -> R -> R) (d : A -> D) s l : (forall a, In a l -> tracks (f a) s (d a)) ->
  tracks (fun z => Rsum (map (fun a => f a z) l)) s (dsum (map d l)).
Proof.
  induction l as [|a l IH]; intros H; [apply tracks_cst|]. cbn [map dsum Rsum fold_right].
  apply (tracks_add (f a) (fun z => Rsum (map (fun a => f a z) l))); [apply H; now left|]. apply IH. intros; apply H; now right.
Qed.
Lemma tracks_bigsum f d s n : (forall i, (i < n)%nat -> tracks (f i) s (d i)) -> tracks (fun z => bigsum n (fun i => f i z)) s (dbigsum n d).
Proof.
  induction n as [|n IH]; intros H; [apply tracks_cst|]. cbn [dbigsum bigsum].
  apply (tracks_add (fun z => bigsum n (fun i => f i z)) (f n)); [apply IH; intros; apply H; lia|apply H; lia].
Qed.
(** max(0, f)^(n/2) with n >= 3 is differentiable everywhere *)
Lemma fpow_pos v y : 0 < v -> fpow v y = Rpower v y.
Proof. intros H. unfold fpow. destruct (Rlt_dec 0 v); [reflexivity|contradiction]. Qed.
Lemma fpow_0 y : y <> 0 -> fpow 0 y = 0.
Proof. intros H. unfold fpow. destruct (Rlt_dec 0 0); [lra|]. destruct (Req_EM_T y 0); [contradiction|reflexivity]. Qed.
Lemma half_pow n x : (3 <= n)%nat -> fpow (Rmax 0 x) (0.5 * INR n) = x * sqrt (Rmax 0 x) ^ (n - 2).
Proof.
  intros Hn. rewrite fpow_half_nat by (try apply Rmax_l; lia). destruct (Rle_lt_dec 0 x) as [H|H].
  - rewrite Rmax_right by exact H. replace n with (2 + (n - 2))%nat at 1 by lia. rewrite pow_add. rewrite pow2_sqrt by exact H. reflexivity.
  - rewrite Rmax_left by lra. rewrite sqrt_0. rewrite !pow_i by lia. ring.
Qed.
Lemma half_pow_derive n x : (3 <= n)%nat -> is_derive (fun x => fpow (Rmax 0 x) (0.5 * INR n)) x (0.5 * INR n * fpow (Rmax 0 x) (0.5 * INR n - 1)).
Proof.
  intros Hn. assert (Hr : 3 <= INR n) by (apply le_INR in Hn; cbn in Hn; lra).
  destruct (Rtotal_order x 0) as [H|[H|H]].
  - rewrite Rmax_left by lra. rewrite fpow_0 by lra. rewrite Rmult_0_r. apply (is_derive_ext_loc (fun _ => 0)); [|apply (is_derive_const (V := R_NormedModule))].
    assert (Hl := locally_lt (fun y => y) (fun _ => 0) x (continuous_id x) (continuous_const 0 x) H). revert Hl. apply filter_imp. intros y Hy. rewrite Rmax_left by lra. rewrite fpow_0; lra.
  - subst x. rewrite Rmax_left by lra. rewrite fpow_0 by lra. rewrite Rmult_0_r.
    apply (is_derive_ext (fun y => y * sqrt (Rmax 0 y) ^ (n - 2))); [intros; symmetry; now apply half_pow|].
    apply is_derive_Reals. intros e He. exists (mkposreal (Rmin 1 (e * e)) (Rmin_pos _ _ Rlt_0_1 (Rmult_lt_0_compat _ _ He He))). intros h Hh Hd. cbn [pos] in Hd.
    assert (H1 : Rabs h < 1) by (eapply Rlt_le_trans; [exact Hd|apply Rmin_l]). assert (H2 : Rabs h < e * e) by (eapply Rlt_le_trans; [exact Hd|apply Rmin_r]).
    rewrite Rplus_0_l, Rmult_0_l. replace ((h * sqrt (Rmax 0 h) ^ (n - 2) - 0) / h - 0) with (sqrt (Rmax 0 h) ^ (n - 2)) by (field; exact Hh).
    assert (Hm : 0 <= Rmax 0 h <= Rabs h). { split; [apply Rmax_l|]. apply Rmax_lub; [apply Rabs_pos|apply Rle_abs]. }
    assert (Hs : 0 <= sqrt (Rmax 0 h) < 1). { split; [apply sqrt_pos|]. rewrite <- sqrt_1. apply sqrt_lt_1; lra. }
    rewrite Rabs_pos_eq by (apply pow_le; lra). replace (n - 2)%nat with (S (n - 3)) by lia. cbn [pow].
    assert (Hk : sqrt (Rmax 0 h) ^ (n - 3) <= 1). { rewrite <- (pow1 (n - 3)). apply pow_incr. lra. }
    assert (Hq : sqrt (Rmax 0 h) < e). { rewrite <- (sqrt_square e) by lra. apply sqrt_lt_1; nra. }
    assert (0 <= sqrt (Rmax 0 h) ^ (n - 3)) by (apply pow_le; lra). nra.
  - rewrite Rmax_right by lra. rewrite fpow_pos by exact H. apply (is_derive_ext_loc (fun y => Rpower y (0.5 * INR n))).
    + assert (Hl := locally_lt (fun _ => 0) (fun y => y) x (continuous_const 0 x) (continuous_id x) H). revert Hl. apply filter_imp. intros y Hy. rewrite Rmax_right by lra. now rewrite fpow_pos.
    + apply is_derive_Reals. now apply derivable_pt_lim_power.
Qed.
Lemma tracks_pow f s x n : (3 <= n)%nat -> tracks f s x -> tracks (fun z => fpow (Rmax 0 (f z)) (0.5 * INR n)) s (dpow (dmax (cst 0) x) (0.5 * INR n)).
Proof.
  intros Hn (t & -> & H). assert (Hr : 3 <= INR n) by (apply le_INR in Hn; cbn in Hn; lra).
  assert (Hc := is_derive_comp (V := R_NormedModule) (fun y => fpow (Rmax 0 y) (0.5 * INR n)) f s _ _ (half_pow_derive n (f s) Hn) H).
  assert (F : fin (dmax (cst 0) (Some (f s, t))) (Rmax 0 (f s))) by (apply fin_max; [apply fin_cst|now exists t]).
  unfold dpow. rewrite (fin_val _ _ F). assert (0 <= Rmax 0 (f s)) by apply Rmax_l. replace (Rltb (Rmax 0 (f s)) 0) with false by (symmetry; apply Rltb_false; lra).
  replace (Rltb (0.5 * INR n) 1) with false by (symmetry; apply Rltb_false; lra). rewrite andb_false_r.
  destruct (Rtotal_order (f s) 0) as [G|[G|G]].
  - unfold cst in *. rewrite dmax_gt by exact G. cbn [lift1]. rewrite Rmax_left in Hc by lra. rewrite (fpow_0 (0.5 * INR n - 1)) in Hc by lra. exists 0. split.
    + rewrite Rmax_left by lra. rewrite (fpow_0 (0.5 * INR n - 1)) by lra. do 2 f_equal. ring.
    + match type of Hc with is_derive _ _ ?v => replace v with 0 in Hc end; [exact Hc|]. unfold scal; cbn; unfold mult; cbn. ring.
  - unfold cst in *. rewrite G, dmax_eq. cbn [lift1]. rewrite G, Rmax_left in Hc by lra. rewrite (fpow_0 (0.5 * INR n - 1)) in Hc by lra. exists 0. split.
    + rewrite G, Rmax_left by lra. rewrite (fpow_0 (0.5 * INR n - 1)) by lra. do 2 f_equal. field.
    + match type of Hc with is_derive _ _ ?v => replace v with 0 in Hc end; [exact Hc|]. unfold scal; cbn; unfold mult; cbn. ring.
  - unfold cst in *. rewrite dmax_lt by exact G. cbn [lift1]. rewrite Rmax_right in Hc by lra. eexists. split; [|exact Hc]. rewrite Rmax_right by lra. reflexivity.
Qed.
