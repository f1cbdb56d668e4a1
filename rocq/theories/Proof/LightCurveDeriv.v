(** The tangent of the traced light curve is the derivative of the light curve. *)
From Coq Require Import Reals List Bool Arith Lia Lra Psatz.
From Coquelicot Require Import Hierarchy Derive Continuity Rbar Rcomplements.
From Verif Require Import Base.RealAux Model.LimbDark Model.AutoDiff Model.LightCurveGrad Spec.LimbDarkSpec Spec.OccultSpec Spec.AutoDiffSpec.
From Verif Require Import Proof.AutoDiff Proof.LimbDarkProof Proof.LimbDarkGreen Proof.Occult Proof.LightCurveGrad.
Import ListNotations.
Local Open Scope R_scope.

Ltac trk1 := first [eassumption | apply tracks_cst | apply tracks_neg | apply tracks_add | apply tracks_sub | apply tracks_mul | apply tracks_sq | apply tracks_sin | apply tracks_cos].
Ltac trk := repeat trk1.

(** ** the area of the kite: sorting the sides does not change the tangent *)
Definition ked (a b c : D) : D := dmul (dmul (dmul (dadd a (dadd b c)) (dsub c (dsub a b))) (dadd c (dsub a b))) (dadd a (dsub b c)).
Lemma ked_swap a a' b b' c c' : ked (Some (a, a')) (Some (b, b')) (Some (c, c')) = ked (Some (b, b')) (Some (a, a')) (Some (c, c')).
Proof. unfold ked, dmul, dadd, dsub, lift2. do 2 f_equal; ring. Qed.
Lemma ked_swap23 a a' b b' c c' : ked (Some (a, a')) (Some (b, b')) (Some (c, c')) = ked (Some (a, a')) (Some (c, c')) (Some (b, b')).
Proof. unfold ked, dmul, dadd, dsub, lift2. do 2 f_equal; ring. Qed.
Lemma ked_sort a a' b b' z : z <> None -> ked (dmin (Some (a, a')) (Some (b, b'))) (dmax (Some (a, a')) (Some (b, b'))) z = ked (Some (a, a')) (Some (b, b')) z.
Proof.
  destruct z as [[c c']|]; [intros _|congruence]. destruct (Rtotal_order a b) as [H|[H|H]].
  - now rewrite dmin_lt, dmax_lt by exact H.
  - subst b. rewrite dmin_eq, dmax_eq. unfold ked, dmul, dadd, dsub, lift2. do 2 f_equal. field.
  - rewrite dmin_gt, dmax_gt by exact H. apply ked_swap.
Qed.
Lemma dmin_some a a' b b' : exists c c', dmin (Some (a, a')) (Some (b, b')) = Some (c, c'). Proof. do 2 eexists. reflexivity. Qed.
Lemma dmax_some a a' b b' : exists c c', dmax (Some (a, a')) (Some (b, b')) = Some (c, c'). Proof. do 2 eexists. reflexivity. Qed.
Lemma kite_square_ked a a' b b' c c' : kite_square_d (Some (a, a')) (Some (b, b')) (Some (c, c')) = ked (Some (a, a')) (Some (b, b')) (Some (c, c')).
Proof.
  transitivity (let x := dmin (Some (a, a')) (Some (b, b')) in let y := dmax (Some (a, a')) (Some (b, b')) in let z := Some (c, c') in
                let y1 := dmin y z in let z1 := dmax y z in ked (dmin x y1) (dmax x y1) z1); [reflexivity|]. cbv zeta.
  rewrite <- (ked_sort a a' b b' (Some (c, c'))) by congruence.
  destruct (dmin_some a a' b b') as (m & m' & ->). destruct (dmax_some a a' b b') as (M & M' & ->).
  pose proof (ked_sort M M' c c' (Some (m, m')) ltac:(congruence)) as Hs.
  destruct (dmin_some M M' c c') as (p & p' & Ep). destruct (dmax_some M M' c c') as (q & q' & Eq). rewrite Ep, Eq in *.
  rewrite ked_sort by congruence. rewrite (ked_swap m m' p p'), (ked_swap23 p p' m m'). rewrite Hs. rewrite ked_swap23, ked_swap. reflexivity.
Qed.
Lemma tracks_kite_square f g h s x y z : tracks f s x -> tracks g s y -> tracks h s z -> tracks (fun t => kite_square (f t) (g t) (h t)) s (kite_square_d x y z).
Proof.
  intros Hf Hg Hh. destruct Hf as (a' & Ex & Da), Hg as (b' & Ey & Db), Hh as (c' & Ez & Dc).
  assert (Hx : tracks f s x) by now exists a'. assert (Hy : tracks g s y) by now exists b'. assert (Hz : tracks h s z) by now exists c'.
  replace (kite_square_d x y z) with (ked x y z) by (rewrite Ex, Ey, Ez; symmetry; apply kite_square_ked).
  apply (tracks_ext' (fun t => (f t + (g t + h t)) * (h t - (f t - g t)) * (h t + (f t - g t)) * (f t + (g t - h t)))).
  - intros t. rewrite kite_square_heron. unfold heron16. ring.
  - unfold ked. trk.
Qed.
Lemma tracks_kite eps f g h s x y z : 0 < eps -> tracks f s x -> tracks g s y -> tracks h s z -> 10 * eps <= kite_square (f s) (g s) (h s) ->
  tracks (fun t => kite_area (f t) (g t) (h t)) s (kite_area_d eps x y z).
Proof.
  intros He Hf Hg Hh Hk. unfold kite_area_d, kite_area. pose proof (tracks_kite_square f g h s x y z Hf Hg Hh) as HK.
  assert (0 < kite_square (f s) (g s) (h s)) by lra.
  apply (tracks_sqrt eps (fun t => Rmax 0 (kite_square (f t) (g t) (h t)))); [apply tracks_max0; assumption| |]; rewrite Rmax_right by lra; lra.
Qed.
Lemma stable_ext c d s : (forall x, c x = d x) -> stable c s -> stable d s.
Proof. unfold stable. intros H. apply filter_imp. intros x Hx. now rewrite <- !H. Qed.
Lemma where_const c f v s x w : stable c s -> c s = true -> fin x w -> locally s (fun z => (if c z then v else f z) = v) /\ dwhere (c s) (cst v) x = cst v.
Proof.
  unfold stable. intros Hc E (t & ->). rewrite E. split; [|reflexivity]. revert Hc. apply filter_imp. intros z ->. now rewrite E.
Qed.

(** ** the regimes *)
Section Regime.
Variable eps : R.
Hypothesis He : 0 < eps.
Variables (s : R) (B T : R -> R) (X Y : D).
Hypotheses (HX : tracks B s X) (HY : tracks T s Y) (HB : 0 < B s) (HT : 0 < T s).
Hypothesis Hoff : off_contacts (B s) (T s).
Let CB := tracks_cont B s X HX.
Let CT := tracks_cont T s Y HY.
Definition pcond (b r : R) : bool := Rgtb b (Rabs (1 - r)) && Rltb b (1 + r).
Definition ocond (b r : R) : bool := Rgeb b (1 + r) || Rleb (1 + b) r.
Lemma cont_1p f : continuous f s -> continuous (fun z => 1 + f z) s.
Proof. intros H. apply (continuous_plus (V := R_NormedModule)); [apply continuous_const|exact H]. Qed.
Lemma cont_abs1 : continuous (fun z => Rabs (1 - T z)) s.
Proof.
  apply (continuous_comp (fun z => 1 - T z) Rabs); [|apply continuity_pt_filterlim, Rcontinuity_abs].
  apply (continuous_minus (V := R_NormedModule)); [apply continuous_const|exact CT].
Qed.
Lemma stable_pcond : stable (fun z => pcond (B z) (T z)) s.
Proof.
  unfold pcond. destruct Hoff as (H1 & H2 & H3). apply stable_andb.
  - apply stable_gtb; [exact CB|exact cont_abs1|]. intros E. unfold Rabs in E. destruct (Rcase_abs (1 - T s)); lra.
  - apply stable_ltb; [exact CB|exact (cont_1p _ CT)|exact H1].
Qed.
Lemma stable_no : stable (fun z => Rgeb (B z) (1 + T z)) s.
Proof. apply stable_geb; [exact CB|exact (cont_1p _ CT)|apply Hoff]. Qed.
Lemma stable_full : stable (fun z => Rleb (1 + B z) (T z)) s.
Proof. apply stable_leb; [exact (cont_1p _ CB)|exact CT|]. destruct Hoff as (_ & H & _). lra. Qed.
Lemma stable_ocond : stable (fun z => ocond (B z) (T z)) s.
Proof. apply stable_orb; [exact stable_no|exact stable_full]. Qed.

Definition kA (b r : R) : R := fst (fst (kappas b r)).
Definition k0 (b r : R) : R := snd (fst (kappas b r)).
Definition k1 (b r : R) : R := snd (kappas b r).
Hypothesis Harea : Rabs (1 - T s) < B s < 1 + T s -> 10 * eps <= 4 * (B s) ^ 2 * (T s) ^ 2 - ((B s) ^ 2 + (T s) ^ 2 - 1) ^ 2.
Lemma heron_square b r : kite_square r b 1 = 4 * b ^ 2 * r ^ 2 - (b ^ 2 + r ^ 2 - 1) ^ 2.
Proof. rewrite kite_square_heron. unfold heron16. ring. Qed.
Lemma tracks_kappas : let '(a, u, v) := kappas_d eps X Y in tracks (fun z => kA (B z) (T z)) s a /\ tracks (fun z => k0 (B z) (T z)) s u /\ tracks (fun z => k1 (B z) (T z)) s v.
Proof.
  unfold kappas_d. rewrite (fin_val _ _ (tracks_fin _ _ _ HX)), (fin_val _ _ (tracks_fin _ _ _ HY)).
  set (c := fun z => pcond (B z) (T z)). change (Rgtb (B s) (Rabs (1 - T s)) && Rltb (B s) (1 + T s)) with (c s).
  pose proof stable_pcond as Hc. change (stable c s) in Hc.
  pose proof (tracks_fin _ _ _ HX) as FX. pose proof (tracks_fin _ _ _ HY) as FY.
  assert (Tb : tracks (fun z => if c z then B z else 1) s (dwhere (c s) X (cst 1))) by (apply (tracks_where c _ _ s X (cst 1) (B s) 1); [exact Hc|exact FX|apply fin_cst|intros _; exact HX|intros _; apply tracks_cst]).
  set (xb := dwhere (c s) X (cst 1)) in *. pose proof (tracks_fin _ _ _ Tb) as Fb.
  assert (Fk : fin (kite_area_d eps Y xb (cst 1)) (kite_area (T s) (if c s then B s else 1) 1)) by (apply fin_kite; [exact He|exact FY|exact Fb|apply fin_cst]).
  assert (Ta : tracks (fun z => kA (B z) (T z)) s (dwhere (c s) (kite_area_d eps Y xb (cst 1)) (cst 0))).
  { change (fun z => kA (B z) (T z)) with (fun z => if c z then kite_area (T z) (if c z then B z else 1) 1 else 0).
    apply (tracks_where c (fun z => kite_area (T z) (if c z then B z else 1) 1) (fun _ => 0) s _ _ _ _ Hc Fk (fin_cst 0)); [|intros _; apply tracks_cst]. intros E.
    apply (tracks_kite eps T (fun z => if c z then B z else 1) (fun _ => 1)); [exact He|exact HY|exact Tb|apply tracks_cst|]. rewrite E, heron_square. apply Harea.
    unfold c, pcond in E. apply andb_true_iff in E. destruct E as [E1 E2]. unfold Rgtb in E1. apply Rltb_true in E1. apply Rltb_true in E2. lra. }
  split; [exact Ta|]. set (a := dwhere (c s) (kite_area_d eps Y xb (cst 1)) (cst 0)) in *.
  assert (G : forall g d, tracks g s d -> (c s = false -> g s <> 0) -> tracks (fun z => atan2 (kA (B z) (T z)) (g z)) s (datan2 a d)).
  { intros g d Hg Hn. destruct (c s) eqn:E.
    - apply tracks_atan2_pos; [exact Ta|exact Hg|]. cbv beta. unfold kA, kappas. cbn [fst snd]. change (Rgtb (B s) (Rabs (1 - T s)) && Rltb (B s) (1 + T s)) with (c s). rewrite E.
      unfold kite_area, zero_safe_sqrt. apply sqrt_lt_R0. apply Rlt_le_trans with (kite_square (T s) (B s) 1); [|apply Rmax_r]. rewrite heron_square.
      unfold c, pcond in E. apply andb_true_iff in E. destruct E as [E1 E2]. unfold Rgtb in E1. apply Rltb_true in E1. apply Rltb_true in E2. specialize (Harea (conj E1 E2)). lra.
    - apply (tracks_ext (fun z => atan2 0 (g z))).
      + unfold stable in Hc. revert Hc. apply filter_imp. intros z Hz. unfold kA, kappas. cbn [fst snd]. change (Rgtb (B z) (Rabs (1 - T z)) && Rltb (B z) (1 + T z)) with (c z). rewrite Hz, E. reflexivity.
      + apply tracks_atan2_zero; [|exact Hg|now apply Hn]. unfold a. destruct Fk as (t & ->). reflexivity. }
  assert (N : ~ (B s = 0 /\ T s = 1)) by lra. assert (N' : ~ (B s = 1 /\ T s = 0)) by lra.
  destruct (angles_ok (B s) (T s) (Rlt_le _ _ HB) (Rlt_le _ _ HT) N N') as [A1 A2].
  change (Rgtb (B s) (Rabs (1 - T s)) && Rltb (B s) (1 + T s)) with (c s) in A1, A2.
  split; [apply (G (fun z => (B z)² + (T z - 1) * (T z + 1)))|apply (G (fun z => (B z)² - (T z - 1) * (T z + 1)))]; try trk; intros E; rewrite E in *.
  - destruct A1 as [A|A]; [exact A|now contradiction A].
  - destruct A2 as [A|A]; [exact A|now contradiction A].
Qed.
End Regime.

Section Entry.
Variable eps : R.
Hypothesis He : 0 < eps.
Variables (s : R) (b r b2 r2 : R -> R) (xb xr xb2 xr2 : D).
Hypotheses (Hb : tracks b s xb) (Hr : tracks r s xr) (Hb2 : tracks b2 s xb2) (Hr2 : tracks r2 s xr2).
Lemma tracks_s0s2 a u v xa xu xv : 0 < b s -> 0 < r s -> b s + r s <> 1 -> tracks a s xa -> tracks u s xu -> tracks v s xv ->
  let '(s0, s2) := s0s2_d xb xr xb2 xr2 xa xu xv in
  tracks (fun z => fst (s0s2 (b z) (r z) (b2 z) (r2 z) (a z) (u z) (v z))) s s0 /\ tracks (fun z => snd (s0s2 (b z) (r z) (b2 z) (r2 z) (a z) (u z) (v z))) s s2.
Proof.
  intros Pb Pr N Ha Hu Hv. unfold s0s2_d, s0s2. cbn [fst snd].
  assert (Hd : tracks (fun z => 4 * b z * r z) s (dmul (dmul (cst 4) xb) xr)) by trk.
  assert (Ho : tracks (fun z => (1 + (b z + r z)) * (1 - (b z + r z)) + 4 * b z * r z) s (dadd (dmul (dadd (cst 1) (dadd xb xr)) (dsub (cst 1) (dadd xb xr))) (dmul (dmul (cst 4) xb) xr))) by trk.
  rewrite (fin_val _ _ (tracks_fin _ _ _ Hd)), (fin_val _ _ (tracks_fin _ _ _ Ho)).
  assert (Hc : stable (fun z => Rgtb ((1 + (b z + r z)) * (1 - (b z + r z)) + 4 * b z * r z) (4 * b z * r z)) s).
  { apply stable_gtb; [exact (tracks_cont _ _ _ Ho)|exact (tracks_cont _ _ _ Hd)|]. intros E. assert (E' : (1 + (b s + r s)) * (1 - (b s + r s)) = 0) by lra. apply Rmult_integral in E'. lra. }
  assert (W : forall f g x y, tracks f s x -> tracks g s y -> tracks (fun z => if Rgtb ((1 + (b z + r z)) * (1 - (b z + r z)) + 4 * b z * r z) (4 * b z * r z) then f z else g z) s
     (dwhere (Rgtb ((1 + (b s + r s)) * (1 - (b s + r s)) + 4 * b s * r s) (4 * b s * r s)) x y)).
  { intros f g x y Hf Hg. apply (tracks_where _ f g s x y (f s) (g s) Hc); [exact (tracks_fin _ _ _ Hf)|exact (tracks_fin _ _ _ Hg)|intros _; exact Hf|intros _; exact Hg]. }
  split; apply W; trk.
Qed.
Lemma Rltb_max w : Rltb (Rmax 0 w) (10 * eps) = Rltb w (10 * eps).
Proof.
  unfold Rmax. destruct (Rle_dec 0 w); [reflexivity|]. transitivity true; [|symmetry]; apply Rltb_true; lra.
Qed.
Lemma tracks_arg1 c xc : tracks c s xc -> r2 s + b2 s - 2 * b s * r s * c s <> 10 * eps -> 1 - (r2 s + b2 s - 2 * b s * r s * c s) <> 10 * eps ->
  tracks (fun z => p_arg1 eps (b z) (r z) (b2 z) (r2 z) (c z)) s (p_arg1_d eps xb xr xb2 xr2 xc).
Proof.
  intros Hc N1 N2. set (W := r2 s + b2 s - 2 * b s * r s * c s) in N1, N2. pose proof (fin_arg1 eps He _ _ _ _ _ _ _ _ _ _ (tracks_fin _ _ _ Hb) (tracks_fin _ _ _ Hr) (tracks_fin _ _ _ Hb2) (tracks_fin _ _ _ Hr2) (tracks_fin _ _ _ Hc)) as FF.
  unfold p_arg1_d, p_arg1 in FF |- *.
  set (w := fun z => r2 z + b2 z - 2 * b z * r z * c z). set (xw := dsub (dadd xr2 xb2) (dmul (dmul (dmul (cst 2) xb) xr) xc)) in *.
  assert (Tw : tracks w s xw) by (unfold w, xw; trk). change W with (w s) in *.
  assert (Fo : fin (dmax (cst 0) xw) (Rmax 0 (w s))) by (apply fin_max; [apply fin_cst|exact (tracks_fin _ _ _ Tw)]).
  assert (Fz : fin (dsub (cst 1) (dmax (cst 0) xw)) (1 - Rmax 0 (w s))) by (apply fin_sub; [apply fin_cst|exact Fo]).
  cbv zeta in FF |- *. rewrite (fin_val _ _ Fo), (fin_val _ _ Fz) in *.
  assert (Hs : stable (fun z => Rltb (Rmax 0 (w z)) (10 * eps)) s).
  { apply (stable_ext (fun z => Rltb (w z) (10 * eps))); [intros; symmetry; apply Rltb_max|]. apply (stable_ltb w (fun _ => 10 * eps)); [exact (tracks_cont _ _ _ Tw)|apply continuous_const|exact N1]. }
  destruct FF as (t & FF). destruct (Rltb (Rmax 0 (w s)) (10 * eps)) eqn:E.
  - match goal with |- tracks _ _ (dwhere true (cst 0) ?q) => set (Q := q) in *; destruct Q as [[q1 q2]|] eqn:EQ; [clear FF|discriminate] end.
    apply (tracks_ext (fun _ => 0)).
    + unfold stable in Hs. revert Hs. apply filter_imp. intros z Hz. rewrite E in Hz. unfold w in Hz. rewrite Hz. reflexivity.
    + apply tracks_cst.
  - assert (P : 10 * eps < w s). { rewrite Rltb_max in E. apply Rltb_false in E. lra. }
    assert (To : tracks (fun z => Rmax 0 (w z)) s (dmax (cst 0) xw)) by (apply tracks_max0; [exact Tw|lra]).
    assert (Tz : tracks (fun z => 1 - Rmax 0 (w z)) s (dsub (cst 1) (dmax (cst 0) xw))) by trk.
    set (o := dmax (cst 0) xw) in *. set (zz := dsub (cst 1) o) in *.
    set (d := fun z => Rltb (1 - Rmax 0 (w z)) (10 * eps)). change (Rltb (1 - Rmax 0 (w s)) (10 * eps)) with (d s) in *.
    assert (Hd : stable d s). { apply (stable_ltb (fun z => 1 - Rmax 0 (w z)) (fun _ => 10 * eps)); [exact (tracks_cont _ _ _ Tz)|apply continuous_const|]. rewrite Rmax_right by lra. exact N2. }
    assert (T2 : tracks (fun z => if d z then 1 else 1 - Rmax 0 (w z)) s (dwhere (d s) (cst 1) zz)).
    { apply (tracks_where d (fun _ => 1) (fun z => 1 - Rmax 0 (w z)) s (cst 1) zz 1 _ Hd (fin_cst 1) Fz); [intros _; apply tracks_cst|intros _; exact Tz]. }
    assert (T3 : tracks (fun z => zero_safe_sqrt (if d z then 1 else 1 - Rmax 0 (w z))) s (dzero_safe_sqrt eps (dwhere (d s) (cst 1) zz))).
    { destruct (d s) eqn:Ed.
      - apply (tracks_ext (fun _ => zero_safe_sqrt 1)).
        + unfold stable in Hd. revert Hd. apply filter_imp. intros z Hz. now rewrite Hz, Ed.
        + replace (dwhere true (cst 1) zz) with (cst 1) by (destruct Fz as (u & ->); reflexivity). apply tracks_sqrt_cst; [exact He|lra].
      - unfold d in Ed. apply Rltb_false in Ed. apply tracks_sqrt; [exact T2| |]; cbv beta; fold (d s); unfold d; rewrite (proj2 (Rltb_false _ _) Ed); lra. }
    assert (T1 : tracks (fun z => if Rltb (Rmax 0 (w z)) (10 * eps) then 1 else Rmax 0 (w z)) s (dwhere (Rltb (Rmax 0 (w s)) (10 * eps)) (cst 1) o)).
    { apply (tracks_where (fun z => Rltb (Rmax 0 (w z)) (10 * eps)) (fun _ => 1) (fun z => Rmax 0 (w z)) s (cst 1) o 1 _ Hs (fin_cst 1) Fo); [intros _; apply tracks_cst|intros _; exact To]. }
    rewrite E in T1.
    set (res := dwhere false (cst 0) _) in *.
    assert (TT : tracks (fun z => 2 * r z * (r z - b z * c z) * (1 - (if d z then 1 else 1 - Rmax 0 (w z)) * zero_safe_sqrt (if d z then 1 else 1 - Rmax 0 (w z))) /
        (3 * (if Rltb (Rmax 0 (w z)) (10 * eps) then 1 else Rmax 0 (w z)))) s res).
    { unfold res. match goal with |- tracks _ _ (dwhere false (cst 0) ?q) => replace (dwhere false (cst 0) q) with q by (destruct q; reflexivity) end.
      apply tracks_div; [trk|trk|]. rewrite E. rewrite Rmax_right by lra. lra. }
    revert TT. apply tracks_ext. unfold stable in Hs. revert Hs. apply filter_imp. intros z Hz. rewrite E in Hz. unfold d, w in *. rewrite Hz. reflexivity.
Qed.
Hypothesis N4 : 4 * b s * r s <> 10 * eps.
Lemma stable_k2 : stable (fun z => p_k2cond eps (b z) (r z)) s.
Proof.
  assert (Hd : tracks (fun z => 4 * b z * r z) s (dmul (dmul (cst 4) xb) xr)) by trk.
  apply (stable_ltb (fun z => 4 * b z * r z) (fun _ => 10 * eps)); [exact (tracks_cont _ _ _ Hd)|apply continuous_const|exact N4].
Qed.
Lemma tracks_factor : tracks (fun z => p_factor eps (b z) (r z)) s (p_factor_d eps xb xr).
Proof.
  assert (Hd : tracks (fun z => 4 * b z * r z) s (dmul (dmul (cst 4) xb) xr)) by trk.
  unfold p_factor_d, p_k2cond_d, p_factor. rewrite (fin_val _ _ (tracks_fin _ _ _ Hd)).
  apply (tracks_where (fun z => p_k2cond eps (b z) (r z)) (fun _ => 1) (fun z => 4 * b z * r z) s (cst 1) _ 1 _ stable_k2 (fin_cst 1) (tracks_fin _ _ _ Hd)); [intros _; apply tracks_cst|intros _; exact Hd].
Qed.
Lemma tracks_argn u xu n : (3 <= n)%nat -> tracks u s xu -> 0 < b s -> 0 < r s -> 0 < 1 - r2 s - b2 s + 2 * b s * r s ->
  tracks (fun z => p_argn eps (b z) (r z) (b2 z) (r2 z) (u z) n) s (p_argn_d eps xb xr xb2 xr2 xu n).
Proof.
  intros Hn Hu Pb Pr Pk. destruct (fin_factor eps He _ _ _ _ (tracks_fin _ _ _ Hb) (tracks_fin _ _ _ Hr)) as (Ff & Ec & Nf).
  unfold p_argn_d, p_argn. rewrite Ec. apply tracks_mul; [|trk].
  assert (Pf : 0 < p_factor eps (b s) (r s)). { unfold p_factor. destruct (p_k2cond eps (b s) (r s)); [lra|]. assert (0 < b s * r s) by now apply Rmult_lt_0_compat. lra. }
  assert (Tk : tracks (fun z => p_k2 eps (b z) (r z) (b2 z) (r2 z)) s (p_k2_d eps xb xr xb2 xr2)).
  { unfold p_k2_d, p_k2. apply (tracks_max0 (fun z => (1 - r2 z - b2 z + 2 * b z * r z) / p_factor eps (b z) (r z))).
    - apply tracks_div; [trk|exact tracks_factor|exact Nf].
    - now apply Rdiv_lt_0_compat. }
  assert (T1 : tracks (fun z => 1 - r2 z) s (dsub (cst 1) xr2)) by trk.
  assert (T2 : tracks (fun z => p_factor eps (b z) (r z) * (p_k2 eps (b z) (r z) (b2 z) (r2 z) - u z)) s (dmul (p_factor_d eps xb xr) (dsub (p_k2_d eps xb xr xb2 xr2) xu))).
  { apply tracks_mul; [exact tracks_factor|]. now apply tracks_sub. }
  apply (tracks_pow (fun z => if p_k2cond eps (b z) (r z) then 1 - r2 z else p_factor eps (b z) (r z) * (p_k2 eps (b z) (r z) (b2 z) (r2 z) - u z))); [exact Hn|].
  apply (tracks_where (fun z => p_k2cond eps (b z) (r z)) _ _ s _ _ _ _ stable_k2 (tracks_fin _ _ _ T1) (tracks_fin _ _ _ T2)); intros _; assumption.
Qed.
Lemma tracks_entry quad k xk n : n = 1%nat \/ (3 <= n)%nat -> tracks k s xk -> 0 < b s -> 0 < r s -> r2 s = (r s) ^ 2 -> b2 s = (b s) ^ 2 -> Rabs (b s - r s) < 1 ->
  (forall x w, In (x, w) quad -> let d := edge_rho2 (b s) (r s) (node_at 0 (k s) x) in d <> 10 * eps /\ 1 - d <> 10 * eps) ->
  tracks (fun z => p_entry eps quad (b z) (r z) (b2 z) (r2 z) (k z) n) s (p_entry_d eps quad xb xr xb2 xr2 xk n).
Proof.
  intros Hn Hk Pb Pr Er Eb Hd HQ. unfold p_entry_d, p_entry. apply tracks_mul; [trk|].
  apply (tracks_sum (A := R * R) (fun rw z => (if (n =? 1)%nat then p_arg1 eps (b z) (r z) (b2 z) (r2 z) (p_cos (k z) (fst rw)) else p_argn eps (b z) (r z) (b2 z) (r2 z) (p_s2 (k z) (fst rw)) n) * snd rw)).
  intros [x w] Hx. cbn [fst snd]. apply tracks_mul; [|apply tracks_cst]. destruct (n =? 1)%nat eqn:E.
  - assert (Hc : tracks (fun z => p_cos (k z) x) s (p_cos_d xk x)) by (unfold p_cos_d, p_cos, p_phi_d, p_phi; trk).
    assert (EE : r2 s + b2 s - 2 * b s * r s * p_cos (k s) x = edge_rho2 (b s) (r s) (node_at 0 (k s) x)).
    { unfold edge_rho2, p_cos, p_phi, node_at. rewrite Er, Eb. replace (0.5 * k s * x + 0.5 * k s) with ((k s - 0) / 2 * x + (0 + k s) / 2) by lra. reflexivity. }
    destruct (HQ x w Hx) as [H1 H2]. apply (tracks_arg1 (fun z => p_cos (k z) x) _ Hc); cbv beta; rewrite EE; assumption.
  - apply Nat.eqb_neq in E. apply (tracks_argn (fun z => p_s2 (k z) x)); [lia| |exact Pb|exact Pr|].
    + unfold p_s2_d, p_s2, p_phi_d, p_phi. apply (tracks_sq (fun z => sin ((0.5 * k z * x + 0.5 * k z) / 2))), (tracks_sin (fun z => (0.5 * k z * x + 0.5 * k z) / 2)). apply tracks_div; [trk|trk|lra].
    + rewrite Er, Eb. destruct (Rabs_def2 _ _ Hd). nra.
Qed.
End Entry.
