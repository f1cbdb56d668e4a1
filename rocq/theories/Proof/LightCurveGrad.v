(** The light curve evaluated on traced numbers (Model/LightCurveGrad.v). *)
From Coq Require Import Reals List Bool Arith Lia Lra Psatz.
From Coquelicot Require Import Hierarchy Derive Continuity Rbar Rcomplements.
From Verif Require Import Base.RealAux Model.LimbDark Model.AutoDiff Model.LightCurveGrad Spec.LimbDarkSpec Spec.OccultSpec Spec.AutoDiffSpec.
From Verif Require Import Proof.AutoDiff Proof.LimbDarkProof Proof.LimbDarkGreen Proof.Occult.
Import ListNotations.
Local Open Scope R_scope.

Ltac fin1 := first [eassumption | apply fin_cst | apply fin_neg | apply fin_add | apply fin_sub | apply fin_mul | apply fin_sq | apply fin_sin | apply fin_cos | apply fin_max | apply fin_min | apply fin_abs].
Ltac fin := repeat fin1.

Lemma fin_kite_square x y z a b c : fin x a -> fin y b -> fin z c -> fin (kite_square_d x y z) (kite_square a b c).
Proof. intros. unfold kite_square_d, kite_square, sort2. fin. Qed.
Lemma fin_kite eps x y z a b c : 0 < eps -> fin x a -> fin y b -> fin z c -> fin (kite_area_d eps x y z) (kite_area a b c).
Proof. intros. unfold kite_area_d, kite_area. apply fin_sqrt; [assumption| |apply Rmax_l]. apply fin_max; [apply fin_cst|]. now apply fin_kite_square. Qed.

(** the angles are those of a point other than the origin *)
Lemma angles_ok b r : 0 <= b -> 0 <= r -> ~ (b = 0 /\ r = 1) -> ~ (b = 1 /\ r = 0) ->
  let area := if Rgtb b (Rabs (1 - r)) && Rltb b (1 + r) then kite_area r (if Rgtb b (Rabs (1 - r)) && Rltb b (1 + r) then b else 1) 1 else 0 in
  (b² + (r - 1) * (r + 1) <> 0 \/ area <> 0) /\ (b² - (r - 1) * (r + 1) <> 0 \/ area <> 0).
Proof.
  intros Hb Hr H1 H2. cbv zeta. destruct (Rlt_dec (Rabs (1 - r)) b) as [L|L]; [destruct (Rlt_dec b (1 + r)) as [L2|L2]|].
  - replace (Rgtb b (Rabs (1 - r))) with true by (symmetry; now apply Rltb_true). replace (Rltb b (1 + r)) with true by (symmetry; now apply Rltb_true). cbn [andb].
    destruct (Rabs_def2 _ _ L) as [A B].
    assert (0 < kite_area r b 1). { unfold kite_area, zero_safe_sqrt. apply sqrt_lt_R0. rewrite kite_square_heron. apply Rlt_le_trans with (heron16 r b 1); [|apply Rmax_r]. unfold heron16. repeat apply Rmult_lt_0_compat; lra. }
    split; right; lra.
  - replace (Rltb b (1 + r)) with false by (symmetry; apply Rltb_false; lra). rewrite andb_false_r.
    assert (1 + r <= b) by lra. assert ((1 + r) * (1 + r) <= b * b) by (apply Rmult_le_compat; lra). unfold Rsqr. split; left; intros E; [|nra].
    assert (r = 0) by nra. subst r. apply H2. split; [nra|reflexivity].
  - replace (Rgtb b (Rabs (1 - r))) with false by (symmetry; apply Rltb_false; lra). cbn [andb].
    assert (b <= Rabs (1 - r)) by lra. unfold Rsqr. destruct (Rle_dec r 1) as [A|A].
    + rewrite Rabs_right in H by lra. assert (b * b <= (1 - r) * (1 - r)) by (apply Rmult_le_compat; lra). split; left; intros E.
      * assert (r * (1 - r) = 0) by nra. apply Rmult_integral in H3. destruct H3 as [->|H3]; [apply H2; split; [nra|reflexivity]|]. apply H1. split; nra.
      * assert (r = 1) by nra. apply H1. split; nra.
    + rewrite Rabs_left in H by lra. assert (b * b <= (r - 1) * (r - 1)) by (apply Rmult_le_compat; lra). split; left; intros E; nra.
Qed.
Lemma fin_kappas eps x y b r : 0 < eps -> fin x b -> fin y r -> 0 <= b -> 0 <= r -> ~ (b = 0 /\ r = 1) -> ~ (b = 1 /\ r = 0) ->
  let '(a, k0, k1) := kappas_d eps x y in let '(a', k0', k1') := kappas b r in fin a a' /\ fin k0 k0' /\ fin k1 k1'.
Proof.
  intros He Hx Hy Hb Hr H1 H2. destruct (angles_ok b r Hb Hr H1 H2) as [N1 N2]. unfold kappas_d, kappas. rewrite (fin_val _ _ Hx), (fin_val _ _ Hy).
  set (c := Rgtb b (Rabs (1 - r)) && Rltb b (1 + r)) in *.
  assert (Ha : fin (dwhere c (kite_area_d eps y (dwhere c x (cst 1)) (cst 1)) (cst 0)) (if c then kite_area r (if c then b else 1) 1 else 0)).
  { apply fin_where; [|apply fin_cst]. apply fin_kite; [exact He|exact Hy| |apply fin_cst]. apply fin_where; [exact Hx|apply fin_cst]. }
  split; [exact Ha|]. split; apply fin_atan2; try assumption; fin.
Qed.
Lemma fin_s0s2 b r b2 r2 a k0 k1 b' r' b2' r2' a' k0' k1' : fin b b' -> fin r r' -> fin b2 b2' -> fin r2 r2' -> fin a a' -> fin k0 k0' -> fin k1 k1' ->
  let '(s0, s2) := s0s2_d b r b2 r2 a k0 k1 in let '(s0', s2') := s0s2 b' r' b2' r2' a' k0' k1' in fin s0 s0' /\ fin s2 s2'.
Proof.
  intros. unfold s0s2_d, s0s2.
  assert (Hd : fin (dmul (dmul (cst 4) b) r) (4 * b' * r')) by fin.
  assert (Ho : fin (dadd (dmul (dadd (cst 1) (dadd b r)) (dsub (cst 1) (dadd b r))) (dmul (dmul (cst 4) b) r)) ((1 + (b' + r')) * (1 - (b' + r')) + 4 * b' * r')) by fin.
  rewrite (fin_val _ _ Hd), (fin_val _ _ Ho). split; apply fin_where; fin.
Qed.
Section Entry.
Variable eps : R.
Hypothesis He : 0 < eps.
Lemma fin_factor b r b' r' : fin b b' -> fin r r' -> fin (p_factor_d eps b r) (p_factor eps b' r') /\ p_k2cond_d eps b r = p_k2cond eps b' r' /\ p_factor eps b' r' <> 0.
Proof.
  intros Hb Hr. unfold p_factor_d, p_factor, p_k2cond_d, p_k2cond. assert (H : fin (dmul (dmul (cst 4) b) r) (4 * b' * r')) by fin.
  rewrite (fin_val _ _ H). split; [apply fin_where; fin|]. split; [reflexivity|]. destruct (Rltb (4 * b' * r') (10 * eps)) eqn:E; [lra|]. apply Rltb_false in E. lra.
Qed.
Lemma fin_arg1 b r b2 r2 c b' r' b2' r2' c' : fin b b' -> fin r r' -> fin b2 b2' -> fin r2 r2' -> fin c c' -> fin (p_arg1_d eps b r b2 r2 c) (p_arg1 eps b' r' b2' r2' c').
Proof.
  intros. unfold p_arg1_d, p_arg1.
  set (o := dmax (cst 0) (dsub (dadd r2 b2) (dmul (dmul (dmul (cst 2) b) r) c))). set (o' := Rmax 0 (r2' + b2' - 2 * b' * r' * c')).
  assert (Ho : fin o o') by (unfold o, o'; fin). rewrite (fin_val _ _ Ho). assert (Hz : fin (dsub (cst 1) o) (1 - o')) by fin. rewrite (fin_val _ _ Hz).
  set (z := dwhere (Rltb (1 - o') (10 * eps)) (cst 1) (dsub (cst 1) o)). set (z' := if Rltb (1 - o') (10 * eps) then 1 else 1 - o').
  assert (Fz : fin z z') by (apply fin_where; fin). assert (Pz : 0 <= z'). { unfold z'. destruct (Rltb (1 - o') (10 * eps)) eqn:E; [lra|]. apply Rltb_false in E. lra. }
  assert (Fs := fin_sqrt eps z z' He Fz Pz). apply fin_where; [apply fin_cst|]. apply fin_div.
  - fin.
  - apply fin_mul; [apply fin_cst|]. apply fin_where; fin.
  - destruct (Rltb o' (10 * eps)) eqn:E; [lra|]. apply Rltb_false in E. lra.
Qed.
Lemma fin_argn b r b2 r2 s b' r' b2' r2' s' n : (3 <= n)%nat -> fin b b' -> fin r r' -> fin b2 b2' -> fin r2 r2' -> fin s s' ->
  fin (p_argn_d eps b r b2 r2 s n) (p_argn eps b' r' b2' r2' s' n).
Proof.
  intros Hn Hb Hr Hb2 Hr2 Hs. destruct (fin_factor b r b' r' Hb Hr) as (Hf & Ec & Nf). unfold p_argn_d, p_argn, p_k2_d, p_k2. rewrite Ec.
  apply fin_mul; [|fin]. apply fin_pow.
  - apply fin_max; [apply fin_cst|]. apply fin_where; [fin|]. apply fin_mul; [exact Hf|]. apply fin_sub; [|exact Hs]. apply fin_max; [apply fin_cst|]. apply fin_div; [fin|exact Hf|exact Nf].
  - apply Rmax_l.
  - apply le_INR in Hn. cbn in Hn. lra.
Qed.
Lemma fin_nodes k k' x : fin k k' -> fin (p_cos_d k x) (p_cos k' x) /\ fin (p_s2_d k x) (p_s2 k' x).
Proof.
  intros H. unfold p_cos_d, p_cos, p_s2_d, p_s2, p_phi_d, p_phi. split; [fin|]. apply fin_sq, fin_sin. apply fin_div; [fin|fin|lra].
Qed.
Lemma fin_entry quad b r b2 r2 k b' r' b2' r2' k' n : n = 1%nat \/ (3 <= n)%nat -> fin b b' -> fin r r' -> fin b2 b2' -> fin r2 r2' -> fin k k' ->
  fin (p_entry_d eps quad b r b2 r2 k n) (p_entry eps quad b' r' b2' r2' k' n).
Proof.
  intros Hn Hb Hr Hb2 Hr2 Hk. unfold p_entry_d, p_entry. apply fin_mul; [fin|]. apply (fin_sum (A := R * R)). intros [x w] _. cbn [fst snd].
  destruct (fin_nodes k k' x Hk) as [Hc Hs]. apply fin_mul; [|apply fin_cst]. destruct (n =? 1)%nat eqn:E; [now apply fin_arg1|].
  apply Nat.eqb_neq in E. apply fin_argn; try assumption. lia.
Qed.
Lemma fin_solution quad x y b r n : fin x b -> fin y r -> ~ (Rabs b = 0 /\ Rabs r = 1) -> ~ (Rabs b = 1 /\ Rabs r = 0) ->
  fin (solution_d eps quad x y n) (solution eps quad b r n).
Proof.
  intros Hx0 Hy0 N1 N2. unfold solution_d, solution.
  assert (Hx : fin (dabs x) (Rabs b)) by now apply fin_abs. assert (Hy : fin (dabs y) (Rabs r)) by now apply fin_abs. clear Hx0 Hy0.
  set (X := dabs x) in *. set (Y := dabs y) in *. set (B := Rabs b) in *. set (T := Rabs r) in *. assert (0 <= B) by apply Rabs_pos. assert (0 <= T) by apply Rabs_pos.
  pose proof (fin_kappas eps X Y B T ltac:(assumption) Hx Hy H H0 N1 N2) as HK. destruct (kappas_d eps X Y) as [[a k0] k1]. destruct (kappas B T) as [[a' k0'] k1'].
  destruct HK as (Ha & Hk0 & Hk1). rewrite (fin_val _ _ Hx), (fin_val _ _ Hy).
  set (c := Rgeb B (1 + T) || Rleb (1 + B) T). assert (Hb : fin (dwhere c (cst 1) X) (if c then 1 else B)) by (apply fin_where; fin).
  set (b_ := dwhere c (cst 1) X) in *. set (b_' := if c then 1 else B) in *.
  assert (Hb2 : fin (dsq b_) (b_'²)) by fin. assert (Hr2 : fin (dsq Y) (T²)) by fin.
  pose proof (fin_s0s2 b_ Y (dsq b_) (dsq Y) a k0 k1 b_' T (b_'²) (T²) a' k0' k1' Hb Hy Hb2 Hr2 Ha Hk0 Hk1) as HS.
  destruct (s0s2_d _ _ _ _ _ _ _) as [s0 s2]. destruct (s0s2 _ _ _ _ _ _ _) as [s0' s2']. destruct HS as [H0' H2'].
  assert (HP : forall m, m = 1%nat \/ (3 <= m)%nat -> fin (dwhere c (cst 0) (p_entry_d eps quad b_ Y (dsq b_) (dsq Y) k0 m)) (if c then 0 else p_entry eps quad b_' T (b_'²) (T²) k0' m)).
  { intros m Hm. apply fin_where; [fin|]. now apply fin_entry. }
  destruct n as [|[|[|n]]].
  - apply fin_where; [fin|]. apply fin_where; fin.
  - apply fin_sub; [apply fin_neg, HP; now left|]. apply fin_div; [fin|fin|lra].
  - apply fin_where; fin.
  - apply fin_neg, HP. right. lia.
Qed.
End Entry.

(** the limb-darkening coefficients *)
Definition finl (xs : list D) (vs : list R) : Prop := List.Forall2 fin xs vs.
Lemma finl_nth xs vs n : finl xs vs -> fin (nth n xs (cst 0)) (nth n vs 0).
Proof. intros H. revert n. induction H as [|x v xs vs Hx Hl IH]; intros [|n]; cbn; try apply fin_cst; auto. Qed.
Lemma finl_length xs vs : finl xs vs -> length xs = length vs.
Proof. induction 1; cbn; congruence. Qed.
Lemma finl_map_seq f g n k : (forall i, fin (f i) (g i)) -> finl (map f (seq k n)) (map g (seq k n)).
Proof. intros H. revert k. induction n as [|n IH]; intros k; cbn; constructor; auto. apply IH. Qed.
Lemma finl_map (f : D -> D) (g : R -> R) xs vs : (forall x v, fin x v -> fin (f x) (g v)) -> finl xs vs -> finl (map f xs) (map g vs).
Proof. intros H. induction 1; cbn; constructor; auto. Qed.
Lemma fin_dot xs vs ys ws : finl xs vs -> finl ys ws -> fin (ddot xs ys) (dotp vs ws).
Proof.
  unfold ddot, dotp. intros H. revert ys ws. induction H as [|x v xs vs Hx Hl IH]; intros ys ws K; [apply fin_cst|]. destruct K as [|y w ys ws Hy K]; [apply fin_cst|].
  cbn [combine map dsum Rsum fold_right fst snd]. apply fin_add; [fin|]. now apply IH.
Qed.
Section Coeffs.
Variables (us : list D) (u : list R).
Hypothesis Hu : finl us u.
Lemma fin_gb_u n : fin (gb_u_d us n) (gb_u u n).
Proof. unfold gb_u_d, gb_u. apply finl_nth. constructor; [apply fin_cst|exact Hu]. Qed.
Lemma fin_gb_p n : fin (gb_p_d us n) (gb_p u n).
Proof. unfold gb_p_d, gb_p. rewrite (finl_length _ _ Hu). apply fin_mul; [fin|]. apply fin_bigsum. intros i _. apply fin_mul; [fin|apply fin_gb_u]. Qed.
Lemma fin_upd g g' k x v m : (forall i, fin (g i) (g' i)) -> fin x v -> fin (upd_d g k x m) (upd g' k v m).
Proof. intros. unfold upd_d, upd. destruct (m =? k)%nat; auto. Qed.
Lemma INR2_neq n : INR n + 2 <> 0.
Proof. pose proof (pos_INR n). lra. Qed.
Lemma fin_gb_loop m : fin (gb_loop_d us m) (gb_loop u m).
Proof.
  unfold gb_loop_d, gb_loop. rewrite (finl_length _ _ Hu).
  assert (G : forall l g g', (forall i, fin (g i) (g' i)) ->
    forall i, fin (fold_left (fun g n => upd_d g n (dadd (ddiv (gb_p_d us n) (cst (INR n + 2))) (g (n + 2)%nat))) l g i)
                  (fold_left (fun g n => upd g n (gb_p u n / (INR n + 2) + g (n + 2)%nat)) l g' i)).
  { induction l as [|k l IH]; intros g g' Hg i; cbn [fold_left]; [apply Hg|]. apply IH. intros j. apply fin_upd; [exact Hg|]. apply fin_add; [|apply Hg].
    apply fin_div; [apply fin_gb_p|apply fin_cst|apply INR2_neq]. }
  apply G. intros. apply fin_cst.
Qed.
Lemma fin_gb_final m : fin (gb_final_d us m) (gb_final u m).
Proof.
  unfold gb_final_d, gb_final.
  assert (G : forall i, fin (upd_d (gb_loop_d us) 1 (dadd (gb_p_d us 1) (dmul (cst 3) (gb_loop_d us 3%nat))) i) (upd (gb_loop u) 1 (gb_p u 1 + 3 * gb_loop u 3%nat) i)).
  { intros i. apply fin_upd; [apply fin_gb_loop|]. apply fin_add; [apply fin_gb_p|]. apply fin_mul; [fin|apply fin_gb_loop]. }
  apply fin_upd; [exact G|]. apply fin_add; [apply fin_gb_p|]. apply fin_mul; [fin|apply G].
Qed.
Lemma fin_gbt : finl (greens_basis_transform_d us) (greens_basis_transform u).
Proof. unfold greens_basis_transform_d, greens_basis_transform. rewrite (finl_length _ _ Hu). apply finl_map_seq, fin_gb_final. Qed.
End Coeffs.
Lemma fin_norm us u (Hu : finl us u) : finl (norm_coeffs_d us) (norm_coeffs u) \/ disk_flux u = 0.
Proof.
  destruct (Req_EM_T (disk_flux u) 0) as [E|N]; [now right|]. left. unfold norm_coeffs_d, norm_coeffs. pose proof (fin_gbt us u Hu) as HG. destruct Hu as [|x v xs vs Hx Hl]; [constructor; [apply fin_cst|constructor]|].
  set (U := x :: xs) in *. set (V := v :: vs) in *. cbv zeta. apply finl_map; [|exact HG]. intros y w Hy. apply fin_div; [exact Hy| |].
  - unfold flux_norm. apply fin_mul; [fin|]. apply fin_add; [now apply finl_nth|]. apply fin_div; [now apply finl_nth|fin|lra].
  - rewrite flux_norm_is_disk_flux by (unfold V; congruence). exact N.
Qed.
Theorem fin_light_curve eps quad us u x y b r : 0 < eps -> List.Forall2 fin us u -> fin x b -> fin y r -> disk_flux u <> 0 ->
  ~ (Rabs b = 0 /\ Rabs r = 1) -> ~ (Rabs b = 1 /\ Rabs r = 0) -> fin (light_curve_d eps quad us x y) (light_curve eps quad u b r).
Proof.
  intros He Hu Hx Hy HF N1 N2. destruct (fin_norm us u Hu) as [HN|HN]; [|contradiction]. unfold light_curve_d, light_curve. rewrite (finl_length _ _ HN).
  apply fin_sub; [|apply fin_cst]. apply fin_dot; [|exact HN]. unfold solution_vector_d, solution_vector. apply finl_map_seq. intros i. now apply fin_solution.
Qed.
