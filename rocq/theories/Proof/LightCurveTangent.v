(** The tangent of the traced light curve is the derivative of the light curve: assembly. *)
From Coq Require Import Reals List Bool Arith Lia Lra Psatz.
From Coquelicot Require Import Hierarchy Derive Continuity Rbar Rcomplements.
From Verif Require Import Base.RealAux Model.LimbDark Model.AutoDiff Model.LightCurveGrad Spec.LimbDarkSpec Spec.OccultSpec Spec.AutoDiffSpec.
From Verif Require Import Proof.AutoDiff Proof.LimbDarkProof Proof.LimbDarkGreen Proof.Occult Proof.LightCurveGrad Proof.LightCurveDeriv.
Import ListNotations.
Local Open Scope R_scope.

Definition b_of (b r : R) : R := if ocond b r then 1 else b.
Definition sol (eps : R) (quad : list (R * R)) (b r : R) (n : nat) : R :=
  let ss := s0s2 (b_of b r) r ((b_of b r)²) (r²) (kA b r) (k0 b r) (k1 b r) in
  let P m := if ocond b r then 0 else p_entry eps quad (b_of b r) r ((b_of b r)²) (r²) (k0 b r) m in
  match n with
  | O => if Rleb (1 + b) r then 0 else if Rgeb b (1 + r) then PI else fst ss
  | S O => - P 1%nat - 2 * (k1 b r - PI) / 3
  | S (S O) => if ocond b r then 0 else snd ss
  | _ => - P n
  end.
Lemma solution_sol eps quad b r n : solution eps quad b r n = sol eps quad (Rabs b) (Rabs r) n.
Proof. destruct n as [|[|[|n]]]; reflexivity. Qed.
Lemma no_occult b r : 0 < b -> 0 < r -> ocond b r = false -> b < 1 + r /\ r < 1 + b.
Proof.
  unfold ocond. intros _ _ H. apply orb_false_iff in H. destruct H as [H1 H2]. unfold Rgeb in H1. apply Rleb_false in H1. apply Rleb_false in H2. lra.
Qed.

Section Solution.
Variable eps : R.
Hypothesis He : 0 < eps.
Variables (s : R) (quad : list (R * R)) (B T : R -> R) (X Y : D).
Hypotheses (HX : tracks B s X) (HY : tracks T s Y) (HB : 0 < B s) (HT : 0 < T s).
Hypothesis Hoff : off_contacts (B s) (T s).
Hypothesis Hthr : B s < 1 + T s -> T s < 1 + B s -> off_thresholds eps quad (B s) (T s).
Lemma tracks_sol n : tracks (fun z => sol eps quad (B z) (T z) n) s
  (let '(area, kappa0, kappa1) := kappas_d eps X Y in
   let no_occ := Rgeb (val X) (1 + val Y) in
   let full_occ := Rleb (1 + val X) (val Y) in
   let cond := no_occ || full_occ in
   let b_ := dwhere cond (cst 1) X in
   let b2 := dsq b_ in
   let r2 := dsq Y in
   let '(s0, s2) := s0s2_d b_ Y b2 r2 area kappa0 kappa1 in
   let s0 := dwhere no_occ (cst PI) s0 in
   let s0 := dwhere full_occ (cst 0) s0 in
   let s2 := dwhere cond (cst 0) s2 in
   let P m := dwhere cond (cst 0) (p_entry_d eps quad b_ Y b2 r2 kappa0 m) in
   match n with
   | O => s0
   | S O => dsub (dneg (P 1%nat)) (ddiv (dmul (cst 2) (dsub kappa1 (cst PI))) (cst 3))
   | S (S O) => s2
   | _ => dneg (P n)
   end).
Proof.
  assert (Harea : Rabs (1 - T s) < B s < 1 + T s -> 10 * eps <= 4 * (B s) ^ 2 * (T s) ^ 2 - ((B s) ^ 2 + (T s) ^ 2 - 1) ^ 2).
  { intros [H1 H2]. destruct (Rabs_def2 _ _ H1). destruct (Hthr H2 ltac:(lra)) as (_ & H3 & _). now apply H3. }
  pose proof (tracks_kappas eps He s B T X Y HX HY HB HT Hoff Harea) as HK. destruct (kappas_d eps X Y) as [[a u] v]. destruct HK as (Ta & Tu & Tv).
  pose proof (tracks_fin _ _ _ HX) as FX. pose proof (tracks_fin _ _ _ HY) as FY. rewrite (fin_val _ _ FX), (fin_val _ _ FY).
  pose proof (stable_ocond s B T X Y HX HY Hoff) as Sc. pose proof (stable_no s B T X Y HX HY Hoff) as Sn. pose proof (stable_full s B T X Y HX HY Hoff) as Sf.
  cbv zeta. change (Rgeb (B s) (1 + T s) || Rleb (1 + B s) (T s)) with (ocond (B s) (T s)).
  assert (Tb : tracks (fun z => b_of (B z) (T z)) s (dwhere (ocond (B s) (T s)) (cst 1) X)).
  { apply (tracks_where (fun z => ocond (B z) (T z)) (fun _ => 1) B s (cst 1) X 1 (B s) Sc (fin_cst 1) FX); intros _; [apply tracks_cst|exact HX]. }
  set (b_ := dwhere (ocond (B s) (T s)) (cst 1) X) in *. pose proof (tracks_fin _ _ _ Tb) as Fb.
  assert (Tb2 : tracks (fun z => (b_of (B z) (T z))²) s (dsq b_)) by trk. assert (Tr2 : tracks (fun z => (T z)²) s (dsq Y)) by trk.
  pose proof (fin_s0s2 b_ Y (dsq b_) (dsq Y) a u v _ _ _ _ _ _ _ Fb FY (tracks_fin _ _ _ Tb2) (tracks_fin _ _ _ Tr2) (tracks_fin _ _ _ Ta) (tracks_fin _ _ _ Tu) (tracks_fin _ _ _ Tv)) as FS.
  assert (TS : ocond (B s) (T s) = false -> let '(s0, s2) := s0s2_d b_ Y (dsq b_) (dsq Y) a u v in
    tracks (fun z => fst (s0s2 (b_of (B z) (T z)) (T z) ((b_of (B z) (T z))²) ((T z)²) (kA (B z) (T z)) (k0 (B z) (T z)) (k1 (B z) (T z)))) s s0 /\
    tracks (fun z => snd (s0s2 (b_of (B z) (T z)) (T z) ((b_of (B z) (T z))²) ((T z)²) (kA (B z) (T z)) (k0 (B z) (T z)) (k1 (B z) (T z)))) s s2).
  { intros E. apply (tracks_s0s2 s _ _ _ _ _ _ _ _ Tb HY Tb2 Tr2 (fun z => kA (B z) (T z)) (fun z => k0 (B z) (T z)) (fun z => k1 (B z) (T z)) a u v); try assumption; unfold b_of; rewrite E; [exact HB|apply Hoff]. }
  assert (TP : forall m, m = 1%nat \/ (3 <= m)%nat -> tracks (fun z => if ocond (B z) (T z) then 0 else p_entry eps quad (b_of (B z) (T z)) (T z) ((b_of (B z) (T z))²) ((T z)²) (k0 (B z) (T z)) m) s
     (dwhere (ocond (B s) (T s)) (cst 0) (p_entry_d eps quad b_ Y (dsq b_) (dsq Y) u m))).
  { intros m Hm. apply (tracks_where (fun z => ocond (B z) (T z)) (fun _ => 0) _ s (cst 0) _ 0 _ Sc (fin_cst 0)
      (fin_entry eps He quad _ _ _ _ _ _ _ _ _ _ m Hm Fb FY (tracks_fin _ _ _ Tb2) (tracks_fin _ _ _ Tr2) (tracks_fin _ _ _ Tu))); [intros _; apply tracks_cst|]. intros E.
    destruct (no_occult _ _ HB HT E) as [L1 L2]. destruct (Hthr L1 L2) as (N4 & _ & HQ).
    assert (Eb : b_of (B s) (T s) = B s) by (unfold b_of; now rewrite E).
    assert (EK : k0 (B s) (T s) = edge_angle (B s) (T s)).
    { destruct (contact_ok (B s) (T s) ltac:(lra) ltac:(lra) L1 L2) as (A & q0 & q1 & EA & _ & _ & Eq & _). unfold k0. rewrite EA. exact Eq. }
    apply (tracks_entry eps He s (fun z => b_of (B z) (T z)) T (fun z => (b_of (B z) (T z))²) (fun z => (T z)²)); try assumption; cbv beta; rewrite ?Eb; try assumption.
    - unfold Rsqr. ring.
    - unfold Rsqr. ring.
    - apply Rabs_def1; lra.
    - rewrite EK. exact HQ. }
  destruct (s0s2_d b_ Y (dsq b_) (dsq Y) a u v) as [s0 s2]. destruct (s0s2 _ _ _ _ _ _ _) as [f0 f2] in FS. destruct FS as [F0 F2].
  destruct n as [|[|[|n]]].
  - unfold sol. cbv zeta.
    assert (FN : fin (dwhere (Rgeb (B s) (1 + T s)) (cst PI) s0) (if Rgeb (B s) (1 + T s) then PI else f0)) by (apply fin_where; fin).
    apply (tracks_where (fun z => Rleb (1 + B z) (T z)) (fun _ => 0) _ s (cst 0) _ 0 _ Sf (fin_cst 0) FN); [intros _; apply tracks_cst|]. intros E1.
    apply (tracks_where (fun z => Rgeb (B z) (1 + T z)) (fun _ => PI) _ s (cst PI) _ PI _ Sn (fin_cst PI) F0); [intros _; apply tracks_cst|]. intros E2.
    apply TS. unfold ocond. now rewrite E1, E2.
  - unfold sol. cbv zeta. apply tracks_sub; [apply tracks_neg, TP; now left|]. apply tracks_div; [trk|trk|lra].
  - unfold sol. cbv zeta. apply (tracks_where (fun z => ocond (B z) (T z)) (fun _ => 0) _ s (cst 0) _ 0 _ Sc (fin_cst 0) F2); [intros _; apply tracks_cst|]. intros E. now apply TS.
  - unfold sol. cbv zeta. apply tracks_neg, TP. right. lia.
Qed.
End Solution.
Lemma tracks_solution eps s quad b r x y n : 0 < eps -> tracks b s x -> tracks r s y -> b s <> 0 -> r s <> 0 -> off_contacts (Rabs (b s)) (Rabs (r s)) ->
  (Rabs (b s) < 1 + Rabs (r s) -> Rabs (r s) < 1 + Rabs (b s) -> off_thresholds eps quad (Rabs (b s)) (Rabs (r s))) ->
  tracks (fun z => solution eps quad (b z) (r z) n) s (solution_d eps quad x y n).
Proof.
  intros He Hb Hr Nb Nr Ho Ht. apply (tracks_ext' (fun z => sol eps quad (Rabs (b z)) (Rabs (r z)) n)); [intros; symmetry; apply solution_sol|].
  exact (tracks_sol eps He s quad (fun z => Rabs (b z)) (fun z => Rabs (r z)) (dabs x) (dabs y) (tracks_abs b s x Hb Nb) (tracks_abs r s y Hr Nr)
    (Rabs_pos_lt _ Nb) (Rabs_pos_lt _ Nr) Ho Ht n).
Qed.

(** ** coefficients *)
Definition trackl (fs : list (R -> R)) (s : R) (xs : list D) : Prop := List.Forall2 (fun f x => tracks f s x) fs xs.
Definition at_ (fs : list (R -> R)) (z : R) : list R := map (fun f => f z) fs.
Lemma trackl_fin fs s xs : trackl fs s xs -> finl xs (at_ fs s).
Proof. induction 1 as [|f x fs xs H]; cbn; constructor; auto. now apply tracks_fin. Qed.
Lemma trackl_length fs s xs : trackl fs s xs -> length xs = length fs.
Proof. induction 1; cbn; congruence. Qed.
Lemma at_length fs z : length (at_ fs z) = length fs.
Proof. apply map_length. Qed.
Lemma trackl_nth fs s xs n : trackl fs s xs -> tracks (fun z => nth n (at_ fs z) 0) s (nth n xs (cst 0)).
Proof. intros H. revert n. induction H as [|f x fs xs Hx Hl IH]; intros [|n]; cbn; try apply tracks_cst; [exact Hx|apply IH]. Qed.
Lemma trackl_seq (f : R -> nat -> R) d s n k : (forall i, tracks (fun z => f z i) s (d i)) -> trackl (map (fun i z => f z i) (seq k n)) s (map d (seq k n)).
Proof. intros H. revert k. induction n as [|n IH]; intros k; cbn; constructor; [apply H|apply IH]. Qed.
Lemma at_seq (f : R -> nat -> R) n k z : at_ (map (fun i z => f z i) (seq k n)) z = map (f z) (seq k n).
Proof. unfold at_. rewrite map_map. reflexivity. Qed.
Lemma tracks_dot fs xs gs ys s : trackl fs s xs -> trackl gs s ys -> tracks (fun z => dotp (at_ fs z) (at_ gs z)) s (ddot xs ys).
Proof.
  unfold ddot, dotp. intros H. revert gs ys. induction H as [|f x fs xs Hx Hl IH]; intros gs ys K; [apply tracks_cst|]. destruct K as [|g y gs ys Hy K]; [apply tracks_cst|].
  cbn [at_ map combine dsum Rsum fold_right fst snd]. apply tracks_add; [trk|]. apply (IH gs ys K).
Qed.
Section Coeffs.
Variables (s : R) (us : list (R -> R)) (xs : list D).
Hypothesis Hu : trackl us s xs.
Lemma tracks_gb_u n : tracks (fun z => gb_u (at_ us z) n) s (gb_u_d xs n).
Proof. unfold gb_u_d, gb_u. apply (trackl_nth ((fun _ => - 1) :: us) s (cst (- 1) :: xs) n). constructor; [apply tracks_cst|exact Hu]. Qed.
Lemma tracks_gb_p n : tracks (fun z => gb_p (at_ us z) n) s (gb_p_d xs n).
Proof.
  unfold gb_p_d, gb_p. rewrite (trackl_length _ _ _ Hu). apply tracks_mul; [apply tracks_cst|].
  apply (tracks_ext' (fun z => bigsum (S (length us)) (fun i => binom i n * gb_u (at_ us z) i))); [intros; now rewrite at_length|].
  apply (tracks_bigsum (fun i z => binom i n * gb_u (at_ us z) i)). intros i _. apply tracks_mul; [apply tracks_cst|apply tracks_gb_u].
Qed.
Lemma tracks_upd g g' k x v m : (forall i, tracks (fun z => g' z i) s (g i)) -> tracks v s x -> tracks (fun z => upd (g' z) k (v z) m) s (upd_d g k x m).
Proof. intros. unfold upd_d, upd. destruct (m =? k)%nat; auto. Qed.
Lemma tracks_gb_loop m : tracks (fun z => gb_loop (at_ us z) m) s (gb_loop_d xs m).
Proof.
  unfold gb_loop_d, gb_loop. rewrite (trackl_length _ _ _ Hu).
  assert (G : forall l g g', (forall i, tracks (fun z => g' z i) s (g i)) ->
    forall i, tracks (fun z => fold_left (fun g n => upd g n (gb_p (at_ us z) n / (INR n + 2) + g (n + 2)%nat)) l (g' z) i) s
      (fold_left (fun g n => upd_d g n (dadd (ddiv (gb_p_d xs n) (cst (INR n + 2))) (g (n + 2)%nat))) l g i)).
  { induction l as [|k l IH]; intros g g' Hg i; cbn [fold_left]; [apply Hg|].
    apply (IH _ (fun z => upd (g' z) k (gb_p (at_ us z) k / (INR k + 2) + g' z (k + 2)%nat))). intros j. apply tracks_upd; [exact Hg|].
    apply (tracks_add (fun z => gb_p (at_ us z) k / (INR k + 2)) (fun z => g' z (k + 2)%nat)); [|apply Hg].
    apply tracks_div; [apply tracks_gb_p|apply tracks_cst|apply INR2_neq]. }
  apply (tracks_ext' (fun z => fold_left (fun g n => upd g n (gb_p (at_ us z) n / (INR n + 2) + g (n + 2)%nat)) (rev (seq 2 (S (length us) - 2))) (fun _ => 0) m)).
  { intros z. now rewrite at_length. }
  apply (G _ _ (fun _ _ => 0)). intros. apply tracks_cst.
Qed.
Lemma tracks_gb_final m : tracks (fun z => gb_final (at_ us z) m) s (gb_final_d xs m).
Proof.
  unfold gb_final_d, gb_final.
  assert (G : forall i, tracks (fun z => upd (gb_loop (at_ us z)) 1 (gb_p (at_ us z) 1 + 3 * gb_loop (at_ us z) 3%nat) i) s (upd_d (gb_loop_d xs) 1 (dadd (gb_p_d xs 1) (dmul (cst 3) (gb_loop_d xs 3%nat))) i)).
  { intros i. apply tracks_upd; [apply tracks_gb_loop|]. apply tracks_add; [apply tracks_gb_p|]. apply tracks_mul; [apply tracks_cst|apply tracks_gb_loop]. }
  apply (tracks_upd _ (fun z => upd (gb_loop (at_ us z)) 1 (gb_p (at_ us z) 1 + 3 * gb_loop (at_ us z) 3%nat))); [exact G|].
  apply tracks_add; [apply tracks_gb_p|]. apply tracks_mul; [apply tracks_cst|apply (G 2%nat)].
Qed.
Definition gbf : list (R -> R) := map (fun i z => gb_final (at_ us z) i) (seq 0 (S (length us))).
Lemma trackl_gbt : trackl gbf s (greens_basis_transform_d xs).
Proof. unfold gbf, greens_basis_transform_d. rewrite (trackl_length _ _ _ Hu). apply trackl_seq, tracks_gb_final. Qed.
Lemma at_gbf z : at_ gbf z = greens_basis_transform (at_ us z).
Proof. unfold gbf, greens_basis_transform. rewrite at_seq, at_length. reflexivity. Qed.
End Coeffs.
Lemma trackl_map_div gs ys s nz norm : trackl gs s ys -> tracks nz s norm -> nz s <> 0 -> trackl (map (fun g z => g z / nz z) gs) s (map (fun x => ddiv x norm) ys).
Proof. intros HG TN NN. induction HG as [|g y gs ys Hy Hl IH]; cbn [map]; constructor; [|exact IH]. now apply tracks_div. Qed.
Lemma trackl_norm s us xs : trackl us s xs -> disk_flux (at_ us s) <> 0 -> exists fs, trackl fs s (norm_coeffs_d xs) /\ (forall z, at_ fs z = norm_coeffs (at_ us z)).
Proof.
  intros Hu HF. destruct Hu as [|f x us xs Hx Hl].
  - exists [fun _ => 1 / PI]. split; [constructor; [apply tracks_cst|constructor]|reflexivity].
  - assert (Hu : trackl (f :: us) s (x :: xs)) by now constructor. set (U := f :: us) in *. set (V := x :: xs) in *.
    pose proof (trackl_gbt s U V Hu) as HG. set (nz := fun z => flux_norm (at_ (gbf U) z)).
    exists (map (fun g z => g z / nz z) (gbf U)). split.
    + change (norm_coeffs_d V) with (let g := greens_basis_transform_d V in let norm := dmul (cst PI) (dadd (nth 0 g (cst 0)) (ddiv (nth 1 g (cst 0)) (cst 1.5))) in map (fun x => ddiv x norm) g).
      cbv zeta. set (norm := dmul (cst PI) _).
      assert (TN : tracks nz s norm).
      { unfold norm, nz, flux_norm. apply tracks_mul; [apply tracks_cst|]. apply tracks_add; [now apply trackl_nth|]. apply tracks_div; [now apply trackl_nth|apply tracks_cst|lra]. }
      assert (NN : nz s <> 0). { unfold nz. rewrite at_gbf, flux_norm_is_disk_flux by (unfold U; cbn; congruence). exact HF. }
      now apply trackl_map_div.
    + intros z. change (norm_coeffs (at_ U z)) with (map (fun x => x / flux_norm (greens_basis_transform (at_ U z))) (greens_basis_transform (at_ U z))).
      rewrite <- at_gbf. unfold nz, at_. rewrite !map_map. reflexivity.
Qed.
Theorem tracks_light_curve eps quad us b r s xs x y : 0 < eps -> List.Forall2 (fun f x => tracks f s x) us xs -> tracks b s x -> tracks r s y ->
  disk_flux (map (fun f => f s) us) <> 0 -> b s <> 0 -> r s <> 0 -> off_contacts (Rabs (b s)) (Rabs (r s)) ->
  (Rabs (b s) < 1 + Rabs (r s) -> Rabs (r s) < 1 + Rabs (b s) -> off_thresholds eps quad (Rabs (b s)) (Rabs (r s))) ->
  tracks (fun z => light_curve eps quad (map (fun f => f z) us) (b z) (r z)) s (light_curve_d eps quad xs x y).
Proof.
  intros He Hu Hb Hr HF Nb Nr Ho Ht. destruct (trackl_norm s us xs Hu HF) as (fs & HN & EN).
  unfold light_curve_d, light_curve. rewrite (trackl_length _ _ _ HN). apply tracks_sub; [|apply tracks_cst].
  set (n := (length fs - 1 + 1)%nat).
  apply (tracks_ext' (fun z => dotp (at_ (map (fun i z => solution eps quad (b z) (r z) i) (seq 0 n)) z) (at_ fs z))).
  - intros z. rewrite (EN z), at_seq. unfold solution_vector, n. do 4 f_equal. rewrite <- (at_length fs z), EN. reflexivity.
  - apply tracks_dot; [|exact HN]. unfold solution_vector_d. fold n. apply (trackl_seq (fun z i => solution eps quad (b z) (r z) i)). intros i. now apply tracks_solution.
Qed.
