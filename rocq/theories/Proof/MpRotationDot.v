(** dot_rotation_matrix and left_project of multiprecision/rotation.py. *)
From Coq Require Import Reals Lra Lia ZArith List Bool Arith.
From Coquelicot Require Import Coquelicot.
From Verif Require Import Base.RealAux Base.Dict Model.Poly Model.Basis Model.S2fft Model.Rotation Model.MpBasis Model.MpRotation Spec.PolySpec Spec.HarmonicSpec Spec.RotationSpec Spec.MpRotationSpec
  Proof.BasisProof Proof.HarmonicProof Proof.RotationProof Proof.WignerGen Proof.WignerStep Proof.WignerRot Proof.WignerMap Proof.AxisAngle Proof.Euler Proof.RotationMap Proof.RotationMore Proof.MpWigner Proof.MpEuler Proof.MpRotationProof.
From Verif Require Proof.YlmFacts.
Import ListNotations.
Open Scope R_scope.
Local Notation C := Complex.C.

(** * one rotation *)
Lemma dot_blocks_map deg W move M p : (forall l, (l <= deg)%nat -> rotates_degree l (W l) move) -> sphere3 p ->
  map_at deg (dot_blocks deg W M) p = map_at deg M (move p).
Proof.
  intros HW Hs. rewrite !map_at_Yat. apply bigsum_ext. intros l Hl.
  rewrite (bigsum_ext _ (fun nu => nth (l * l + nu) (dot_blocks _ _ _) 0 * _)
     (fun c => bigsum (2 * l + 1) (fun r => nth (l * l + r) M 0 * (W l r c * Yat l p (Z.of_nat c - Z.of_nat l))))).
  2:{ intros c Hc. rewrite dot_blocks_nth by lia. rewrite Rmult_comm, <- bigsum_scal. apply bigsum_ext. intros; ring. }
  rewrite bigsum_swap. apply bigsum_ext. intros r Hr. rewrite bigsum_scal. f_equal.
  change (Yat l) with (fun q m => harmonic_at l m q). cbv beta. apply HW; (lia || assumption).
Qed.
Definition dot_one (deg : nat) (Rm : blocks) (M : list R) : list R :=
  flat_map (fun l => if (l =? 0)%nat then [1] else map (fun c => bigsum (2 * l + 1) (fun r => nth (l * l + r) M 0 * Rm l r c)) (seq 0 (2 * l + 1))) (seq 0 (deg + 1)).
Lemma dot_one_length deg Rm M : length (dot_one deg Rm M) = ncoef deg.
Proof. unfold dot_one. rewrite (blocks_length _ (deg + 1)); [reflexivity|]. intros l. destruct (Nat.eqb_spec l 0) as [->|]; [reflexivity|]. now rewrite map_length, seq_length. Qed.
Lemma dot_one_nth deg Rm M l c : (l <= deg)%nat -> (c <= 2 * l)%nat -> nth (l * l + c) (dot_one deg Rm M) 0 = if (l =? 0)%nat then 1 else bigsum (2 * l + 1) (fun r => nth (l * l + r) M 0 * Rm l r c).
Proof.
  intros Hl Hc. unfold dot_one. rewrite (nth_blocks _ (deg + 1) l c); [| |lia|lia].
  - destruct (Nat.eqb_spec l 0) as [->|]; [replace c with 0%nat by lia; reflexivity|].
    pose (F := fun c => bigsum (2 * l + 1) (fun r => nth (l * l + r) M 0 * Rm l r c)). change (nth c (map F (seq 0 (2 * l + 1))) 0 = F c).
    rewrite (nth_indep _ 0 (F 0%nat)) by (rewrite map_length, seq_length; lia). rewrite map_nth, seq_nth by lia. reflexivity.
  - intros k. destruct (Nat.eqb_spec k 0) as [->|]; [reflexivity|]. now rewrite map_length, seq_length.
Qed.
Lemma do_dot_ok deg t Rm M : length M = ncoef deg -> t <> 0 -> mp_do_dot deg (Some t) Rm M = Ok (dot_one deg Rm M).
Proof.
  intros HM Ht. unfold mp_do_dot. destruct (Reqb t 0) eqn:E; [apply Reqb_true in E; contradiction|].
  destruct (Nat.ltb_spec (length M) ((deg + 1) * (deg + 1))); [unfold ncoef in HM; lia|]. rewrite andb_false_r. reflexivity.
Qed.
Lemma do_dot_matrices deg Rm M : length M = ncoef deg -> mp_dot_matrices deg Rm M = Ok (dot_one deg Rm M).
Proof.
  intros HM. unfold mp_dot_matrices, mp_do_dot. destruct (Nat.ltb_spec (length M) ((deg + 1) * (deg + 1))); [unfold ncoef in HM; lia|]. rewrite andb_false_r. reflexivity.
Qed.
Lemma dot_zero_angle Uinv tol prec deg u M : norm3 u <> 0 -> 0 < tol < 1 -> mp_dot_rotation Uinv tol prec deg u 0 M = Ok M.
Proof.
  intros Hn Ht. destruct (mp_R_zero Uinv tol u Hn Ht) as (a & b & g & H). unfold mp_dot_rotation. rewrite H. cbn [rbind]. unfold mp_do_dot. now rewrite (proj2 (Reqb_true 0 0) eq_refl).
Qed.
(** all expressible rotations at once: the limit angles *)
Lemma expressible_t u t : expressible u t -> t <> 0.
Proof. intros [Hn [[_ H]|[H _]]] ->; [rewrite cos_0 in H; lra|apply H; apply rot_axis_zero]. Qed.
Lemma mp_R_angles Uinv tol u t : 0 < tol -> expressible u t ->
  exists a b g, (forall prec, mp_R Uinv tol prec u t = Ok (fun l => mp_rot_matrix Uinv prec l a b g)) /\ (forall p, rot_z a (rot_y b (rot_z g p)) = rot_axis (direction u) t p).
Proof.
  intros Htol H. pose proof (expressible_t _ _ H) as Ht. destruct H as [Hn H].
  assert (Hz : forall s, direction u = (0, 0, s) -> cos t <> 1 -> exists a b g, (forall prec, mp_R Uinv tol prec u t = Ok (fun l => mp_rot_matrix Uinv prec l a b g)) /\ (forall p, rot_z a (rot_y b (rot_z g p)) = rot_axis (direction u) t p)).
  { intros s Ed Hc. destruct (mp_R_z Uinv tol u t s Hn Ed Htol Ht Hc) as (a & g & H1 & H2). exists a, 0, g. split; [exact H1|]. intros p. rewrite <- H2. rewrite <- (rot_axis_y 0), rot_axis_zero. reflexivity. }
  destruct H as [[[Ed|Ed] Hc]|[H1 H2]]; [now apply (Hz 1)|now apply (Hz (-1))|].
  destruct (mp_R_general Uinv tol u t Hn Ht) as (a & b & g & A & _ & B); try assumption.
  - intros E. apply H1. rewrite E, rot_axis_z. unfold rot_z. apply triple_eq; ring.
  - intros E. apply H1. rewrite E. unfold rot_axis, add3, scal3, cross3, dot3. apply triple_eq; ring.
  - exists a, b, g. split; assumption.
Qed.

(** * continuity of the blocks in the middle angle *)
Lemma continuous_bigsum n (f : nat -> R -> R) x : (forall i, (i < n)%nat -> continuous (f i) x) -> continuous (fun y => bigsum n (fun i => f i y)) x.
Proof.
  induction n as [|n IH]; intros H; cbn [bigsum]; [apply continuous_const|].
  apply (continuous_plus (fun y => bigsum n (fun i => f i y)) (f n)); [apply IH; intros; apply H; lia|apply H; lia].
Qed.
Lemma continuous_tm J i k b beta : continuous (fun y => tm J i k b (cos (y / 2)) (sin (y / 2))) beta.
Proof.
  unfold tm. destruct ((i <=? k + b) && (k + b <=? J))%nat%bool; [|apply continuous_const].
  apply (ex_derive_continuous (V := R_NormedModule)). auto_derive. repeat split; auto.
Qed.
Lemma continuous_wigner L l k i beta : (k <= 2 * l)%nat -> (i <= 2 * l)%nat -> continuous (fun y => wigner_d L y l (Z.of_nat k) (Z.of_nat i)) beta.
Proof.
  intros Hk Hi. apply (continuous_ext (fun y => explicit (2 * l) (cos (y / 2)) (sin (y / 2)) k i)); [intros; now apply explicit_wigner|].
  unfold explicit. apply (continuous_mult (K := R_AbsRing) (fun _ => sqrt _)); [apply continuous_const|]. apply continuous_bigsum. intros. apply continuous_tm.
Qed.
Lemma csum_re n f : Re (csum n f) = bigsum n (fun i => Re (f i)).
Proof. induction n as [|n IH]; cbn [csum bigsum]; [reflexivity|]. rewrite <- IH. reflexivity. Qed.
Lemma continuous_ZYZ a g l r c beta : continuous (fun b => ZYZ a b g l r c) beta.
Proof.
  unfold ZYZ, rotation_matrix, euler. destruct (Reqb 1 0) eqn:E1; [apply Reqb_true in E1; lra|]. cbv beta iota zeta.
  apply (continuous_ext (fun b => bigsum (2 * l + 1) (fun i => bigsum (2 * l + 1) (fun j =>
     Re ((Cconj (Umn (Z.of_nat i - Z.of_nat l) (Z.of_nat (l - l + r) - Z.of_nat l)) * cexpm (IZR (Z.of_nat j - Z.of_nat l) * g + IZR (Z.of_nat i - Z.of_nat l) * a) * Umn (Z.of_nat j - Z.of_nat l) (Z.of_nat (l - l + c) - Z.of_nat l))%C) * wigner_d (S l) b l (Z.of_nat i) (Z.of_nat j))))).
  - intros b. rewrite csum_re. apply bigsum_ext. intros i Hi. rewrite csum_re. apply bigsum_ext. intros j Hj. rewrite dls_wigner.
    replace (Z.of_nat i - (Z.of_nat l - Z.of_nat l))%Z with (Z.of_nat i) by lia. replace (Z.of_nat j - (Z.of_nat l - Z.of_nat l))%Z with (Z.of_nat j) by lia.
    unfold Re, Cconj, Cmult, RtoC. cbn [fst snd]. ring.
  - apply continuous_bigsum. intros i Hi. apply continuous_bigsum. intros j Hj.
    apply (continuous_mult (K := R_AbsRing) (fun _ => Re _)); [apply continuous_const|]. apply continuous_wigner; lia.
Qed.

(** * limits *)
Definition tends (f : R -> R) (l : R) : Prop := filterlim f (at_right 0) (locally l).
Lemma tends_const l : tends (fun _ => l) l.
Proof. apply filterlim_const. Qed.
Lemma tends_plus f g a b : tends f a -> tends g b -> tends (fun x => f x + g x) (a + b).
Proof. intros Hf Hg. unfold tends. eapply filterlim_comp_2; [exact Hf|exact Hg|]. apply (filterlim_plus (V := R_NormedModule)). Qed.
Lemma tends_mult f g a b : tends f a -> tends g b -> tends (fun x => f x * g x) (a * b).
Proof. intros Hf Hg. unfold tends. eapply filterlim_comp_2; [exact Hf|exact Hg|]. apply (filterlim_mult (K := R_AbsRing)). Qed.
Lemma tends_bigsum n (f : nat -> R -> R) g : (forall i, (i < n)%nat -> tends (f i) (g i)) -> tends (fun x => bigsum n (fun i => f i x)) (bigsum n g).
Proof. induction n as [|n IH]; intros H; cbn [bigsum]; [apply tends_const|]. apply (tends_plus (fun x => bigsum n (fun i => f i x)) (f n)); [apply IH; intros; apply H; lia|apply H; lia]. Qed.
Lemma tends_spec f l : tends f l <-> forall eps, 0 < eps -> exists d, 0 < d /\ forall x, 0 < x < d -> Rabs (f x - l) < eps.
Proof.
  unfold tends. split.
  - intros H eps He. assert (P : locally l (fun y => Rabs (y - l) < eps)) by (exists (mkposreal eps He); intros y Hy; exact Hy).
    destruct (H _ P) as [d Hd]. exists d. split; [apply cond_pos|]. intros x Hx. apply Hd; [|lra]. unfold ball. cbn. unfold AbsRing_ball, abs, minus, plus, opp. cbn. rewrite Ropp_0, Rplus_0_r, Rabs_right; lra.
  - intros H P [eps He]. destruct (H eps (cond_pos eps)) as (d & Hd & Hx). exists (mkposreal d Hd). intros x Hb H0. apply He. unfold ball. cbn. apply Hx. split; [exact H0|].
    unfold ball in Hb. cbn in Hb. unfold AbsRing_ball, abs, minus, plus, opp in Hb. cbn in Hb. rewrite Ropp_0, Rplus_0_r, Rabs_right in Hb; lra.
Qed.
(** a block as the digits grow *)
Lemma tends_block Uinv a b g l r c : inverse_of_U Uinv -> (1 <= l)%nat -> (r < 2 * l + 1)%nat -> (c < 2 * l + 1)%nat ->
  tends (fun prec => mp_rot_matrix Uinv prec l a b g r c) (ZYZ a b g l r c).
Proof.
  intros HU Hl Hr Hc. apply tends_spec. intros eps He.
  assert (Hcont : exists d, 0 < d /\ forall x, 0 < x < d -> Rabs (ZYZ a (if Reqb b 0 then x else b) g l r c - ZYZ a b g l r c) < eps / 2).
  { destruct (Reqb b 0) eqn:E.
    - apply Reqb_true in E. subst b. assert (P : locally (ZYZ a 0 g l r c) (fun y => Rabs (y - ZYZ a 0 g l r c) < eps / 2)) by (exists (mkposreal (eps / 2) ltac:(lra)); intros y Hy; exact Hy).
      destruct (continuous_ZYZ a g l r c 0 _ P) as [d Hd]. exists d. split; [apply cond_pos|]. intros x Hx. apply (Hd x). unfold ball. cbn. unfold AbsRing_ball, abs, minus, plus, opp. cbn. rewrite Ropp_0, Rplus_0_r, Rabs_right; lra.
    - exists 1. split; [lra|]. intros. rewrite Rminus_eq_0, Rabs_R0. lra. }
  destruct Hcont as (d & Hd & Hx). exists (Rmin d (eps / 2)). split; [apply Rmin_pos; lra|]. intros x [H0 H1]. pose proof (Rmin_l d (eps / 2)). pose proof (Rmin_r d (eps / 2)).
  pose proof (cut_error x _ _ _ r c (rot_cut Uinv x l a b g HU Hl) Hr Hc H0) as Hcut. specialize (Hx x ltac:(lra)).
  set (w := mp_rot_matrix _ _ _ _ _ _ _ _) in *. set (v := ZYZ a (if Reqb b 0 then x else b) g l r c) in *. set (v0 := ZYZ a b g l r c) in *.
  replace (w - v0) with ((w - v) + (v - v0)) by ring. eapply Rle_lt_trans; [apply Rabs_triang|]. lra.
Qed.
(** lists that converge entry by entry *)
Definition conv (f : R -> result (list R)) (r : list R) : Prop := exists F, (forall prec, f prec = Ok (F prec) /\ length (F prec) = length r) /\ forall n, tends (fun prec => nth n (F prec) 0) (nth n r 0).
Lemma conv_approaches f r : conv f r -> approaches f r.
Proof.
  intros (F & HF & Hn) eps He.
  assert (K : forall N, exists d, 0 < d /\ forall prec, 0 < prec < d -> forall n, (n < N)%nat -> Rabs (nth n (F prec) 0 - nth n r 0) < eps).
  { induction N as [|N (d & Hd & IH)]; [exists 1; split; [lra|intros; lia]|]. destruct (proj1 (tends_spec _ _) (Hn N) eps He) as (d' & Hd' & H').
    exists (Rmin d d'). split; [now apply Rmin_pos|]. intros x Hx n HnN. pose proof (Rmin_l d d'). pose proof (Rmin_r d d'). destruct (Nat.eq_dec n N) as [->|]; [apply H'; lra|apply IH; [lra|lia]]. }
  destruct (K (length r)) as (d & Hd & Hx). exists d. split; [exact Hd|]. intros x Hx'. destruct (HF x) as [H1 H2]. exists (F x). split; [exact H1|split; [exact H2|]]. intros n.
  destruct (Nat.lt_ge_cases n (length r)) as [Hl|Hl]; [now apply Hx|]. rewrite !nth_overflow by lia. rewrite Rminus_eq_0, Rabs_R0. exact He.
Qed.
Lemma conv_const r : conv (fun _ => Ok r) r.
Proof. exists (fun _ => r). split; [intros; split; reflexivity|intros; apply tends_const]. Qed.
Lemma conv_ext f g r : (forall x, f x = g x) -> conv f r -> conv g r.
Proof. intros E (F & H1 & H2). exists F. split; [intros x; rewrite <- E; apply H1|exact H2]. Qed.
Lemma slot_lm n deg : (n < ncoef deg)%nat -> exists l c, (l <= deg)%nat /\ (c <= 2 * l)%nat /\ n = (l * l + c)%nat.
Proof.
  intros H. exists (Nat.sqrt n), (n - Nat.sqrt n * Nat.sqrt n)%nat. pose proof (Nat.sqrt_spec n ltac:(lia)) as [H1 H2]. unfold ncoef in H. split; [|split; [lia|lia]].
  assert (Nat.sqrt n < deg + 1)%nat; [|lia]. apply Nat.square_lt_simpl_nonneg; lia.
Qed.
(** the exact target of one rotation *)
Lemma conv_dot Uinv tol deg u t f M : inverse_of_U Uinv -> 0 < tol -> expressible u t -> length M = ncoef deg -> nth 0 M 0 = 1 -> conv f M ->
  exists M', length M' = ncoef deg /\ nth 0 M' 0 = 1 /\ (forall p, sphere3 p -> map_at deg M' p = map_at deg M (rot_axis (direction u) t p)) /\
    conv (fun prec => rbind (f prec) (mp_dot_rotation Uinv tol prec deg u t)) M'.
Proof.
  intros HU Htol He HM H1 (F & HF & Hn). destruct (mp_R_angles Uinv tol u t Htol He) as (a & b & g & HR & Hrot). pose proof (expressible_t _ _ He) as Ht.
  assert (HZ : forall l, (l <= deg)%nat -> rotates_degree l (ZYZ a b g l) (rot_axis (direction u) t)) by (intros; now apply ZYZ_rotates).
  assert (W0 : ZYZ a b g 0 0 0 = 1).
  { assert (E' : rotates_degree 0 (ZYZ a b g 0) (fun p => rot_z a (rot_y b (rot_z g p)))) by (apply ZYZ_rotates; reflexivity).
    specialize (E' 0%nat (0, 0, 1) ltac:(lia) ltac:(unfold sphere3, dot3; ring)). cbn [Nat.mul Nat.add bigsum] in E'. rewrite Rplus_0_l in E'. change (Z.of_nat 0 - Z.of_nat 0)%Z with 0%Z in E'.
    destruct (rot_z a _) as [[x y] z]. cbn [harmonic_at] in E'. rewrite !YlmFacts.Y00 in E'. pose proof PI_RGT_0.
    match type of E' with _ * ?k = _ => assert (Y1 : k <> 0) end.
    { assert (0 < sqrt (4 * PI)) by (apply sqrt_lt_R0; lra). apply Rgt_not_eq. apply Rmult_lt_0_compat; [lra|apply Rinv_0_lt_compat; lra]. }
    apply (Rmult_eq_reg_r _ _ _) with (2 := Y1). rewrite E'. ring. }
  set (M' := dot_blocks deg (ZYZ a b g) M). assert (N0 : nth 0 M' 0 = 1).
  { unfold M'. rewrite (dot_blocks_nth deg _ _ 0 0) by lia. cbn [Nat.mul Nat.add bigsum]. rewrite H1, W0. ring. }
  exists M'. split; [apply dot_blocks_length|split; [exact N0|split]].
  { intros p Hp. now apply dot_blocks_map. }
  exists (fun prec => dot_one deg (fun l => mp_rot_matrix Uinv prec l a b g) (F prec)). split.
  - intros prec. destruct (HF prec) as [HF1 HF2]. rewrite HF1. cbn [rbind]. unfold mp_dot_rotation. rewrite HR. cbn [rbind]. rewrite do_dot_ok by congruence. split; [reflexivity|]. unfold M'. now rewrite dot_one_length, dot_blocks_length.
  - intros n. destruct (Nat.lt_ge_cases n (ncoef deg)) as [Hl|Hl].
    + destruct (slot_lm n deg Hl) as (l & c & L1 & L2 & ->). unfold tends. destruct (Nat.eq_dec l 0) as [->|Hl0].
      * replace c with 0%nat in * by lia. cbn [Nat.mul Nat.add]. rewrite N0. eapply filterlim_ext; [|apply filterlim_const]. intros x. cbv beta. symmetry. now rewrite (dot_one_nth deg _ _ 0 0) by lia.
      * unfold M'. rewrite dot_blocks_nth by lia.
        apply (filterlim_ext (fun x => bigsum (2 * l + 1) (fun r => nth (l * l + r) (F x) 0 * mp_rot_matrix Uinv x l a b g r c))).
        { intros x. rewrite dot_one_nth by lia. destruct (Nat.eqb_spec l 0); [contradiction|reflexivity]. }
        apply tends_bigsum. intros r Hr. apply tends_mult; [apply Hn|]. apply tends_block; (assumption || lia).
    + unfold tends. rewrite (nth_overflow M') by (unfold M'; rewrite dot_blocks_length; exact Hl). eapply filterlim_ext; [|apply filterlim_const]. intros x. cbv beta. symmetry. apply nth_overflow. rewrite dot_one_length. exact Hl.
Qed.

(** * left_project *)
Lemma direction_of_unit u : unit3 u -> norm3 u <> 0 /\ direction u = u.
Proof.
  intros H. split; [|now apply norm3_unit]. unfold norm3. unfold unit3 in H. rewrite H, sqrt_1. lra.
Qed.
Lemma expressible_x t : cos t = 0 -> expressible (1, 0, 0) t.
Proof.
  intros Hc. destruct (direction_of_unit (1, 0, 0)) as [Hn Ed]; [unfold unit3, dot3; ring|]. split; [exact Hn|]. right. rewrite Ed, rot_axis_x. unfold rot_x. rewrite Hc.
  split; intros E; injection E; intros; lra.
Qed.
Lemma expressible_z t : cos t <> 1 -> expressible (0, 0, 1) t.
Proof. intros Hc. destruct (direction_of_unit (0, 0, 1)) as [Hn Ed]; [unfold unit3, dot3; ring|]. split; [exact Hn|]. left. split; [now left|exact Hc]. Qed.
Lemma horizontal_unit o : unit3 (- cos o, - sin o, 0).
Proof. unfold unit3, dot3. pose proof (sin2_cos2 o) as H. unfold Rsqr in H. lra. Qed.
Lemma expressible_horizontal o t : sin t <> 0 -> expressible (- cos o, - sin o, 0) t.
Proof.
  intros Hs. destruct (direction_of_unit _ (horizontal_unit o)) as [Hn Ed]. split; [exact Hn|]. right. rewrite Ed. unfold rot_axis, add3, scal3, cross3, dot3.
  pose proof (sin2_cos2 t) as H. unfold Rsqr in H. split; intros E; injection E; intros E3 _ _; apply Hs; assert (Ec : cos t * cos t = 1) by nra; nra.
Qed.
Lemma horizontal_conj o t p : rot_axis (- cos o, - sin o, 0) t p = rot_z o (rot_x (- t) (rot_z (- o) p)).
Proof.
  destruct p as [[x y] z]. unfold rot_axis, rot_z, rot_x, add3, scal3, cross3, dot3. rewrite !cos_neg, !sin_neg. pose proof (sin2_cos2 o) as H. unfold Rsqr in H.
  set (c := cos o) in *. set (s := sin o) in *. set (ct := cos t). set (st := sin t). apply triple_eq.
  - transitivity (ct * x * (s * s + c * c) - z * s * st + (1 - ct) * c * (c * x + s * y)); [rewrite H|]; ring.
  - transitivity (ct * y * (s * s + c * c) + z * c * st + (1 - ct) * s * (c * x + s * y)); [rewrite H|]; ring.
  - ring.
Qed.
Lemma rot_x_add a b p : rot_x a (rot_x b p) = rot_x (a + b) p.
Proof. destruct p as [[x y] z]. unfold rot_x. rewrite cos_plus, sin_plus. apply triple_eq; ring. Qed.
Lemma rot_z_add a b p : rot_z a (rot_z b p) = rot_z (a + b) p.
Proof. destruct p as [[x y] z]. unfold rot_z. rewrite cos_plus, sin_plus. apply triple_eq; ring. Qed.
Lemma rot_x_0 p : rot_x 0 p = p.
Proof. destruct p as [[x y] z]. unfold rot_x. rewrite cos_0, sin_0. apply triple_eq; ring. Qed.
Lemma rot_z_0 p : rot_z 0 p = p.
Proof. destruct p as [[x y] z]. unfold rot_z. rewrite cos_0, sin_0. apply triple_eq; ring. Qed.

Lemma left_project_conv Uinv tol deg inc obl theta y : inverse_of_U Uinv -> 0 < tol < 1 -> length y = ncoef deg -> nth 0 y 0 = 1 ->
  theta = 0 \/ cos theta <> 1 -> obl = 0 \/ cos obl <> 1 -> inc = PI / 2 \/ cos inc <> 0 ->
  exists r, length r = ncoef deg /\ (forall p, sphere3 p -> map_at deg r p = map_at deg y (rot_x (- (PI / 2)) (rot_z (- theta) (rot_x inc (rot_z (- obl) p))))) /\
    approaches (fun prec => mp_left_project Uinv tol prec deg inc obl theta 0 y) r.
Proof.
  intros HU Htol HL H1 Hth Hob Hin. assert (T0 : 0 < tol) by lra. assert (Ec : cos (1 / 2 * PI) = 0) by (replace (1 / 2 * PI) with (PI / 2) by field; apply cos_PI2).
  assert (Ecn : cos (- (1 / 2 * PI)) = 0) by (rewrite cos_neg; exact Ec).
  (* theta *)
  set (f1 := fun prec => if Reqb theta 0 then Ok y else rbind (mp_dot_rotation Uinv tol prec deg (1, 0, 0) (- (1 / 2 * PI)) y) (fun x =>
              rbind (mp_dot_rotation Uinv tol prec deg (0, 0, 1) (- theta) x) (fun x => mp_dot_rotation Uinv tol prec deg (1, 0, 0) (1 / 2 * PI) x))).
  assert (S1 : exists r, length r = ncoef deg /\ nth 0 r 0 = 1 /\ (forall p, sphere3 p -> map_at deg r p = map_at deg y (rot_x (- (PI / 2)) (rot_z (- theta) (rot_x (PI / 2) p)))) /\ conv f1 r).
  { unfold f1. destruct (Reqb theta 0) eqn:Et.
    - apply Reqb_true in Et. exists y. split; [exact HL|split; [exact H1|split; [|apply conv_const]]]. intros p Hp. rewrite Et, Ropp_0, rot_z_0, rot_x_add. replace (- (PI / 2) + PI / 2) with 0 by ring. now rewrite rot_x_0.
    - destruct Hth as [Hth|Hth]; [rewrite (proj2 (Reqb_true theta 0) Hth) in Et; discriminate|].
      destruct (conv_dot Uinv tol deg (1, 0, 0) (- (1 / 2 * PI)) _ y HU T0 (expressible_x _ Ecn) HL H1 (conv_const y)) as (a & La & Na & Va & Ca).
      destruct (conv_dot Uinv tol deg (0, 0, 1) (- theta) _ a HU T0 (expressible_z _ ltac:(rewrite cos_neg; exact Hth)) La Na Ca) as (b & Lb & Nb & Vb & Cb).
      destruct (conv_dot Uinv tol deg (1, 0, 0) (1 / 2 * PI) _ b HU T0 (expressible_x _ Ec) Lb Nb Cb) as (c & Lc & Nc & Vc & Cc).
      exists c. split; [exact Lc|split; [exact Nc|split]].
      + intros p Hp. assert (Ux : unit3 (1, 0, 0)) by (unfold unit3, dot3; ring). assert (Uz : unit3 (0, 0, 1)) by (unfold unit3, dot3; ring).
        rewrite Vc by exact Hp. rewrite (proj2 (direction_of_unit _ Ux)) in *. rewrite (proj2 (direction_of_unit _ Uz)) in *.
        rewrite Vb by (now apply rot_axis_sphere). rewrite Va by (apply rot_axis_sphere; [exact Uz|now apply rot_axis_sphere]). rewrite !rot_axis_x, !rot_axis_z. replace (1 / 2 * PI) with (PI / 2) by field. reflexivity.
      + eapply conv_ext; [|exact Cc]. intros prec. cbn [rbind]. destruct (mp_dot_rotation Uinv tol prec deg (1, 0, 0) (- (1 / 2 * PI)) y); reflexivity. }
  destruct S1 as (a & La & Na & Va & Ca).
  (* obl *)
  set (f2 := fun prec => rbind (f1 prec) (fun x => if Reqb obl 0 then Ok x else mp_dot_rotation Uinv tol prec deg (0, 0, 1) (- obl) x)).
  assert (S2 : exists r, length r = ncoef deg /\ nth 0 r 0 = 1 /\ (forall p, sphere3 p -> map_at deg r p = map_at deg a (rot_z (- obl) p)) /\ conv f2 r).
  { unfold f2. destruct (Reqb obl 0) eqn:Et.
    - apply Reqb_true in Et. exists a. split; [exact La|split; [exact Na|split; [|eapply conv_ext; [|exact Ca]]]]; [intros p Hp; now rewrite Et, Ropp_0, rot_z_0|]. intros x. destruct (f1 x); reflexivity.
    - destruct Hob as [Hob|Hob]; [rewrite (proj2 (Reqb_true obl 0) Hob) in Et; discriminate|].
      destruct (conv_dot Uinv tol deg (0, 0, 1) (- obl) _ a HU T0 (expressible_z _ ltac:(rewrite cos_neg; exact Hob)) La Na Ca) as (b & Lb & Nb & Vb & Cb).
      exists b. split; [exact Lb|split; [exact Nb|split; [|exact Cb]]]. intros p Hp. assert (Uz : unit3 (0, 0, 1)) by (unfold unit3, dot3; ring). rewrite Vb by exact Hp. rewrite (proj2 (direction_of_unit _ Uz)), rot_axis_z. reflexivity. }
  destruct S2 as (b & Lb & Nb & Vb & Cb).
  (* inc *)
  set (t := 1 / 2 * PI - inc).
  assert (S3 : exists r, length r = ncoef deg /\ (forall p, sphere3 p -> map_at deg r p = map_at deg b (rot_axis (- cos obl, - sin obl, 0) t p)) /\ conv (fun prec => rbind (f2 prec) (mp_dot_rotation Uinv tol prec deg (- cos obl, - sin obl, 0) t)) r).
  { destruct (direction_of_unit _ (horizontal_unit obl)) as [Hn Ed]. destruct (Req_dec t 0) as [E|E].
    - exists b. split; [exact Lb|split; [intros p _; now rewrite E, rot_axis_zero|]]. eapply conv_ext; [|exact Cb]. intros x. rewrite E. destruct (f2 x); [|reflexivity]. cbn [rbind]. now rewrite dot_zero_angle.
    - assert (Hx : expressible (- cos obl, - sin obl, 0) t).
      { apply expressible_horizontal. unfold t. replace (1 / 2 * PI - inc) with (PI / 2 - inc) by field. rewrite sin_shift. destruct Hin as [Hin|Hin]; [exfalso; apply E; unfold t; rewrite Hin; field|exact Hin]. }
      destruct (conv_dot Uinv tol deg (- cos obl, - sin obl, 0) t f2 b HU T0 Hx Lb Nb Cb) as (c & Lc & Nc & Vc & Cc).
      exists c. split; [exact Lc|split; [|exact Cc]]. intros p Hp. rewrite Vc by exact Hp. now rewrite Ed. }
  destruct S3 as (c & Lc & Vc & Cc). exists c. split; [exact Lc|split].
  - intros p Hp. rewrite Vc by exact Hp. assert (Uh := horizontal_unit obl). rewrite Vb by (now apply rot_axis_sphere). rewrite Va.
    2:{ rewrite <- rot_axis_z. apply rot_axis_sphere; [unfold unit3, dot3; ring|now apply rot_axis_sphere]. }
    rewrite horizontal_conj, rot_z_add. replace (- obl + obl) with 0 by ring. rewrite rot_z_0, rot_x_add. unfold t. replace (PI / 2 + - (1 / 2 * PI - inc)) with inc by field. reflexivity.
  - apply conv_approaches. eapply conv_ext; [|exact Cc]. intros prec. unfold mp_left_project, f2. fold (f1 prec). destruct (f1 prec) as [v|e]; [|reflexivity]. cbn [rbind].
    fold t. destruct (if Reqb obl 0 then Ok v else _) as [v'|e]; [|reflexivity]. cbn [rbind]. destruct (mp_dot_rotation Uinv tol prec deg (- cos obl, - sin obl, 0) t v'); [|reflexivity]. cbn [rbind]. now rewrite (proj2 (Reqb_true 0 0) eq_refl).
Qed.
