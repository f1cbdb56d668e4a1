From Coq Require Import Reals ZArith List Bool Arith Lra Lia.
From Verif.Base Require Import RealAux.
From Verif.Model Require Import TransitOrbit TTV.
From Verif.Spec Require Import TTVSpec.
From Verif.Proof Require Import TransitProof.
Import ListNotations.
Open Scope R_scope.

(** ** Least squares *)
Definition S1 (l : list (R * Z)) := Rsum (map (fun q => IZR (snd q)) l).
Definition S2 (l : list (R * Z)) := Rsum (map (fun q => IZR (snd q) * IZR (snd q)) l).
Definition St (l : list (R * Z)) := Rsum (map fst l).
Definition Sit (l : list (R * Z)) := Rsum (map (fun q => IZR (snd q) * fst q) l).
Definition Stt (l : list (R * Z)) := Rsum (map (fun q => fst q * fst q) l).
Definition Sn (l : list (R * Z)) := INR (length l).
Definition Sdet l := Sn l * S2 l - S1 l * S1 l.

Ltac unf := unfold S1, S2, St, Sit, Stt, Sn in *; cbn [map Rsum fold_right fst snd length] in *;
  repeat match goal with |- context [fold_right Rplus 0 ?l] => fold (Rsum l) end.

Lemma sum_sq_expand a b l : sum_sq a b l =
  Stt l - 2 * a * St l - 2 * b * Sit l + Sn l * a * a + 2 * a * b * S1 l + b * b * S2 l.
Proof.
  induction l as [|[t i] l IH]. { unf. simpl. ring. }
  cbn [sum_sq]. rewrite IH. unfold residual, Rsqr. unf. rewrite S_INR. ring.
Qed.
Lemma sum_sq_line_nonneg a b l : 0 <= Sn l * a * a + 2 * a * b * S1 l + b * b * S2 l.
Proof.
  induction l as [|[t i] l IH]. { unf. simpl. lra. }
  unf. rewrite S_INR. pose proof (Rle_0_sqr (a + b * IZR i)) as H. unfold Rsqr in H. lra.
Qed.
Lemma Sdet_cons q l : Sdet (q :: l) = Sdet l + Rsum (map (fun p => (IZR (snd q) - IZR (snd p))²) l).
Proof.
  unfold Sdet. 
  assert (E : Rsum (map (fun p => (IZR (snd q) - IZR (snd p))²) l)
     = S2 l + Sn l * (IZR (snd q) * IZR (snd q)) - 2 * IZR (snd q) * S1 l).
  { induction l as [|p l IH]. { unf. simpl. ring. }
    cbn [map Rsum fold_right]. fold (Rsum (map (fun p => (IZR (snd q) - IZR (snd p))²) l)).
    rewrite IH. unfold Rsqr. unf. rewrite S_INR. ring. }
  rewrite E. unf. rewrite S_INR. ring.
Qed.
Lemma Sdet_nonneg l : 0 <= Sdet l.
Proof.
  induction l as [|q l IH]. { unfold Sdet. unf. simpl. lra. }
  rewrite Sdet_cons. enough (0 <= Rsum (map (fun p => (IZR (snd q) - IZR (snd p))²) l)) by lra.
  apply Rsum_nonneg. intros x Hx. apply in_map_iff in Hx. destruct Hx as (p & <- & _). apply Rle_0_sqr.
Qed.
Lemma Rsum_pos_in l x : (forall y, In y l -> 0 <= y) -> In x l -> x <= Rsum l.
Proof.
  induction l as [|y l IH]; intros H Hx; [destruct Hx|]. unfold Rsum. cbn [fold_right]. fold (Rsum l).
  destruct Hx as [-> | Hx].
  - enough (0 <= Rsum l) by lra. apply Rsum_nonneg. intros; apply H; now right.
  - assert (x <= Rsum l) by (apply IH; [intros; apply H; now right|assumption]).
    assert (0 <= y) by (apply H; now left). lra.
Qed.
Lemma Sdet_pos l p q : In p l -> In q l -> snd p <> snd q -> 0 < Sdet l.
Proof.
  intros Hp Hq Hne. induction l as [|r l IH]; [destruct Hp|].
  rewrite Sdet_cons. pose proof (Sdet_nonneg l) as Hd.
  assert (Hnn : forall y, In y (map (fun p => (IZR (snd r) - IZR (snd p))²) l) -> 0 <= y).
  { intros y Hy. apply in_map_iff in Hy. destruct Hy as (s & <- & _). apply Rle_0_sqr. }
  assert (Hs := Rsum_nonneg _ Hnn).
  assert (Hcase : forall s, In s l -> snd r <> snd s -> 0 < Sdet l + Rsum (map (fun p => (IZR (snd r) - IZR (snd p))²) l)).
  { intros s Hsl Hns.
    assert ((IZR (snd r) - IZR (snd s))² <= Rsum (map (fun p => (IZR (snd r) - IZR (snd p))²) l)).
    { apply Rsum_pos_in; [assumption|]. apply in_map_iff. now exists s. }
    assert (0 < (IZR (snd r) - IZR (snd s))²). { apply Rlt_0_sqr. intros E. apply Hns. apply eq_IZR. lra. }
    lra. }
  destruct Hp as [-> | Hp], Hq as [-> | Hq].
  - congruence.
  - now apply (Hcase q).
  - now apply (Hcase p); [|congruence].
  - specialize (IH Hp Hq). lra.
Qed.

(** the model's matrices are these sums *)
Lemma dot_ones_map {A} (l : list A) (r : list R) : length l = length r ->
  dotp (map (fun _ => 1) l) r = Rsum r.
Proof.
  revert r. induction l as [|x l IH]; intros [|y r] H; simpl in H; try discriminate; [reflexivity|].
  unfold dotp in *. cbn [map combine Rsum fold_right fst snd]. injection H as H. specialize (IH r H).
  unfold Rsum in IH. rewrite IH. unfold Rsum. ring.
Qed.
Lemma dotp_comm a b : dotp a b = dotp b a.
Proof.
  revert b. induction a as [|x a IH]; intros [|y b]; try reflexivity.
  unfold dotp in *. cbn [combine map Rsum fold_right fst snd]. specialize (IH b). unfold Rsum in IH. rewrite IH. ring.
Qed.
Lemma combine_map_fst {A B} (l : list (A * B)) : combine (map fst l) (map snd l) = l.
Proof. induction l as [|[a b] l IH]; simpl; congruence. Qed.

Lemma linear_ephemeris_eq (l : list (R * Z)) : exists a b,
  linear_ephemeris (map fst l) (map snd l) = (a, b, map (residual a b) l) /\
  a = (St l * S2 l - S1 l * Sit l) / Sdet l /\ b = (Sn l * Sit l - S1 l * St l) / Sdet l.
Proof.
  unfold linear_ephemeris. rewrite combine_map_fst.
  assert (E1 : dotp (map (fun _ : R => 1) (map fst l)) (map (fun _ : R => 1) (map fst l)) = Sn l).
  { rewrite dot_ones_map by now rewrite !map_length. unfold Sn. induction l as [|q l IH]; [reflexivity|].
    cbn [map length Rsum fold_right]. unfold Rsum in IH. rewrite IH, S_INR. ring. }
  assert (E2 : dotp (map (fun _ : R => 1) (map fst l)) (map IZR (map snd l)) = S1 l).
  { rewrite dot_ones_map by now rewrite !map_length. now rewrite map_map. }
  assert (E3 : dotp (map IZR (map snd l)) (map IZR (map snd l)) = S2 l).
  { unfold dotp, S2. clear E1 E2. induction l as [|q l IH]; [reflexivity|].
    cbn [map combine Rsum fold_right fst snd]. unfold Rsum in IH. now rewrite IH. }
  assert (E4 : dotp (map (fun _ : R => 1) (map fst l)) (map fst l) = St l).
  { now rewrite dot_ones_map by now rewrite !map_length. }
  assert (E5 : dotp (map IZR (map snd l)) (map fst l) = Sit l).
  { unfold dotp, Sit. clear -l. induction l as [|q l IH]; [reflexivity|].
    cbn [map combine Rsum fold_right fst snd]. unfold Rsum in IH. now rewrite IH. }
  rewrite (dotp_comm (map IZR (map snd l)) (map (fun _ : R => 1) (map fst l))).
  rewrite E1, E2, E3, E4, E5. unfold solve2. cbn [fst snd]. fold (Sdet l).
  eexists; eexists; split; [reflexivity|]. split; reflexivity.
Qed.

Lemma normal_eqs l a b : Sdet l <> 0 ->
  a = (St l * S2 l - S1 l * Sit l) / Sdet l -> b = (Sn l * Sit l - S1 l * St l) / Sdet l ->
  Sn l * a + S1 l * b = St l /\ S1 l * a + S2 l * b = Sit l.
Proof. intros H -> ->. unfold Sdet in *. split; field; assumption. Qed.

Lemma ephemeris_fit (l : list (R * Z)) a b tv p q :
  In p l -> In q l -> snd p <> snd q ->
  linear_ephemeris (map fst l) (map snd l) = (a, b, tv) ->
  tv = map (residual a b) l /\
  (forall a' b', sum_sq a b l <= sum_sq a' b' l) /\
  (forall a' b', sum_sq a' b' l <= sum_sq a b l -> a' = a /\ b' = b) /\
  lsum tv = 0 /\ lsum (map (fun r => IZR (snd r) * residual a b r) l) = 0.
Proof.
  intros Hp Hq Hne E. destruct (linear_ephemeris_eq l) as (a0 & b0 & E0 & Ha & Hb). rewrite E0 in E.
  injection E as <- <- <-. pose proof (Sdet_pos l p q Hp Hq Hne) as Hd.
  destruct (normal_eqs l a0 b0 (Rgt_not_eq _ _ Hd) Ha Hb) as [N1 N2].
  assert (Hdiff : forall a' b', sum_sq a' b' l - sum_sq a0 b0 l =
     Sn l * (a' - a0) * (a' - a0) + 2 * (a' - a0) * (b' - b0) * S1 l + (b' - b0) * (b' - b0) * S2 l).
  { intros a' b'. rewrite !sum_sq_expand. rewrite <- N1, <- N2. ring. }
  repeat split.
  - intros a' b'. pose proof (sum_sq_line_nonneg (a' - a0) (b' - b0) l). specialize (Hdiff a' b'). lra.
  - intros. assert (HN : 0 < Sn l). { unfold Sn. apply lt_0_INR. destruct l; [destruct Hp|simpl; lia]. }
    assert (Hz : Sn l * (a' - a0) * (a' - a0) + 2 * (a' - a0) * (b' - b0) * S1 l + (b' - b0) * (b' - b0) * S2 l <= 0).
    { rewrite <- Hdiff. lra. }
    assert (Hsq : (Sn l * (a' - a0) + S1 l * (b' - b0))² + Sdet l * (b' - b0)² <= 0).
    { apply Rle_trans with (Sn l * (Sn l * (a' - a0) * (a' - a0) + 2 * (a' - a0) * (b' - b0) * S1 l + (b' - b0) * (b' - b0) * S2 l)).
      - right. unfold Sdet, Rsqr. ring.
      - rewrite <- (Rmult_0_r (Sn l)). apply Rmult_le_compat_l; lra. }
    pose proof (Rle_0_sqr (Sn l * (a' - a0) + S1 l * (b' - b0))) as Q1.
    pose proof (Rle_0_sqr (b' - b0)) as Q2.
    assert (Q3 : 0 <= Sdet l * (b' - b0)²) by (apply Rmult_le_pos; lra).
    assert (Hb' : (b' - b0)² = 0).
    { assert (Sdet l * (b' - b0)² = 0) by lra. destruct (Rmult_integral _ _ H0); lra. }
    apply Rsqr_0_uniq in Hb'.
    assert (Ha' : (Sn l * (a' - a0) + S1 l * (b' - b0))² = 0) by lra. apply Rsqr_0_uniq in Ha'.
    rewrite Hb' in Ha'. rewrite Rmult_0_r, Rplus_0_r in Ha'. destruct (Rmult_integral _ _ Ha'); lra.
  - intros. assert (HN : 0 < Sn l). { unfold Sn. apply lt_0_INR. destruct l; [destruct Hp|simpl; lia]. }
    assert (Hz : Sn l * (a' - a0) * (a' - a0) + 2 * (a' - a0) * (b' - b0) * S1 l + (b' - b0) * (b' - b0) * S2 l <= 0).
    { rewrite <- Hdiff. lra. }
    assert (Hsq : (Sn l * (a' - a0) + S1 l * (b' - b0))² + Sdet l * (b' - b0)² <= 0).
    { apply Rle_trans with (Sn l * (Sn l * (a' - a0) * (a' - a0) + 2 * (a' - a0) * (b' - b0) * S1 l + (b' - b0) * (b' - b0) * S2 l)).
      - right. unfold Sdet, Rsqr. ring.
      - rewrite <- (Rmult_0_r (Sn l)). apply Rmult_le_compat_l; lra. }
    pose proof (Rle_0_sqr (Sn l * (a' - a0) + S1 l * (b' - b0))) as Q1.
    pose proof (Rle_0_sqr (b' - b0)) as Q2.
    assert (Q3 : 0 <= Sdet l * (b' - b0)²) by (apply Rmult_le_pos; lra).
    assert (Hb' : (b' - b0)² = 0).
    { assert (Sdet l * (b' - b0)² = 0) by lra. destruct (Rmult_integral _ _ H0); lra. }
    apply Rsqr_0_uniq in Hb'. lra.
  - transitivity (St l - Sn l * a0 - S1 l * b0); [|lra].
    clear. induction l as [|[t i] l IH]; [unf; simpl; ring|].
    cbn [map lsum]. rewrite IH. unfold residual. unf. rewrite S_INR. ring.
  - transitivity (Sit l - S1 l * a0 - S2 l * b0); [|lra].
    clear. induction l as [|[t i] l IH]; [unf; simpl; ring|].
    cbn [map lsum]. rewrite IH. unfold residual. unf. ring.
Qed.
Lemma sum_sq_zero_line a b l : (forall q, In q l -> fst q = a + b * IZR (snd q)) -> sum_sq a b l = 0.
Proof.
  induction l as [|q l IH]; intros H; [reflexivity|]. cbn [sum_sq].
  rewrite IH by (intros; apply H; now right). unfold residual. rewrite (H q) by now left. unfold Rsqr. ring.
Qed.
Lemma sum_sq_nonneg a b l : 0 <= sum_sq a b l.
Proof. induction l as [|q l IH]; [simpl; lra|]. cbn [sum_sq]. pose proof (Rle_0_sqr (residual a b q)). lra. Qed.
Lemma ephemeris_exact (l : list (R * Z)) a b a0 b0 tv p q :
  In p l -> In q l -> snd p <> snd q ->
  linear_ephemeris (map fst l) (map snd l) = (a, b, tv) ->
  (forall r, In r l -> fst r = a0 + b0 * IZR (snd r)) ->
  a = a0 /\ b = b0 /\ forall x, In x tv -> x = 0.
Proof.
  intros Hp Hq Hne E Hl. destruct (ephemeris_fit l a b tv p q Hp Hq Hne E) as (Htv & _ & Hu & _).
  destruct (Hu a0 b0) as [Ea Eb].
  { rewrite (sum_sq_zero_line a0 b0 l Hl). apply sum_sq_nonneg. }
  subst a0 b0. repeat split; try easy. intros x Hx. rewrite Htv in Hx. apply in_map_iff in Hx.
  destruct Hx as (r & <- & Hr). unfold residual. rewrite (Hl r Hr). ring.
Qed.

(** the fitted period is positive when times increase with the transit number *)
Definition Scov l := Sn l * Sit l - S1 l * St l.
Lemma Scov_cons q l : Scov (q :: l) = Scov l +
  Rsum (map (fun p => (IZR (snd q) - IZR (snd p)) * (fst q - fst p)) l).
Proof.
  unfold Scov.
  assert (E : Rsum (map (fun p => (IZR (snd q) - IZR (snd p)) * (fst q - fst p)) l)
     = Sit l + Sn l * (IZR (snd q) * fst q) - IZR (snd q) * St l - fst q * S1 l).
  { induction l as [|p l IH]. { unf. simpl. ring. }
    cbn [map Rsum fold_right]. fold (Rsum (map (fun p => (IZR (snd q) - IZR (snd p)) * (fst q - fst p)) l)).
    rewrite IH. unf. rewrite S_INR. ring. }
  rewrite E. unf. rewrite S_INR. ring.
Qed.
Lemma Scov_pos l : (forall p q, In p l -> In q l -> (snd p < snd q)%Z -> fst p < fst q) ->
  (forall p q, In p l -> In q l -> snd p = snd q -> p = q) ->
  0 <= Scov l /\ forall p q, In p l -> In q l -> snd p <> snd q -> 0 < Scov l.
Proof.
  induction l as [|r l IH]; intros H Hinj.
  { split; [unfold Scov; unf; simpl; lra|intros p q []]. }
  destruct IH as [IH0 IH1].
  { intros; apply H; [now right|now right|assumption]. }
  { intros; apply Hinj; [now right|now right|assumption]. }
  assert (Ht : forall s, In s l -> 0 <= (IZR (snd r) - IZR (snd s)) * (fst r - fst s) /\
     (snd r <> snd s -> 0 < (IZR (snd r) - IZR (snd s)) * (fst r - fst s))).
  { intros s Hs. destruct (Z.lt_trichotomy (snd r) (snd s)) as [L|[L|L]].
    - assert (fst r < fst s) by (apply H; [now left|now right|assumption]).
      apply IZR_lt in L. assert (0 < (IZR (snd r) - IZR (snd s)) * (fst r - fst s)) by nra. split; [lra|easy].
    - rewrite L. split; [lra|congruence].
    - assert (fst s < fst r) by (apply H; [now right|now left|assumption]).
      apply IZR_lt in L. assert (0 < (IZR (snd r) - IZR (snd s)) * (fst r - fst s)) by nra. split; [lra|easy]. }
  rewrite Scov_cons.
  assert (Hnn : forall y, In y (map (fun p => (IZR (snd r) - IZR (snd p)) * (fst r - fst p)) l) -> 0 <= y).
  { intros y Hy. apply in_map_iff in Hy. destruct Hy as (s & <- & Hs). now apply Ht. }
  assert (Hs := Rsum_nonneg _ Hnn).
  assert (Hcase : forall s, In s l -> snd r <> snd s ->
     0 < Scov l + Rsum (map (fun p => (IZR (snd r) - IZR (snd p)) * (fst r - fst p)) l)).
  { intros s Hsl Hns.
    assert ((IZR (snd r) - IZR (snd s)) * (fst r - fst s) <= Rsum (map (fun p => (IZR (snd r) - IZR (snd p)) * (fst r - fst p)) l)).
    { apply Rsum_pos_in; [assumption|]. apply in_map_iff. now exists s. }
    pose proof (proj2 (Ht s Hsl) Hns). lra. }
  split; [lra|]. intros p q [-> | Hp] [-> | Hq] Hne.
  - congruence.
  - now apply (Hcase q).
  - apply (Hcase p); congruence.
  - specialize (IH1 p q Hp Hq Hne). lra.
Qed.
Lemma ephemeris_period_pos (l : list (R * Z)) a b tv p q :
  In p l -> In q l -> snd p <> snd q ->
  (forall p q, In p l -> In q l -> (snd p < snd q)%Z -> fst p < fst q) ->
  (forall p q, In p l -> In q l -> snd p = snd q -> p = q) ->
  linear_ephemeris (map fst l) (map snd l) = (a, b, tv) -> 0 < b.
Proof.
  intros Hp Hq Hne H Hinj E. destruct (linear_ephemeris_eq l) as (a0 & b0 & E0 & Ha & Hb). rewrite E0 in E.
  injection E as <- <- <-. rewrite Hb. apply Rdiv_lt_0_compat.
  - apply (proj2 (Scov_pos l H Hinj) p q); assumption.
  - now apply (Sdet_pos l p q).
Qed.

(** ** Nearest transit *)
Lemma midpoints_cons2 a b l : midpoints (a :: b :: l) = 0.5 * (b + a) :: midpoints (b :: l).
Proof. reflexivity. Qed.
Lemma nondec_tl a l : nondecreasing (a :: l) -> nondecreasing l.
Proof. now intros [_ H]. Qed.
Lemma nondec_ge a l x : nondecreasing (a :: l) -> In x l -> a <= x.
Proof.
  revert a. induction l as [|b l IH]; intros a H Hx; [destruct Hx|].
  destruct H as [Hab H]. destruct Hx as [-> | Hx]; [assumption|].
  apply Rle_trans with b; [assumption|]. now apply IH.
Qed.
Lemma nondec_last a l d : nondecreasing (a :: l) -> a <= last (a :: l) d.
Proof.
  revert a. induction l as [|b l IH]; intros a H; [simpl; lra|].
  change (last (a :: b :: l) d) with (last (b :: l) d). destruct H as [Hab H].
  apply Rle_trans with b; [assumption|]. now apply IH.
Qed.
(** every edge after the first midpoint is at or above the head of the list *)
Lemma edges_ge a l P x : 0 <= P -> nondecreasing (a :: l) ->
  In x (midpoints (a :: l) ++ [last (a :: l) 0 + 0.5 * P]) -> a <= x.
Proof.
  intros HP. revert a. induction l as [|b l IH]; intros a H Hx.
  - simpl in Hx. destruct Hx as [<- | []]. lra.
  - rewrite midpoints_cons2 in Hx. destruct H as [Hab H]. destruct Hx as [<- | Hx]; [lra|].
    apply Rle_trans with b; [assumption|]. now apply IH.
Qed.
Lemma ss_zero l t : (forall x, In x l -> t <= x) -> searchsorted l t = 0%nat.
Proof.
  unfold searchsorted. induction l as [|a l IH]; intros H; [reflexivity|]. cbn [filter].
  rewrite (proj2 (Rltb_false a t)) by (apply H; now left). apply IH. intros; apply H; now right.
Qed.
Lemma ss_cons_lt a l t : a < t -> searchsorted (a :: l) t = S (searchsorted l t).
Proof. intros H. unfold searchsorted. cbn [filter]. now rewrite (proj2 (Rltb_true a t) H). Qed.
Lemma ss_le l t : (searchsorted l t <= length l)%nat.
Proof. unfold searchsorted. induction l as [|a l IH]; simpl; [lia|]. destruct (Rltb a t); simpl; lia. Qed.
Lemma midpoints_length a l : length (midpoints (a :: l)) = length l.
Proof. revert a. induction l as [|b l IH]; intros a; [reflexivity|]. rewrite midpoints_cons2. simpl. now rewrite IH. Qed.
Lemma last_In (a : R) l d : In (last (a :: l) d) (a :: l).
Proof.
  revert a. induction l as [|b l IH]; intros a; [now left|].
  change (last (a :: b :: l) d) with (last (b :: l) d). right. apply IH.
Qed.

Lemma nearest_core P t l : forall a, 0 <= P -> nondecreasing (a :: l) ->
  nearest (a :: l) t (nth (searchsorted (midpoints (a :: l) ++ [last (a :: l) 0 + 0.5 * P]) t)
                          ((a :: l) ++ [last (a :: l) 0]) 0).
Proof.
  induction l as [|b l IH]; intros a HP H.
  - assert (E : nth (searchsorted (midpoints [a] ++ [last [a] 0 + 0.5 * P]) t) ([a] ++ [last [a] 0]) 0 = a).
    { unfold searchsorted. simpl. destruct (Rltb (a + 0.5 * P) t); reflexivity. }
    rewrite E. split; [now left|]. intros x [<- | []]. lra.
  - rewrite midpoints_cons2. change (last (a :: b :: l) 0) with (last (b :: l) 0).
    set (M := midpoints (b :: l)) in *. set (z := last (b :: l) 0) in *.
    destruct (Rlt_or_le (0.5 * (b + a)) t) as [Ht|Ht].
    + cbn [app]. rewrite ss_cons_lt by assumption. cbn [nth].
      destruct (IH b HP (nondec_tl _ _ H)) as [Hin Hmin]. fold M z in Hin, Hmin.
      split; [now right|]. intros x [<- | Hx]; [|now apply Hmin].
      apply Rle_trans with (Rabs (t - b)); [apply Hmin; now left|].
      destruct H as [Hab _]. unfold Rabs. destruct (Rcase_abs (t - b)), (Rcase_abs (t - a)); lra.
    + rewrite ss_zero. 2:{ intros x [<- | Hx]; [assumption|].
        apply Rle_trans with b; [destruct H; lra|]. apply (edges_ge b l P x HP (nondec_tl _ _ H) Hx). }
      cbn [nth app]. split; [now left|]. intros x [<- | Hx]; [lra|].
      assert (b <= x). { destruct Hx as [<- | Hx]; [lra|]. apply nondec_ge with l; [now apply nondec_tl with a|assumption]. }
      destruct H as [Hab _]. unfold Rabs. destruct (Rcase_abs (t - x)), (Rcase_abs (t - a)); lra.
Qed.
Lemma process_nearest tt P t : tt <> [] -> 0 <= P -> nondecreasing tt ->
  nearest tt t (process_dt (bin_edges tt P) (bin_values tt) t).
Proof.
  intros Hne HP H. destruct tt as [|a l]; [easy|].
  unfold process_dt, clamp_nth.
  assert (Hlen : (searchsorted (bin_edges (a :: l) P) t <= length (bin_values (a :: l)) - 1)%nat).
  { eapply Nat.le_trans; [apply ss_le|]. unfold bin_edges, bin_values.
    rewrite !app_length, midpoints_length. simpl. lia. }
  rewrite Nat.min_l by assumption. clear Hlen. unfold bin_edges, bin_values. cbn [hd app].
  destruct (Rlt_or_le (a - 0.5 * P) t) as [Ht|Ht].
  - rewrite ss_cons_lt by assumption. cbn [nth]. apply (nearest_core P t l a HP H).
  - rewrite ss_zero.
    2:{ intros x [<- | Hx]; [assumption|]. apply Rle_trans with a; [lra|]. apply (edges_ge a l P x HP H Hx). }
    cbn [nth]. split; [now left|]. intros x [<- | Hx]; [lra|].
    pose proof (nondec_ge a l x H Hx). unfold Rabs. destruct (Rcase_abs (t - x)), (Rcase_abs (t - a)); lra.
Qed.
(** the bin edges are sorted, so searchsorted is applied to a sorted array *)
Lemma edges_sorted tt P : tt <> [] -> 0 <= P -> nondecreasing tt -> nondecreasing (bin_edges tt P).
Proof.
  intros Hne HP H. destruct tt as [|a l]; [easy|]. unfold bin_edges. cbn [hd app].
  assert (G : forall l a, nondecreasing (a :: l) -> nondecreasing (midpoints (a :: l) ++ [last (a :: l) 0 + 0.5 * P])).
  { clear a l H Hne. induction l as [|b l IH]; intros a H; [simpl; auto|].
    rewrite midpoints_cons2. change (last (a :: b :: l) 0) with (last (b :: l) 0). cbn [app].
    assert (Hg := IH b (nondec_tl _ _ H)).
    destruct (midpoints (b :: l) ++ [last (b :: l) 0 + 0.5 * P]) as [|m M] eqn:E; [now split|].
    split; [|assumption]. assert (b <= m). { apply (edges_ge b l P m HP (nondec_tl _ _ H)). rewrite E. now left. }
    destruct H as [Hab _]. lra. }
  assert (Hg := G l a H).
  destruct (midpoints (a :: l) ++ [last (a :: l) 0 + 0.5 * P]) as [|m M] eqn:E; [now split|].
  split; [|assumption]. assert (a <= m). { apply (edges_ge a l P m HP H). rewrite E. now left. } lra.
Qed.
Lemma process_at_transit tt P t : 0 <= P -> nondecreasing tt -> In t tt ->
  process_dt (bin_edges tt P) (bin_values tt) t = t.
Proof.
  intros HP H Hin. assert (Hne : tt <> []) by (intros ->; destruct Hin).
  destruct (process_nearest tt P t Hne HP H) as [_ Hm]. specialize (Hm t Hin).
  rewrite Rminus_eq_0, Rabs_R0 in Hm. 
  assert (Hz : Rabs (t - process_dt (bin_edges tt P) (bin_values tt) t) = 0) by (pose proof (Rabs_pos (t - process_dt (bin_edges tt P) (bin_values tt) t)); lra).
  destruct (Req_dec (t - process_dt (bin_edges tt P) (bin_values tt) t) 0) as [E|E]; [lra|].
  apply Rabs_no_R0 in E. lra.
Qed.

(** ** Orbits *)
Lemma nth_error_combine {A B} (l : list A) (m : list B) i a b :
  nth_error l i = Some a -> nth_error m i = Some b -> nth_error (combine l m) i = Some (a, b).
Proof.
  revert m i. induction l as [|x l IH]; intros [|y m] [|i] H1 H2; simpl in *; try discriminate; try congruence.
  now apply IH.
Qed.
Lemma finish_spec duration speed b ror tt inds tv t0 P P' tr o :
  finish duration speed b ror tt inds tv t0 P P' tr = Ok o ->
  tv_transit_times o = tt /\ tv_transit_inds o = inds /\ tv_ttvs o = tv /\ tv_t0 o = t0 /\ tv_ttv_period o = P /\
  tv_period o = P' /\ tv_time_transit o = tr /\
  tv_edges o = map (fun q => bin_edges (fst q) (snd q)) (combine tt P) /\
  tv_values o = map (fun q => bin_values (fst q)) (combine tt P) /\
  tv_base o = fun i => make_transit_orbit (pick P' i)
           (option_map (fun l => pick l i) duration) (option_map (fun l => pick l i) speed)
           (Some (pick tr i)) (option_map (fun l => pick l i) b) (option_map (fun l => pick l i) ror).
Proof.
  unfold finish. intros H. destruct duration, speed; try discriminate; injection H as <-; repeat split.
Qed.
Lemma base_time P d s tt b r o : make_transit_orbit P d s (Some tt) b r = Ok o -> to_time_transit o = tt.
Proof. unfold make_transit_orbit. destruct d, s; intros H; try discriminate; injection H as <-; reflexivity. Qed.

Definition well_built (o : ttv_orbit) : Prop :=
  tv_edges o = map (fun q => bin_edges (fst q) (snd q)) (combine (tv_transit_times o) (tv_ttv_period o)) /\
  tv_values o = map (fun q => bin_values (fst q)) (combine (tv_transit_times o) (tv_ttv_period o)) /\
  (forall i base, tv_base o i = Ok base -> to_time_transit base = pick (tv_time_transit o) i).
Lemma finish_well_built duration speed b ror tt inds tv t0 P P' tr o :
  finish duration speed b ror tt inds tv t0 P P' tr = Ok o -> well_built o.
Proof.
  intros H. destruct (finish_spec _ _ _ _ _ _ _ _ _ _ _ _ H) as (E1 & E2 & E3 & E4 & E5 & E6 & E7 & E8 & E9 & E10).
  unfold well_built. rewrite E8, E9, E1, E5. repeat split. intros i base Hb. rewrite E10 in Hb. rewrite E7.
  now apply base_time in Hb.
Qed.
Lemma at_transit o i tt P t base : well_built o -> tv_time_transit o = tv_t0 o ->
  nth_error (tv_transit_times o) i = Some tt -> nth_error (tv_ttv_period o) i = Some P -> 0 <= P ->
  nondecreasing tt -> In t tt -> tv_base o i = Ok base -> 0 < to_period base -> 0 < to_duration base ->
  tv_relative_position o i t = Ok (0, to_impact base, 1).
Proof.
  intros (We & Wv & Wb) Htr Htt HP HP0 Hs Hin Hb Hpos Hd.
  unfold tv_relative_position. rewrite Hb. cbn [rbind]. f_equal.
  assert (Hc := nth_error_combine _ _ _ _ _ Htt HP).
  assert (Ee : nth i (tv_edges o) [] = bin_edges tt P).
  { rewrite We. apply nth_error_nth. now rewrite nth_error_map, Hc. }
  assert (Ev : nth i (tv_values o) [] = bin_values tt).
  { rewrite Wv. apply nth_error_nth. now rewrite nth_error_map, Hc. }
  unfold warp_time. rewrite Ee, Ev. rewrite (process_at_transit tt P t HP0 Hs Hin).
  rewrite <- Htr. rewrite <- (Wb i base Hb).
  replace (t - (t - to_time_transit base)) with (to_time_transit base + IZR 0 * to_period base) by (simpl; ring).
  apply (to_at_transit base 0 Hpos Hd).
Qed.

Lemma init_times_at_transit period duration speed b ror tts inds dlp o i tt P t base :
  make_ttv_orbit period duration speed None b ror (Some tts) inds None dlp = Ok o ->
  nth_error (tv_transit_times o) i = Some tt -> nth_error (tv_ttv_period o) i = Some P -> 0 <= P ->
  nondecreasing tt -> In t tt -> tv_base o i = Ok base -> 0 < to_period base -> 0 < to_duration base ->
  tv_relative_position o i t = Ok (0, to_impact base, 1).
Proof.
  intros H. apply at_transit. { eapply finish_well_built. exact H. }
  destruct (finish_spec _ _ _ _ _ _ _ _ _ _ _ _ H) as (E1 & E2 & E3 & E4 & E5 & E6 & E7 & _). congruence.
Qed.
Lemma init_ttvs_at_transit period duration speed tr b ror tvs inds dlp o i tt P t base :
  make_ttv_orbit period duration speed tr b ror None inds (Some tvs) dlp = Ok o ->
  nth_error (tv_transit_times o) i = Some tt -> nth_error (tv_ttv_period o) i = Some P -> 0 <= P ->
  nondecreasing tt -> In t tt -> tv_base o i = Ok base -> 0 < to_period base -> 0 < to_duration base ->
  tv_relative_position o i t = Ok (0, to_impact base, 1).
Proof.
  intros H. unfold make_ttv_orbit, init_ttvs in H. destruct period as [Pl|]; [|discriminate].
  destruct (all_planet_times _ _ _ _) as [x|]; [|discriminate]. cbn [rbind] in H.
  apply at_transit. { eapply finish_well_built. exact H. }
  destruct (finish_spec _ _ _ _ _ _ _ _ _ _ _ _ H) as (E1 & E2 & E3 & E4 & E5 & E6 & E7 & _). congruence.
Qed.
Lemma lsum_Rsum l : lsum l = Rsum l.
Proof. induction l; simpl; [reflexivity|]. now rewrite IHl. Qed.
Lemma mean_sub_sum v : lsum (map (fun x => x - mean v) v) = 0.
Proof.
  assert (G : forall c l, lsum (map (fun x => x - c) l) = lsum l - INR (length l) * c).
  { intros c l. induction l as [|x l IH]; [simpl; ring|]. cbn [map lsum length]. rewrite IH, S_INR. ring. }
  rewrite G, lsum_Rsum. unfold mean. destruct v as [|x v]; [simpl; unfold Rdiv; ring|].
  field. apply not_0_INR. simpl. lia.
Qed.
Lemma ttvs_zero_mean period duration speed tr b ror tvs inds dlp o tv :
  make_ttv_orbit period duration speed tr b ror None inds (Some tvs) dlp = Ok o ->
  In tv (tv_ttvs o) -> lsum tv = 0.
Proof.
  intros H Hin. unfold make_ttv_orbit, init_ttvs in H. destruct period as [Pl|]; [|discriminate].
  destruct (all_planet_times _ _ _ _) as [x|]; [|discriminate]. cbn [rbind] in H.
  destruct (finish_spec _ _ _ _ _ _ _ _ _ _ _ _ H) as (E1 & E2 & E3 & _). rewrite E3 in Hin.
  apply in_map_iff in Hin. destruct Hin as (a & <- & _). apply mean_sub_sum.
Qed.
(** the transit times of planet [i] in ttvs mode *)
Lemma all_planet_times_nth t0 P : forall l idx r, all_planet_times t0 P idx l = Ok r ->
  length t0 = length P ->
  forall i ttv inds a p, nth_error l i = Some (ttv, inds) -> nth_error t0 (idx + i) = Some a -> nth_error P (idx + i) = Some p ->
  nth_error r i = Some (map (fun q => a + p * IZR (snd q) + fst q) (combine ttv inds)).
Proof.
  induction l as [|[v k] l IH]; intros idx r H HL i ttv inds a p Hi Ha Hp; [destruct i; discriminate|].
  cbn [all_planet_times] in H.
  destruct (planet_times t0 P idx v k) as [x|] eqn:E; [|discriminate]. cbn [rbind] in H.
  destruct (all_planet_times t0 P (S idx) l) as [xs|] eqn:E2; [|discriminate]. cbn [rbind] in H.
  injection H as <-. destruct i as [|i]; cbn [nth_error] in *.
  - injection Hi as -> ->. rewrite Nat.add_0_r in Ha, Hp. unfold planet_times in E.
    destruct (Nat.ltb_spec 1 (length t0)).
    + injection E as <-. f_equal. 
      assert (Ea : clamp_nth t0 idx = a).
      { unfold clamp_nth. assert (idx < length t0)%nat by (apply nth_error_Some; congruence).
        rewrite Nat.min_l by lia. now apply nth_error_nth. }
      assert (Ep : clamp_nth P idx = p).
      { unfold clamp_nth. assert (idx < length P)%nat by (apply nth_error_Some; congruence).
        rewrite Nat.min_l by lia. now apply nth_error_nth. }
      now rewrite Ea, Ep.
    + destruct t0 as [|a' [|? ?]], P as [|p' [|? ?]]; simpl in HL, H; try discriminate; try lia.
      injection E as <-. destruct idx as [|idx]; [|destruct idx; discriminate].
      cbn in Ha, Hp. now injection Ha as ->; injection Hp as ->.
  - apply (IH (S idx) xs E2 HL i ttv inds a p Hi); [now rewrite Nat.add_succ_l, <- Nat.add_succ_r|
      now rewrite Nat.add_succ_l, <- Nat.add_succ_r].
Qed.
Lemma ttvs_mode_times Pl duration speed tr b ror tvs dlp o i v a p :
  make_ttv_orbit (Some Pl) duration speed (Some tr) b ror None None (Some tvs) dlp = Ok o ->
  length tr = length Pl -> nth_error tvs i = Some (Plain v) -> nth_error tr i = Some a -> nth_error Pl i = Some p ->
  nth_error (tv_transit_times o) i =
    Some (map (fun q => a + p * INR (fst q) + (snd q - lsum v / INR (length v))) (combine (seq 0 (length v)) v)).
Proof.
  intros H HL Hv Ha Hp. unfold make_ttv_orbit, init_ttvs in H.
  set (tv := map (fun a => let v := ensure_magnitude a in map (fun x => x - mean v) v) tvs) in *.
  destruct (all_planet_times tr Pl 0 _) as [x|] eqn:E; [|discriminate]. cbn [rbind] in H.
  destruct (finish_spec _ _ _ _ _ _ _ _ _ _ _ _ H) as (E1 & _). rewrite E1.
  assert (Htv : nth_error tv i = Some (map (fun x => x - mean v) v)).
  { unfold tv. rewrite nth_error_map, Hv. reflexivity. }
  rewrite (all_planet_times_nth tr Pl _ 0 x E HL i (map (fun x => x - mean v) v) (arange0 (length v)) a p).
  - f_equal. replace (lsum v / INR (length v)) with (mean v) by (unfold mean; now rewrite (lsum_Rsum v)).
    unfold arange0. generalize 0%nat. generalize (mean v).
    intros c. clear. induction v as [|y v IH]; intros k; [reflexivity|].
    cbn [length seq map combine fst snd]. rewrite IH. now rewrite <- INR_IZR_INZ.
  - apply nth_error_combine; [assumption|]. rewrite nth_error_map, Htv. cbn. now rewrite map_length.
  - exact Ha.
  - exact Hp.
Qed.
Lemma times_mode_times period duration speed tr b ror tts inds dlp o i v :
  make_ttv_orbit period duration speed tr b ror (Some tts) inds None dlp = Ok o ->
  nth_error tts i = Some (Plain v) -> nth_error (tv_transit_times o) i = Some v.
Proof.
  intros H Hv. destruct (finish_spec _ _ _ _ _ _ _ _ _ _ _ _ H) as (E1 & _). rewrite E1.
  now rewrite nth_error_map, Hv.
Qed.
Lemma ttv_errors period duration speed tr b ror tts inds tvs dlp :
  (tts <> None /\ tvs <> None) \/ (tts = None /\ tvs = None) \/ (tvs <> None /\ period = None) \/
  (duration = None /\ speed = None) ->
  exists e, make_ttv_orbit period duration speed tr b ror tts inds tvs dlp = Err e.
Proof.
  intros H. unfold make_ttv_orbit. destruct tts as [tts|], tvs as [tvs|].
  - now eexists.
  - unfold init_times, finish. destruct H as [[_ H]|[[H _]|[[H _]|[-> ->]]]]; try congruence. now eexists.
  - unfold init_ttvs. destruct period as [P|]; [|now eexists].
    destruct H as [[H _]|[[_ H]|[[_ H]|[-> ->]]]]; try congruence.
    destruct (all_planet_times _ _ _ _); cbn; now eexists.
  - now eexists.
Qed.

(** ** The base orbit in the transit-times mode *)
Lemma pick_nth l i x : nth_error l i = Some x -> pick l i = x.
Proof.
  intros H. assert (L : (i < length l)%nat) by (apply nth_error_Some; congruence). assert (C : clamp_nth l i = x).
  { unfold clamp_nth. replace (Nat.min i (length l - 1)) with i by lia. now apply nth_error_nth. }
  unfold pick. destruct l as [|a [|b l]]; [cbn in L; lia| |exact C]. cbn in L. assert (i = 0)%nat as -> by lia. cbn in H. congruence.
Qed.
Lemma base_period P d s tt b r o : make_transit_orbit P d s tt b r = Ok o -> to_period o = P.
Proof. unfold make_transit_orbit. destruct d, s; intros H; try discriminate; injection H as <-; reflexivity. Qed.
Lemma fitted_base period duration speed tr b ror tts inds dlp o i P a base :
  make_ttv_orbit period duration speed tr b ror (Some tts) inds None dlp = Ok o ->
  nth_error (tv_ttv_period o) i = Some P -> nth_error (tv_t0 o) i = Some a -> 0 < P -> tv_base o i = Ok base ->
  (period = None -> to_period base = P * exp (match dlp with Some d => d | None => 0 end)) /\
  (forall l p, period = Some l -> nth_error l i = Some p -> to_period base = p) /\
  (tr = None -> to_time_transit base = a) /\ (forall l t, tr = Some l -> nth_error l i = Some t -> to_time_transit base = t).
Proof.
  intros H HP Ha Pos Hb. unfold make_ttv_orbit, init_times in H.
  destruct (finish_spec _ _ _ _ _ _ _ _ _ _ _ _ H) as (E1 & E2 & E3 & E4 & E5 & E6 & E7 & E8 & E9 & E10). rewrite E10 in Hb. rewrite E4 in Ha. rewrite E5 in HP.
  pose proof (base_period _ _ _ _ _ _ _ Hb) as Bp. pose proof (base_time _ _ _ _ _ _ _ Hb) as Bt. rewrite Bp, Bt. clear - HP Ha Pos. split; [|split; [|split]].
  - intros ->. destruct dlp as [d|]; apply pick_nth; [|rewrite HP, exp_0, Rmult_1_r; reflexivity].
    rewrite nth_error_map, HP. cbn. now rewrite exp_plus, exp_ln.
  - intros l p -> Hp. now apply pick_nth.
  - intros ->. now apply pick_nth.
  - intros l t -> Ht. now apply pick_nth.
Qed.
Lemma fitted_ephemeris period duration speed tr b ror tts inds dlp o i v :
  make_ttv_orbit period duration speed tr b ror (Some tts) inds None dlp = Ok o -> nth_error tts i = Some (Plain v) ->
  (forall l k, inds = Some l -> nth_error l i = Some k -> 
     exists a P tv, linear_ephemeris v k = (a, P, tv) /\ nth_error (tv_t0 o) i = Some a /\ nth_error (tv_ttv_period o) i = Some P /\ nth_error (tv_ttvs o) i = Some tv) /\
  (inds = None -> exists a P tv, linear_ephemeris v (map Z.of_nat (seq 0 (length v))) = (a, P, tv) /\ nth_error (tv_t0 o) i = Some a /\ nth_error (tv_ttv_period o) i = Some P /\ nth_error (tv_ttvs o) i = Some tv).
Proof.
  intros H Hv. unfold make_ttv_orbit, init_times in H.
  destruct (finish_spec _ _ _ _ _ _ _ _ _ _ _ _ H) as (E1 & E2 & E3 & E4 & E5 & _). rewrite E3, E4, E5. clear E1 E2 E3 E4 E5 H.
  assert (G : forall L k, nth_error L i = Some k -> nth_error (map (fun q => linear_ephemeris (fst q) (snd q)) (combine (map ensure_magnitude tts) L)) i = Some (linear_ephemeris v k)).
  { intros L k Hk. rewrite nth_error_map, (nth_error_combine (map ensure_magnitude tts) L i v k); [reflexivity| |exact Hk]. now rewrite nth_error_map, Hv. }
  split.
  - intros l k -> Hk. destruct (linear_ephemeris v k) as [[a P] tv] eqn:E. exists a, P, tv. split; [reflexivity|]. specialize (G l k Hk). revert G. generalize (map (fun q => linear_ephemeris (fst q) (snd q)) (combine (map ensure_magnitude tts) l)). intros F G. rewrite !nth_error_map, G, E. repeat split.
  - intros ->. destruct (linear_ephemeris v (map Z.of_nat (seq 0 (length v)))) as [[a P] tv] eqn:E. exists a, P, tv. split; [reflexivity|].
    specialize (G (map (fun tt => arange0 (length tt)) (map ensure_magnitude tts)) (map Z.of_nat (seq 0 (length v)))). rewrite !nth_error_map, Hv in G. specialize (G eq_refl).
    rewrite <- nth_error_map in G. revert G. generalize (map (fun q => linear_ephemeris (fst q) (snd q)) (combine (map ensure_magnitude tts) (map (fun tt => arange0 (length tt)) (map ensure_magnitude tts)))). intros F G. rewrite !nth_error_map, G, E. repeat split.
Qed.

(** the stored times are the linear ephemeris plus the stored variations, however the orbit was built *)
Lemma planet_times_nth t0 P : forall l idx r, all_planet_times t0 P idx l = Ok r ->
  forall i ttv inds a p, nth_error l i = Some (ttv, inds) -> nth_error t0 (idx + i) = Some a -> nth_error P (idx + i) = Some p ->
  nth_error r i = Some (map (fun q => a + p * IZR (snd q) + fst q) (combine ttv inds)).
Proof.
  induction l as [|[v k] l IH]; intros idx r H i ttv inds a p Hi Ha Hp; [destruct i; discriminate|].
  cbn [all_planet_times] in H.
  destruct (planet_times t0 P idx v k) as [x|] eqn:E; [|discriminate]. cbn [rbind] in H.
  destruct (all_planet_times t0 P (S idx) l) as [xs|] eqn:E2; [|discriminate]. cbn [rbind] in H.
  injection H as <-. destruct i as [|i]; cbn [nth_error] in *.
  - injection Hi as -> ->. rewrite Nat.add_0_r in Ha, Hp. unfold planet_times in E.
    destruct (Nat.ltb_spec 1 (length t0)).
    + injection E as <-. f_equal. 
      assert (Ea : clamp_nth t0 idx = a).
      { unfold clamp_nth. assert (idx < length t0)%nat by (apply nth_error_Some; congruence).
        rewrite Nat.min_l by lia. now apply nth_error_nth. }
      assert (Ep : clamp_nth P idx = p).
      { unfold clamp_nth. assert (idx < length P)%nat by (apply nth_error_Some; congruence).
        rewrite Nat.min_l by lia. now apply nth_error_nth. }
      now rewrite Ea, Ep.
    + destruct t0 as [|a' [|? ?]]; [destruct idx; discriminate| |cbn in H; lia]. destruct P as [|p' [|? ?]]; try discriminate.
      injection E as <-. destruct idx as [|idx]; [|destruct idx; discriminate].
      cbn in Ha, Hp. now injection Ha as ->; injection Hp as ->.
  - apply (IH (S idx) xs E2 i ttv inds a p Hi); [now rewrite Nat.add_succ_l, <- Nat.add_succ_r|
      now rewrite Nat.add_succ_l, <- Nat.add_succ_r].
Qed.
Lemma combine_nth_inv {A B} (l : list A) (m : list B) i a b : nth_error (combine l m) i = Some (a, b) -> nth_error l i = Some a /\ nth_error m i = Some b.
Proof. revert m i. induction l as [|x l IH]; intros [|y m] [|i] H; cbn in *; try discriminate; [injection H as -> ->; auto|now apply IH]. Qed.
Lemma residuals_add_up A B : forall (tt : list R) (ks : list Z), length ks = length tt ->
  tt = map (fun q => A + B * IZR (snd q) + fst q) (combine (map (fun p => fst p - (A + B * IZR (snd p))) (combine tt ks)) ks).
Proof.
  induction tt as [|t tt IH]; intros [|k ks] HL; try discriminate; [reflexivity|]. cbn [combine map fst snd]. rewrite <- (IH ks) by (cbn in HL; lia). f_equal. ring.
Qed.
Lemma times_are_ephemeris period duration speed tr b ror tts inds tvs dlp o i tt ks tv a P :
  make_ttv_orbit period duration speed tr b ror tts inds tvs dlp = Ok o ->
  nth_error (tv_transit_times o) i = Some tt -> nth_error (tv_transit_inds o) i = Some ks -> nth_error (tv_ttvs o) i = Some tv ->
  nth_error (linear_t0 o) i = Some a -> nth_error (linear_period o) i = Some P -> (tts <> None -> length ks = length tt) ->
  tt = map (fun q => a + P * IZR (snd q) + fst q) (combine tv ks).
Proof.
  intros H Ht Hk Hv Ha HP HL. unfold linear_t0, linear_period in *. unfold make_ttv_orbit in H. destruct tts as [tts|], tvs as [tvs|]; try discriminate.
  - specialize (HL ltac:(discriminate)). unfold init_times in H. cbv zeta in H.
    destruct (finish_spec _ _ _ _ _ _ _ _ _ _ _ _ H) as (E1 & E2 & E3 & E4 & E5 & _). rewrite E1 in Ht. rewrite E2 in Hk. rewrite E3 in Hv. rewrite E4 in Ha. rewrite E5 in HP.
    set (L := match inds with None => map (fun tt => arange0 (length tt)) (map ensure_magnitude tts) | Some l => l end) in *.
    rewrite !nth_error_map, (nth_error_combine _ _ _ _ _ Ht Hk) in Hv. rewrite !nth_error_map, (nth_error_combine _ _ _ _ _ Ht Hk) in Ha. rewrite !nth_error_map, (nth_error_combine _ _ _ _ _ Ht Hk) in HP.
    cbn [option_map fst snd] in *. injection Hv as <-. injection Ha as <-. injection HP as <-. unfold linear_ephemeris. cbv zeta. cbn [fst snd].
    exact (residuals_add_up _ _ tt ks HL).
  - unfold init_ttvs in H. destruct period as [Pl|]; [|discriminate]. cbv zeta in H.
    set (t0 := match tr with None => [0] | Some l => l end) in *.
    destruct (all_planet_times t0 Pl 0 _) as [x|] eqn:E; [|discriminate]. cbn [rbind] in H.
    destruct (finish_spec _ _ _ _ _ _ _ _ _ _ _ _ H) as (E1 & E2 & E3 & E4 & E5 & _). rewrite E1 in Ht. rewrite E2 in Hk. rewrite E3 in Hv. rewrite E4 in Ha. rewrite E5 in HP.
    rewrite (planet_times_nth t0 Pl _ 0 x E i tv ks a P (nth_error_combine _ _ _ _ _ Hv Hk) Ha HP) in Ht. now injection Ht as <-.
Qed.

(** ** Expected transit times *)
Lemma arange_In a b k : In k (arange a b) <-> (a <= k < b)%Z.
Proof.
  unfold arange. rewrite in_map_iff. split.
  - intros (n & <- & Hn). apply in_seq in Hn. lia.
  - intros H. exists (Z.to_nat (k - a)). split; [lia|]. apply in_seq. lia.
Qed.
Lemma inc_gt a l x : increasing (a :: l) -> In x l -> a < x.
Proof.
  revert a. induction l as [|b l IH]; intros a H Hx; [destruct Hx|].
  destruct H as [Hab H]. destruct Hx as [-> | Hx]; [assumption|].
  apply Rlt_trans with b; [assumption|]. now apply IH.
Qed.
Lemma inc_filter f l : increasing l -> increasing (filter f l).
Proof.
  induction l as [|a l IH]; intros H; [exact I|]. cbn [filter].
  assert (Hl : increasing (filter f l)) by (apply IH; now destruct H).
  destruct (f a); [|assumption].
  destruct (filter f l) as [|b m] eqn:E; [now split|]. split; [|assumption].
  apply (inc_gt a l); [assumption|]. assert (Hb : In b (filter f l)) by (rewrite E; now left).
  now apply filter_In in Hb.
Qed.
Lemma inc_times t0 p a b : 0 < p -> increasing (map (fun k => t0 + p * IZR k) (arange a b)).
Proof.
  intros Hp. unfold arange. generalize (Z.to_nat (b - a)) as n. intros n. generalize 0%nat as s.
  induction n as [|n IH]; intros s; [exact I|]. cbn [seq map].
  destruct n as [|n]; [now split|]. split; [|exact (IH (S s))]. cbn [seq map].
  assert (IZR (a + Z.of_nat s) < IZR (a + Z.of_nat (S s))) by (apply IZR_lt; lia). nra.
Qed.
Lemma expected_spec mn mx p t0 : 0 < p ->
  increasing (expected_times1 mn mx p t0) /\
  forall x, In x (expected_times1 mn mx p t0) <-> (exists k : Z, x = t0 + IZR k * p) /\ mn <= x <= mx.
Proof.
  intros Hp. unfold expected_times1. split; [now apply inc_filter, inc_times|].
  intros x. rewrite filter_In, in_map_iff, andb_true_iff. unfold Rgeb.
  rewrite !Rleb_true. split.
  - intros [(k & <- & Hk) [H1 H2]]. split; [exists k; ring|lra].
  - intros [(k & ->) [H1 H2]]. split; [|lra]. exists k. split; [ring|].
    apply arange_In. pose proof (Rceil_spec ((mn - t0) / p)) as [Hc _]. pose proof (Rfloor_spec ((mx - t0) / p)) as [_ Hf].
    assert (L1 : (mn - t0) / p <= IZR k). { apply div_le; lra. }
    assert (L2 : IZR k <= (mx - t0) / p). { apply div_ge; lra. }
    split.
    + assert (IZR (Rceil ((mn - t0) / p)) < IZR (k + 1)) by (rewrite plus_IZR; lra). apply lt_IZR in H. lia.
    + apply lt_IZR. rewrite plus_IZR. lra.
Qed.
Lemma inc_NoDup l : increasing l -> NoDup l.
Proof.
  induction l as [|a l IH]; intros H; constructor.
  - intros Hin. pose proof (inc_gt a l a H Hin). lra.
  - apply IH. now destruct H.
Qed.
