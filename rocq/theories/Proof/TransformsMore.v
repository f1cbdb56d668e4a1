From Coq Require Import Reals ZArith Lra Lia List Bool Arith Psatz.
From Coquelicot Require Import Rcomplements.
From Verif.Base Require Import RealAux.
From Verif.Model Require Import Transforms.
From Verif.Spec Require Import ArraySpec.
From Verif.Proof Require Import TransformsProof.
Import ListNotations.
Open Scope R_scope.

(** ** vectorize *)
Lemma has_shape_axis {A} n s (l : list (nd A)) :
  has_shape (n :: s) (Axis l) <-> length l = n /\ Forall (has_shape s) l.
Proof.
  cbn. split; intros [H1 H2]; split; auto.
  - clear H1. induction l; constructor; destruct H2; auto.
  - clear H1. induction H2; cbn; auto.
Qed.
Lemma vmap_iter {A B} (f : A -> B) (inner : nd A -> result (nd B)) s :
  (forall m, inner (Leaf m) = Ok (Leaf (f m))) ->
  forall x, has_shape s x ->
  exists y, Nat.iter (length s) vmap1 inner x = Ok y /\ has_shape s y /\
    forall idx, get idx y = option_map f (get idx x).
Proof.
  intros Hin. induction s as [|n s IH]; intros x Hx.
  - destruct x as [a|l]; cbn in Hx; [|tauto]. exists (Leaf (f a)). cbn [length Nat.iter nat_rect]. cbn. rewrite Hin. repeat split.
    intros [|i idx]; reflexivity.
  - destruct x as [a|l]; [cbn in Hx; tauto|]. apply has_shape_axis in Hx. destruct Hx as [Hl Hf].
    set (g := Nat.iter (length s) vmap1 inner) in *.
    assert (Hgoal : exists ys, fold_right (fun y acc => rbind (g y) (fun z => rbind acc (fun zs => Ok (z :: zs)))) (Ok []) l = Ok ys
       /\ length ys = length l /\ Forall (has_shape s) ys /\
       forall i idx, match nth_error ys i with Some y => get idx y | None => None end =
                     option_map f (match nth_error l i with Some y => get idx y | None => None end)).
    { clear Hl. induction Hf as [|y l Hy Hf IHl].
      - exists []. repeat split; auto. intros [|i] idx; reflexivity.
      - destruct IHl as (ys & E & El & Ef & Eg). destruct (IH y Hy) as (z & Ez & Sz & Gz). fold g in Ez.
        exists (z :: ys). cbn [fold_right]. rewrite E, Ez. cbn. repeat split; auto.
        intros [|i] idx; cbn; auto. }
    destruct Hgoal as (ys & E & El & Ef & Eg). exists (Axis ys). repeat split.
    + change (Nat.iter (length (n :: s)) vmap1 inner (Axis l)) with (vmap1 g (Axis l)).
      unfold vmap1. rewrite E. reflexivity.
    + congruence.
    + apply (has_shape_axis (length ys) s ys). auto.
    + intros [|i idx]; [reflexivity|]. cbn [get]. apply Eg.
Qed.
Lemma vectorize_array {B} (f : R -> B) s x : has_shape s x ->
  exists y, vectorize f (TArray s x) = Ok y /\ has_shape s y /\ forall idx, get idx y = option_map f (get idx x).
Proof. intros H. apply (vmap_iter f); auto. Qed.
Lemma vectorize_quantity {B} (f : R -> B) s x u : has_shape s x ->
  exists y, vectorize f (TQuantity s x u) = Ok y /\ has_shape s y /\
  forall idx, get idx y = option_map (fun m => f (m * u)) (get idx x).
Proof. intros H. apply (vmap_iter (fun m => f (m * u))); auto. Qed.

(** ** interpolate *)
Definition sortedk (l : list (R * R)) : Prop :=
  forall i j p q, (i < j)%nat -> nth_error l i = Some p -> nth_error l j = Some q -> fst p <= fst q.
Inductive Sk : list (R * R) -> Prop :=
| Sk_nil : Sk []
| Sk_cons p l : (forall q, In q l -> fst p <= fst q) -> Sk l -> Sk (p :: l).

Lemma in_insert p q l : In q (insert_key p l) <-> q = p \/ In q l.
Proof.
  induction l as [|a l IH]; cbn; [intuition|].
  destruct (Rltb (fst a) (fst p)); cbn; rewrite ?IH; intuition.
Qed.
Lemma in_sort q l : In q (sort_key l) <-> In q l.
Proof. induction l as [|a l IH]; cbn; [tauto|]. rewrite in_insert, IH. intuition. Qed.
Lemma insert_sorted p l : Sk l -> Sk (insert_key p l).
Proof.
  induction 1 as [|q l Hq HS IH]; cbn.
  - constructor; [intros ? []|constructor].
  - destruct (Rltb (fst q) (fst p)) eqn:E.
    + apply Rltb_true in E. constructor; [|exact IH]. intros r Hr. apply in_insert in Hr.
      destruct Hr as [->|Hr]; [lra|auto].
    + apply Rltb_false in E. constructor; [|constructor; auto].
      intros r [->|Hr]; [exact E|]. specialize (Hq r Hr). lra.
Qed.
Lemma sort_sorted l : Sk (sort_key l).
Proof. induction l; cbn; [constructor|now apply insert_sorted]. Qed.
Lemma sort_nil l : sort_key l = [] -> l = [].
Proof.
  destruct l as [|a l]; [auto|]. intros H. assert (In a (sort_key (a :: l))) by (apply in_sort; cbn; auto).
  rewrite H in H0. destruct H0.
Qed.
Lemma Sk_app l q : Sk l -> (forall p, In p l -> fst p <= fst q) -> Sk (l ++ [q]).
Proof.
  induction 1 as [|p l Hp HS IH]; cbn; intros H.
  - constructor; [intros ? []|constructor].
  - constructor.
    + intros r Hr. apply in_app_or in Hr. destruct Hr as [Hr|[<-|[]]]; auto.
    + apply IH. intros; apply H; auto.
Qed.
Lemma last_max l d p : Sk l -> In p l -> fst p <= fst (last l d).
Proof.
  intros HSk. revert p. induction HSk as [|q l Hq HS IH]; intros p Hin; [destruct Hin|].
  destruct l as [|a l].
  - destruct Hin as [<-|[]]. cbn. lra.
  - change (last (q :: a :: l) d) with (last (a :: l) d).
    destruct Hin as [<-|Hin]; [|auto].
    assert (fst a <= fst (last (a :: l) d)) by (apply IH; cbn; auto).
    assert (fst q <= fst a) by (apply Hq; cbn; auto). lra.
Qed.
Lemma last_in (l : list (R * R)) d : l <> [] -> In (last l d) l.
Proof.
  induction l as [|a l IH]; [congruence|]. intros _. destruct l as [|b l]; [cbn; auto|].
  change (last (a :: b :: l) d) with (last (b :: l) d). right. apply IH. congruence.
Qed.

(** the bracket found by the scan *)
Definition seg_val (x a fa b fb : R) : R := fa + (x - a) / (b - a) * (fb - fa).
Lemma scan_bracket x a fa b fb : a <= x < b -> forall l p, Sk (p :: l) ->
  (forall q, In q (p :: l) -> ~ (a < fst q < b)) ->
  (forall q, In q (p :: l) -> fst q = a -> snd q = fa) ->
  (forall q, In q (p :: l) -> fst q = b -> snd q = fb) ->
  In (a, fa) (p :: l) -> In (b, fb) (p :: l) ->
  interp_scan x p l = seg_val x a fa b fb.
Proof.
  intros Hx. induction l as [|q l IH]; intros p HS Hno Ha Hb Hia Hib.
  - exfalso. destruct Hia as [E1|[]], Hib as [E2|[]]. rewrite E1 in E2. injection E2. lra.
  - inversion HS as [|? ? Hp HS']; subst.
    assert (Hpa : fst p <= a).
    { destruct Hia as [->|Hia]; [cbn; lra|]. apply (Hp _ Hia). }
    assert (Hseg : b <= fst q -> interp_seg x p q = seg_val x a fa b fb).
    { intros Hq.
      assert (fst p = a).
      { destruct Hia as [->|[Hia|Hia]]; [reflexivity|subst q; cbn in Hq; lra|].
        inversion HS' as [|? ? Hq' _]; subst. specialize (Hq' _ Hia). cbn in Hq'. lra. }
      assert (fst q = b).
      { destruct Hib as [E|[E|Hib]].
        - subst p. cbn in H. lra.
        - subst q. reflexivity.
        - inversion HS' as [|? ? Hq' _]; subst. specialize (Hq' _ Hib). cbn in Hq'. lra. }
      pose proof (Ha p (or_introl eq_refl) H) as Va. pose proof (Hb q (or_intror (or_introl eq_refl)) H0) as Vb.
      unfold interp_seg, seg_val. rewrite H, H0, Va, Vb.
      replace (Reqb (b - a) 0) with false by (symmetry; apply Reqb_false; lra). reflexivity. }
    assert (Hcase : fst q <= a \/ b <= fst q).
    { destruct (Rle_dec (fst q) a); [auto|]. destruct (Rle_dec b (fst q)); [auto|].
      exfalso. apply (Hno q); [cbn; auto|lra]. }
    assert (Hrec : fst q <= a -> interp_scan x q l = seg_val x a fa b fb).
    { intros Hq. apply IH; auto.
      - intros r Hr. apply Hno. cbn in *; tauto.
      - intros r Hr. apply Ha. cbn in *; tauto.
      - intros r Hr. apply Hb. cbn in *; tauto.
      - destruct Hia as [E|Hia]; [|exact Hia].
        (* p = (a,fa), q has key a too *)
        subst p. cbn in Hpa. assert (fst q = a) by (specialize (Hp q (or_introl eq_refl)); cbn in Hp; lra).
        left. rewrite (surjective_pairing q). f_equal; auto. apply Ha; cbn; auto.
      - destruct Hib as [E|Hib]; [|exact Hib]. subst p. cbn in Hpa. lra. }
    destruct Hcase as [Hq|Hq].
    + specialize (Hrec Hq). cbn [interp_scan]. destruct l as [|r l].
      * exfalso. destruct Hib as [E|[E|[]]]; [subst p|subst q]; cbn in *; lra.
      * replace (Rleb (fst q) x) with true by (symmetry; apply Rleb_true; lra). exact Hrec.
    + specialize (Hseg Hq). cbn [interp_scan]. destruct l as [|r l]; [exact Hseg|].
      replace (Rleb (fst q) x) with false by (symmetry; apply Rleb_false; lra). exact Hseg.
Qed.
Lemma scan_range x lo hi : forall l p, l <> [] ->
  (forall q, In q (p :: l) -> lo <= snd q <= hi) -> fst p <= x -> x <= fst (last l p) ->
  lo <= interp_scan x p l <= hi.
Proof.
  assert (Hseg : forall p q, lo <= snd p <= hi -> lo <= snd q <= hi -> fst p <= x <= fst q ->
     lo <= interp_seg x p q <= hi).
  { intros p q Hp Hq Hx. unfold interp_seg. destruct (Reqb (fst q - fst p) 0) eqn:E; [auto|].
    apply Reqb_false in E. assert (0 < fst q - fst p) by lra.
    set (w := (x - fst p) / (fst q - fst p)).
    assert (0 <= w <= 1).
    { unfold w. split; [apply Rdiv_le_0_compat; lra|].
      apply Rmult_le_reg_r with (fst q - fst p); auto.
      replace ((x - fst p) / (fst q - fst p) * (fst q - fst p)) with (x - fst p) by (field; lra). lra. }
    nra. }
  induction l as [|q l IH]; intros p Hne Hr Hp Hl; [congruence|].
  cbn [interp_scan]. destruct l as [|r l].
  - cbn in Hl. apply Hseg; [apply Hr; cbn; auto|apply Hr; cbn; auto|lra].
  - destruct (Rleb (fst q) x) eqn:E.
    + apply Rleb_true in E. apply IH; [congruence| |exact E|].
      * intros; apply Hr; cbn in *; tauto.
      * replace (last (r :: l) q) with (last (q :: r :: l) p); [exact Hl|].
        clear. change (last (q :: r :: l) p) with (last (r :: l) p). revert r. induction l as [|a l IHl]; intros r; [reflexivity|].
        change (last (r :: a :: l) p) with (last (a :: l) p). change (last (r :: a :: l) q) with (last (a :: l) q). apply IHl.
    + apply Rleb_false in E. apply Hseg; [apply Hr; cbn; auto|apply Hr; cbn; auto|lra].
Qed.

Definition cong (P a b : R) : Prop := exists k : Z, a = b + IZR k * P.
Lemma cong_mod P a b : 0 < P -> cong P a b -> Rmod a P = Rmod b P.
Proof. intros HP [k ->]. apply Rmod_plus_mult. lra. Qed.
Lemma cong_self P a : cong P a (Rmod a P).
Proof. destruct (Rmod_decomp a P) as [k E]. exists k. exact E. Qed.
Lemma cong_sym P a b : cong P a b -> cong P b a.
Proof. intros [k ->]. exists (-k)%Z. rewrite opp_IZR. ring. Qed.
Lemma cong_trans P a b c : cong P a b -> cong P b c -> cong P a c.
Proof. intros [k ->] [j ->]. exists (j + k)%Z. rewrite plus_IZR. ring. Qed.
Lemma cong_shift P a b c : cong P a b -> cong P (a + c) (b + c).
Proof. intros [k ->]. exists k. ring. Qed.

(** periodic linear interpolation between two consecutive (modulo P) grid points *)
Lemma interp_periodic_bracket t grid P ta fa tb fb : 0 < P ->
  ta <= t < tb -> tb <= ta + P ->
  (exists p, In p grid /\ cong P (fst p) ta) -> (exists p, In p grid /\ cong P (fst p) tb) ->
  (forall p s, In p grid -> cong P (fst p) s -> ~ (ta < s < tb)) ->
  (forall p, In p grid -> cong P (fst p) ta -> snd p = fa) ->
  (forall p, In p grid -> cong P (fst p) tb -> snd p = fb) ->
  interp_periodic t grid P = seg_val t ta fa tb fb.
Proof.
  intros HP Ht Hspan [pa [Hpa Ca]] [pb [Hpb Cb]] Hno Va Vb.
  unfold interp_periodic. set (K := map (fun p => (Rmod (fst p) P, snd p)) grid).
  set (pts := sort_key K). set (x := Rmod t P).
  assert (Hx : 0 <= x < P) by (apply Rmod_range; auto).
  assert (Cx : cong P t x) by apply cong_self.
  set (a := x - (t - ta)). set (b := x + (tb - t)).
  assert (Caa : cong P ta a).
  { unfold a. replace ta with (t + - (t - ta)) at 1 by ring. apply cong_shift with (c := - (t - ta)) in Cx.
    replace (x - (t - ta)) with (x + - (t - ta)) by ring. exact Cx. }
  assert (Cbb : cong P tb b).
  { unfold b. replace tb with (t + (tb - t)) at 1 by ring. now apply cong_shift. }
  assert (HK : forall q, In q pts -> exists p, In p grid /\ fst q = Rmod (fst p) P /\ snd q = snd p /\ cong P (fst p) (fst q) /\ 0 <= fst q < P).
  { intros q Hq. apply (proj1 (in_sort q K)) in Hq. apply in_map_iff in Hq. destruct Hq as (p & <- & Hp). exists p. cbn.
    repeat split; auto; [apply cong_self|apply Rmod_range; auto|apply Rmod_range; auto]. }
  assert (HnoK : forall q k, In q pts -> ~ (a < fst q + IZR k * P < b)).
  { intros q k Hq Hc. destruct (HK q Hq) as (p & Hp & _ & _ & C & _).
    apply (Hno p (fst q + IZR k * P + (t - x)) Hp).
    - apply cong_trans with (fst q); [exact C|]. apply cong_trans with (fst q + IZR k * P); [exists (-k)%Z; rewrite opp_IZR; ring|].
      destruct Cx as [j Hj]. exists (-j)%Z. rewrite opp_IZR. rewrite Hj. ring.
    - unfold a, b in Hc. lra. }
  assert (HVa : forall q k, In q pts -> fst q + IZR k * P = a -> snd q = fa).
  { intros q k Hq E. destruct (HK q Hq) as (p & Hp & _ & Es & C & _). rewrite Es. apply Va; auto.
    apply cong_trans with (fst q); auto. apply cong_trans with a; [|now apply cong_sym]. exists (-k)%Z. rewrite opp_IZR, <- E. ring. }
  assert (HVb : forall q k, In q pts -> fst q + IZR k * P = b -> snd q = fb).
  { intros q k Hq E. destruct (HK q Hq) as (p & Hp & _ & Es & C & _). rewrite Es. apply Vb; auto.
    apply cong_trans with (fst q); auto. apply cong_trans with b; [|now apply cong_sym]. exists (-k)%Z. rewrite opp_IZR, <- E. ring. }
  assert (HS : Sk pts) by apply sort_sorted.
  assert (Hqa : In (Rmod ta P, fa) pts).
  { apply (proj2 (in_sort _ K)). apply in_map_iff. exists pa. split; [|auto]. rewrite (cong_mod P _ _ HP Ca). f_equal. auto. }
  assert (Hqb : In (Rmod tb P, fb) pts).
  { apply (proj2 (in_sort _ K)). apply in_map_iff. exists pb. split; [|auto]. rewrite (cong_mod P _ _ HP Cb). f_equal. auto. }
  assert (Hne : pts <> []) by (intros E; rewrite E in Hqa; destruct Hqa).
  assert (Hex : exists p0 pts', pts = p0 :: pts') by (destruct pts as [|p0 pts']; [congruence|eauto]).
  destruct Hex as (p0 & pts' & Ep).
  set (pn := last pts p0).
  transitivity (interp_scan x (fst pn - P, snd pn) (pts ++ [(fst p0 + P, snd p0)])).
  { unfold pn. rewrite Ep. reflexivity. }
  assert (Hp0 : In p0 pts) by (rewrite Ep; cbn; auto).
  assert (Hpn : In pn pts) by (apply last_in; auto).
  assert (Hmin : forall q, In q pts -> fst p0 <= fst q).
  { intros q Hq. rewrite Ep in HS, Hq. inversion HS; subst. destruct Hq as [->|Hq]; [lra|auto]. }
  assert (Hmax : forall q, In q pts -> fst q <= fst pn) by (intros; apply last_max; auto).
  assert (R0 : 0 <= fst p0 < P) by (destruct (HK p0 Hp0) as (? & _ & _ & _ & _ & ?); auto).
  assert (Rn : 0 <= fst pn < P) by (destruct (HK pn Hpn) as (? & _ & _ & _ & _ & ?); auto).
  assert (Hall : forall q, In q ((fst pn - P, snd pn) :: pts ++ [(fst p0 + P, snd p0)]) ->
     exists q' k, In q' pts /\ fst q = fst q' + IZR k * P /\ snd q = snd q').
  { intros q [<-|Hq].
    - exists pn, (-1)%Z. cbn [fst snd]. repeat split; auto; ring.
    - apply in_app_or in Hq. destruct Hq as [Hq|[<-|[]]].
      + exists q, 0%Z. repeat split; auto; ring.
      + exists p0, 1%Z. cbn [fst snd]. repeat split; auto; ring. }
  assert (Ha : a <= x < b) by (unfold a, b; lra).
  assert (Hab : b <= a + P) by (unfold a, b; lra).
  assert (Ea : a = x - (t - ta)) by reflexivity. assert (Eb : b = x + (tb - t)) by reflexivity.
  replace (seg_val t ta fa tb fb) with (seg_val x a fa b fb).
  2:{ unfold seg_val. rewrite Ea, Eb. replace (x - (x - (t - ta))) with (t - ta) by ring. replace (x + (tb - t) - (x - (t - ta))) with (tb - ta) by ring. reflexivity. }
  clearbody a b.
  apply scan_bracket; auto.
  - constructor.
    + intros q Hq. cbn [fst]. apply in_app_or in Hq. destruct Hq as [Hq|[<-|[]]]; cbn [fst]; [|lra].
      destruct (HK q Hq) as (? & _ & _ & _ & _ & ?). lra.
    + apply Sk_app; auto. intros q Hq. cbn [fst]. destruct (HK q Hq) as (? & _ & _ & _ & _ & ?). lra.
  - intros q Hq. destruct (Hall q Hq) as (q' & k & Hq' & E & _). rewrite E. now apply HnoK.
  - intros q Hq Eq. destruct (Hall q Hq) as (q' & k & Hq' & E & ->). apply (HVa q' k); auto. lra.
  - intros q Hq Eq. destruct (Hall q Hq) as (q' & k & Hq' & E & ->). apply (HVb q' k); auto. lra.
  - destruct (Rle_dec 0 a) as [H0|H0].
    + right. apply in_or_app. left. replace a with (Rmod ta P); [exact Hqa|].
      destruct Caa as [k E]. apply (Rmod_unique ta P a k); auto. lra.
    + left. assert (Rmod ta P = a + P) as Em.
      { destruct Caa as [k E]. apply (Rmod_unique ta P (a + P) (k - 1)); auto; [lra|]. rewrite minus_IZR. rewrite E. ring. }
      pose proof (Hmax _ Hqa) as Hm. cbn [fst] in Hm. rewrite Em in Hm.
      pose proof (HnoK pn (-1)%Z Hpn) as Hn. assert (fst pn - P = a) by lra.
      f_equal; auto. apply (HVa pn (-1)%Z); auto. lra.
  - right. apply in_or_app. destruct (Rlt_dec b P) as [H0|H0].
    + left. replace b with (Rmod tb P); [exact Hqb|].
      destruct Cbb as [k E]. apply (Rmod_unique tb P b k); auto. lra.
    + right. left. assert (Rmod tb P = b - P) as Em.
      { destruct Cbb as [k E]. apply (Rmod_unique tb P (b - P) (k + 1)); auto; [lra|]. rewrite plus_IZR. rewrite E. ring. }
      pose proof (Hmin _ Hqb) as Hm. cbn [fst] in Hm. rewrite Em in Hm.
      pose proof (HnoK p0 1%Z Hp0) as Hn. assert (fst p0 + P = b) by lra.
      f_equal; auto. apply (HVb p0 1%Z); auto. lra.
Qed.

Lemma interp_periodic_range t grid P lo hi : 0 < P -> grid <> [] ->
  (forall p, In p grid -> lo <= snd p <= hi) -> lo <= interp_periodic t grid P <= hi.
Proof.
  intros HP Hne H. unfold interp_periodic. set (K := map (fun p => (Rmod (fst p) P, snd p)) grid).
  pose proof (Rmod_range t P HP) as Hx.
  assert (HK : forall q, In q (sort_key K) -> lo <= snd q <= hi /\ 0 <= fst q < P).
  { intros q Hq. apply (proj1 (in_sort q K)) in Hq. apply in_map_iff in Hq. destruct Hq as (p & <- & Hp). cbn. split; auto.
    apply Rmod_range; auto. }
  destruct (sort_key K) as [|p0 pts] eqn:E.
  - apply sort_nil in E. apply map_eq_nil in E. congruence.
  - cbv zeta. set (pn := last (p0 :: pts) p0).
    assert (Hpn : In pn (p0 :: pts)) by (apply last_in; congruence).
    apply scan_range.
    + destruct pts; discriminate.
    + intros q [<-|Hq]; [apply (HK pn Hpn)|]. apply in_app_or in Hq. destruct Hq as [Hq|[<-|[]]]; [now apply HK|].
      apply (HK p0); cbn; auto.
    + cbn [fst]. destruct (HK pn Hpn). lra.
    + rewrite last_last. cbn [fst]. destruct (HK p0 (or_introl eq_refl)). lra.
Qed.

(** ** the interpolate transform *)
Definition grid_time (P t0 d : R) (n i : nat) : R := t0 + d * (-0.5 + INR i / INR (n - 1)).
Lemma in_grid f P t0 od n p : (2 <= n)%nat -> 
  In p (interp_grid f P t0 od n) <->
  exists i, (i < n)%nat /\ fst p = grid_time P t0 (match od with None => P | Some d => d end) n i /\ snd p = f (fst p).
Proof.
  intros Hn. unfold interp_grid. rewrite in_map_iff.
  assert (Hl : forall i, linspace (-0.5) 0.5 n i = -0.5 + INR i / INR (n - 1)).
  { intros i. destruct n as [|n]; [lia|]. rewrite linspace_node by lia. replace (S n - 1)%nat with n by lia. reflexivity. }
  split.
  - intros (i & <- & Hi). apply in_seq in Hi. exists i. cbn. unfold grid_time. rewrite Hl. repeat split; auto. lia.
  - intros (i & Hi & E1 & E2). exists i. rewrite in_seq. split; [|lia].
    rewrite (surjective_pairing p), E2, E1. unfold grid_time. rewrite Hl. reflexivity.
Qed.
Lemma wrapped_mod time t0 P : 0 < P ->
  cong P (Rmod (time - t0 + 0.5 * P) P + 0.5 * P + t0) time.
Proof.
  intros HP. destruct (Rmod_decomp (time - t0 + 0.5 * P) P) as [k E].
  exists (1 - k)%Z. rewrite minus_IZR. lra.
Qed.
Lemma interp_periodic_cong x y grid P : 0 < P -> cong P x y -> interp_periodic x grid P = interp_periodic y grid P.
Proof. intros HP H. unfold interp_periodic. now rewrite (cong_mod P x y HP H). Qed.
Lemma interpolate_value f P t0 od n g t : 0 < P -> interpolate f P t0 od n = Ok g ->
  g t = interp_periodic t (interp_grid f P t0 od n) P.
Proof.
  intros HP. unfold interpolate. destruct (n =? 0)%nat; [discriminate|]. intros H. injection H as <-.
  apply interp_periodic_cong; auto. now apply wrapped_mod.
Qed.
Lemma interpolate_periodic f P t0 od n g t k : 0 < P -> interpolate f P t0 od n = Ok g ->
  g (t + IZR k * P) = g t.
Proof.
  intros HP H. rewrite !(interpolate_value f P t0 od n g) by auto. apply interp_periodic_cong; auto.
  exists k. reflexivity.
Qed.
Lemma interpolate_range f P t0 od n g t lo hi : 0 < P -> interpolate f P t0 od n = Ok g ->
  (forall s, Rabs (s - t0) <= Rabs (match od with None => P | Some d => d end) / 2 -> lo <= f s <= hi) -> lo <= g t <= hi.
Proof.
  intros HP H Hf. rewrite (interpolate_value f P t0 od n g) by auto.
  assert (Hn : n <> 0%nat) by (intros ->; discriminate).
  apply interp_periodic_range; auto.
  - unfold interp_grid. destruct n; [congruence|]. discriminate.
  - intros p Hp. unfold interp_grid in Hp. apply in_map_iff in Hp. destruct Hp as (i & <- & Hi). apply in_seq in Hi. cbn [snd].
    apply Hf. match goal with |- Rabs ?x <= _ => replace x with (match od with None => P | Some d => d end * linspace (-0.5) 0.5 n i) by ring end.
    rewrite Rabs_mult. pose proof (raw_pt_range 1 n i ltac:(lia)) as Hr. cbn [raw_pt fst] in Hr.
    assert (Rabs (linspace (-0.5) 0.5 n i) <= 1/2) by (apply Rabs_le; lra).
    pose proof (Rabs_pos (match od with None => P | Some d => d end)). nra.
Qed.
Lemma grid_time_mono P t0 d n i j : 0 < d -> (2 <= n)%nat -> (i < j)%nat -> grid_time P t0 d n i < grid_time P t0 d n j.
Proof.
  intros Hd Hn Hij. unfold grid_time. assert (0 < INR (n-1)) by (apply lt_0_INR; lia).
  assert (INR i < INR j) by (apply lt_INR; auto).
  assert (INR i / INR (n-1) < INR j / INR (n-1)) by (apply Rmult_lt_compat_r; [apply Rinv_0_lt_compat; auto|auto]). nra.
Qed.
Lemma grid_time_le P t0 d n i j : 0 < d -> (2 <= n)%nat -> (i <= j)%nat -> grid_time P t0 d n i <= grid_time P t0 d n j.
Proof. intros Hd Hn Hij. destruct (Nat.eq_dec i j) as [->|]; [lra|]. left. apply grid_time_mono; auto. lia. Qed.
Lemma grid_time_span P t0 d n : 0 < d -> (2 <= n)%nat -> grid_time P t0 d n (n-1) = grid_time P t0 d n 0 + d.
Proof.
  intros Hd Hn. unfold grid_time. assert (0 < INR (n-1)) by (apply lt_0_INR; lia). cbn [INR]. field. lra.
Qed.
Lemma IZR_le_1 k : (k < 0)%Z -> IZR k <= -1.
Proof. intros. change (-1) with (IZR (-1)). apply IZR_le. lia. Qed.
Lemma IZR_ge_1 k : (0 < k)%Z -> 1 <= IZR k.
Proof. intros. change 1 with (IZR 1). apply IZR_le. lia. Qed.

(** general position of the grid points modulo the period *)
Section Grid.
  Context (f : R -> R) (P t0 d : R) (n : nat) (HP : 0 < P) (Hd : 0 < d <= P) (Hn : (2 <= n)%nat).
  Context (Hper : d = P -> f (t0 + P / 2) = f (t0 - P / 2)).
  Let tg := grid_time P t0 d n.
  Lemma tg_bounds i : (i < n)%nat -> tg 0 <= tg i <= tg 0 + d.
  Proof.
    intros H. unfold tg. split; [apply grid_time_le; lia || lra|].
    rewrite <- grid_time_span by (lra || lia). apply grid_time_le; lia || lra.
  Qed.
  Lemma tg_cong_value i j : (i < n)%nat -> (j < n)%nat -> cong P (tg i) (tg j) -> f (tg i) = f (tg j).
  Proof.
    intros Hi Hj [k E]. pose proof (tg_bounds i Hi). pose proof (tg_bounds j Hj).
    assert (E1 : tg 0 = t0 - d/2) by (unfold tg, grid_time; cbn [INR]; unfold Rdiv; lra).
    destruct (Z.lt_trichotomy k 0) as [Hk|[Hk|Hk]].
    - pose proof (IZR_le_1 k Hk). assert (tg i = tg 0 /\ tg j = tg 0 + d /\ d = P) as (-> & -> & E2) by nra.
      rewrite E1. replace (t0 - d/2 + d) with (t0 + P/2) by (rewrite E2; lra). rewrite E2. symmetry. auto.
    - subst k. rewrite E. f_equal. ring.
    - pose proof (IZR_ge_1 k Hk). assert (tg j = tg 0 /\ tg i = tg 0 + d /\ d = P) as (-> & -> & E2) by nra.
      rewrite E1. replace (t0 - d/2 + d) with (t0 + P/2) by (rewrite E2; lra). rewrite E2. auto.
  Qed.
  Context (od : option R) (Hod : match od with None => P | Some d => d end = d).
  Context (g : R -> R) (Hg : interpolate f P t0 od n = Ok g).
  Lemma grid_in i : (i < n)%nat -> In (tg i, f (tg i)) (interp_grid f P t0 od n).
  Proof. intros Hi. apply in_grid; auto. exists i. rewrite Hod. auto. Qed.

  Lemma bracket_general t ta tb i j : (i < n)%nat -> (j < n)%nat -> cong P (tg i) ta -> cong P (tg j) tb ->
    ta <= t < tb -> tb <= ta + P -> (forall m k, (m < n)%nat -> ~ (ta < tg m + IZR k * P < tb)) ->
    g t = seg_val t ta (f (tg i)) tb (f (tg j)).
  Proof.
    intros Hi Hj Ca Cb Ht Hs Hno. rewrite (interpolate_value f P t0 od n g) by auto.
    apply interp_periodic_bracket; auto.
    - exists (tg i, f (tg i)). split; [now apply grid_in|auto].
    - exists (tg j, f (tg j)). split; [now apply grid_in|auto].
    - intros p s Hp C. apply in_grid in Hp; auto. destruct Hp as (m & Hm & E & _). rewrite Hod in E. fold tg in E.
      apply cong_sym in C. destruct C as [k Ek]. rewrite E in Ek. rewrite Ek. now apply Hno.
    - intros p Hp C. apply in_grid in Hp; auto. destruct Hp as (m & Hm & E & Es). rewrite Hod in E. fold tg in E. rewrite Es, E.
      apply tg_cong_value; auto. rewrite E in C. apply cong_trans with ta; auto. now apply cong_sym.
    - intros p Hp C. apply in_grid in Hp; auto. destruct Hp as (m & Hm & E & Es). rewrite Hod in E. fold tg in E. rewrite Es, E.
      apply tg_cong_value; auto. rewrite E in C. apply cong_trans with tb; auto. now apply cong_sym.
  Qed.
  Lemma no_between m k i : (m < n)%nat -> (S i < n)%nat -> ~ (tg i < tg m + IZR k * P < tg (S i)).
  Proof.
    intros Hm Hi [H1 H2]. pose proof (tg_bounds m Hm). pose proof (tg_bounds i ltac:(lia)). pose proof (tg_bounds (S i) ltac:(lia)).
    destruct (Z.lt_trichotomy k 0) as [Hk|[Hk|Hk]].
    - pose proof (IZR_le_1 k Hk). nra.
    - subst k. rewrite Rmult_0_l, Rplus_0_r in *. destruct (le_lt_dec m i).
      + assert (tg m <= tg i) by (apply grid_time_le; lia || lra). lra.
      + assert (tg (S i) <= tg m) by (apply grid_time_le; lia || lra). lra.
    - pose proof (IZR_ge_1 k Hk). nra.
  Qed.
  Lemma interpolate_linear i t : (S i < n)%nat -> tg i <= t < tg (S i) ->
    g t = seg_val t (tg i) (f (tg i)) (tg (S i)) (f (tg (S i))).
  Proof.
    intros Hi Ht. apply bracket_general; auto; try lia.
    - exists 0%Z. ring.
    - exists 0%Z. ring.
    - pose proof (tg_bounds i ltac:(lia)). pose proof (tg_bounds (S i) Hi). lra.
    - intros m k Hm. now apply no_between.
  Qed.
  Lemma interpolate_gap t : d < P -> tg (n - 1) <= t < tg 0 + P ->
    g t = seg_val t (tg (n - 1)) (f (tg (n-1))) (tg 0 + P) (f (tg 0)).
  Proof.
    intros HdP Ht. apply bracket_general; auto; try lia.
    - exists 0%Z. ring.
    - exists (-1)%Z. ring.
    - pose proof (tg_bounds (n-1) ltac:(lia)). lra.
    - intros m k Hm [H1 H2]. pose proof (tg_bounds m Hm).
      assert (E : tg (n-1) = tg 0 + d) by (apply grid_time_span; lra || lia).
      destruct (Z.lt_trichotomy k 0) as [Hk|[Hk|Hk]].
      + pose proof (IZR_le_1 k Hk). nra.
      + subst k. lra.
      + pose proof (IZR_ge_1 k Hk). nra.
  Qed.
  Lemma seg_left a fa b fb : seg_val a a fa b fb = fa.
  Proof. unfold seg_val. unfold Rdiv. ring. Qed.
  Lemma interpolate_grid_exact i : (i < n)%nat -> g (tg i) = f (tg i).
  Proof.
    intros Hi. destruct (Nat.eq_dec (S i) n) as [E|E].
    - destruct (Req_dec d P) as [Ed|Ed].
      + assert (E1 : tg i = tg 0 + P).
        { replace i with (n-1)%nat by lia. unfold tg. rewrite grid_time_span by (lra||lia). lra. }
        rewrite E1. replace (tg 0 + P) with (tg 0 + IZR 1 * P) at 1 by ring.
        rewrite (interpolate_periodic f P t0 od n g (tg 0) 1) by auto.
        rewrite (interpolate_linear 0) by (first [lia | split; [lra|apply grid_time_mono; lra || lia]]).
        rewrite seg_left. rewrite <- E1. apply tg_cong_value; try lia. exists (-1)%Z. rewrite E1. ring.
      + replace (tg i) with (tg (n-1)) by (f_equal; lia). rewrite interpolate_gap; [apply seg_left|lra|].
        split; [lra|]. unfold tg. rewrite grid_time_span by (lra||lia). lra.
    - rewrite (interpolate_linear i); [apply seg_left|lia|]. split; [lra|]. apply grid_time_mono; lra || lia.
  Qed.
End Grid.
