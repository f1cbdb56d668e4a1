(** dlmn computes the Wigner d-matrices and the rotation matrices of real spherical harmonics. *)
From Coq Require Import Reals Lra Lia ZArith List Bool Arith.
From Coquelicot Require Import Coquelicot.
From Verif Require Import Base.RealAux Model.Poly Model.S2fft Model.Dlmn Proof.WignerGen Proof.WignerStep Proof.WignerMap Proof.RotationMore Proof.DlmnRec.
Import ListNotations.
Open Scope R_scope.

(** * loops *)
Lemma zdown_S a b : (b < a)%Z -> zdown a b = a :: zdown (a - 1) b.
Proof.
  intros H. unfold zdown. replace (Z.to_nat (a - b)) with (S (Z.to_nat (a - 1 - b))) by lia. cbn [seq map]. f_equal; [lia|].
  rewrite <- seq_shift, map_map. apply map_ext. intros. lia.
Qed.
Lemma zdown_nil a b : (a <= b)%Z -> zdown a b = [].
Proof. intros H. unfold zdown. replace (Z.to_nat (a - b)) with O by lia. reflexivity. Qed.
Lemma zrange_S a b : (a < b)%Z -> zrange a b = a :: zrange (a + 1) b.
Proof.
  intros H. unfold zrange. replace (Z.to_nat (b - a)) with (S (Z.to_nat (b - (a + 1)))) by lia. cbn [seq map]. f_equal; [lia|].
  rewrite <- seq_shift, map_map. apply map_ext. intros. lia.
Qed.
Lemma zrange_nil a b : (b <= a)%Z -> zrange a b = [].
Proof. intros H. unfold zrange. replace (Z.to_nat (b - a)) with O by lia. reflexivity. Qed.
Lemma zdown_ind {S} (f : S -> Z -> S) (P : Z -> S -> Prop) b : forall n a s, (Z.of_nat n = a - b)%Z -> P a s ->
  (forall m s, (b < m <= a)%Z -> P m s -> P (m - 1)%Z (f s m)) -> P b (fold_left f (zdown a b) s).
Proof.
  induction n as [|n IH]; intros a s Hn H0 HS.
  - rewrite zdown_nil by lia. cbn [fold_left]. now replace b with a by lia.
  - rewrite zdown_S by lia. cbn [fold_left]. apply IH; [lia|apply HS; [lia|exact H0]|]. intros m s' Hm. apply HS. lia.
Qed.
Lemma zup_ind {S} (f : S -> Z -> S) (P : Z -> S -> Prop) b : forall n a s, (Z.of_nat n = b - a)%Z -> P a s ->
  (forall m s, (a <= m < b)%Z -> P m s -> P (m + 1)%Z (f s m)) -> P b (fold_left f (zrange a b) s).
Proof.
  induction n as [|n IH]; intros a s Hn H0 HS.
  - rewrite zrange_nil by lia. cbn [fold_left]. now replace b with a by lia.
  - rewrite zrange_S by lia. cbn [fold_left]. apply IH; [lia|apply HS; [lia|exact H0]|]. intros m s' Hm. apply HS. lia.
Qed.

(** * matrices that agree with a target on a region *)
Section Region.
Variable e : Z.
Variable T : Z -> Z -> R.
Definition agrees (Q : Z -> Z -> Prop) (M : matrix) : Prop := forall x y, Q x y -> M (x + e)%Z (y + e)%Z = T x y.
Lemma agrees_set (Q Q' : Z -> Z -> Prop) M a b v : agrees Q M -> v = T a b -> (forall x y, Q' x y -> Q x y \/ (x = a /\ y = b)) ->
  agrees Q' (mset M (a + e) (b + e) v).
Proof.
  intros HM Hv HQ x y Hxy. rewrite mset_at. destruct (Z.eqb_spec (x + e) (a + e)), (Z.eqb_spec (y + e) (b + e)); cbn [andb].
  - replace x with a by lia. replace y with b by lia. exact Hv.
  - destruct (HQ x y Hxy) as [H|H]; [now apply HM|lia].
  - destruct (HQ x y Hxy) as [H|H]; [now apply HM|lia].
  - destruct (HQ x y Hxy) as [H|H]; [now apply HM|lia].
Qed.
Lemma agrees_sub (Q Q' : Z -> Z -> Prop) M : agrees Q M -> (forall x y, Q' x y -> Q x y) -> agrees Q' M.
Proof. intros H HQ x y Hxy. apply H, HQ, Hxy. Qed.
End Region.

(** * the d-matrices *)
Lemma orders_reflect l c d x y : spow (2 * l) c d (x + Z.of_nat l) (y + Z.of_nat l) = psign (y - x) * spow (2 * l) c d (y + Z.of_nat l) (x + Z.of_nat l).
Proof. rewrite spow_reflect. replace (x + Z.of_nat l - (y + Z.of_nat l))%Z with (- (y - x))%Z by ring. now rewrite psign_opp. Qed.
Lemma orders_invert l c d x y : spow (2 * l) c d (x + Z.of_nat l) (y + Z.of_nat l) = psign (y - x) * spow (2 * l) c d (- x + Z.of_nat l) (- y + Z.of_nat l).
Proof.
  pose proof (spow_invert (2 * l) c d (- x + Z.of_nat l) (- y + Z.of_nat l)) as E.
  replace (Z.of_nat (2 * l) - (- x + Z.of_nat l))%Z with (x + Z.of_nat l)%Z in E by lia. replace (Z.of_nat (2 * l) - (- y + Z.of_nat l))%Z with (y + Z.of_nat l)%Z in E by lia.
  rewrite E. f_equal. f_equal. ring.
Qed.
Section Dmat.
Variables c d c2 tg : R.
Hypothesis Hcd : c ^ 2 + d ^ 2 = 1.
Hypothesis Hc2 : c2 = c ^ 2 - d ^ 2.
Hypothesis Htg : c <> 0 -> tg = - (d / c).
(** entry of orders (x, y) of the d-matrix of degree l *)
Definition dT (l : nat) (x y : Z) : R := spow (2 * l) c d (x + Z.of_nat l) (y + Z.of_nat l).
(** the list of the matrices of degrees 0 .. n-1 *)
Definition Dok (n : nat) (D : list matrix) : Prop := length D = n /\
  forall l, (l < n)%nat -> forall k i, (0 <= k <= 2 * Z.of_nat l)%Z -> (0 <= i <= 2 * Z.of_nat l)%Z -> nth l D (fun _ _ => 0) k i = spow (2 * l) c d k i.
Variable l : nat.
Hypothesis Hl : (2 <= l)%nat.
Variable D : list matrix.
Hypothesis HD : Dok l D.
Let e := Z.of_nat l.
Let tgt : Z -> Z -> R := fun x y => spow (2 * l) c d (x + Z.of_nat l) (y + Z.of_nat l).
Lemma from_end_ok n k i : (1 <= n <= l)%nat -> (0 <= k <= 2 * Z.of_nat (l - n))%Z -> (0 <= i <= 2 * Z.of_nat (l - n))%Z -> from_end D n k i = spow (2 * (l - n)) c d k i.
Proof. intros Hn Hk Hi. unfold from_end. rewrite (proj1 HD). apply (proj2 HD); lia. Qed.
Lemma J_eq : (2 * l = S (S (2 * (l - 1))))%nat.
Proof. lia. Qed.
Definition Qrow (x y : Z) : Prop := (x = e /\ - e <= y <= e)%Z.
Lemma last_row_ok : agrees e tgt Qrow (last_row e c2 tg D).
Proof.
  unfold last_row. cbv zeta.
  assert (Ed : 1 - c2 = 2 * d ^ 2) by (rewrite Hc2, <- Hcd; ring). assert (Ec : 1 + c2 = 2 * c ^ 2) by (rewrite Hc2, <- Hcd; ring).
  replace (2 * e)%Z with (e + e)%Z by ring.
  match goal with |- agrees _ _ _ (mset ?M ?r ?k ?v) => replace (mset M r k v) with (mset M r (- e + e)%Z v) by (f_equal; ring) end.
  apply (agrees_set e tgt (fun x y => x = e /\ 1 - e <= y <= e)%Z).
  - match goal with |- agrees _ _ _ (fold_left ?f (zdown ?a ?b) ?s) =>
      pose proof (zdown_ind f (fun m M => agrees e tgt (fun x y => x = e /\ m + 1 <= y <= e)%Z M) b (Z.to_nat (a - b)) a s) as H end.
    eapply agrees_sub; [apply H|].
    + unfold e. lia.
    + eapply agrees_set with (Q := fun _ _ => False); [intros x y []| |intros x y Hxy; right; unfold e in *; lia].
      rewrite from_end_ok by (unfold e; lia). rewrite Ec.
      unfold tgt. fold e. replace (e + e)%Z with (Z.of_nat (2 * l)) by (unfold e; lia).
      transitivity (c ^ 2 * spow (2 * (l - 1)) c d (Z.of_nat (2 * (l - 1))) (Z.of_nat (2 * (l - 1)))).
      * replace (- (1 - e) + e - 1)%Z with (Z.of_nat (2 * (l - 1))) by (unfold e; lia). field.
      * pose proof (spow_last_corner (2 * (l - 1)) c d) as E. rewrite <- J_eq in E. now rewrite E.
    + intros m M Hm HM. apply (agrees_set e tgt (fun x y => x = e /\ m + 1 <= y <= e)%Z); [exact HM| |intros; lia].
      rewrite (HM e (m + 1)%Z) by (unfold e in *; lia). unfold tgt. fold e. replace (e + e)%Z with (Z.of_nat (2 * l)) by (unfold e; lia).
      destruct (Req_EM_T c 0) as [E0|E0].
      * rewrite !spow_last_zero by (try exact E0; unfold e in *; lia). ring.
      * rewrite Htg by exact E0. rewrite (spow_last_step (2 * l) c d (m + e)) by (try exact E0; unfold e in *; lia).
        replace (Z.of_nat (2 * l) - (m + e))%Z with (e - m)%Z by (unfold e; lia). replace (m + e + 1)%Z with (e + m + 1)%Z by ring. replace (m + 1 + e)%Z with (e + m + 1)%Z by ring. ring.
    + intros x y Hxy; cbn beta in *; lia.
  - replace (nth (Z.to_nat (e - 1)) D (fun _ _ => 0)) with (nth (l - 1) D (fun _ _ => 0)) by (f_equal; unfold e; lia).
    rewrite (proj2 HD) by (unfold e; lia). rewrite Ed. unfold tgt. fold e. replace (e + e)%Z with (Z.of_nat (2 * l)) by (unfold e; lia). replace (- e + e)%Z with 0%Z by ring.
    pose proof (spow_last_first (2 * (l - 1)) c d) as E. rewrite <- J_eq in E. rewrite E. replace (- (1 - e) + e - 1)%Z with (Z.of_nat (2 * (l - 1))) by (unfold e; lia). replace (- - (1 - e) + e - 1)%Z with 0%Z by ring. field.
  - intros x y [Hx Hy]. lia.
Qed.
Definition inv2 (mp : Z) (st : matrix * (Z * Z)) : Prop :=
  fst (snd st) = (- mp)%Z /\ snd (snd st) = mp /\ agrees e tgt (fun x y => x = e /\ - e <= y <= e \/ mp < x < e /\ Z.abs y <= x)%Z (fst st).
Lemma upper_rows_ok M : agrees e tgt Qrow M -> agrees e tgt (fun x y => x <= e /\ Z.abs y <= x)%Z (upper_rows e c2 D M).
Proof.
  intros HM. unfold upper_rows. cbv zeta.
  match goal with |- agrees _ _ _ (fst (fold_left ?f (zdown ?a ?b) ?s)) =>
    pose proof (zdown_ind f inv2 b (Z.to_nat (a - b)) a s) as H end.
  destruct H as (_ & _ & H).
  - unfold e. lia.
  - split; [cbn [fst snd]; lia|split; [cbn [fst snd]; lia|]]. cbn [fst snd]. apply (agrees_sub _ _ _ _ _ HM). intros x y [Hxy|Hxy]; unfold Qrow; lia.
  - clear HM M. intros mp [M [iinf isup]] Hmp (Hi & Hs & HM). cbn [fst snd] in Hi, Hs, HM. subst iinf isup. split; [cbn [fst snd]; lia|split; [cbn [fst snd]; lia|]]. cbn [fst snd].
    match goal with |- agrees _ _ _ (fold_left ?f (zdown ?a ?b) ?s) =>
      pose proof (zdown_ind f (fun m M => agrees e tgt (fun x y => x = e /\ - e <= y <= e \/ mp < x < e /\ Z.abs y <= x \/ x = mp /\ m < y <= mp)%Z M) b (Z.to_nat (a - b)) a s) as H end.
    eapply agrees_sub; [apply H|].
    + lia.
    + apply (agrees_sub _ _ _ _ _ HM). intros; lia.
    + clear H HM M. intros m M Hm HM. eapply agrees_set; [exact HM| |intros x y Hxy; cbn beta in *; lia].
      pose proof (spow_three c d Hcd (l - 1) (mp + e - 1) (m + e - 1) ltac:(lia) ltac:(unfold e in *; lia) ltac:(unfold e in *; lia)) as T3. cbv zeta in T3.
      replace (S (S (2 * (l - 1)))) with (2 * l)%nat in T3 by lia.
      replace (mp + e - 1 + 1)%Z with (mp + e)%Z in T3 by ring. replace (m + e - 1 + 1)%Z with (m + e)%Z in T3 by ring.
      replace (Z.of_nat (2 * (l - 1)) + 1 - (mp + e - 1))%Z with (e - mp)%Z in T3 by (unfold e; lia).
      replace (Z.of_nat (2 * (l - 1)) + 1 - (m + e - 1))%Z with (e - m)%Z in T3 by (unfold e; lia).
      replace (Z.of_nat (2 * (l - 1)) - (mp + e - 1))%Z with (e - mp - 1)%Z in T3 by (unfold e; lia).
      replace (Z.of_nat (2 * (l - 1)) - (m + e - 1))%Z with (e - m - 1)%Z in T3 by (unfold e; lia).
      replace (m + e - 1 - Z.of_nat (l - 1))%Z with m in T3 by (unfold e; lia). replace (mp + e - 1 - Z.of_nat (l - 1))%Z with mp in T3 by (unfold e; lia).
      replace (mp + e - 1 - 1)%Z with (mp + e - 2)%Z in T3 by ring. replace (m + e - 1 - 1)%Z with (m + e - 2)%Z in T3 by ring.
      replace (2 * (l - 1) - 2)%nat with (2 * (l - 2))%nat in T3 by lia.
      assert (EL : INR (l - 1) = IZR (e - 1)) by (rewrite INR_IZR_INZ; f_equal; unfold e; lia). rewrite EL in T3.
      rewrite from_end_ok by (unfold e in *; lia).
      assert (E2 : (if (negb (e - m =? 1) && negb (e - mp =? 1))%Z%bool then
          IZR (e + (e - 1)) * (c2 * IZR e * IZR (e - 1) - IZR (m * mp)) * spow (2 * (l - 1)) c d (mp + e - 1) (m + e - 1) -
            from_end D 2 (mp + e - 2)%Z (m + e - 2)%Z * (sqrt (IZR ((e + mp - 1) * (e - mp - 1))) * IZR e) * sqrt (IZR ((e + m - 1) * (e - m - 1)))
          else IZR (e + (e - 1)) * (c2 * IZR e * IZR (e - 1) - IZR (m * mp)) * spow (2 * (l - 1)) c d (mp + e - 1) (m + e - 1)) =
        IZR (e - 1) * (sqrt (IZR ((mp + e) * (e - mp))) * sqrt (IZR ((m + e) * (e - m)))) * spow (2 * l) c d (mp + e) (m + e)).
      { rewrite T3. replace (e + (e - 1))%Z with (2 * (e - 1) + 1)%Z by ring. rewrite plus_IZR, mult_IZR. replace (IZR e) with (IZR (e - 1) + 1) by (rewrite minus_IZR; ring).
        replace (e + mp - 1)%Z with (mp + e - 1)%Z by ring. replace (e + m - 1)%Z with (m + e - 1)%Z by ring. rewrite Hc2.
        destruct (Z.eqb_spec (e - m) 1) as [E1|E1]; [|destruct (Z.eqb_spec (e - mp) 1) as [E3|E3]]; cbn [negb andb].
        - replace (e - m - 1)%Z with 0%Z by lia. rewrite Z.mul_0_r, sqrt_0. ring.
        - replace (e - mp - 1)%Z with 0%Z by lia. rewrite Z.mul_0_r, sqrt_0. ring.
        - rewrite from_end_ok by (unfold e in *; lia). ring. }
      unfold tgt. fold e. etransitivity; [apply f_equal; exact E2|].
      replace (mp + e)%Z with (e + mp)%Z by ring. replace (m + e)%Z with (e + m)%Z by ring.
      assert (N1 : sqrt (IZR ((e + mp) * (e - mp))) <> 0) by (apply Rgt_not_eq, sqrt_lt_R0, IZR_lt; unfold e in *; nia).
      assert (N2 : sqrt (IZR ((e + m) * (e - m))) <> 0) by (apply Rgt_not_eq, sqrt_lt_R0, IZR_lt; unfold e in *; nia).
      assert (N3 : IZR (e - 1) <> 0) by (apply not_0_IZR; unfold e; lia). field. repeat split; assumption.
    + intros x y Hxy. cbn beta in *. lia.
  - apply (agrees_sub _ _ _ _ _ H). intros x y Hxy. cbn beta in *. lia.
Qed.
Lemma tgt_reflect x y : tgt x y = psign (y - x) * tgt y x.
Proof. apply orders_reflect. Qed.
Lemma tgt_invert x y : tgt x y = psign (y - x) * tgt (- x) (- y).
Proof. apply orders_invert. Qed.
Definition Qup (x y : Z) : Prop := (x <= e /\ Z.abs y <= x)%Z.
Definition inv3 (m : Z) (st : matrix * (R * (Z * Z))) : Prop :=
  fst (snd st) = 1 /\ fst (snd (snd st)) = (- m)%Z /\ snd (snd (snd st)) = (m - 1)%Z /\ agrees e tgt (fun x y => Qup x y \/ m < y <= e /\ - y <= x < y)%Z (fst st).
Definition inv3i (m mp : Z) (st : matrix * R) : Prop :=
  snd st = psign (m - mp) /\ agrees e tgt (fun x y => Qup x y \/ m < y <= e /\ - y <= x < y \/ y = m /\ - m <= x < mp)%Z (fst st).
Lemma reflection_ok M : agrees e tgt Qup M -> agrees e tgt (fun x y => x <= e /\ y <= e /\ 0 <= x + y)%Z (reflection e M).
Proof.
  intros HM. unfold reflection.
  match goal with |- agrees _ _ _ (fst (fold_left ?f (zdown ?a ?b) ?s)) => pose proof (zdown_ind f inv3 b (Z.to_nat (a - b)) a s) as H end.
  destruct H as (_ & _ & _ & H).
  - unfold e. lia.
  - unfold inv3. cbn [fst snd]. split; [reflexivity|split; [reflexivity|split; [reflexivity|]]]. apply (agrees_sub _ _ _ _ _ HM). intros x y [Hxy|Hxy]; [exact Hxy|lia].
  - clear HM M. intros m [M [sg [iinf isup]]] Hm (H1 & H2 & H3 & HM). cbn [fst snd] in H1, H2, H3, HM. subst sg iinf isup.
    match goal with |- inv3 _ (let '(_, _) := fold_left ?f (zrange ?a ?b) ?s in _) => pose proof (zup_ind f (inv3i m) b (Z.to_nat (b - a)) a s) as H; destruct (fold_left f (zrange a b) s) as [M' s'] end.
    destruct H as [H1 H2].
    + lia.
    + unfold inv3i. cbn [fst snd]. split; [replace (m - - m)%Z with (2 * m)%Z by ring; now rewrite psign_even|]. apply (agrees_sub _ _ _ _ _ HM). intros x y Hxy. cbn beta in *. destruct Hxy as [Hxy|[Hxy|Hxy]]; [left; exact Hxy|right; exact Hxy|lia].
    + clear HM M M' s'. intros mp [M sg] Hmp [Hs HM]. cbn [fst snd] in Hs, HM. subst sg. unfold inv3i. cbn [fst snd]. split.
      * replace (m - (mp + 1))%Z with (m - mp - 1)%Z by ring. rewrite psign_pred. ring.
      * eapply agrees_set; [exact HM| |intros x y Hxy; cbn beta in *; unfold Qup in *; lia].
        rewrite (HM m mp) by (left; unfold Qup; lia). symmetry. apply tgt_reflect.
    + cbn [fst snd] in H1, H2. unfold inv3. cbn [fst snd]. split; [rewrite H1; replace (m - (m - 1 + 1))%Z with (2 * 0)%Z by ring; apply psign_even|split; [lia|split; [lia|]]].
      apply (agrees_sub _ _ _ _ _ H2). intros x y Hxy. cbn beta in *. unfold Qup in *. lia.
  - apply (agrees_sub _ _ _ _ _ H). intros x y Hxy. cbn beta in *. unfold Qup. lia.
Qed.
Definition Qhalf (x y : Z) : Prop := (x <= e /\ y <= e /\ 0 <= x + y)%Z.
Definition inv4 (m : Z) (st : matrix * Z) : Prop :=
  snd st = (- m - 1)%Z /\ agrees e tgt (fun x y => Qhalf x y \/ m < y <= e /\ - e <= x <= e)%Z (fst st).
Definition inv4i (m mp : Z) (st : matrix * R) : Prop :=
  snd st = psign (m - mp) /\ agrees e tgt (fun x y => Qhalf x y \/ m < y <= e /\ - e <= x <= e \/ y = m /\ mp < x <= e)%Z (fst st).
Lemma inversion_ok M : agrees e tgt Qhalf M -> agrees e tgt (fun x y => - e <= x <= e /\ - e <= y <= e)%Z (inversion e M).
Proof.
  intros HM. unfold inversion. cbv zeta.
  match goal with |- agrees _ _ _ (fst (fold_left ?f (zdown ?a ?b) ?s)) => pose proof (zdown_ind f inv4 b (Z.to_nat (a - b)) a s) as H end.
  destruct H as (_ & H).
  - unfold e. lia.
  - unfold inv4. cbn [fst snd]. split; [lia|]. apply (agrees_sub _ _ _ _ _ HM). intros x y [Hxy|Hxy]; unfold Qhalf in *; lia.
  - clear HM M. intros m [M isup] Hm (H2 & HM). cbn [fst snd] in H2, HM. subst isup.
    match goal with |- inv4 _ (let '(_, _) := fold_left ?f (zdown ?a ?b) ?s in _) => pose proof (zdown_ind f (inv4i m) b (Z.to_nat (a - b)) a s) as H; destruct (fold_left f (zdown a b) s) as [M' s'] end.
    destruct H as [H1 H2].
    + lia.
    + unfold inv4i. cbn [fst snd]. split; [replace (m - (- m - 1))%Z with (2 * m + 1)%Z by ring; rewrite psign_succ, psign_even; ring|]. apply (agrees_sub _ _ _ _ _ HM). intros x y Hxy. cbn beta in *. unfold Qhalf in *. lia.
    + clear HM M M' s'. intros mp [M sg] Hmp [Hs HM]. cbn [fst snd] in Hs, HM. subst sg. unfold inv4i. cbn [fst snd]. split.
      * replace (m - (mp - 1))%Z with (m - mp + 1)%Z by ring. rewrite psign_succ. ring.
      * eapply agrees_set; [exact HM| |intros x y Hxy; cbn beta in *; unfold Qhalf in *; lia].
        rewrite (HM (- mp) (- m))%Z by (left; unfold Qhalf; lia). symmetry. apply tgt_invert.
    + cbn [fst snd] in H1, H2. unfold inv4. cbn [fst snd]. split; [lia|].
      apply (agrees_sub _ _ _ _ _ H2). intros x y Hxy. cbn beta in *. unfold Qhalf in *. lia.
  - apply (agrees_sub _ _ _ _ _ H). intros x y Hxy. cbn beta in *. unfold Qhalf. lia.
Qed.
Lemma dlmn_D s1 c1 s3 c3 k i : (0 <= k <= 2 * e)%Z -> (0 <= i <= 2 * e)%Z -> fst (dlmn e s1 c1 c2 tg s3 c3 D) k i = spow (2 * l) c d k i.
Proof.
  intros Hk Hi. unfold dlmn. cbn [fst]. pose proof (inversion_ok _ (reflection_ok _ (upper_rows_ok _ last_row_ok))) as H.
  specialize (H (k - e) (i - e))%Z. unfold tgt in H. fold e in H. replace (k - e + e)%Z with k in H by ring. replace (i - e + e)%Z with i in H by ring. apply H. lia.
Qed.
End Dmat.
