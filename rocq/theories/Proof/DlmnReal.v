(** From the d-matrices to the rotation matrices of real spherical harmonics. *)
From Coq Require Import Reals Lra Lia ZArith List Bool Arith.
From Coquelicot Require Import Coquelicot.
From Verif Require Import Base.RealAux Model.Poly Model.S2fft Model.Dlmn Proof.WignerRot Proof.WignerGen Proof.WignerStep Proof.WignerMap Proof.RotationMore Proof.DlmnRec Proof.DlmnProof.
Import ListNotations.
Open Scope R_scope.
Local Notation C := Complex.C.

Lemma psign_pow (n : nat) : psign (Z.of_nat n) = (-1) ^ n.
Proof. induction n as [|n IH]; [reflexivity|]. rewrite Nat2Z.inj_succ. unfold Z.succ. rewrite psign_succ, IH. cbn [pow]. ring. Qed.
Lemma psign_plus a b : psign (a + b) = psign a * psign b.
Proof. unfold psign. rewrite Z.even_add. destruct (Z.even a), (Z.even b); cbn [Bool.eqb]; ring. Qed.

Section Entries.
Variables al ga : R.
Variable dd : Z -> Z -> R.
(** the entry of orders (x, y) *)
Definition expR (x y : Z) : R :=
  let mp := Z.abs x in let m := Z.abs y in
  let cA := cos (IZR mp * al) in let sA := sin (IZR mp * al) in let cB := cos (IZR m * ga) in let sB := sin (IZR m * ga) in
  let d1 := dd (- mp)%Z (- m)%Z in let d2 := psign mp * dd mp (- m)%Z in
  if (x =? 0)%Z then
    (if (y =? 0)%Z then dd 0%Z 0%Z else if (0 <? y)%Z then sqrt 2 * dd m 0%Z * cB else - (sqrt 2 * dd m 0%Z) * sB)
  else if (0 <? x)%Z then
    (if (y =? 0)%Z then sqrt 2 * dd 0%Z mp * cA else if (0 <? y)%Z then d1 * (cA * cB - sA * sB) + d2 * (cA * cB + sA * sB)
     else - d1 * (sA * cB + cA * sB) + d2 * (sA * cB - cA * sB))
  else
    (if (y =? 0)%Z then sqrt 2 * dd 0%Z mp * sA else if (0 <? y)%Z then d1 * (sA * cB + cA * sB) + d2 * (sA * cB - cA * sB)
     else d1 * (cA * cB - sA * sB) - d2 * (cA * cB + sA * sB)).
End Entries.

Definition imag (r : R) : C := (0, r).
Definition lift (l : nat) (j : Z) (f : Z -> C) : C :=
  if (j =? 0)%Z then f 0%Z else
  let n := Z.abs j in
  if (0 <? j)%Z then (RtoC (psign n * / sqrt 2) * f n + RtoC (/ sqrt 2) * f (- n)%Z)%C
  else (imag (- (psign n * / sqrt 2))%R * f n + imag (/ sqrt 2) * f (- n)%Z)%C.
Definition lift' (l : nat) (j : Z) (f : Z -> C) : C :=
  if (j =? 0)%Z then f 0%Z else
  let n := Z.abs j in
  if (0 <? j)%Z then (RtoC (psign n * / sqrt 2) * f n + RtoC (/ sqrt 2) * f (- n)%Z)%C
  else (imag (psign n * / sqrt 2) * f n + imag (- / sqrt 2)%R * f (- n)%Z)%C.
Lemma Umn_right l j (f : Z -> C) : (Z.abs j <= Z.of_nat l)%Z ->
  csum (2 * l + 1) (fun b => (f (Z.of_nat b - Z.of_nat l)%Z * Umn (Z.of_nat b - Z.of_nat l) j)%C) = lift l j f.
Proof.
  intros Hj. unfold lift. destruct (Z.eqb_spec j 0) as [-> | Hne].
  - rewrite (csum_single _ l); [|lia|].
    + rewrite Z.sub_diag, Umn_00. ring.
    + intros b Hb Hn. rewrite Umn_zero by lia. ring.
  - assert (E : exists N, (0 < N <= l)%nat /\ Z.abs j = Z.of_nat N) by (exists (Z.to_nat (Z.abs j)); lia). destruct E as (N & HN & EN).
    cbv zeta. rewrite EN, psign_pow. destruct (Umn_val N ltac:(lia)) as (U1 & U2 & U3 & U4).
    rewrite (csum_two _ (l + N) (l - N)); [|lia|lia|lia|].
    2:{ intros b Hb H1 H2. rewrite Umn_zero by lia. ring. }
    replace (Z.of_nat (l + N) - Z.of_nat l)%Z with (Z.of_nat N) by lia. replace (Z.of_nat (l - N) - Z.of_nat l)%Z with (- Z.of_nat N)%Z by lia.
    destruct (Z.ltb_spec 0 j).
    + replace j with (Z.of_nat N) by lia. rewrite U1, U2. unfold RtoC. ring.
    + replace j with (- Z.of_nat N)%Z by lia. rewrite U3, U4. unfold imag. ring.
Qed.
Lemma Umn_left l j (f : Z -> C) : (Z.abs j <= Z.of_nat l)%Z ->
  csum (2 * l + 1) (fun b => (Cconj (Umn (Z.of_nat b - Z.of_nat l) j) * f (Z.of_nat b - Z.of_nat l)%Z)%C) = lift' l j f.
Proof.
  intros Hj. unfold lift'. destruct (Z.eqb_spec j 0) as [-> | Hne].
  - rewrite (csum_single _ l); [|lia|].
    + rewrite Z.sub_diag, Umn_00. unfold Cconj, RtoC. cbn [fst snd]. rewrite Ropp_0. fold (RtoC 1). ring.
    + intros b Hb Hn. rewrite Umn_zero by lia. unfold Cconj, RtoC. cbn [fst snd]. rewrite Ropp_0. fold (RtoC 0). ring.
  - assert (E : exists N, (0 < N <= l)%nat /\ Z.abs j = Z.of_nat N) by (exists (Z.to_nat (Z.abs j)); lia). destruct E as (N & HN & EN).
    cbv zeta. rewrite EN, psign_pow. destruct (Umn_val N ltac:(lia)) as (U1 & U2 & U3 & U4).
    rewrite (csum_two _ (l + N) (l - N)); [|lia|lia|lia|].
    2:{ intros b Hb H1 H2. rewrite Umn_zero by lia. unfold Cconj, RtoC. cbn [fst snd]. rewrite Ropp_0. fold (RtoC 0). ring. }
    replace (Z.of_nat (l + N) - Z.of_nat l)%Z with (Z.of_nat N) by lia. replace (Z.of_nat (l - N) - Z.of_nat l)%Z with (- Z.of_nat N)%Z by lia.
    destruct (Z.ltb_spec 0 j).
    + replace j with (Z.of_nat N) by lia. rewrite U1, U2. unfold Cconj, RtoC. cbn [fst snd]. rewrite Ropp_0. reflexivity.
    + replace j with (- Z.of_nat N)%Z by lia. rewrite U3, U4. unfold Cconj, RtoC. cbn [fst snd]. rewrite Ropp_involutive. reflexivity.
Qed.
Lemma entry_formula al ga (dd : Z -> Z -> R) l x y : (forall x y, dd x y = psign (y - x) * dd (- x)%Z (- y)%Z) -> (forall x y, dd x y = psign (y - x) * dd y x) ->
  Re (lift' l x (fun a => lift l y (fun b => (cexpm (IZR b * ga + IZR a * al) * RtoC (dd a b))%C))) = expR al ga dd x y.
Proof.
  intros Hinv Href. pose proof sqrt2_pos as H2. assert (Hq : / sqrt 2 * / sqrt 2 = / 2) by (rewrite <- Rinv_mult; f_equal; apply sqrt_sqrt; lra).
  assert (Hq2 : 2 * / sqrt 2 = sqrt 2) by (rewrite <- (sqrt_sqrt 2) at 1 by lra; field; lra).
  unfold lift', lift, expR. cbv zeta.
  set (mp := Z.abs x). set (m := Z.abs y). set (q := / sqrt 2) in *.
  set (A := IZR mp * al). set (B := IZR m * ga). set (sg := psign mp). set (tu := psign m).
  assert (S1 : sg * sg = 1) by apply psign_sq. assert (T1 : tu * tu = 1) by apply psign_sq.
  assert (I1 : dd mp m = sg * tu * dd (- mp)%Z (- m)%Z) by (rewrite Hinv; f_equal; unfold sg, tu; rewrite <- psign_opp; replace (- (m - mp))%Z with (mp + - m)%Z by ring; rewrite psign_plus, psign_opp; reflexivity).
  assert (I2 : dd (- mp)%Z m = sg * tu * dd mp (- m)%Z) by (rewrite Hinv, Z.opp_involutive; f_equal; unfold sg, tu; replace (m - - mp)%Z with (mp + m)%Z by ring; apply psign_plus).
  assert (I3 : dd (- mp)%Z 0%Z = sg * dd mp 0%Z) by (rewrite Hinv, Z.opp_involutive, Z.opp_0; f_equal; unfold sg; f_equal; ring).
  assert (I4 : dd 0%Z (- m)%Z = tu * dd 0%Z m) by (rewrite Hinv, Z.opp_involutive, Z.opp_0; f_equal; unfold tu; rewrite <- psign_opp; f_equal; ring).
  assert (R1 : dd 0%Z mp = sg * dd mp 0%Z) by (rewrite Href; f_equal; unfold sg; f_equal; ring).
  assert (R2 : dd m 0%Z = tu * dd 0%Z m) by (rewrite Href; f_equal; unfold tu; rewrite <- psign_opp; f_equal; ring).
  destruct (Z.eqb_spec x 0), (Z.eqb_spec y 0); try destruct (Z.ltb_spec 0 x); try destruct (Z.ltb_spec 0 y);
    unfold cexpm, Cmult, Cplus, Re, RtoC, imag; cbn [fst snd]; rewrite ?opp_IZR, ?Rmult_0_l, ?Rplus_0_l, ?Rplus_0_r;
    fold A B; try replace (- IZR mp * al) with (- A) by (unfold A; ring); try replace (- IZR m * ga) with (- B) by (unfold B; ring);
    rewrite ?I1, ?I2, ?I3, ?I4, ?R1, ?R2; rewrite ?cos_plus, ?sin_plus, ?cos_neg, ?sin_neg, ?cos_0, ?sin_0.
  all: generalize (cos A) (sin A) (cos B) (sin B) (dd (- mp)%Z (- m)%Z) (dd mp (- m)%Z) (dd mp 0%Z) (dd 0%Z m); intros.
  all: assert (Hsg : sg = 1 \/ sg = -1) by (unfold sg, psign; destruct (Z.even mp); [left|right]; reflexivity).
  all: assert (Htu : tu = 1 \/ tu = -1) by (unfold tu, psign; destruct (Z.even m); [left|right]; reflexivity).
  all: clearbody sg tu q; clear - Hsg Htu Hq Hq2; destruct Hsg as [-> | ->]; destruct Htu as [-> | ->]; rewrite <- ?Hq2.
  all: first [ring|match goal with |- ?a = ?b => transitivity (2 * (q * q) * b); [ring|rewrite Hq; field] end].
Qed.
(** the matrices of s2fft_rotation.py in the same terms *)
Lemma rotation_matrix_expR as_euler x y z theta al be ga deg l (r k : nat) : euler as_euler x y z theta = (ga, be, al) -> (l <= deg)%nat -> (r <= 2 * l)%nat -> (k <= 2 * l)%nat ->
  rotation_matrix as_euler deg x y z theta l r k =
  expR al ga (fun x y => wigner_d (S deg) be l (x + Z.of_nat l) (y + Z.of_nat l)) (Z.of_nat r - Z.of_nat l) (Z.of_nat k - Z.of_nat l).
Proof.
  intros He Hl Hr Hk. unfold rotation_matrix. rewrite He. cbv zeta.
  destruct (wigner_d_sym (S deg) be l) as [Ho _].
  assert (NB : forall i, (Z.of_nat (deg - l + i) - Z.of_nat deg)%Z = (Z.of_nat i - Z.of_nat l)%Z) by (intros; lia).
  rewrite <- (entry_formula al ga _ l).
  - f_equal. rewrite <- Umn_left by lia. rewrite (csum_band deg l).
    + apply csum_ext. intros a Ha. rewrite <- Umn_right by lia. rewrite <- csum_scal. rewrite (csum_band deg l).
      * apply csum_ext. intros b Hb. rewrite !NB, dls_wigner.
        replace (Z.of_nat (deg - l + a) - (Z.of_nat deg - Z.of_nat l))%Z with (Z.of_nat a - Z.of_nat l + Z.of_nat l)%Z by lia.
        replace (Z.of_nat (deg - l + b) - (Z.of_nat deg - Z.of_nat l))%Z with (Z.of_nat b - Z.of_nat l + Z.of_nat l)%Z by lia. ring.
      * exact Hl.
      * intros b Hb. rewrite dls_wigner, Ho by lia. ring.
    + exact Hl.
    + intros a Ha. apply csum_zero. intros b Hb. rewrite dls_wigner, Ho by lia. ring.
  - intros u v. rewrite !(sym_power_unique _ _ _ _ _ (wigner_d_sym (S deg) be l) (spow_sym _ _ _)). apply orders_invert.
  - intros u v. rewrite !(sym_power_unique _ _ _ _ _ (wigner_d_sym (S deg) be l) (spow_sym _ _ _)). apply orders_reflect.
Qed.

(** * the loop *)
Section Loop.
Variables al ga : R.
Variable dd : Z -> Z -> R.
Variable e : Z.
Hypothesis He : (1 <= e)%Z.
Let T := expR al ga dd.
Lemma cos_next m t : cos (IZR m * t) * cos t - sin (IZR m * t) * sin t = cos (IZR (m + 1) * t).
Proof. rewrite <- cos_plus. f_equal. rewrite plus_IZR. ring. Qed.
Lemma sin_next m t : sin (IZR m * t) * cos t + cos (IZR m * t) * sin t = sin (IZR (m + 1) * t).
Proof. rewrite <- sin_plus. f_equal. rewrite plus_IZR. ring. Qed.
Definition Qout (mp x y : Z) : Prop := (Z.abs x < mp /\ Z.abs y <= e /\ (x <> 0 \/ y = 0 \/ 2 <= mp))%Z.
Definition Qin (mp m x y : Z) : Prop := (Qout mp x y \/ Z.abs x = mp /\ y = 0 \/ (Z.abs x = mp \/ x = 0) /\ 0 < Z.abs y < m)%Z.
Definition inv5 (mp : Z) (st : matrix * (R * R * R)) : Prop :=
  snd st = (cos (IZR mp * al), sin (IZR mp * al), psign mp) /\ agrees e T (Qout mp) (fst st).
Definition inv5i (mp m : Z) (st : matrix * (R * R)) : Prop :=
  snd st = (cos (IZR m * ga), sin (IZR m * ga)) /\ agrees e T (Qin mp m) (fst st).
Ltac expr := unfold T, expR; cbv zeta; repeat match goal with
  | |- context [Z.eqb ?a ?b] => first [replace (Z.eqb a b) with true by (symmetry; apply Z.eqb_eq; lia) | replace (Z.eqb a b) with false by (symmetry; apply Z.eqb_neq; lia)]
  | |- context [Z.ltb ?a ?b] => first [replace (Z.ltb a b) with true by (symmetry; apply Z.ltb_lt; lia) | replace (Z.ltb a b) with false by (symmetry; apply Z.ltb_ge; lia)] end.
Lemma real_matrix_ok D_ : (forall x y, (- e <= x <= e)%Z -> (- e <= y <= e)%Z -> D_ (x + e)%Z (y + e)%Z = dd x y) ->
  agrees e T (fun x y => - e <= x <= e /\ - e <= y <= e)%Z (real_matrix e (sin al) (cos al) (sin ga) (cos ga) D_).
Proof.
  intros HD. unfold real_matrix. cbv zeta.
  assert (HD0 : forall y, (- e <= y <= e)%Z -> D_ e (y + e)%Z = dd 0%Z y) by (intros y Hy; rewrite <- HD by lia; f_equal).
  assert (HD0' : forall x, (- e <= x <= e)%Z -> D_ (x + e)%Z e = dd x 0%Z) by (intros y Hy; rewrite <- HD by lia; f_equal).
  assert (A0 : forall Q M r v, agrees e T Q (mset M r (0 + e) v) -> agrees e T Q (mset M r e v)) by (intros; assumption).
  assert (A0' : forall Q M r v, agrees e T Q (mset M (0 + e) r v) -> agrees e T Q (mset M e r v)) by (intros; assumption).
  match goal with |- agrees _ _ _ (fst (fold_left ?f (zrange ?a ?b) ?s)) => pose proof (zup_ind f inv5 b (Z.to_nat (b - a)) a s) as H end.
  destruct H as (_ & H).
  - lia.
  - unfold inv5. cbn [fst snd]. split; [rewrite !Rmult_1_l; unfold psign; cbn; reflexivity|].
    apply A0, A0'. eapply agrees_set with (Q := fun _ _ => False); [intros x y []| |unfold Qout; intros; lia].
    expr. rewrite <- (HD 0%Z 0%Z) by lia. reflexivity.
  - intros mp [M [[cA sA] sg]] Hmp [HS HM]. cbn [fst snd] in HS, HM. injection HS as -> -> ->.
    match goal with |- inv5 _ (let '(_, _) := fold_left ?f (zrange ?a ?b) ?s in _) => pose proof (zup_ind f (inv5i mp) b (Z.to_nat (b - a)) a s) as H; destruct (fold_left f (zrange a b) s) as [M' s'] end.
    destruct H as [_ H].
    + lia.
    + unfold inv5i. cbn [fst snd]. split; [now rewrite !Rmult_1_l|]. apply A0.
      eapply agrees_set with (Q := fun x y => (Qout mp x y \/ x = mp /\ y = 0)%Z).
      * apply A0. eapply agrees_set; [exact HM| |intros x y Hxy; exact Hxy]. expr. rewrite HD0 by lia. now replace (Z.abs mp) with mp by lia.
      * expr. rewrite HD0 by lia. now replace (Z.abs (- mp)) with mp by lia.
      * intros x y Hxy. unfold Qin in Hxy. destruct Hxy as [Hxy|Hxy]; [left; left; exact Hxy|]. lia.
    + clear HM M M' s'. intros m [M [cB sB]] Hm [HS HM]. cbn [fst snd] in HS, HM. injection HS as -> ->. unfold inv5i. cbn [fst snd]. split; [now rewrite cos_next, sin_next|].
      eapply agrees_set with (Q := fun x y => (Qin mp m x y \/ x = 0 /\ Z.abs y = m \/ x = mp /\ Z.abs y = m \/ x = - mp /\ y = m)%Z).
      2:{ expr. rewrite !HD by lia. replace (Z.abs (- mp)) with mp by lia. replace (Z.abs (- m)) with m by lia. ring. }
      2:{ intros x y Hxy. unfold Qin, Qout in *. lia. }
      eapply agrees_set with (Q := fun x y => (Qin mp m x y \/ x = 0 /\ Z.abs y = m \/ x = mp /\ Z.abs y = m)%Z).
      2:{ expr. rewrite !HD by lia. replace (Z.abs (- mp)) with mp by lia. replace (Z.abs m) with m by lia. ring. }
      2:{ intros x y Hxy. unfold Qin, Qout in *. lia. }
      eapply agrees_set with (Q := fun x y => (Qin mp m x y \/ x = 0 /\ Z.abs y = m \/ x = mp /\ y = m)%Z).
      2:{ expr. rewrite !HD by lia. replace (Z.abs mp) with mp by lia. replace (Z.abs (- m)) with m by lia. ring. }
      2:{ intros x y Hxy. unfold Qin, Qout in *. lia. }
      eapply agrees_set with (Q := fun x y => (Qin mp m x y \/ x = 0 /\ Z.abs y = m)%Z).
      2:{ expr. rewrite !HD by lia. replace (Z.abs mp) with mp by lia. replace (Z.abs m) with m by lia. ring. }
      2:{ intros x y Hxy. unfold Qin, Qout in *. lia. }
      apply A0'. eapply agrees_set with (Q := fun x y => (Qin mp m x y \/ x = 0 /\ y = m)%Z).
      2:{ expr. rewrite HD0' by lia. replace (Z.abs (- m)) with m by lia. ring. }
      2:{ intros x y Hxy. unfold Qin, Qout in *. lia. }
      apply A0'. eapply agrees_set; [exact HM| |intros x y Hxy; exact Hxy].
      expr. rewrite HD0' by lia. replace (Z.abs m) with m by lia. ring.
    + cbn [fst snd] in H. unfold inv5. cbn [fst snd]. split.
      * rewrite cos_next, sin_next, psign_succ. f_equal. ring.
      * apply (agrees_sub _ _ _ _ _ H). intros x y Hxy. unfold Qin, Qout in *. lia.
  - apply (agrees_sub _ _ _ _ _ H). intros x y Hxy. unfold Qout. lia.
Qed.
End Loop.
