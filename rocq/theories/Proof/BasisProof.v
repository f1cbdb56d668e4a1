From Coq Require Import Reals Lra Lia ZArith List Bool FinFun.
From Verif Require Import Base.RealAux Base.Dict Model.Poly Model.Basis Spec.PolySpec Proof.PolyProof Proof.PolyMatrix Proof.PolyUnique.
Import ListNotations.
Open Scope R_scope.

Lemma ptilde_n2ijk n : ptilde n = n2ijk n.
Proof. unfold ptilde, n2ijk, n2lm, lm2ijk. cbv zeta. now rewrite Z.pow_2_r. Qed.

(** * The table and matrix columns *)
Lemma table_form_aux (n : nat) :
  fold_left (fun d m => dset ijk_eqb (ptilde m) m d) (map (fun k => (0 + Z.of_nat k)%Z) (seq 0 n)) [] =
  map (fun i => (n2ijk (Z.of_nat i), Z.of_nat i)) (seq 0 n).
Proof.
  induction n as [|n IH]; [reflexivity|]. rewrite seq_S, !map_app, fold_left_app, IH. cbn [fold_left map plus].
  rewrite ptilde_n2ijk, Z.add_0_l. apply nodup_snoc; [apply ijk_eqb_eq|]. unfold keys. rewrite map_map. cbn [fst]. intros Hi. apply in_map_iff in Hi. destruct Hi as (m & Hm & Hi).
  apply in_seq in Hi. apply (f_equal idx) in Hm. rewrite !idx_n2ijk in Hm by lia. lia.
Qed.
Lemma table_form N : ptilde_table N = map (fun i => (n2ijk (Z.of_nat i), Z.of_nat i)) (seq 0 (Z.to_nat N)).
Proof. unfold ptilde_table, zrange. rewrite Z.sub_0_r. apply table_form_aux. Qed.
Lemma table_get N k : valid_ijk k -> dget ijk_eqb k (ptilde_table N) = if (idx k <? N)%Z then Some (idx k) else None.
Proof.
  intros Hv. rewrite table_form.
  assert (ND : NoDup (keys (map (fun i => (n2ijk (Z.of_nat i), Z.of_nat i)) (seq 0 (Z.to_nat N))))).
  { unfold keys. rewrite map_map. cbn [fst]. apply FinFun.Injective_map_NoDup; [|apply seq_NoDup]. intros a b H. apply (f_equal idx) in H. rewrite !idx_n2ijk in H by lia. lia. }
  pose proof (idx_nonneg k Hv). destruct (Z.ltb_spec (idx k) N) as [H'|H'].
  - apply In_dget; [apply ijk_eqb_eq|exact ND|]. apply in_map_iff. exists (Z.to_nat (idx k)). rewrite Z2Nat.id by lia.
    split; [now rewrite n2ijk_idx|]. apply in_seq. lia.
  - apply dget_None; [apply ijk_eqb_eq|]. unfold keys. rewrite map_map. cbn [fst]. intros Hi. apply in_map_iff in Hi. destruct Hi as (m & Hm & Hi).
    apply in_seq in Hi. apply (f_equal idx) in Hm. rewrite idx_n2ijk in Hm by lia. lia.
Qed.
Lemma column_entry_coef N d (r : nat) : (forall k, In k (keys d) -> valid_ijk k /\ (idx k < N)%Z) ->
  column_entry (poly_column (ptilde_table N) d) (Z.of_nat r) = coef d r.
Proof.
  intros H. unfold column_entry, coef. induction d as [|[k v] d IH]; [reflexivity|].
  destruct (H k (or_introl eq_refl)) as [Hv Hi]. cbn [poly_column]. rewrite table_get by exact Hv.
  destruct (Z.ltb_spec (idx k) N); [|lia]. cbn [map]. change (Rsum (?a :: ?l)) with (a + Rsum l). cbn [fst snd].
  f_equal. apply IH. intros; apply H; now right.
Qed.

(** * Limb darkening *)
Lemma bigsum_sum_f n f : bigsum (S n) f = sum_f_R0 f n.
Proof. induction n as [|n IH]; [cbn; lra|]. change (bigsum (S (S n)) f) with (bigsum (S n) f + f (S n)). rewrite IH. reflexivity. Qed.
Lemma binom a b n : bigsum (S n) (fun i => C n i * a ^ i * b ^ (n - i)) = (a + b) ^ n.
Proof. rewrite bigsum_sum_f. symmetry. apply binomial. Qed.
Lemma fold_dsum {A} (g : ijk -> R) (step : list (ijk * R) -> A -> list (ijk * R)) (w : A -> R) l d :
  (forall d a, In a l -> dsum g (step d a) = dsum g d + w a) -> dsum g (fold_left step l d) = dsum g d + Rsum (map w l).
Proof.
  revert d. induction l as [|a l IH]; intros d H; [cbn [fold_left map]; unfold Rsum; cbn [fold_right]; ring|].
  cbn [fold_left map]. rewrite IH by (intros; apply H; now right). rewrite H by now left. unfold Rsum. cbn [fold_right]. ring.
Qed.
Lemma fold_keys {A} (P : ijk -> Prop) (step : list (ijk * R) -> A -> list (ijk * R)) l d :
  (forall d a, In a l -> (forall k, In k (keys d) -> P k) -> (forall k, In k (keys (step d a)) -> P k)) ->
  (forall k, In k (keys d) -> P k) -> forall k, In k (keys (fold_left step l d)) -> P k.
Proof.
  revert d. induction l as [|a l IH]; intros d H H0; [exact H0|]. cbn [fold_left]. apply IH.
  - intros d' a' Ha'. apply H. now right.
  - apply H; [now left|exact H0].
Qed.
Lemma fold_nodup {A} (step : list (ijk * R) -> A -> list (ijk * R)) l d :
  (forall d a, NoDup (keys d) -> NoDup (keys (step d a))) -> NoDup (keys d) -> NoDup (keys (fold_left step l d)).
Proof. revert d. induction l as [|a l IH]; intros d H H0; [exact H0|]. cbn [fold_left]. apply IH; auto. Qed.

Lemma utilde_keys n k : In k (keys (utilde n)) -> valid_ijk k /\ (deg_of k <= Z.of_nat n)%Z.
Proof.
  destruct n as [|n].
  - intros [<-|[]]. cbn. lia.
  - revert k. unfold utilde. apply fold_keys; [|intros k []]. intros d a Ha Hd. apply in_seq in Ha. cbv zeta. apply fold_keys; [|exact Hd].
    clear d Hd. intros d j Hj Hd. apply in_seq in Hj. apply fold_keys; [|exact Hd].
    clear d Hd. intros d l Hl Hd. apply in_seq in Hl. intros k Hk. apply keys_add_to in Hk. destruct Hk as [-> |Hk]; [|now apply Hd].
    assert (a mod 2 < 2)%nat by (apply Nat.mod_upper_bound; lia). assert (a = 2 * (a / 2) + a mod 2)%nat by (apply Nat.div_mod; lia).
    unfold valid_ijk, deg_of. lia.
Qed.
Lemma utilde_eval n x y z : on_sphere x y z -> (0 < n)%nat -> dict_eval (utilde n) x y z = - (1 - z) ^ n.
Proof.
  intros Hs Hn. destruct n as [|n]; [lia|]. rewrite dict_eval_dsum. unfold utilde.
  rewrite (fold_dsum _ _ (fun k => - (C (S n) k * (- z) ^ k * 1 ^ (S n - k)))).
  - rewrite dsum_nil, Rsum_map_seq. cbn [plus]. replace (n + 1)%nat with (S n) by lia.
    rewrite (bigsum_ext _ _ (fun i => -1 * (C (S n) i * (- z) ^ i * 1 ^ (S n - i)))) by (intros; ring).
    rewrite bigsum_scal, binom. replace (- z + 1) with (1 - z) by ring. ring.
  - intros d k _. cbv zeta. rewrite pow1, Rmult_1_r.
    set (c1 := comb (S n) k * (-1) ^ k). set (k2 := (k / 2)%nat).
    rewrite (fold_dsum _ _ (fun j => - c1 * z ^ (k mod 2) * (C k2 j * (- (x ^ 2 + y ^ 2)) ^ j * 1 ^ (k2 - j)))).
    + f_equal. rewrite Rsum_map_seq. cbn [plus]. rewrite bigsum_scal. replace (k2 + 1)%nat with (S k2) by lia. rewrite binom.
      replace (- (x ^ 2 + y ^ 2) + 1) with (z ^ 2) by (unfold on_sphere in Hs; lra). rewrite <- pow_mult.
      unfold c1, comb. replace ((- z) ^ k) with ((-1) ^ k * z ^ k) by (rewrite <- Rpow_mult_distr; f_equal; ring).
      replace (z ^ k) with (z ^ (k mod 2) * z ^ (2 * k2)); [ring|]. rewrite <- pow_add. f_equal. unfold k2. rewrite Nat.add_comm. symmetry. apply Nat.div_mod. lia.
    + clear d. intros d j _. rewrite pow1, Rmult_1_r. set (c2 := comb k2 j * (-1) ^ j).
      rewrite (fold_dsum _ _ (fun l => - c1 * c2 * z ^ (k mod 2) * (C j l * (y ^ 2) ^ l * (x ^ 2) ^ (j - l)))).
      * f_equal. rewrite Rsum_map_seq. cbn [plus]. rewrite bigsum_scal. replace (j + 1)%nat with (S j) by lia. rewrite binom.
        unfold c2, comb. replace ((- (x ^ 2 + y ^ 2)) ^ j) with ((-1) ^ j * (y ^ 2 + x ^ 2) ^ j) by (rewrite <- Rpow_mult_distr; f_equal; ring). ring.
      * clear d. intros d l _. rewrite dsum_add_to. unfold mono. rewrite !Nat2Z.id. rewrite <- !pow_mult. unfold comb. ring.
Qed.
Lemma utilde_0_eval x y z : dict_eval (utilde 0) x y z = 1.
Proof. unfold dict_eval, utilde, Rsum. cbn. ring. Qed.

Lemma limb_dark_eval u x y z : on_sphere x y z ->
  dense_eval (length u) (fun j => limb_dark_vector u (Z.of_nat j)) x y z =
  1 - bigsum (length u) (fun n => nth n u 0 * (1 - z) ^ (S n)).
Proof.
  intros Hs. set (L := length u).
  transitivity (bigsum (L + 1) (fun i => nth i (1 :: u) 0 * dense_eval L (coef (utilde i)) x y z)).
  - rewrite dense_eval_flat. rewrite (bigsum_ext _ _ (fun j => bigsum (L + 1) (fun i => nth i (1 :: u) 0 * (coef (utilde i) j * mono (n2ijk (Z.of_nat j)) x y z)))).
    + rewrite bigsum_swap. apply bigsum_ext. intros i _. now rewrite bigsum_scal, dense_eval_flat.
    + intros j Hj. unfold limb_dark_vector. fold L. rewrite Rmult_comm, <- bigsum_scal. apply bigsum_ext. intros i Hi. unfold U_matrix.
      replace ((0 <=? Z.of_nat i) && (Z.of_nat i <=? Z.of_nat L))%Z%bool with true by (symmetry; rewrite andb_true_iff, !Z.leb_le; lia).
      rewrite column_entry_coef; [rewrite Nat2Z.id; ring|]. rewrite Nat2Z.id. intros k Hk. apply utilde_keys in Hk. destruct Hk as [Hv Hd]. split; [exact Hv|].
      apply idx_lt_degree; [exact Hv|]. destruct k as [[a b] c]. unfold deg_of in Hd. lia.
  - rewrite Nat.add_1_r, bigsum_split_first. rewrite (bigsum_ext L _ (fun n => -1 * (nth n u 0 * (1 - z) ^ (S n)))).
    + rewrite bigsum_scal. cbn [nth]. rewrite dense_of_coef.
      * rewrite utilde_0_eval. ring.
      * intros k [<-|[]]. split; [cbn; lia|]. change (0 < Z.of_nat ((L + 1) * (L + 1)))%Z. nia.
    + intros n Hn. cbn [nth]. rewrite dense_of_coef.
      * rewrite utilde_eval by (try assumption; lia). ring.
      * intros k Hk. apply utilde_keys in Hk. destruct Hk as [Hv Hd]. split; [exact Hv|].
        assert (H := idx_lt_degree k (Z.of_nat L) Hv). destruct k as [[a b] c]. unfold deg_of in Hd. specialize (H ltac:(lia)). nia.
Qed.

(** * poly_basis *)
Lemma list_set_ok {A} (l : list A) i v : (i < length l)%nat -> exists l', list_set l i v = Ok l' /\ length l' = length l /\
  forall k, nth_error l' k = if Nat.eqb k i then Some v else nth_error l k.
Proof.
  revert i. induction l as [|a l IH]; intros i Hi; [cbn in Hi; lia|]. destruct i as [|i]; cbn [list_set].
  - eexists. split; [reflexivity|]. split; [reflexivity|]. intros [|k]; reflexivity.
  - destruct (IH i ltac:(cbn in Hi; lia)) as (l' & -> & Hl & Hk). cbn [rbind]. eexists. split; [reflexivity|]. split; [cbn; lia|].
    intros [|k]; [reflexivity|]. cbn. apply Hk.
Qed.
Definition xexp (l nu : nat) : nat := ((2 * l - nu) / 2)%nat.
Definition yexp (l nu : nat) : nat := (nu / 2)%nat.
Lemma div2_even a : (2 * a / 2 = a)%nat.
Proof. rewrite Nat.mul_comm. apply Nat.div_mul. lia. Qed.
Lemma div2_odd a : ((2 * a + 1) / 2 = a)%nat.
Proof. rewrite Nat.add_comm, Nat.mul_comm. rewrite Nat.div_add by lia. reflexivity. Qed.
Lemma xexp_le l nu : (xexp l nu <= l)%nat.
Proof. unfold xexp. rewrite <- (div2_even l) at 2. apply Nat.div_le_mono; lia. Qed.
Lemma yexp_le l nu : (nu <= 2 * l)%nat -> (yexp l nu <= l)%nat.
Proof. intros H. unfold yexp. rewrite <- (div2_even l). apply Nat.div_le_mono; lia. Qed.
Section PB.
Variables (deg : nat) (x y : R).
Let N := ((deg + 1) * (deg + 1))%nat.
Definition Px (e : nat -> nat -> nat) (v : R) (S : nat -> nat -> Prop) (a : list (option R)) : Prop :=
  length a = N /\ forall l nu, (l <= deg)%nat -> (nu <= 2 * l)%nat -> S l nu -> nth_error a (l * l + nu) = Some (Some (v ^ e l nu)).
Lemma slot_inj l nu l' nu' : (nu <= 2 * l)%nat -> (nu' <= 2 * l')%nat -> (l * l + nu = l' * l' + nu')%nat -> l = l' /\ nu = nu'.
Proof. intros H H' E. assert (l = l') by nia. subst. lia. Qed.
Lemma Px_set e v S a l0 nu0 s w : Px e v S a -> (l0 <= deg)%nat -> (nu0 <= 2 * l0)%nat -> s = (l0 * l0 + nu0)%nat -> w = v ^ e l0 nu0 ->
  exists a', list_set a s (Some w) = Ok a' /\ Px e v (fun l nu => S l nu \/ (l = l0 /\ nu = nu0)) a'.
Proof.
  intros [Hl Ha] H1 H2 -> ->. destruct (list_set_ok a (l0 * l0 + nu0) (Some (v ^ e l0 nu0))) as (a' & E & Hl' & Hk).
  { rewrite Hl. unfold N. nia. }
  exists a'. split; [exact E|]. split; [congruence|]. intros l nu Hld Hnu HS. rewrite Hk.
  destruct (Nat.eqb_spec (l * l + nu) (l0 * l0 + nu0)) as [En|En].
  - apply slot_inj in En; [|assumption..]. destruct En as [-> ->]. reflexivity.
  - destruct HS as [HS|[-> ->]]; [now apply Ha|contradiction].
Qed.
Lemma Px_weaken e v (S S' : nat -> nat -> Prop) a : (forall l nu, (l <= deg)%nat -> (nu <= 2 * l)%nat -> S' l nu -> S l nu) -> Px e v S a -> Px e v S' a.
Proof. intros H [Hl Ha]. split; [exact Hl|]. intros l nu H1 H2 H3. apply Ha; auto. Qed.
Definition doneX (n t : nat) (l nu : nat) : Prop := (xexp l nu < n)%nat \/ (xexp l nu = n /\ (l < n + t)%nat).
Definition doneY (n t : nat) (l nu : nat) : Prop := (yexp l nu < n)%nat \/ (yexp l nu = n /\ (l < n + t)%nat).
Lemma pb_while_ok fuel : forall n t xa ya, (1 <= t)%nat -> (deg + 1 <= n + t + fuel)%nat ->
  Px xexp x (doneX n t) xa -> Px yexp y (doneY n t) ya ->
  exists xa' ya', pb_while fuel N (x ^ n) (y ^ n) ((n + t) * (n + t) + 2 * t - 1) (2 * n + 2 * t + 1) ((n + t) * (n + t) + 2 * n) (2 * n + 2 * t) xa ya = Ok (xa', ya') /\
   Px xexp x (doneX (S n) 0) xa' /\ Px yexp y (doneY (S n) 0) ya'.
Proof.
  induction fuel as [|fuel IH]; intros n t xa ya Ht Hf Hx Hy; cbn [pb_while].
  - exists xa, ya. split; [reflexivity|]. split.
    + eapply Px_weaken; [|exact Hx]. unfold doneX. intros l nu Hl Hnu H'. pose proof (xexp_le l nu). lia.
    + eapply Px_weaken; [|exact Hy]. unfold doneY. intros l nu Hl Hnu H'. pose proof (yexp_le l nu Hnu). lia.
  - destruct (Nat.ltb_spec ((n + t) * (n + t) + 2 * t - 1 + 1) N) as [Hlt|Hge].
    + assert (Hnt : (n + t <= deg)%nat) by (unfold N in Hlt; nia).
      destruct (Px_set xexp x _ xa (n + t) (2 * t - 1) ((n + t) * (n + t) + 2 * t - 1) (x ^ n) Hx) as (xa1 & E1 & Hx1); try lia.
      { f_equal. unfold xexp. replace (2 * (n + t) - (2 * t - 1))%nat with (2 * n + 1)%nat by lia. symmetry. apply div2_odd. }
      rewrite E1. cbn [rbind].
      destruct (Px_set xexp x _ xa1 (n + t) (2 * t) ((n + t) * (n + t) + 2 * t - 1 + 1) (x ^ n) Hx1) as (xa2 & E2 & Hx2); try lia.
      { f_equal. unfold xexp. replace (2 * (n + t) - 2 * t)%nat with (2 * n)%nat by lia. symmetry. apply div2_even. }
      rewrite E2. cbn [rbind].
      destruct (Px_set yexp y _ ya (n + t) (2 * n) ((n + t) * (n + t) + 2 * n) (y ^ n) Hy) as (ya1 & E3 & Hy1); try lia.
      { f_equal. unfold yexp. symmetry. apply div2_even. }
      rewrite E3. cbn [rbind].
      destruct (Px_set yexp y _ ya1 (n + t) (2 * n + 1) ((n + t) * (n + t) + 2 * n + 1) (y ^ n) Hy1) as (ya2 & E4 & Hy2); try lia.
      { f_equal. unfold yexp. symmetry. apply div2_odd. }
      rewrite E4. cbn [rbind].
      destruct (IH n (S t) xa2 ya2) as (xa' & ya' & E & R1 & R2); try lia.
      * eapply Px_weaken; [|exact Hx2]. unfold doneX, xexp. intros l nu Hl Hnu [H|[H H']]; [left; left; now left|].
        destruct (Nat.eq_dec l (n + t)) as [-> |]; [|left; left; right; lia].
        assert (2 * (n + t) - nu = 2 * n \/ 2 * (n + t) - nu = 2 * n + 1)%nat as [Hc|Hc].
        { pose proof (Nat.div_mod (2 * (n + t) - nu) 2 ltac:(lia)). pose proof (Nat.mod_upper_bound (2 * (n + t) - nu) 2 ltac:(lia)). lia. }
        -- right. lia.
        -- left. right. lia.
      * eapply Px_weaken; [|exact Hy2]. unfold doneY, yexp. intros l nu Hl Hnu [H|[H H']]; [left; left; now left|].
        destruct (Nat.eq_dec l (n + t)) as [-> |]; [|left; left; right; lia].
        assert (nu = 2 * n \/ nu = 2 * n + 1)%nat as [Hc|Hc].
        { pose proof (Nat.div_mod nu 2 ltac:(lia)). pose proof (Nat.mod_upper_bound nu 2 ltac:(lia)). lia. }
        -- left. right. lia.
        -- right. lia.
      * exists xa', ya'. split; [|split; assumption]. rewrite <- E. f_equal; lia.
    + exists xa, ya. split; [reflexivity|]. assert (Hnt : (deg < n + t)%nat) by (unfold N in Hge; nia). split.
      * eapply Px_weaken; [|exact Hx]. unfold doneX. intros l nu Hl Hnu H'. pose proof (xexp_le l nu). lia.
      * eapply Px_weaken; [|exact Hy]. unfold doneY. intros l nu Hl Hnu H'. pose proof (yexp_le l nu Hnu). lia.
Qed.
Lemma pb_outer_ok todo : forall n xa ya, (n + todo = deg + 1)%nat -> Px xexp x (doneX n 0) xa -> Px yexp y (doneY n 0) ya ->
  exists xa' ya', pb_outer todo n N x y (x ^ n) (y ^ n) (n * n) (3 + 2 * n) (n * n + 2 * n) (2 + 2 * n) xa ya = Ok (xa', ya') /\
   Px xexp x (doneX (deg + 1) 0) xa' /\ Px yexp y (doneY (deg + 1) 0) ya'.
Proof.
  induction todo as [|todo IH]; intros n xa ya Hn Hx Hy; cbn [pb_outer].
  - exists xa, ya. replace (deg + 1)%nat with n by lia. auto.
  - destruct (Px_set xexp x _ xa n 0 (n * n) (x ^ n) Hx) as (xa1 & E1 & Hx1); try lia.
    { f_equal. unfold xexp. rewrite Nat.sub_0_r. symmetry. apply div2_even. }
    rewrite E1. cbn [rbind].
    destruct (Px_set yexp y _ ya n (2 * n) (n * n + 2 * n) (y ^ n) Hy) as (ya1 & E2 & Hy1); try lia.
    { f_equal. unfold yexp. symmetry. apply div2_even. }
    rewrite E2. cbn [rbind].
    destruct (pb_while_ok N n 1 xa1 ya1) as (xa2 & ya2 & E3 & Hx2 & Hy2); try lia.
    + eapply Px_weaken; [|exact Hx1]. unfold doneX, xexp. intros l nu Hl Hnu [H|[H H']]; [left; now left|].
      assert (Hln : (l >= n)%nat). { assert ((2 * l - nu) / 2 <= (2 * l) / 2)%nat by (apply Nat.div_le_mono; lia). rewrite div2_even in *. lia. }
      assert (l = n) by lia. subst l. right. split; [reflexivity|].
      pose proof (Nat.div_mod (2 * n - nu) 2 ltac:(lia)). pose proof (Nat.mod_upper_bound (2 * n - nu) 2 ltac:(lia)). lia.
    + eapply Px_weaken; [|exact Hy1]. unfold doneY, yexp. intros l nu Hl Hnu [H|[H H']]; [left; now left|].
      assert (Hln : (l >= n)%nat). { assert (nu / 2 <= (2 * l) / 2)%nat by (apply Nat.div_le_mono; lia). rewrite div2_even in *. lia. }
      assert (l = n) by lia. subst l. right. split; [reflexivity|].
      pose proof (Nat.div_mod nu 2 ltac:(lia)). pose proof (Nat.mod_upper_bound nu 2 ltac:(lia)). lia.
    + replace (pb_while N N (x ^ n) (y ^ n) (n * n + (3 + 2 * n) - 1) (3 + 2 * n) (n * n + 2 * n + (2 + 2 * n) - 1) (2 + 2 * n) xa1 ya1) with (Ok (xa2, ya2)).
      2:{ rewrite <- E3. f_equal; lia. }
      cbn [rbind]. destruct (IH (S n) xa2 ya2) as (xa' & ya' & E & R1 & R2); try assumption; try lia.
      exists xa', ya'. split; [|split; assumption]. rewrite <- E. f_equal; try lia; cbn [pow]; ring.
Qed.
End PB.
Lemma all_set_ok (a : list (option R)) (f : nat -> R) : (forall s, (s < length a)%nat -> nth_error a s = Some (Some (f s))) ->
  all_set a = Ok (map f (seq 0 (length a))).
Proof.
  revert f. induction a as [|o a IH]; intros f H; [reflexivity|]. pose proof (H 0%nat ltac:(cbn; lia)) as H0. cbn in H0. injection H0 as ->.
  cbn [all_set length seq map]. rewrite (IH (fun s => f (S s))).
  - cbn [rbind]. now rewrite <- seq_shift, map_map.
  - intros s Hs. apply (H (S s)). cbn. lia.
Qed.
Lemma slot_decomp deg s : (s < (deg + 1) * (deg + 1))%nat -> exists l nu, (l <= deg)%nat /\ (nu <= 2 * l)%nat /\ s = (l * l + nu)%nat.
Proof.
  intros Hs. exists (Nat.sqrt s), (s - Nat.sqrt s * Nat.sqrt s)%nat. pose proof (Nat.sqrt_spec s ltac:(lia)) as H. cbv zeta in H.
  destruct H as [H1 H2]. split; [|split]; [|lia|lia].
  destruct (le_lt_dec (Nat.sqrt s) deg); [assumption|]. exfalso. nia.
Qed.
Lemma combine_seq {A B} (f : nat -> A) (g : nat -> B) s n : combine (map f (seq s n)) (map g (seq s n)) = map (fun i => (f i, g i)) (seq s n).
Proof. revert s. induction n as [|n IH]; intros s; [reflexivity|]. cbn. now rewrite IH. Qed.
Lemma poly_basis_ok deg x y z : exists v, poly_basis deg x y z = Ok v /\ length v = ((deg + 1) * (deg + 1))%nat /\
  forall l nu, (l <= deg)%nat -> (nu <= 2 * l)%nat -> nth (l * l + nu) v 0 = basis_monomial l nu x y z.
Proof.
  unfold poly_basis. cbv zeta. set (N := ((deg + 1) * (deg + 1))%nat).
  destruct (pb_outer_ok deg x y (deg + 1) 0 (repeat None N) (repeat None N)) as (xa & ya & E & [Lx Hx] & [Ly Hy]).
  - lia.
  - split; [apply repeat_length|]. intros l nu _ _ H. unfold doneX in H. lia.
  - split; [apply repeat_length|]. intros l nu _ _ H. unfold doneY in H. lia.
  - cbn [pow] in E. rewrite Nat.mul_0_l, Nat.mul_0_r in E. change (0 + 0)%nat with 0%nat in E. change (3 + 0)%nat with 3%nat in E. change (2 + 0)%nat with 2%nat in E. fold N in E, Lx, Ly. rewrite E. cbn [rbind].
    set (fx := fun s => x ^ xexp (Nat.sqrt s) (s - Nat.sqrt s * Nat.sqrt s)). set (fy := fun s => y ^ yexp (Nat.sqrt s) (s - Nat.sqrt s * Nat.sqrt s)).
    assert (Hsq : forall l nu, (nu <= 2 * l)%nat -> Nat.sqrt (l * l + nu) = l) by (intros l nu H; apply Nat.sqrt_unique; lia).
    assert (Hxe : forall l nu, (nu <= 2 * l)%nat -> (xexp l nu <= l)%nat) by (intros; apply xexp_le).
    assert (Hye : forall l nu, (nu <= 2 * l)%nat -> (yexp l nu <= l)%nat) by (intros; now apply yexp_le).
    rewrite (all_set_ok xa fx), (all_set_ok ya fy).
    + cbn [rbind]. rewrite lm_enum_form, Lx, Ly, map_map. fold N. rewrite !combine_seq, map_map. eexists. split; [reflexivity|].
      rewrite map_length, seq_length. split; [reflexivity|]. intros l nu Hl Hnu.
      set (F := fun x0 : nat => _).
      assert (Hlt : (l * l + nu < N)%nat) by (unfold N; nia).
      rewrite nth_indep with (d' := F 0%nat) by now rewrite map_length, seq_length.
      rewrite map_nth, seq_nth by exact Hlt. unfold F. cbn [plus].
      replace (Z.of_nat (l * l + nu)) with (lm2n (Z.of_nat l) (Z.of_nat nu - Z.of_nat l)) by (unfold lm2n; nia).
      rewrite lm2n_n2lm by (unfold lm_valid; lia). replace (Z.of_nat l + (Z.of_nat nu - Z.of_nat l))%Z with (Z.of_nat nu) by lia.
      unfold fx, fy. rewrite Hsq by exact Hnu. replace (l * l + nu - l * l)%nat with nu by lia. unfold xexp, yexp, basis_monomial.
      destruct (Nat.even nu) eqn:Ev.
      * apply Nat.even_spec in Ev. destruct Ev as [h ->].
        replace (Z.of_nat (2 * h) mod 2)%Z with 0%Z by (rewrite Nat2Z.inj_mul, Z.mul_comm; symmetry; apply Z.mod_mul; lia). reflexivity.
      * assert (Ho : Nat.odd nu = true) by (unfold Nat.odd; now rewrite Ev). apply Nat.odd_spec in Ho. destruct Ho as [h ->].
        replace (Z.of_nat (2 * h + 1) mod 2)%Z with 1%Z by (rewrite Nat2Z.inj_add, Nat2Z.inj_mul, Z.mul_comm, Z.add_comm; cbn [Z.of_nat]; rewrite Z.mod_add by lia; reflexivity).
        change (negb (1 =? 0)%Z) with true. cbv iota.
        replace (2 * h + 1 - 1)%nat with (2 * h)%nat by lia. rewrite div2_odd, div2_even.
        replace (2 * l - (2 * h + 1))%nat with (2 * (l - h - 1) + 1)%nat by lia. replace (2 * (l - h - 1) + 1 - 1)%nat with (2 * (l - h - 1))%nat by lia.
        rewrite div2_odd, div2_even. ring.
    + intros s Hs. rewrite Ly in Hs. destruct (slot_decomp deg s Hs) as (l & nu & Hl & Hnu & ->). unfold fy. rewrite Hsq by exact Hnu.
      replace (l * l + nu - l * l)%nat with nu by lia. apply Hy; try assumption. left. specialize (Hye l nu Hnu). lia.
    + intros s Hs. rewrite Lx in Hs. destruct (slot_decomp deg s Hs) as (l & nu & Hl & Hnu & ->). unfold fx. rewrite Hsq by exact Hnu.
      replace (l * l + nu - l * l)%nat with nu by lia. apply Hx; try assumption. left. specialize (Hxe l nu Hnu). lia.
Qed.
