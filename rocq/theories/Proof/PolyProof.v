From Coq Require Import Reals Lra Lia ZArith List Bool FinFun.
From Verif Require Import Base.RealAux Base.Dict Model.Poly Spec.PolySpec.
Import ListNotations.
Open Scope R_scope.

Lemma ijk_eqb_eq a b : ijk_eqb a b = true <-> a = b.
Proof.
  destruct a as [[i j] k], b as [[i' j'] k']. unfold ijk_eqb. rewrite !andb_true_iff, !Z.eqb_eq.
  split; [intros [[-> ->] ->]; reflexivity|]. intros H. injection H as -> -> ->. auto.
Qed.

(* ------------------------------------------------------------------ *)
(** * Index conversions *)
Local Open Scope Z_scope.
Lemma sqrt_lm l m : 0 <= l -> - l <= m <= l -> Z.sqrt (l ^ 2 + l + m) = l.
Proof. intros Hl Hm. apply Z.sqrt_unique. nia. Qed.
Lemma n2lm_valid n : 0 <= n -> lm_valid (fst (n2lm n)) (snd (n2lm n)).
Proof.
  intros Hn. unfold n2lm, lm_valid. cbn [fst snd]. pose proof (Z.sqrt_nonneg n). pose proof (Z.sqrt_spec n Hn) as Hs. cbv zeta in Hs.
  rewrite Z.pow_2_r. generalize dependent (Z.sqrt n). intros l H Hs. lia.
Qed.
Lemma n2lm_lm2n n : lm2n (fst (n2lm n)) (snd (n2lm n)) = n.
Proof. unfold n2lm, lm2n. cbn [fst snd]. lia. Qed.
Lemma lm2n_n2lm l m : lm_valid l m -> n2lm (lm2n l m) = (l, m).
Proof.
  intros [Hl Hm]. unfold n2lm, lm2n. rewrite sqrt_lm by assumption. f_equal. lia.
Qed.
Lemma lm2n_bound l m L : lm_valid l m -> (0 <= lm2n l m < (L + 1) ^ 2 <-> l <= L /\ 0 <= L + 1 \/ l < - (L + 1) /\ L + 1 < 0).
Proof. intros [Hl Hm]. unfold lm2n. split; [intros H; nia|intros [H|H]; nia]. Qed.
Lemma quot2 a : Z.quot (2 * a) 2 = a.
Proof. rewrite Z.mul_comm. apply Z.quot_mul. lia. Qed.
Lemma ijk2lm_0 i j : ijk2lm (i, j, 0) = Ok (i + j, j - i).
Proof.
  unfold ijk2lm. change ((0 =? 0) || (0 =? 1))%bool with true. change (0 =? 0) with true. cbv beta iota zeta.
  replace (2 * j - 2 * i) with (2 * (j - i)) by lia. replace (2 * j + 2 * i) with (2 * (i + j)) by lia.
  now rewrite !quot2.
Qed.
Lemma ijk2lm_1 i j : ijk2lm (i, j, 1) = Ok (i + j + 1, j - i).
Proof.
  unfold ijk2lm. change ((1 =? 0) || (1 =? 1))%bool with true. change (1 =? 0) with false. cbv beta iota zeta.
  replace (2 * j + 1 - (2 * i + 1)) with (2 * (j - i)) by lia. replace (2 * j + 1 + (2 * i + 1)) with (2 * (i + j + 1)) by lia.
  now rewrite !quot2.
Qed.
Lemma ijk2lm_form p : valid_ijk p -> let '(i, j, k) := p in ijk2lm p = Ok (i + j + k, j - i).
Proof.
  destruct p as [[i j] k]. intros (Hi & Hj & [-> | ->]).
  - rewrite ijk2lm_0. do 2 f_equal. lia.
  - apply ijk2lm_1.
Qed.
Lemma lm2ijk_form l m : lm_valid l m -> exists i j k, lm2ijk l m = (i, j, k) /\ valid_ijk (i, j, k) /\ l = i + j + k /\ m = j - i.
Proof.
  intros [Hl Hm]. unfold lm2ijk. pose proof (Z.div_mod (l + m) 2 ltac:(lia)). pose proof (Z.mod_pos_bound (l + m) 2 ltac:(lia)).
  destruct ((l + m) mod 2 =? 0) eqn:E.
  - apply Z.eqb_eq in E. exists ((l - m) / 2), ((l + m) / 2), 0.
    assert (Hj : l + m = 2 * ((l + m) / 2)) by lia.
    assert (Hi : (l - m) / 2 = l - (l + m) / 2).
    { replace (l - m) with ((l - (l + m) / 2) * 2) by lia. apply Z.div_mul. lia. }
    rewrite Hi. split; [reflexivity|]. unfold valid_ijk. lia.
  - apply Z.eqb_neq in E. exists ((l - m - 1) / 2), ((l + m - 1) / 2), 1.
    assert (Hj : (l + m - 1) / 2 = (l + m) / 2).
    { replace (l + m - 1) with ((l + m) / 2 * 2) by lia. apply Z.div_mul. lia. }
    assert (Hi : (l - m - 1) / 2 = l - 1 - (l + m) / 2).
    { replace (l - m - 1) with ((l - 1 - (l + m) / 2) * 2) by lia. apply Z.div_mul. lia. }
    rewrite Hi, Hj. split; [reflexivity|]. unfold valid_ijk. lia.
Qed.
Lemma lm2ijk_of i j k : valid_ijk (i, j, k) -> lm2ijk (i + j + k) (j - i) = (i, j, k).
Proof.
  intros (Hi & Hj & Hk). unfold lm2ijk. replace (i + j + k + (j - i)) with (k + j * 2) by lia.
  replace (i + j + k - (j - i)) with (k + i * 2) by lia. rewrite Z.mod_add by lia.
  destruct Hk as [-> | ->].
  - cbn [Z.modulo]. replace (0 mod 2 =? 0) with true by reflexivity. rewrite !Z.div_add by lia. reflexivity.
  - replace (1 mod 2 =? 0) with false by reflexivity. replace (1 + j * 2 - 1) with (j * 2) by lia. replace (1 + i * 2 - 1) with (i * 2) by lia.
    rewrite !Z.div_mul by lia. reflexivity.
Qed.
Lemma lm2ijk_valid l m : lm_valid l m -> valid_ijk (lm2ijk l m).
Proof. intros H. destruct (lm2ijk_form l m H) as (i & j & k & -> & Hv & _). exact Hv. Qed.
Lemma ijk2lm_lm2ijk l m : lm_valid l m -> ijk2lm (lm2ijk l m) = Ok (l, m).
Proof.
  intros H. destruct (lm2ijk_form l m H) as (i & j & k & -> & Hv & -> & ->). exact (ijk2lm_form _ Hv).
Qed.
Lemma ijk2lm_valid p l m : valid_ijk p -> ijk2lm p = Ok (l, m) -> lm_valid l m /\ lm2ijk l m = p.
Proof.
  intros Hv H. destruct p as [[i j] k]. pose proof (ijk2lm_form _ Hv) as H'. cbv beta iota in H'. rewrite H in H'.
  injection H' as -> ->. split; [|now apply lm2ijk_of]. destruct Hv as (? & ? & ?). unfold lm_valid. lia.
Qed.
Lemma ijk2lm_assert i j k : k <> 0 -> k <> 1 -> ijk2lm (i, j, k) = Err AssertionError.
Proof.
  intros H0 H1. unfold ijk2lm. destruct (Z.eqb_spec k 0); [contradiction|]. destruct (Z.eqb_spec k 1); [contradiction|]. reflexivity.
Qed.
Definition idx (p : ijk) : Z := let '(i, j, k) := p in lm2n (i + j + k) (j - i).
Lemma index_form p : valid_ijk p -> index p = Ok (idx p).
Proof.
  intros Hv. unfold index. destruct p as [[i j] k]. rewrite (ijk2lm_form _ Hv). cbn [rbind idx]. unfold lm2n. f_equal. lia.
Qed.
Lemma lm_of_ijk i j k : valid_ijk (i, j, k) -> lm_valid (i + j + k) (j - i).
Proof. intros (? & ? & ?). unfold lm_valid. lia. Qed.
Lemma idx_nonneg p : valid_ijk p -> 0 <= idx p.
Proof. destruct p as [[i j] k]. intros (? & ? & ?). unfold idx, lm2n. nia. Qed.
Lemma n2ijk_idx p : valid_ijk p -> n2ijk (idx p) = p.
Proof.
  intros Hv. destruct p as [[i j] k]. unfold n2ijk, idx. rewrite lm2n_n2lm by now apply lm_of_ijk. now apply lm2ijk_of.
Qed.
Lemma n2ijk_valid n : 0 <= n -> valid_ijk (n2ijk n).
Proof.
  intros Hn. unfold n2ijk. pose proof (n2lm_valid n Hn). destruct (n2lm n) as [l m]. now apply lm2ijk_valid.
Qed.
Lemma idx_n2ijk n : 0 <= n -> idx (n2ijk n) = n.
Proof.
  intros Hn. unfold n2ijk. pose proof (n2lm_valid n Hn) as Hv. pose proof (n2lm_lm2n n) as Hn'. destruct (n2lm n) as [l m]. cbn [fst snd] in *.
  destruct (lm2ijk_form l m Hv) as (i & j & k & -> & _ & -> & ->). exact Hn'.
Qed.
Lemma idx_inj p q : valid_ijk p -> valid_ijk q -> idx p = idx q -> p = q.
Proof. intros Hp Hq H. rewrite <- (n2ijk_idx p Hp), <- (n2ijk_idx q Hq). now rewrite H. Qed.
Local Close Scope Z_scope.

(* ------------------------------------------------------------------ *)
(** * Evaluation *)
Definition mono (p : ijk) (x y z : R) : R :=
  let '(i, j, k) := p in x ^ Z.to_nat i * y ^ Z.to_nat j * z ^ Z.to_nat k.
Lemma dict_eval_dsum d x y z : dict_eval d x y z = dsum (fun p => mono p x y z) d.
Proof. unfold dict_eval, dsum. apply Rsum_map_ext. intros [[[i j] k] c] _. reflexivity. Qed.

Lemma bigsum_square L f : bigsum ((L + 1) * (L + 1)) f = bigsum (S L) (fun l => bigsum (2 * l + 1) (fun nu => f (l * l + nu)%nat)).
Proof.
  induction L as [|L IH]; [simpl; lra|].
  change (bigsum (S (S L)) ?g) with (bigsum (S L) g + g (S L)). cbv beta. rewrite <- IH.
  replace ((S L + 1) * (S L + 1))%nat with ((L + 1) * (L + 1) + (2 * S L + 1))%nat by lia.
  rewrite bigsum_add. f_equal. apply bigsum_ext. intros i _. f_equal. lia.
Qed.
Lemma basis_monomial_mono l nu x y z : (nu <= 2 * l)%nat ->
  basis_monomial l nu x y z = mono (n2ijk (Z.of_nat (l * l + nu))) x y z.
Proof.
  intros H. unfold n2ijk.
  replace (Z.of_nat (l * l + nu)) with (lm2n (Z.of_nat l) (Z.of_nat nu - Z.of_nat l)) by (unfold lm2n; nia).
  rewrite lm2n_n2lm by (unfold lm_valid; lia). unfold basis_monomial, lm2ijk.
  replace (Z.of_nat l + (Z.of_nat nu - Z.of_nat l))%Z with (Z.of_nat nu) by lia.
  replace (Z.of_nat l - (Z.of_nat nu - Z.of_nat l))%Z with (Z.of_nat (2 * l - nu)) by lia.
  destruct (Nat.even nu) eqn:E.
  - apply Nat.even_spec in E. destruct E as [h ->].
    replace (Z.of_nat (2 * h) mod 2)%Z with 0%Z by (rewrite Nat2Z.inj_mul, Z.mul_comm; symmetry; apply Z.mod_mul; lia).
    cbn [Z.eqb mono]. change 2%Z with (Z.of_nat 2). rewrite <- !Nat2Z.inj_div, !Nat2Z.id. simpl (z ^ _). ring.
  - assert (Ho : Nat.odd nu = true) by (unfold Nat.odd; now rewrite E). apply Nat.odd_spec in Ho. destruct Ho as [h ->].
    replace (Z.of_nat (2 * h + 1) mod 2)%Z with 1%Z by (rewrite Nat2Z.inj_add, Nat2Z.inj_mul, Z.mul_comm, Z.add_comm; cbn [Z.of_nat]; rewrite Z.mod_add by lia; reflexivity).
    change (1 =? 0)%Z with false. cbv iota. cbn [mono].
    replace (Z.of_nat (2 * l - (2 * h + 1)) - 1)%Z with (Z.of_nat (2 * l - (2 * h + 1) - 1)) by lia.
    replace (Z.of_nat (2 * h + 1) - 1)%Z with (Z.of_nat (2 * h + 1 - 1)) by lia.
    change 2%Z with (Z.of_nat 2). rewrite <- !Nat2Z.inj_div, !Nat2Z.id. change (Z.to_nat 1) with 1%nat. simpl (z ^ _). ring.
Qed.
Lemma dense_eval_flat L d x y z :
  dense_eval L d x y z = bigsum ((L + 1) * (L + 1)) (fun n => d n * mono (n2ijk (Z.of_nat n)) x y z).
Proof.
  rewrite bigsum_square. unfold dense_eval. apply bigsum_ext. intros l _. apply bigsum_ext. intros nu Hnu.
  rewrite basis_monomial_mono by lia. reflexivity.
Qed.

(** * todense / from_dense *)
Lemma valid_cons k v d : valid_dict ((k, v) :: d) -> valid_ijk k /\ valid_dict d.
Proof.
  intros [Hn Hk]. inversion Hn; subst. split; [apply Hk; now left|]. split; [assumption|]. intros k' H'. apply Hk. now right.
Qed.
Lemma indices_form ks : (forall k, In k ks -> valid_ijk k) -> indices ks = Ok (map idx ks).
Proof.
  induction ks as [|k ks IH]; intros H; [reflexivity|]. cbn [indices]. rewrite index_form by (apply H; now left).
  cbn [rbind]. rewrite IH by (intros; apply H; now right). reflexivity.
Qed.
Definition coef (d : list (ijk * R)) (n : nat) : R :=
  Rsum (map (fun kv => if (idx (fst kv) =? Z.of_nat n)%Z then snd kv else 0) d).
Lemma todense_form p : p_data p <> [] -> (forall k, In k (keys (p_data p)) -> valid_ijk k) ->
  todense p = Ok (map (coef (p_data p)) (seq 0 (Z.to_nat (shape p)))).
Proof.
  intros Hne Hv. unfold todense. destruct (p_data p) as [|a d] eqn:E; [contradiction|].
  rewrite indices_form by assumption. cbn [rbind]. f_equal. apply map_ext. intros n. unfold coef.
  generalize (a :: d). intros l. induction l as [|[k v] l IH]; [reflexivity|]. cbn [keys map combine Rsum fold_right fst snd].
  f_equal. exact IH.
Qed.
Lemma dense_of_coef L d x y z : (forall k, In k (keys d) -> valid_ijk k /\ (idx k < Z.of_nat ((L + 1) * (L + 1)))%Z) ->
  dense_eval L (coef d) x y z = dict_eval d x y z.
Proof.
  intros Hv. rewrite dense_eval_flat, dict_eval_dsum. induction d as [|[k v] d IH].
  - unfold coef, dsum. cbn [map Rsum fold_right]. rewrite bigsum_zero_ext; [reflexivity|]. intros n _. ring.
  - rewrite dsum_cons, <- IH by (intros; apply Hv; now right).
    destruct (Hv k) as [Hk Hb]; [now left|]. pose proof (idx_nonneg k Hk) as H0.
    rewrite (bigsum_ext _ _ (fun n => (if (idx k =? Z.of_nat n)%Z then v else 0) * mono (n2ijk (Z.of_nat n)) x y z
                + coef d n * mono (n2ijk (Z.of_nat n)) x y z)).
    2:{ intros n _. unfold coef. cbn [map Rsum fold_right fst snd]. rewrite Rmult_plus_distr_r. reflexivity. }
    rewrite bigsum_plus. f_equal. rewrite (bigsum_single _ (Z.to_nat (idx k))).
    + rewrite Z2Nat.id, Z.eqb_refl, n2ijk_idx by assumption. reflexivity.
    + lia.
    + intros n _ Hne. destruct (Z.eqb_spec (idx k) (Z.of_nat n)); [|ring]. exfalso. apply Hne. lia.
Qed.
Lemma nth_todense d (N n : nat) : (n < N)%nat -> nth n (map (coef d) (seq 0 N)) 0 = coef d n.
Proof. intros H. rewrite nth_indep with (d' := coef d 0) by now rewrite map_length, seq_length. rewrite map_nth, seq_nth by lia. reflexivity. Qed.

(** the constructor *)
Lemma max_degree_ok ks : ks <> [] -> (forall k, In k ks -> valid_ijk k) ->
  exists D, max_degree ks = Ok D /\ (0 <= D)%Z /\
    (forall i j k, In (i, j, k) ks -> (i + j + k <= D)%Z) /\ (exists i j k, In (i, j, k) ks /\ (i + j + k = D)%Z).
Proof.
  induction ks as [|p ks IH]; intros Hne Hv; [contradiction|].
  assert (Hp : valid_ijk p) by (apply Hv; now left). destruct p as [[i j] k]. pose proof (ijk2lm_form _ Hp) as Hl. cbv beta iota in Hl.
  destruct ks as [|q ks].
  - exists (i + j + k)%Z. cbn [max_degree]. rewrite Hl. cbn [rbind fst]. split; [reflexivity|]. destruct Hp as (? & ? & ?).
    split; [lia|]. split; [intros i' j' k' [H'|[]]; injection H' as <- <- <-; lia|]. exists i, j, k. split; [now left|reflexivity].
  - destruct IH as (D & HD & HD0 & Hle & Hex); [discriminate|intros; apply Hv; now right|].
    exists (Z.max (i + j + k) D). change (max_degree ((i, j, k) :: q :: ks)) with
      (rbind (ijk2lm (i, j, k)) (fun lm => rbind (max_degree (q :: ks)) (fun d => Ok (Z.max (fst lm) d)))).
    rewrite Hl, HD. cbn [rbind fst]. split; [reflexivity|]. split; [lia|]. split.
    + intros i' j' k' [H'|H']; [injection H' as <- <- <-; lia|]. specialize (Hle _ _ _ H'). lia.
    + destruct (Z.max_spec (i + j + k) D) as [[_ ->]|[_ ->]].
      * destruct Hex as (i' & j' & k' & H1 & H2). exists i', j', k'. split; [now right|exact H2].
      * exists i, j, k. split; [now left|reflexivity].
Qed.
Lemma all_diagonal_ok ks : (forall k, In k ks -> valid_ijk k) -> exists b, all_diagonal ks = Ok b /\
  (b = true <-> forall i j k, In (i, j, k) ks -> i = j).
Proof.
  induction ks as [|p ks IH]; intros Hv.
  - exists true. split; [reflexivity|]. split; [intros _ ? ? ? []|reflexivity].
  - assert (Hp : valid_ijk p) by (apply Hv; now left). destruct p as [[i j] k]. pose proof (ijk2lm_form _ Hp) as Hl. cbv beta iota in Hl.
    cbn [all_diagonal]. rewrite Hl. cbn [rbind snd]. destruct IH as (b & Hb & Hi); [intros; apply Hv; now right|].
    destruct (Z.eqb_spec (j - i) 0) as [E|E].
    + exists b. split; [exact Hb|]. rewrite Hi. split.
      * intros H i' j' k' [H'|H']; [injection H' as <- <- <-; lia|eauto].
      * intros H i' j' k' H'. apply (H i' j' k'). now right.
    + exists false. split; [reflexivity|]. split; [discriminate|]. intros H. exfalso. specialize (H i j k (or_introl eq_refl)). lia.
Qed.
Lemma make_pijk_ok (d : list (ijk * R)) : d <> [] -> (forall k, In k (keys d) -> valid_ijk k) ->
  exists p, make_pijk d None = Ok p /\ p_data p = d /\ (0 <= p_degree p)%Z /\
   (forall i j k, In (i, j, k) (keys d) -> (i + j + k <= p_degree p)%Z) /\ (exists i j k, In (i, j, k) (keys d) /\ (i + j + k = p_degree p)%Z).
Proof.
  intros Hne Hv. destruct (max_degree_ok (keys d)) as (D & HD & H1); [now destruct d|exact Hv|].
  destruct (all_diagonal_ok (keys d) Hv) as (b & Hb & _). unfold make_pijk. rewrite HD. cbn [rbind]. rewrite Hb. cbn [rbind].
  eexists. split; [reflexivity|]. cbn [p_data p_degree]. tauto.
Qed.
Lemma idx_lt_degree p D : valid_ijk p -> (let '(i, j, k) := p in (i + j + k <= D)%Z) -> (idx p < (D + 1) ^ 2)%Z.
Proof. destruct p as [[i j] k]. intros (? & ? & ?) H'. unfold idx, lm2n. nia. Qed.

(** dense vector of a Pijk represents the same function *)
Lemma todense_eval p : p_data p <> [] -> (forall k, In k (keys (p_data p)) -> valid_ijk k) ->
  (forall i j k, In (i, j, k) (keys (p_data p)) -> (i + j + k <= p_degree p)%Z) ->
  exists x, todense p = Ok x /\ length x = Z.to_nat (shape p) /\
    forall a b c, dense_eval (Z.to_nat (p_degree p)) (fun n => nth n x 0) a b c = dict_eval (p_data p) a b c.
Proof.
  intros Hne Hv Hd. rewrite todense_form by assumption. eexists. split; [reflexivity|]. rewrite map_length, seq_length. split; [reflexivity|].
  intros a b c.
  assert (HD : (0 <= p_degree p)%Z).
  { destruct (p_data p) as [|[[[i j] k] v] l]; [contradiction|]. specialize (Hd i j k (or_introl eq_refl)).
    specialize (Hv (i, j, k) (or_introl eq_refl)). destruct Hv as (? & ? & ?). lia. }
  set (L := Z.to_nat (p_degree p)) in *.
  assert (HL : Z.of_nat ((L + 1) * (L + 1)) = shape p) by (unfold shape, L; nia).
  rewrite <- (dense_of_coef L).
  - rewrite !dense_eval_flat. apply bigsum_ext. intros n Hn. rewrite nth_todense by lia. reflexivity.
  - intros k Hk. split; [now apply Hv|]. rewrite HL. destruct k as [[i j] k]. apply idx_lt_degree; [now apply Hv|now apply Hd].
Qed.

(** from_dense *)
Lemma nodup_snoc {A B} (eqb : A -> A -> bool) (H : forall a b, eqb a b = true <-> a = b) (k : A) (v : B) d :
  ~ In k (keys d) -> dset eqb k v d = d ++ [(k, v)].
Proof.
  intros Hk. unfold dset. induction d as [|[k' v'] d IH]; [reflexivity|]. simpl in *.
  destruct (eqb k k') eqn:E; [apply H in E; subst; exfalso; auto|]. rewrite IH by tauto. reflexivity.
Qed.
Lemma from_dense_data_form_aux x n : (n <= length x)%nat ->
  fold_left (fun d i => dset ijk_eqb (n2ijk (Z.of_nat i)) (nth i x 0) d) (seq 0 n) [] =
  map (fun i => (n2ijk (Z.of_nat i), nth i x 0)) (seq 0 n).
Proof.
  induction n as [|n IH]; intros Hn; [reflexivity|]. rewrite seq_S, fold_left_app, IH, map_app by lia. cbn [fold_left map plus].
  apply nodup_snoc; [apply ijk_eqb_eq|]. unfold keys. rewrite map_map. cbn [fst]. intros Hi. apply in_map_iff in Hi. destruct Hi as (m & Hm & Hi).
  apply in_seq in Hi. apply (f_equal idx) in Hm. rewrite !idx_n2ijk in Hm by lia. lia.
Qed.
Lemma from_dense_data_form x : from_dense_data x = map (fun i => (n2ijk (Z.of_nat i), nth i x 0)) (seq 0 (length x)).
Proof. apply from_dense_data_form_aux. lia. Qed.
Lemma keys_from_dense x : keys (from_dense_data x) = map (fun i => n2ijk (Z.of_nat i)) (seq 0 (length x)).
Proof. rewrite from_dense_data_form. unfold keys. rewrite map_map. reflexivity. Qed.
Lemma from_dense_valid x : valid_dict (from_dense_data x).
Proof.
  split.
  - change (map fst (from_dense_data x)) with (keys (from_dense_data x)). rewrite keys_from_dense. apply FinFun.Injective_map_NoDup; [|apply seq_NoDup].
    intros a b H. apply (f_equal idx) in H. rewrite !idx_n2ijk in H by lia. lia.
  - change (map fst (from_dense_data x)) with (keys (from_dense_data x)). rewrite keys_from_dense. intros k Hk. apply in_map_iff in Hk. destruct Hk as (n & <- & _). apply n2ijk_valid. lia.
Qed.
Lemma coef_from_dense x n : coef (from_dense_data x) n = nth n x 0.
Proof.
  rewrite from_dense_data_form. unfold coef. rewrite map_map. cbn [fst snd]. rewrite Rsum_map_seq. cbn [plus].
  rewrite (bigsum_ext _ _ (fun i => if Nat.eqb i n then nth i x 0 else 0)).
  2:{ intros i _. rewrite idx_n2ijk by lia. destruct (Nat.eqb_spec i n), (Z.eqb_spec (Z.of_nat i) (Z.of_nat n)); try reflexivity; lia. }
  destruct (le_lt_dec (length x) n) as [H|H].
  - rewrite bigsum_zero_ext; [now rewrite nth_overflow|]. intros i Hi. destruct (Nat.eqb_spec i n); [lia|reflexivity].
  - rewrite (bigsum_single _ n); [now rewrite Nat.eqb_refl|exact H|].
    intros i _ Hi. destruct (Nat.eqb_spec i n); [contradiction|reflexivity].
Qed.

(* ------------------------------------------------------------------ *)
(** * Sums and products *)
Lemma mono_add_exp i1 i2 j1 j2 k1 k2 x y z : valid_ijk (i1, j1, k1) -> valid_ijk (i2, j2, k2) ->
  mono (i1 + i2, j1 + j2, k1 + k2)%Z x y z = mono (i1, j1, k1) x y z * mono (i2, j2, k2) x y z.
Proof.
  intros (? & ? & ?) (? & ? & ?). unfold mono. rewrite !Z2Nat.inj_add by lia. rewrite !pow_add. ring.
Qed.
Lemma dsum_add_to g k v d : dsum g (add_to k v d) = dsum g d + v * g k.
Proof. apply dsum_dupd. apply ijk_eqb_eq. Qed.
Lemma keys_add_to k v d k' : In k' (keys (add_to k v d)) <-> k' = k \/ In k' (keys d).
Proof. apply In_keys_dupd. apply ijk_eqb_eq. Qed.
Lemma nodup_add_to k v d : NoDup (keys d) -> NoDup (keys (add_to k v d)).
Proof. apply NoDup_dupd. apply ijk_eqb_eq. Qed.
Lemma mul_step_eval k1 v1 k2 v2 d x y z : valid_ijk k1 -> valid_ijk k2 -> on_sphere x y z ->
  dsum (fun p => mono p x y z) (mul_step k1 v1 k2 v2 d) =
  dsum (fun p => mono p x y z) d + v1 * mono k1 x y z * (v2 * mono k2 x y z).
Proof.
  intros H1 H2 Hs. destruct k1 as [[i1 j1] k1], k2 as [[i2 j2] k2]. unfold mul_step. cbv beta iota zeta.
  destruct (Z.eqb_spec (k1 + k2) 2) as [E|E].
  - rewrite !dsum_add_to.
    assert (k1 = 1%Z /\ k2 = 1%Z) as [-> ->] by (destruct H1 as (_ & _ & ?), H2 as (_ & _ & ?); lia).
    destruct H1 as (Hi1 & Hj1 & _), H2 as (Hi2 & Hj2 & _). unfold mono. rewrite !Z2Nat.inj_add by lia. rewrite !pow_add.
    change (Z.to_nat 0) with 0%nat. change (Z.to_nat 1) with 1%nat. change (Z.to_nat 2) with 2%nat. rewrite pow_O, pow_1.
    assert (Hz : z ^ 2 = 1 - x ^ 2 - y ^ 2) by (unfold on_sphere in Hs; lra).
    set (a := x ^ Z.to_nat i1). set (b := x ^ Z.to_nat i2). set (c := y ^ Z.to_nat j1). set (e := y ^ Z.to_nat j2).
    replace (v1 * (a * c * z) * (v2 * (b * e * z))) with (v1 * v2 * a * b * c * e * z ^ 2) by ring. rewrite Hz. ring.
  - rewrite dsum_add_to, mono_add_exp by assumption. ring.
Qed.
Lemma mul_inner_eval k1 v1 v d x y z : valid_ijk k1 -> (forall k, In k (keys v) -> valid_ijk k) -> on_sphere x y z ->
  dsum (fun p => mono p x y z) (fold_left (fun d b => mul_step k1 v1 (fst b) (snd b) d) v d) =
  dsum (fun p => mono p x y z) d + v1 * mono k1 x y z * dsum (fun p => mono p x y z) v.
Proof.
  intros H1 Hv Hs. revert d. induction v as [|[k2 v2] v IH]; intros d.
  - cbn [fold_left]. rewrite dsum_nil. ring.
  - cbn [fold_left]. rewrite IH by (intros; apply Hv; now right). cbn [fst snd].
    rewrite mul_step_eval by (try assumption; apply Hv; now left). rewrite dsum_cons. ring.
Qed.
Lemma mul_data_eval u v x y z : (forall k, In k (keys u) -> valid_ijk k) -> (forall k, In k (keys v) -> valid_ijk k) -> on_sphere x y z ->
  dict_eval (mul_data u v) x y z = dict_eval u x y z * dict_eval v x y z.
Proof.
  intros Hu Hv Hs. rewrite !dict_eval_dsum. unfold mul_data.
  enough (H : forall d, dsum (fun p => mono p x y z) (fold_left (fun d a => fold_left (fun d b => mul_step (fst a) (snd a) (fst b) (snd b) d) v d) u d) =
    dsum (fun p => mono p x y z) d + dsum (fun p => mono p x y z) u * dsum (fun p => mono p x y z) v).
  { rewrite H, dsum_nil. ring. }
  induction u as [|[k1 v1] u IH]; intros d; [cbn [fold_left map]; rewrite ?dsum_nil; unfold Rsum; cbn [fold_right]; ring|].
  cbn [fold_left]. rewrite IH by (intros; apply Hu; now right). cbn [fst snd].
  rewrite mul_inner_eval by (try assumption; apply Hu; now left). rewrite dsum_cons. ring.
Qed.
(** keys of a product *)
Definition deg_of (p : ijk) : Z := let '(i, j, k) := p in (i + j + k)%Z.
Lemma mul_step_keys k1 v1 k2 v2 d k : valid_ijk k1 -> valid_ijk k2 -> In k (keys (mul_step k1 v1 k2 v2 d)) ->
  (valid_ijk k /\ (deg_of k <= deg_of k1 + deg_of k2)%Z) \/ In k (keys d).
Proof.
  intros H1 H2. destruct k1 as [[i1 j1] k1], k2 as [[i2 j2] k2]. destruct H1 as (? & ? & ?), H2 as (? & ? & ?).
  unfold mul_step. cbv beta iota zeta.
  destruct (Z.eqb_spec (k1 + k2) 2) as [E|E]; intros Hk.
  - rewrite !keys_add_to in Hk. destruct Hk as [-> |[-> |[-> |Hk]]]; [left..|now right]; unfold valid_ijk, deg_of; lia.
  - rewrite keys_add_to in Hk. destruct Hk as [-> |Hk]; [left|now right]. unfold valid_ijk, deg_of. lia.
Qed.
Lemma mul_step_mono k1 v1 k2 v2 d k : In k (keys d) -> In k (keys (mul_step k1 v1 k2 v2 d)).
Proof.
  intros H. destruct k1 as [[i1 j1] k1], k2 as [[i2 j2] k2]. unfold mul_step. cbv beta iota zeta.
  destruct (Z.eqb_spec (k1 + k2) 2); rewrite !keys_add_to; tauto.
Qed.
Lemma mul_step_top k1 v1 k2 v2 d : valid_ijk k1 -> valid_ijk k2 ->
  exists k, In k (keys (mul_step k1 v1 k2 v2 d)) /\ deg_of k = (deg_of k1 + deg_of k2)%Z.
Proof.
  intros H1 H2. destruct k1 as [[i1 j1] k1], k2 as [[i2 j2] k2]. destruct H1 as (? & ? & ?), H2 as (? & ? & ?).
  unfold mul_step. cbv beta iota zeta.
  destruct (Z.eqb_spec (k1 + k2) 2) as [E|E].
  - exists (i1 + i2, j1 + j2 + 2, 0)%Z. rewrite !keys_add_to. split; [now left|]. unfold deg_of. lia.
  - exists (i1 + i2, j1 + j2, k1 + k2)%Z. rewrite keys_add_to. split; [now left|]. unfold deg_of. lia.
Qed.
Lemma mul_step_nodup k1 v1 k2 v2 d : NoDup (keys d) -> NoDup (keys (mul_step k1 v1 k2 v2 d)).
Proof.
  intros H. destruct k1 as [[i1 j1] k1], k2 as [[i2 j2] k2]. unfold mul_step. cbv beta iota zeta.
  destruct (Z.eqb_spec (k1 + k2) 2); repeat apply nodup_add_to; assumption.
Qed.
Lemma mul_as_pairs u v : mul_data u v =
  fold_left (fun d ab => mul_step (fst (fst ab)) (snd (fst ab)) (fst (snd ab)) (snd (snd ab)) d) (list_prod u v) [].
Proof.
  unfold mul_data. generalize (@nil (ijk * R)). induction u as [|a u IH]; intros d; [reflexivity|].
  cbn [fold_left list_prod]. rewrite IH, fold_left_app. f_equal.
  clear IH. revert d. induction v as [|b v IHv]; intros d; [reflexivity|]. cbn [fold_left map fst snd]. apply IHv.
Qed.
Lemma mul_pairs_inv l d D : (forall a b, In (a, b) l -> valid_ijk (fst a) /\ valid_ijk (fst b) /\ (deg_of (fst a) + deg_of (fst b) <= D)%Z) ->
  NoDup (keys d) -> (forall k, In k (keys d) -> valid_ijk k /\ (deg_of k <= D)%Z) ->
  let r := fold_left (fun d ab => mul_step (fst (fst ab)) (snd (fst ab)) (fst (snd ab)) (snd (snd ab)) d) l d in
  NoDup (keys r) /\ (forall k, In k (keys r) -> valid_ijk k /\ (deg_of k <= D)%Z) /\
  (forall k, In k (keys d) -> In k (keys r)) /\
  (forall a b, In (a, b) l -> exists k, In k (keys r) /\ deg_of k = (deg_of (fst a) + deg_of (fst b))%Z).
Proof.
  revert d. induction l as [|[a b] l IH]; intros d Hl Hn Hd; cbn [fold_left].
  - cbv zeta. split; [exact Hn|]. split; [exact Hd|]. split; [auto|]. intros ? ? [].
  - destruct (Hl a b (or_introl eq_refl)) as (Ha & Hb & HD). cbn [fst snd].
    edestruct (IH (mul_step (fst a) (snd a) (fst b) (snd b) d)) as (I1 & I2 & I3 & I4).
    + intros; apply Hl; now right.
    + now apply mul_step_nodup.
    + intros k Hk. apply mul_step_keys in Hk; [|assumption..]. destruct Hk as [[? ?]|Hk]; [split; [assumption|lia]|auto].
    + cbv zeta. split; [exact I1|]. split; [exact I2|]. split.
      * intros k Hk. apply I3. now apply mul_step_mono.
      * intros a' b' [H'|H']; [|now apply I4]. injection H' as <- <-.
        destruct (mul_step_top (fst a) (snd a) (fst b) (snd b) d Ha Hb) as (k & Hk & Hdk). exists k. split; [now apply I3|exact Hdk].
Qed.

(** add *)
Lemma add_first_eval u v g d : dsum g (fold_left (fun d kv => add_to (fst kv) (snd kv + get0 (fst kv) v) d) u d) =
  dsum g d + Rsum (map (fun kv => (snd kv + get0 (fst kv) v) * g (fst kv)) u).
Proof.
  revert d. induction u as [|[k c] u IH]; intros d; [cbn [fold_left map]; rewrite ?dsum_nil; unfold Rsum; cbn [fold_right]; ring|]. cbn [fold_left map]. rewrite IH, dsum_add_to. cbn [fst snd Rsum fold_right].
  unfold Rsum. ring.
Qed.
Lemma fold_add_keys (u : list (ijk * R)) f d k : In k (keys (fold_left (fun d kv => add_to (fst kv) (f kv) d) u d)) <-> In k (keys u) \/ In k (keys d).
Proof.
  revert d. induction u as [|[k' c] u IH]; intros d; [cbn; tauto|]. cbn [fold_left]. rewrite IH, keys_add_to. cbn [keys map In fst].
  fold (keys u). intuition.
Qed.
Lemma fold_add_nodup (u : list (ijk * R)) f d : NoDup (keys d) -> NoDup (keys (fold_left (fun d kv => add_to (fst kv) (f kv) d) u d)).
Proof. revert d. induction u as [|a u IH]; intros d H; [exact H|]. cbn [fold_left]. apply IH. now apply nodup_add_to. Qed.
Lemma add_second (u v : list (ijk * R)) g d : NoDup (keys v) ->
  let r := fold_left (fun d kv => if dmem ijk_eqb (fst kv) d then d else add_to (fst kv) (snd kv + get0 (fst kv) u) d) v d in
  dsum g r = dsum g d + Rsum (map (fun kv => if dmem ijk_eqb (fst kv) d then 0 else (snd kv + get0 (fst kv) u) * g (fst kv)) v) /\
  (forall k, In k (keys r) <-> In k (keys v) \/ In k (keys d)) /\ (NoDup (keys d) -> NoDup (keys r)).
Proof.
  revert d. induction v as [|[k c] v IH]; intros d Hn; cbn [fold_left map fst snd].
  - cbv zeta. split; [cbn; ring|]. split; [cbn; tauto|auto].
  - change (NoDup (k :: keys v)) in Hn. inversion Hn as [|? ? Hk Hn']; subst.
    destruct (dmem ijk_eqb k d) eqn:E.
    + destruct (IH d Hn') as (I1 & I2 & I3). cbv zeta. split; [rewrite I1; unfold Rsum; cbn; ring|]. split; [|exact I3].
      intros k'. rewrite I2. cbn. fold (keys v). apply dmem_true in E; [|apply ijk_eqb_eq]. intuition. subst. auto.
    + destruct (IH (add_to k (c + get0 k u) d) Hn') as (I1 & I2 & I3). cbv zeta. split; [|split].
      * rewrite I1, dsum_add_to. cbn [Rsum fold_right]. fold (Rsum (map (fun kv => if dmem ijk_eqb (fst kv) d then 0 else (snd kv + get0 (fst kv) u) * g (fst kv)) v)).
        rewrite (Rsum_map_ext (fun kv => if dmem ijk_eqb (fst kv) (add_to k (c + get0 k u) d) then 0 else (snd kv + get0 (fst kv) u) * g (fst kv))
           (fun kv => if dmem ijk_eqb (fst kv) d then 0 else (snd kv + get0 (fst kv) u) * g (fst kv))); [ring|].
        intros [k' c'] Hi. cbn [fst snd].
        assert (Hk' : In k' (keys v)) by (change k' with (fst (k', c')); now apply in_map).
        assert (Hne : k' <> k) by congruence.
        unfold dmem, add_to. rewrite dget_dupd by apply ijk_eqb_eq.
        destruct (ijk_eqb k' k) eqn:E'; [apply ijk_eqb_eq in E'; contradiction|reflexivity].
      * intros k'. rewrite I2, keys_add_to. cbn. fold (keys v). intuition.
      * intros Hd. apply I3. now apply nodup_add_to.
Qed.
Lemma get0_In k v (d : list (ijk * R)) : NoDup (keys d) -> In (k, v) d -> get0 k d = v.
Proof. intros Hn Hi. unfold get0. rewrite (In_dget ijk_eqb ijk_eqb_eq k v d Hn Hi). reflexivity. Qed.
Lemma get0_notin k (d : list (ijk * R)) : ~ In k (keys d) -> get0 k d = 0.
Proof. intros H. unfold get0. apply (dget_None ijk_eqb ijk_eqb_eq) in H. now rewrite H. Qed.
(** Σ over u of get0 in v = Σ over v restricted to keys of u *)
Lemma sum_get0 (u v : list (ijk * R)) g : NoDup (keys u) -> NoDup (keys v) ->
  Rsum (map (fun kv => get0 (fst kv) v * g (fst kv)) u) = Rsum (map (fun kv => if dmem ijk_eqb (fst kv) u then snd kv * g (fst kv) else 0) v).
Proof.
  intros Hu Hv. induction v as [|[k c] v IH].
  - cbn. apply Rsum_map_zero. intros a _. unfold get0. cbn. ring.
  - change (NoDup (k :: keys v)) in Hv. inversion Hv as [|? ? Hk Hv']; subst. cbn [map Rsum fold_right fst snd].
    fold (Rsum (map (fun kv => if dmem ijk_eqb (fst kv) u then snd kv * g (fst kv) else 0) v)). rewrite <- IH by exact Hv'.
    rewrite (Rsum_map_ext (fun kv => get0 (fst kv) ((k, c) :: v) * g (fst kv)) (fun kv => (if ijk_eqb (fst kv) k then c * g k else 0) + get0 (fst kv) v * g (fst kv))).
    + rewrite Rsum_map_plus. f_equal. clear IH Hv Hv' Hk. induction u as [|[k' c'] u IHu]; [reflexivity|].
      change (NoDup (k' :: keys u)) in Hu. inversion Hu as [|? ? Hk' Hu']; subst. cbn [map Rsum fold_right fst snd].
      fold (Rsum (map (fun kv : ijk * R => if ijk_eqb (fst kv) k then c * g k else 0) u)). rewrite IHu by exact Hu'.
      unfold dmem. cbn [dget]. destruct (ijk_eqb k' k) eqn:E.
      * apply ijk_eqb_eq in E. subst k'. rewrite (proj2 (ijk_eqb_eq k k) eq_refl).
        apply (dget_None ijk_eqb ijk_eqb_eq) in Hk'. rewrite Hk'. ring.
      * assert (E' : ijk_eqb k k' = false). { destruct (ijk_eqb k k') eqn:E'; [|reflexivity]. apply ijk_eqb_eq in E'. subst. rewrite (proj2 (ijk_eqb_eq k' k') eq_refl) in E. discriminate. }
        rewrite E'. ring.
    + intros [k' c'] _. cbn [fst]. unfold get0. cbn [dget]. destruct (ijk_eqb k' k) eqn:E; [|ring].
      apply ijk_eqb_eq in E. subst. apply (dget_None ijk_eqb ijk_eqb_eq) in Hk. rewrite Hk. ring.
Qed.
Lemma add_data_spec (u v : list (ijk * R)) : NoDup (keys u) -> NoDup (keys v) ->
  (forall g, dsum g (add_data u v) = dsum g u + dsum g v) /\
  (forall k, In k (keys (add_data u v)) <-> In k (keys u) \/ In k (keys v)) /\ NoDup (keys (add_data u v)).
Proof.
  intros Hu Hv. unfold add_data.
  set (d1 := fold_left (fun d kv => add_to (fst kv) (snd kv + get0 (fst kv) v) d) u []).
  assert (K1 : forall k, In k (keys d1) <-> In k (keys u)) by (intros k; unfold d1; rewrite fold_add_keys; cbn; tauto).
  split; [|split].
  - intros g. destruct (add_second u v g d1 Hv) as (-> & _). unfold d1 at 1. rewrite add_first_eval.
    change (dsum g []) with 0. rewrite (Rsum_map_ext _ (fun kv : ijk * R => snd kv * g (fst kv) + get0 (fst kv) v * g (fst kv))) by (intros; ring).
    rewrite Rsum_map_plus, sum_get0 by assumption. fold (dsum g u). rewrite Rplus_0_l, Rplus_assoc, <- Rsum_map_plus. f_equal.
    unfold dsum. apply Rsum_map_ext. intros [k c] Hi. cbn [fst snd].
    destruct (dmem ijk_eqb k u) eqn:E1, (dmem ijk_eqb k d1) eqn:E2; try ring.
    + exfalso. apply dmem_true in E1; [|apply ijk_eqb_eq]. apply K1 in E1. apply (dmem_true ijk_eqb ijk_eqb_eq) in E1. congruence.
    + exfalso. apply dmem_true in E2; [|apply ijk_eqb_eq]. apply K1 in E2. apply (dmem_true ijk_eqb ijk_eqb_eq) in E2. congruence.
    + rewrite (get0_notin k u); [ring|]. intros Hk. apply (dmem_true ijk_eqb ijk_eqb_eq) in Hk. congruence.
  - intros k. destruct (add_second u v (fun _ => 0) d1 Hv) as (_ & -> & _). rewrite K1. tauto.
  - destruct (add_second u v (fun _ => 0) d1 Hv) as (_ & _ & H). apply H. apply fold_add_nodup. constructor.
Qed.
