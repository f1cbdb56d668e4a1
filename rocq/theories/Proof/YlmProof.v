(** Proofs about Ylm expansions. *)
From Coq Require Import Reals Lra Lia ZArith List Bool Arith Psatz.
From Verif Require Import Base.RealAux Base.Dict Model.Poly Model.Ylm Spec.HarmonicSpec Spec.RotationSpec Spec.YlmSpec Proof.PolyProof.
Import ListNotations.
Open Scope R_scope.

Lemma lm_eqb_eq a b : lm_eqb a b = true <-> a = b.
Proof.
  unfold lm_eqb. destruct a as [l m], b as [l' m']. cbn [fst snd]. rewrite andb_true_iff, !Z.eqb_eq. split; [intros [-> ->]; reflexivity|intros E; injection E; auto].
Qed.
Lemma lm_of_index_index k : valid_lm k -> lm_of_index (ylm_index k) = k.
Proof.
  destruct k as [l m]. unfold valid_lm, lm_of_index, ylm_index. cbn [fst snd]. intros [H1 H2].
  replace (Z.sqrt (l * (l + 1) + m)) with l by (symmetry; apply Z.sqrt_unique; nia). f_equal. lia.
Qed.
Lemma lm_of_index_valid i : (0 <= i)%Z -> valid_lm (lm_of_index i) /\ ylm_index (lm_of_index i) = i.
Proof.
  intros H. unfold lm_of_index, valid_lm, ylm_index. cbn [fst snd]. pose proof (Z.sqrt_spec i H) as S. pose proof (Z.sqrt_nonneg i). revert S H0. generalize (Z.sqrt i). intros l S H0. split; [split; [lia|]|ring]. apply Z.abs_le. unfold Z.succ in S. rewrite Z.mul_add_distr_l. rewrite Z.mul_add_distr_l, Z.mul_add_distr_r in S. lia.
Qed.
Lemma index_nonneg k : valid_lm k -> (0 <= ylm_index k)%Z.
Proof. destruct k as [l m]. unfold valid_lm, ylm_index. cbn [fst snd]. nia. Qed.
Definition lget0 (k : lmkey) (d : list (lmkey * R)) : R := match dget lm_eqb k d with Some v => v | None => 0 end.
Lemma lget0_cons k k' v d : lget0 k ((k', v) :: d) = if lm_eqb k k' then v else lget0 k d.
Proof. unfold lget0. cbn [dget]. destruct (lm_eqb k k'); reflexivity. Qed.
Lemma lget0_absent k d : ~ In k (map fst d) -> lget0 k d = 0.
Proof. intros H. unfold lget0. rewrite (proj2 (dget_None lm_eqb lm_eqb_eq k d) H). reflexivity. Qed.
Lemma coef_sum d n : valid_coeffs d -> (0 <= n)%Z ->
  Rsum (map (fun kv => if (ylm_index (fst kv) =? n)%Z then snd kv else 0) d) = lget0 (lm_of_index n) d.
Proof.
  intros [Hn Hv] H0. induction d as [|[k c] d IH]; [reflexivity|]. cbn [map] in *. inversion Hn as [|? ? Hk Hn']; subst.
  specialize (IH Hn' ltac:(intros; apply Hv; right; assumption)).
  cbn [Rsum fold_right fst snd]. change (fold_right Rplus 0) with Rsum. rewrite IH, lget0_cons.
  assert (Vk := Hv k (or_introl eq_refl)). destruct (Z.eqb_spec (ylm_index k) n) as [E|E].
  - subst n. rewrite lm_of_index_index by exact Vk. rewrite (proj2 (lm_eqb_eq k k) eq_refl). rewrite lget0_absent by exact Hk. lra.
  - destruct (lm_eqb (lm_of_index n) k) eqn:E2; [|lra]. apply lm_eqb_eq in E2. subst k. exfalso. apply E. apply lm_of_index_valid, H0.
Qed.
Lemma fold_max_spec l a : (forall x, In x l -> (x <= fold_left Z.max l a)%Z) /\ (a <= fold_left Z.max l a)%Z /\ (In (fold_left Z.max l a) l \/ fold_left Z.max l a = a).
Proof.
  revert a. induction l as [|b l IH]; intros a; cbn [fold_left]; [split; [intros x []|split; [lia|right; reflexivity]]|].
  destruct (IH (Z.max a b)) as (I1 & I2 & I3). split; [|split].
  - intros x [->|Hx]; [lia|apply I1, Hx].
  - lia.
  - destruct I3 as [I3|I3]; [left; right; exact I3|]. rewrite I3. destruct (Z.max_spec a b) as [[_ ->]|[_ ->]]; [left; left; reflexivity|right; reflexivity].
Qed.
Lemma zmax_list_spec l : l <> [] -> (forall x, In x l -> (x <= zmax_list l)%Z) /\ In (zmax_list l) l.
Proof.
  destruct l as [|a l]; [contradiction|]. intros _. unfold zmax_list. destruct (fold_max_spec l a) as (H1 & H2 & H3). split.
  - intros x [->|Hx]; [exact H2|apply H1, Hx].
  - destruct H3 as [H3| ->]; [right; exact H3|left; reflexivity].
Qed.
Lemma make_ylm_ok d : d <> [] -> exists v, make_ylm d = Ok v /\ y_data v = d /\ (forall k, In k (map fst d) -> (fst k <= y_deg v)%Z) /\
  (exists k, In k (map fst d) /\ fst k = y_deg v) /\ y_diagonal v = forallb (fun k => (snd k =? 0)%Z) (map fst d).
Proof.
  intros Hd. unfold make_ylm. destruct d as [|e d]; [contradiction|]. eexists. split; [reflexivity|]. cbn [y_data y_deg y_diagonal].
  destruct (zmax_list_spec (map fst (keys (e :: d)))) as [H1 H2]; [discriminate|]. split; [reflexivity|]. split; [|split; [|reflexivity]].
  - intros k Hk. apply H1, in_map, Hk.
  - apply in_map_iff in H2. destruct H2 as (k & E & Hk). exists k. split; [exact Hk|exact E].
Qed.
Lemma make_ylm_wf d v : valid_coeffs d -> make_ylm d = Ok v -> wf_ylm v /\ y_data v = d.
Proof.
  intros Hv E. assert (Hd : d <> []) by (intros ->; discriminate). destruct (make_ylm_ok d Hd) as (v' & E' & D1 & D2 & (k & D3 & D4) & _).
  rewrite E in E'. injection E' as <-. split; [|exact D1]. unfold wf_ylm. rewrite D1. split; [exact Hv|]. split; [exact Hd|].
  split; [rewrite <- D4; apply (proj2 Hv), D3|]. split; [exact D2|]. exists k. auto.
Qed.
Definition deg_nat (v : ylm) : nat := Z.to_nat (y_deg v).
Lemma shape_ncoef v : (0 <= y_deg v)%Z -> Z.to_nat (ylm_shape v) = ncoef (deg_nat v) /\ ylm_shape v = Z.of_nat (ncoef (deg_nat v)).
Proof. intros H. unfold ylm_shape, ncoef, deg_nat. split; nia. Qed.
Lemma todense_length v : (0 <= y_deg v)%Z -> length (ylm_todense v) = ncoef (deg_nat v).
Proof. intros H. unfold ylm_todense. rewrite map_length, seq_length. apply shape_ncoef, H. Qed.
Lemma todense_nth v n : wf_ylm v -> (n < ncoef (deg_nat v))%nat -> nth n (ylm_todense v) 0 = lget0 (lm_of_index (Z.of_nat n)) (y_data v).
Proof.
  intros (Hv & _ & H0 & _) Hn. unfold ylm_todense. destruct (shape_ncoef v H0) as [-> _].
  rewrite (nth_indep _ 0 (Rsum (map (fun kv => if (wrap_index (ylm_shape v) (ylm_index (fst kv)) =? Z.of_nat 0)%Z then snd kv else 0) (y_data v))))
    by (rewrite map_length, seq_length; exact Hn).
  rewrite (map_nth (fun n => Rsum (map (fun kv => if (wrap_index (ylm_shape v) (ylm_index (fst kv)) =? Z.of_nat n)%Z then snd kv else 0) (y_data v)))).
  rewrite seq_nth by exact Hn. cbn [Nat.add]. rewrite <- coef_sum by (try exact Hv; lia). apply Rsum_map_ext. intros [k c] Hk. cbn [fst snd].
  replace (wrap_index (ylm_shape v) (ylm_index k)) with (ylm_index k); [reflexivity|].
  unfold wrap_index. destruct (Z.ltb_spec (ylm_index k) 0); [|reflexivity]. exfalso.
  assert (valid_lm k) by (apply (proj2 Hv); change k with (fst (k, c)); apply in_map, Hk). pose proof (index_nonneg k H1). lia.
Qed.
Lemma todense_at v (l : nat) m : wf_ylm v -> (Z.of_nat l <= y_deg v)%Z -> (Z.abs m <= Z.of_nat l)%Z ->
  nth (dense_pos l m) (ylm_todense v) 0 = lget0 (Z.of_nat l, m) (y_data v).
Proof.
  intros Hw Hl Hm. pose proof Hw as (_ & _ & H0 & _). rewrite todense_nth; [|exact Hw|unfold ncoef, deg_nat, dense_pos; nia].
  f_equal. rewrite <- (lm_of_index_index (Z.of_nat l, m)) by (unfold valid_lm; cbn; lia). f_equal. unfold dense_pos, ylm_index. cbn [fst snd]. lia.
Qed.
Lemma lget0_coeff d k c : NoDup (map fst d) -> (coeff_is d k c <-> lget0 k d = c).
Proof.
  intros Hn. unfold coeff_is, lget0. destruct (dget lm_eqb k d) as [v|] eqn:E.
  - pose proof (dget_In lm_eqb lm_eqb_eq _ _ _ E) as Hi. split.
    + intros [H|[H _]]; [|exfalso; apply H; change k with (fst (k, v)); apply in_map, Hi].
      pose proof (In_dget lm_eqb lm_eqb_eq _ _ _ Hn H). congruence.
    + intros ->. left. exact Hi.
  - apply (dget_None lm_eqb lm_eqb_eq) in E. split.
    + intros [H|[_ H]]; [|symmetry; exact H]. exfalso. apply E. change k with (fst (k, c)). apply in_map, H.
    + intros <-. right. split; [exact E|reflexivity].
Qed.
Lemma harmonic_flat L d x y z : harmonic_eval L d x y z =
  bigsum (ncoef L) (fun n => d n * real_Y (Z.to_nat (fst (lm_of_index (Z.of_nat n)))) (snd (lm_of_index (Z.of_nat n))) x y z).
Proof.
  unfold harmonic_eval, ncoef. rewrite bigsum_square. apply bigsum_ext. intros l Hl. apply bigsum_ext. intros nu Hnu. f_equal.
  assert (E : lm_of_index (Z.of_nat (l * l + nu)) = (Z.of_nat l, (Z.of_nat nu - Z.of_nat l)%Z)).
  { rewrite <- (lm_of_index_index (Z.of_nat l, (Z.of_nat nu - Z.of_nat l)%Z)) by (unfold valid_lm; cbn; lia). f_equal. unfold ylm_index. cbn [fst snd]. lia. }
  rewrite E. cbn [fst snd]. rewrite Nat2Z.id. reflexivity.
Qed.
Lemma bigsum_Rsum_pick (N : nat) (d : list (lmkey * R)) (h : nat -> R) :
  (forall kc, In kc d -> (0 <= ylm_index (fst kc) < Z.of_nat N)%Z) ->
  bigsum N (fun n => Rsum (map (fun kv => if (ylm_index (fst kv) =? Z.of_nat n)%Z then snd kv else 0) d) * h n) =
  Rsum (map (fun kc => snd kc * h (Z.to_nat (ylm_index (fst kc)))) d).
Proof.
  induction d as [|[k c] d IH]; intros H.
  - cbn. apply bigsum_zero_ext. intros. ring.
  - cbn [map Rsum fold_right fst snd]. change (fold_right Rplus 0) with Rsum. rewrite <- IH by (intros; apply H; right; assumption).
    assert (Hk := H (k, c) (or_introl eq_refl)). cbn [fst] in Hk.
    transitivity (bigsum N (fun n => (if (ylm_index k =? Z.of_nat n)%Z then c else 0) * h n +
        Rsum (map (fun kv => if (ylm_index (fst kv) =? Z.of_nat n)%Z then snd kv else 0) d) * h n)); [apply bigsum_ext; intros; ring|].
    rewrite bigsum_plus. f_equal. rewrite (bigsum_single N (Z.to_nat (ylm_index k))); [|lia|].
    + rewrite Z2Nat.id by lia. rewrite Z.eqb_refl. reflexivity.
    + intros i Hi Hne. destruct (Z.eqb_spec (ylm_index k) (Z.of_nat i)); [lia|ring].
Qed.
Lemma todense_value v p : wf_ylm v -> map_at (deg_nat v) (ylm_todense v) p = coeffs_value (y_data v) p.
Proof.
  intros Hw. pose proof Hw as (Hv & _ & H0 & Hd & _). destruct p as [[x y] z]. unfold map_at, coeffs_value. rewrite harmonic_flat.
  rewrite (bigsum_ext _ _ (fun n => Rsum (map (fun kv => if (ylm_index (fst kv) =? Z.of_nat n)%Z then snd kv else 0) (y_data v)) *
     real_Y (Z.to_nat (fst (lm_of_index (Z.of_nat n)))) (snd (lm_of_index (Z.of_nat n))) x y z))
    by (intros n Hn; rewrite todense_nth by assumption; rewrite coef_sum by (try assumption; lia); reflexivity).
  assert (Vi : forall kc, In kc (y_data v) -> valid_lm (fst kc) /\ (fst (fst kc) <= y_deg v)%Z).
  { intros kc Hk. apply (in_map fst) in Hk. split; [apply (proj2 Hv), Hk|apply Hd, Hk]. }
  rewrite bigsum_Rsum_pick.
  - apply Rsum_map_ext. intros kc Hk. destruct (Vi kc Hk) as [V _]. rewrite Z2Nat.id by (apply index_nonneg, V). rewrite lm_of_index_index by exact V. reflexivity.
  - intros kc Hk. destruct (Vi kc Hk) as [V W]. split; [apply index_nonneg, V|]. unfold ncoef, deg_nat, ylm_index. unfold valid_lm in V. nia.
Qed.
(** ** from_dense *)
Lemma dense_data_aux y n : (n <= length y)%nat ->
  fold_left (fun d i => dset lm_eqb (lm_of_index (Z.of_nat i)) (nth i y 0) d) (seq 0 n) [] =
  map (fun i => (lm_of_index (Z.of_nat i), nth i y 0)) (seq 0 n).
Proof.
  induction n as [|n IH]; intros Hn; [reflexivity|]. rewrite seq_S, fold_left_app, map_app, IH by lia. cbn [fold_left map Nat.add].
  assert (Hno : forall d, (forall k, In k (map fst d) -> k <> lm_of_index (Z.of_nat n)) -> forall v : R, dset lm_eqb (lm_of_index (Z.of_nat n)) v d = d ++ [(lm_of_index (Z.of_nat n), v)]).
  { clear. induction d as [|[k c] d IH]; intros H v; [reflexivity|]. unfold dset. cbn [dupd app]. destruct (lm_eqb (lm_of_index (Z.of_nat n)) k) eqn:E.
    - apply lm_eqb_eq in E. exfalso. apply (H k (or_introl eq_refl)). symmetry. exact E.
    - f_equal. apply IH. intros k' Hk'. apply H. right. exact Hk'. }
  apply Hno. intros k Hk E. rewrite map_map in Hk. apply in_map_iff in Hk. destruct Hk as (i & Ei & Hi). cbn [fst] in Ei. apply in_seq in Hi.
  assert (Z.of_nat i = Z.of_nat n); [|lia]. rewrite <- (proj2 (lm_of_index_valid (Z.of_nat i) ltac:(lia))), Ei, E. apply lm_of_index_valid. lia.
Qed.
Lemma dense_data_form y : ylm_dense_data y = map (fun i => (lm_of_index (Z.of_nat i), nth i y 0)) (seq 0 (length y)).
Proof. apply dense_data_aux. lia. Qed.
Lemma dense_data_valid y : valid_coeffs (ylm_dense_data y).
Proof.
  rewrite dense_data_form. unfold valid_coeffs. rewrite map_map. cbn [fst]. split.
  - apply FinFun.Injective_map_NoDup; [|apply seq_NoDup]. intros a b E. apply Nat2Z.inj.
    rewrite <- (proj2 (lm_of_index_valid (Z.of_nat a) ltac:(lia))), E. apply lm_of_index_valid. lia.
  - intros k Hk. apply in_map_iff in Hk. destruct Hk as (i & <- & _). apply lm_of_index_valid. lia.
Qed.
Lemma dense_data_get y n : lget0 (lm_of_index (Z.of_nat n)) (ylm_dense_data y) = nth n y 0.
Proof.
  pose proof (dense_data_valid y) as [Hn _]. apply lget0_coeff; [exact Hn|]. destruct (Nat.lt_ge_cases n (length y)) as [H|H].
  - left. rewrite dense_data_form. apply in_map_iff. exists n. split; [reflexivity|apply in_seq; lia].
  - right. split; [|apply nth_overflow, H]. rewrite dense_data_form, map_map. cbn [fst]. intros Hi. apply in_map_iff in Hi. destruct Hi as (i & E & Hi). apply in_seq in Hi.
    assert (Z.of_nat i = Z.of_nat n); [|lia]. rewrite <- (proj2 (lm_of_index_valid (Z.of_nat i) ltac:(lia))), E. apply lm_of_index_valid. lia.
Qed.
Lemma from_dense_ylm y : y <> [] -> exists v, ylm_from_dense y false = Ok v /\ wf_ylm v /\ y_data v = ylm_dense_data y /\ y_deg v = Z.sqrt (Z.of_nat (length y - 1)).
Proof.
  intros Hy. assert (Hd : ylm_dense_data y <> []) by (rewrite dense_data_form; destruct y; [contradiction|discriminate]).
  destruct (make_ylm_ok _ Hd) as (v & E & D1 & D2 & (k & D3 & D4) & _). exists v. unfold ylm_from_dense. rewrite E. split; [reflexivity|].
  destruct (make_ylm_wf _ _ (dense_data_valid y) E) as [W _]. split; [exact W|]. split; [exact D1|].
  assert (Hl : (0 < length y)%nat) by (destruct y; [contradiction|cbn; lia]).
  apply Z.le_antisymm.
  - rewrite <- D4. rewrite dense_data_form, map_map in D3. apply in_map_iff in D3. destruct D3 as (i & <- & Hi). apply in_seq in Hi. cbn [fst]. unfold lm_of_index. cbn [fst]. apply Z.sqrt_le_mono. lia.
  - apply (D2 (lm_of_index (Z.of_nat (length y - 1)))). rewrite dense_data_form, map_map. apply in_map_iff. exists (length y - 1)%nat. split; [reflexivity|apply in_seq; lia].
Qed.
Lemma from_dense_todense_ylm y : y <> [] -> exists v, ylm_from_dense y false = Ok v /\ wf_ylm v /\
  let L := Nat.sqrt (length y - 1) in
  y_deg v = Z.of_nat L /\ ylm_todense v = y ++ repeat 0 (ncoef L - length y) /\ (length y <= ncoef L)%nat.
Proof.
  intros Hy. destruct (from_dense_ylm y Hy) as (v & E & W & D1 & D2). exists v. split; [exact E|]. split; [exact W|]. cbv zeta. set (L := Nat.sqrt (length y - 1)).
  assert (HL : (L * L <= length y - 1 < S L * S L)%nat) by (apply Nat.sqrt_spec; lia).
  assert (Hl : (0 < length y)%nat) by (destruct y; [contradiction|cbn; lia]).
  assert (DL : y_deg v = Z.of_nat L) by (rewrite D2; apply Z.sqrt_unique; nia).
  assert (LL : (length y <= ncoef L)%nat) by (unfold ncoef; nia).
  split; [exact DL|]. split; [|exact LL].
  assert (Dn : deg_nat v = L) by (unfold deg_nat; lia).
  apply nth_ext with (d := 0) (d' := 0).
  - rewrite todense_length, Dn, app_length, repeat_length by lia. lia.
  - intros n Hn. rewrite todense_length, Dn in Hn by lia. rewrite todense_nth by (try rewrite Dn; assumption). rewrite D1, dense_data_get.
    destruct (Nat.lt_ge_cases n (length y)) as [H|H]; [rewrite app_nth1 by exact H; reflexivity|]. rewrite app_nth2 by exact H. rewrite nth_repeat. apply nth_overflow, H.
Qed.
(** ** normalize *)
Lemma keys_map_val (h : R -> R) (d : list (lmkey * R)) : map fst (map (fun kv => (fst kv, h (snd kv))) d) = map fst d.
Proof. rewrite map_map. reflexivity. Qed.
Lemma lget0_map (h : R -> R) k d : h 0 = 0 -> lget0 k (map (fun kv => (fst kv, h (snd kv))) d) = h (lget0 k d).
Proof. intros H0. induction d as [|[k' c] d IH]; [symmetry; exact H0|]. cbn [map fst snd]. rewrite !lget0_cons, IH. destruct (lm_eqb k k'); reflexivity. Qed.
Lemma value_map c d p : coeffs_value (map (fun kv => (fst kv, snd kv * c)) d) p = c * coeffs_value d p.
Proof.
  destruct p as [[x y] z]. unfold coeffs_value. rewrite map_map. cbn [fst snd]. rewrite <- Rsum_map_scal. apply Rsum_map_ext. intros. ring.
Qed.
Lemma normalize_ok v c : wf_ylm v -> In ((0, 0)%Z, c) (y_data v) -> c <> 0 ->
  exists w, ylm_normalize v = Ok w /\ wf_ylm w /\ y_data w = map (fun kv => (fst kv, snd kv / c)) (y_data v) /\ y_deg w = y_deg v.
Proof.
  intros (Hv & Hne & H0 & Hd & (k & Hk & Ek)) Hc Hz. unfold ylm_normalize. rewrite (In_dget lm_eqb lm_eqb_eq _ _ _ (proj1 Hv) Hc).
  unfold Reqb. destruct (Req_EM_T c 0); [contradiction|].
  set (d := map (fun kv => (fst kv, snd kv / c)) (y_data v)).
  assert (Kd : map fst d = map fst (y_data v)) by (apply (keys_map_val (fun x => x / c))).
  assert (Vd : valid_coeffs d) by exact (eq_ind_r (fun ks => NoDup ks /\ (forall k, In k ks -> valid_lm k)) Hv Kd).
  assert (Nd : d <> []) by (unfold d; destruct (y_data v); [contradiction|discriminate]).
  destruct (make_ylm_ok d Nd) as (w & Ew & D1 & D2 & (k' & D3 & D4) & _). exists w. split; [exact Ew|].
  split; [apply (make_ylm_wf d w Vd Ew)|]. split; [exact D1|]. rewrite Kd in D3. rewrite Kd in D2.
  apply Z.le_antisymm; [rewrite <- D4; apply Hd, D3|rewrite <- Ek; apply D2, Hk].
Qed.
Lemma normalize_idem v w : wf_ylm v -> ylm_normalize v = Ok w -> ylm_normalize w = Ok w /\ lget0 (0, 0)%Z (y_data w) = 1.
Proof.
  intros Hw E. pose proof Hw as (Hv & Hne & _). unfold ylm_normalize in E. destruct (dget lm_eqb (0, 0)%Z (y_data v)) as [c|] eqn:G; [|discriminate].
  unfold Reqb in E. destruct (Req_EM_T c 0) as [|Hc]; [discriminate|].
  assert (D : y_data w = map (fun kv => (fst kv, snd kv / c)) (y_data v)).
  { unfold make_ylm in E. destruct (map _ (y_data v)) as [|e d]; [discriminate|]. injection E as <-. reflexivity. }
  assert (G1 : lget0 (0, 0)%Z (y_data w) = 1).
  { rewrite D, (lget0_map (fun x => x / c)) by (field; exact Hc). unfold lget0. rewrite G. field. exact Hc. }
  split; [|exact G1]. unfold ylm_normalize. unfold lget0 in G1. destruct (dget lm_eqb (0, 0)%Z (y_data w)) as [c'|] eqn:G'; [|lra]. subst c'.
  unfold Reqb. destruct (Req_EM_T 1 0); [lra|]. replace (map (fun kv => (fst kv, snd kv / 1)) (y_data w)) with (y_data w).
  - rewrite D. exact E.
  - symmetry. erewrite map_ext; [apply map_id|]. intros [k x]. cbn. f_equal. field.
Qed.
