(** The polynomial basis functions are linearly independent on the sphere. *)
From Coq Require Import Reals Lra Lia ZArith List Bool FinFun Permutation Psatz.
From Verif Require Import Base.RealAux Base.Dict Model.Poly Spec.PolySpec Proof.PolyProof Proof.PolyMatrix.
Import ListNotations.
Open Scope R_scope.

Lemma bigsum_abs_bound n c x : 0 <= x <= 1 -> Rabs (bigsum n (fun i => c i * x ^ i)) <= bigsum n (fun i => Rabs (c i)).
Proof.
  intros Hx. induction n as [|n IH]; cbn [bigsum]; [rewrite Rabs_R0; lra|].
  eapply Rle_trans; [apply Rabs_triang|]. apply Rplus_le_compat; [exact IH|]. rewrite Rabs_mult.
  assert (0 <= x ^ n <= 1). { split; [apply pow_le; lra|]. rewrite <- (pow1 n). apply pow_incr. lra. }
  rewrite (Rabs_right (x ^ n)) by lra. pose proof (Rabs_pos (c n)). nra.
Qed.
Lemma small_zero a C r : 0 < r -> 0 <= C -> (forall x, 0 < x < r -> Rabs a <= x * C) -> a = 0.
Proof.
  intros Hr HC H. destruct (Req_dec a 0) as [|Ha]; [assumption|exfalso].
  assert (Hp : 0 < Rabs a) by now apply Rabs_pos_lt.
  set (x := Rmin (r / 2) (Rabs a / (2 * (C + 1)))).
  assert (Hx1 : 0 < Rabs a / (2 * (C + 1))) by (apply Rdiv_lt_0_compat; lra).
  assert (Hx : 0 < x < r). { unfold x, Rmin. destruct (Rle_dec _ _); lra. }
  specialize (H x Hx). assert (x <= Rabs a / (2 * (C + 1))) by apply Rmin_r.
  assert (x * C <= Rabs a / (2 * (C + 1)) * C) by (apply Rmult_le_compat_r; lra).
  assert (Rabs a / (2 * (C + 1)) * C < Rabs a).
  { apply Rmult_lt_reg_r with (2 * (C + 1)); [lra|]. unfold Rdiv. replace (Rabs a * / (2 * (C + 1)) * C * (2 * (C + 1))) with (Rabs a * C) by (field; lra). nra. }
  lra.
Qed.
Lemma poly1_zero n : forall c r, 0 < r -> (forall x, 0 < x < r -> bigsum n (fun i => c i * x ^ i) = 0) ->
  forall i, (i < n)%nat -> c i = 0.
Proof.
  induction n as [|n IH]; intros c r Hr H; [lia|].
  assert (H0 : c 0%nat = 0).
  { apply (small_zero _ (bigsum n (fun i => Rabs (c (S i)))) (Rmin r 1)).
    - apply Rmin_pos; lra.
    - apply bigsum_nonneg. intros; apply Rabs_pos.
    - intros x Hx. assert (Hr' : x < r) by (eapply Rlt_le_trans; [apply Hx|apply Rmin_l]). assert (x < 1) by (eapply Rlt_le_trans; [apply Hx|apply Rmin_r]).
      specialize (H x ltac:(lra)). rewrite bigsum_split_first in H.
      rewrite (bigsum_ext n _ (fun i => x * (c (S i) * x ^ i))) in H by (intros; simpl; ring). rewrite bigsum_scal in H.
      replace (c 0%nat) with (- (x * bigsum n (fun i => c (S i) * x ^ i))) by (simpl in H; lra).
      rewrite Rabs_Ropp, Rabs_mult, (Rabs_right x) by lra. apply Rmult_le_compat_l; [lra|]. apply (bigsum_abs_bound n (fun i => c (S i))). lra. }
  assert (HS : forall i, (i < n)%nat -> c (S i) = 0).
  { apply (IH (fun i => c (S i)) r Hr). intros x Hx. specialize (H x Hx). rewrite bigsum_split_first, H0 in H.
    rewrite (bigsum_ext n _ (fun i => x * (c (S i) * x ^ i))) in H by (intros; simpl; ring). rewrite bigsum_scal in H.
    apply Rmult_eq_reg_l with x; lra. }
  intros [|i] Hi; [exact H0|]. apply HS. lia.
Qed.
Lemma poly2_zero n m (c : nat -> nat -> R) r : 0 < r ->
  (forall x y, 0 < x < r -> 0 < y < r -> bigsum n (fun i => bigsum m (fun j => c i j * (x ^ i * y ^ j))) = 0) ->
  forall i j, (i < n)%nat -> (j < m)%nat -> c i j = 0.
Proof.
  intros Hr H i j Hi Hj. apply (poly1_zero m (c i) r Hr); [|assumption]. intros y Hy.
  apply (poly1_zero n (fun i => bigsum m (fun j => c i j * y ^ j)) r Hr); [|assumption]. intros x Hx.
  rewrite <- (H x y Hx Hy). apply bigsum_ext. intros i' _. rewrite Rmult_comm, <- bigsum_scal. apply bigsum_ext. intros j' _. ring.
Qed.

Lemma Rsum_perm {A} (f : A -> R) l l' : Permutation l l' -> Rsum (map f l) = Rsum (map f l').
Proof. unfold Rsum. intros H. induction H; cbn; lra. Qed.
(** all admissible exponents with entries up to L *)
Definition all_ijk (L : nat) : list ijk :=
  flat_map (fun i => flat_map (fun j => map (fun k => (Z.of_nat i, Z.of_nat j, Z.of_nat k)) (seq 0 2)) (seq 0 (S L))) (seq 0 (S L)).
Lemma Rsum_flat_map {A B} (f : B -> R) (g : A -> list B) l : Rsum (map f (flat_map g l)) = Rsum (map (fun a => Rsum (map f (g a))) l).
Proof. induction l as [|a l IH]; [reflexivity|]. cbn [flat_map map]. rewrite map_app, Rsum_app, IH. reflexivity. Qed.
Lemma sum_all_ijk L f : Rsum (map f (all_ijk L)) =
  bigsum (S L) (fun i => bigsum (S L) (fun j => f (Z.of_nat i, Z.of_nat j, 0%Z) + f (Z.of_nat i, Z.of_nat j, 1%Z))).
Proof.
  unfold all_ijk. rewrite Rsum_flat_map, Rsum_map_seq. apply bigsum_ext. intros i _.
  rewrite Rsum_flat_map, Rsum_map_seq. apply bigsum_ext. intros j _. cbn. unfold Rsum. cbn. lra.
Qed.
Lemma In_all_ijk L p : In p (all_ijk L) <-> valid_ijk p /\ (let '(i, j, k) := p in i <= Z.of_nat L /\ j <= Z.of_nat L)%Z.
Proof.
  destruct p as [[i j] k]. unfold all_ijk. rewrite in_flat_map. split.
  - intros (a & Ha & H). apply in_flat_map in H. destruct H as (b & Hb & H). apply in_map_iff in H. destruct H as (c & E & Hc).
    injection E as <- <- <-. apply in_seq in Ha, Hb, Hc. unfold valid_ijk. lia.
  - intros [(Hi & Hj & Hk) [Hi' Hj']]. exists (Z.to_nat i). split; [apply in_seq; lia|]. apply in_flat_map. exists (Z.to_nat j). split; [apply in_seq; lia|].
    apply in_map_iff. exists (Z.to_nat k). split; [rewrite !Z2Nat.id by lia; reflexivity|]. apply in_seq. lia.
Qed.
Lemma NoDup_app' {A} (l l' : list A) : NoDup l -> NoDup l' -> (forall a, In a l -> ~ In a l') -> NoDup (l ++ l').
Proof.
  induction l as [|a l IH]; intros H H' Hd; [exact H'|]. inversion H; subst. cbn. constructor.
  - rewrite in_app_iff. intros [?|?]; [contradiction|]. apply (Hd a); [now left|assumption].
  - apply IH; auto. intros b Hb. apply Hd. now right.
Qed.
Lemma NoDup_flat_map {A B} (f : A -> list B) l : NoDup l -> (forall a, In a l -> NoDup (f a)) ->
  (forall a b x, In a l -> In b l -> In x (f a) -> In x (f b) -> a = b) -> NoDup (flat_map f l).
Proof.
  induction l as [|a l IH]; intros Hn Hf Hd; [constructor|]. inversion Hn; subst. cbn. apply NoDup_app'.
  - apply Hf. now left.
  - apply IH; auto; [intros; apply Hf; now right|]. intros a' b x Ha Hb. apply Hd; now right.
  - intros x Hx Hx'. apply in_flat_map in Hx'. destruct Hx' as (b & Hb & Hxb).
    assert (a = b) by (apply (Hd a b x); [now left|now right|assumption|assumption]). subst. contradiction.
Qed.
Lemma NoDup_all_ijk L : NoDup (all_ijk L).
Proof.
  unfold all_ijk. apply NoDup_flat_map; [apply seq_NoDup| |].
  - intros i _. apply NoDup_flat_map; [apply seq_NoDup| |].
    + intros j _. apply FinFun.Injective_map_NoDup; [|apply seq_NoDup]. intros a b H. injection H. lia.
    + intros a b x _ _ Ha Hb. apply in_map_iff in Ha, Hb. destruct Ha as (c & <- & _), Hb as (c' & E & _). injection E. lia.
  - intros a b x _ _ Ha Hb. apply in_flat_map in Ha, Hb. destruct Ha as (c & _ & Ha), Hb as (c' & _ & Hb).
    apply in_map_iff in Ha, Hb. destruct Ha as (k & <- & _), Hb as (k' & E & _). injection E. lia.
Qed.
Definition in_deg (L : nat) (p : ijk) : bool := (idx p <? Z.of_nat ((L + 1) * (L + 1)))%Z.
Lemma idx_ge i j k (L : Z) : valid_ijk (i, j, k) -> (0 <= L)%Z -> (idx (i, j, k) < (L + 1) * (L + 1))%Z -> (i + j + k <= L)%Z.
Proof. intros (? & ? & ?) HL. unfold idx, lm2n. intros H'. nia. Qed.
Lemma enum_perm L : Permutation (map (fun n => n2ijk (Z.of_nat n)) (seq 0 ((L + 1) * (L + 1)))) (filter (in_deg L) (all_ijk L)).
Proof.
  apply NoDup_Permutation.
  - apply FinFun.Injective_map_NoDup; [|apply seq_NoDup]. intros a b H. apply (f_equal idx) in H. rewrite !idx_n2ijk in H by lia. lia.
  - apply NoDup_filter, NoDup_all_ijk.
  - intros p. rewrite filter_In, In_all_ijk, in_map_iff. split.
    + intros (n & <- & Hn). apply in_seq in Hn. pose proof (n2ijk_valid (Z.of_nat n) ltac:(lia)) as Hv.
      pose proof (idx_n2ijk (Z.of_nat n) ltac:(lia)) as E. unfold in_deg. destruct (n2ijk (Z.of_nat n)) as [[i j] k].
      rewrite E. split; [|apply Z.ltb_lt; lia]. split; [exact Hv|].
      pose proof (idx_ge i j k (Z.of_nat L) Hv ltac:(lia) ltac:(rewrite E; lia)). destruct Hv as (? & ? & ?). lia.
    + intros [[Hv _] Hd]. exists (Z.to_nat (idx p)). pose proof (idx_nonneg p Hv). rewrite Z2Nat.id by lia.
      split; [now apply n2ijk_idx|]. apply in_seq. unfold in_deg in Hd. apply Z.ltb_lt in Hd. lia.
Qed.
Lemma Rsum_filter {A} (h : A -> bool) (f : A -> R) l : Rsum (map f (filter h l)) = Rsum (map (fun a => if h a then f a else 0) l).
Proof. induction l as [|a l IH]; [reflexivity|]. cbn [filter map]. unfold Rsum in *. destruct (h a); cbn; rewrite IH; lra. Qed.
Lemma dense_eval_double L d x y z : dense_eval L d x y z =
  bigsum (S L) (fun i => bigsum (S L) (fun j =>
    (if in_deg L (Z.of_nat i, Z.of_nat j, 0%Z) then d (Z.to_nat (idx (Z.of_nat i, Z.of_nat j, 0%Z))) else 0) * (x ^ i * y ^ j) +
    z * ((if in_deg L (Z.of_nat i, Z.of_nat j, 1%Z) then d (Z.to_nat (idx (Z.of_nat i, Z.of_nat j, 1%Z))) else 0) * (x ^ i * y ^ j)))).
Proof.
  rewrite dense_eval_flat. transitivity (Rsum (map (fun p => d (Z.to_nat (idx p)) * mono p x y z) (map (fun n => n2ijk (Z.of_nat n)) (seq 0 ((L + 1) * (L + 1)))))).
  - rewrite map_map, Rsum_map_seq. apply bigsum_ext. intros n _. cbn [plus]. rewrite idx_n2ijk, Nat2Z.id by lia. reflexivity.
  - rewrite (Rsum_perm _ _ _ (enum_perm L)), Rsum_filter, sum_all_ijk. apply bigsum_ext. intros i _. apply bigsum_ext. intros j _.
    cbn [mono]. rewrite !Nat2Z.id. change (Z.to_nat 0) with 0%nat. change (Z.to_nat 1) with 1%nat.
    destruct (in_deg L _), (in_deg L _); simpl (z ^ _); ring.
Qed.
Lemma dense_unique L d : (forall x y z, on_sphere x y z -> dense_eval L d x y z = 0) -> forall n, (n < (L + 1) * (L + 1))%nat -> d n = 0.
Proof.
  intros H.
  set (c0 := fun i j => if in_deg L (Z.of_nat i, Z.of_nat j, 0%Z) then d (Z.to_nat (idx (Z.of_nat i, Z.of_nat j, 0%Z))) else 0).
  set (c1 := fun i j => if in_deg L (Z.of_nat i, Z.of_nat j, 1%Z) then d (Z.to_nat (idx (Z.of_nat i, Z.of_nat j, 1%Z))) else 0).
  assert (HH : forall x y, 0 < x < 1/2 -> 0 < y < 1/2 ->
     bigsum (S L) (fun i => bigsum (S L) (fun j => c0 i j * (x ^ i * y ^ j))) = 0 /\
     bigsum (S L) (fun i => bigsum (S L) (fun j => c1 i j * (x ^ i * y ^ j))) = 0).
  { intros x y Hx Hy. assert (Hp : 0 < 1 - x ^ 2 - y ^ 2) by nra. set (z := sqrt (1 - x ^ 2 - y ^ 2)).
    assert (Hz : 0 < z) by now apply sqrt_lt_R0. assert (Hz2 : z ^ 2 = 1 - x ^ 2 - y ^ 2) by (unfold z; rewrite pow2_sqrt; lra).
    assert (D : forall w, dense_eval L d x y w = bigsum (S L) (fun i => bigsum (S L) (fun j => c0 i j * (x ^ i * y ^ j))) +
       w * bigsum (S L) (fun i => bigsum (S L) (fun j => c1 i j * (x ^ i * y ^ j)))).
    { intros w. rewrite dense_eval_double. rewrite <- bigsum_scal, <- bigsum_plus. apply bigsum_ext. intros i _.
      rewrite <- bigsum_scal, <- bigsum_plus. reflexivity. }
    assert (E1 : dense_eval L d x y z = 0) by (apply H; unfold on_sphere; lra).
    assert (E2 : dense_eval L d x y (- z) = 0) by (apply H; unfold on_sphere; replace ((- z) ^ 2) with (z ^ 2) by ring; lra).
    rewrite D in E1, E2. set (A := bigsum _ _) in *. set (B := bigsum (S L) (fun i => bigsum (S L) (fun j => c1 i j * (x ^ i * y ^ j)))) in *.
    assert (A = 0) by lra. split; [assumption|]. assert (z * B = 0) by lra. apply Rmult_integral in H1. destruct H1; lra. }
  assert (Z0 := poly2_zero (S L) (S L) c0 (1/2) ltac:(lra) (fun x y Hx Hy => proj1 (HH x y Hx Hy))).
  assert (Z1 := poly2_zero (S L) (S L) c1 (1/2) ltac:(lra) (fun x y Hx Hy => proj2 (HH x y Hx Hy))).
  intros n Hn. pose proof (n2ijk_valid (Z.of_nat n) ltac:(lia)) as Hv. pose proof (idx_n2ijk (Z.of_nat n) ltac:(lia)) as E.
  destruct (n2ijk (Z.of_nat n)) as [[i j] k].
  pose proof (idx_ge i j k (Z.of_nat L) Hv ltac:(lia) ltac:(rewrite E; lia)) as Hd. destruct Hv as (Hi & Hj & Hk).
  destruct Hk as [-> | ->].
  - specialize (Z0 (Z.to_nat i) (Z.to_nat j) ltac:(lia) ltac:(lia)). unfold c0 in Z0. rewrite !Z2Nat.id, E, Nat2Z.id in Z0 by lia.
    unfold in_deg in Z0. rewrite E in Z0. destruct (Z.ltb_spec (Z.of_nat n) (Z.of_nat ((L + 1) * (L + 1)))); [exact Z0|lia].
  - specialize (Z1 (Z.to_nat i) (Z.to_nat j) ltac:(lia) ltac:(lia)). unfold c1 in Z1. rewrite !Z2Nat.id, E, Nat2Z.id in Z1 by lia.
    unfold in_deg in Z1. rewrite E in Z1. destruct (Z.ltb_spec (Z.of_nat n) (Z.of_nat ((L + 1) * (L + 1)))); [exact Z1|lia].
Qed.

(** * Round trips *)
Lemma from_dense_ok x degree : x <> [] \/ degree <> None -> exists p, from_dense x degree = Ok p /\ p_data p = from_dense_data x /\
  (forall D, degree = Some D -> p_degree p = D) /\ (degree = None -> p_degree p = Z.sqrt (Z.of_nat (length x) - 1)).
Proof.
  intros Hx. destruct (from_dense_valid x) as [_ Hv]. change (map fst (from_dense_data x)) with (keys (from_dense_data x)) in Hv.
  unfold from_dense. destruct degree as [D|].
  - unfold make_pijk. cbn [rbind]. destruct (all_diagonal_ok _ Hv) as (b & -> & _). cbn [rbind]. eexists. split; [reflexivity|].
    cbn. split; [reflexivity|]. split; [congruence|discriminate].
  - destruct Hx as [Hx|Hx]; [|contradiction].
    assert (Hne : from_dense_data x <> []). { rewrite from_dense_data_form. destruct x; [contradiction|discriminate]. }
    destruct (make_pijk_ok _ Hne Hv) as (p & Hp & Hd & H0 & Hle & (i & j & k & Hin & Heq)). exists p. split; [exact Hp|]. split; [exact Hd|].
    split; [discriminate|]. intros _.
    assert (Hlen : (0 < length x)%nat) by (destruct x; [contradiction|cbn; lia]).
    set (n := Z.of_nat (length x - 1)). replace (Z.of_nat (length x) - 1)%Z with n by (unfold n; lia).
    assert (Hn0 : (0 <= n)%Z) by (unfold n; lia).
    assert (Hin' : In (n2ijk n) (keys (from_dense_data x))).
    { rewrite keys_from_dense. apply in_map_iff. exists (length x - 1)%nat. split; [reflexivity|]. apply in_seq. lia. }
    pose proof (n2ijk_valid n Hn0) as Hvn. pose proof (idx_n2ijk n Hn0) as En.
    rewrite keys_from_dense in Hin. apply in_map_iff in Hin. destruct Hin as (n' & En' & Hn'). apply in_seq in Hn'.
    pose proof (idx_n2ijk (Z.of_nat n') ltac:(lia)) as Ei. rewrite En' in Ei. pose proof (n2ijk_valid (Z.of_nat n') ltac:(lia)) as Hvn'. rewrite En' in Hvn'.
    destruct (n2ijk n) as [[i0 j0] k0]. specialize (Hle _ _ _ Hin').
    symmetry. apply Z.sqrt_unique. destruct Hvn as (? & ? & ?), Hvn' as (? & ? & ?). unfold idx, lm2n in En, Ei. split; nia.
Qed.
Lemma from_dense_todense x degree p : x <> [] -> from_dense x degree = Ok p ->
  exists v, todense p = Ok v /\ length v = Z.to_nat ((p_degree p + 1) ^ 2) /\ forall n, (n < length v)%nat -> nth n v 0 = nth n x 0.
Proof.
  intros Hx Hp. destruct (from_dense_ok x degree (or_introl Hx)) as (p' & Hp' & Hd & _). rewrite Hp in Hp'. injection Hp' as <-.
  assert (Hne : p_data p <> []). { rewrite Hd, from_dense_data_form. destruct x; [contradiction|discriminate]. }
  rewrite todense_form; [|exact Hne|].
  - eexists. split; [reflexivity|]. rewrite map_length, seq_length. split; [reflexivity|]. intros n Hn. rewrite nth_todense by assumption.
    rewrite Hd. apply coef_from_dense.
  - rewrite Hd. apply from_dense_valid.
Qed.
Lemma from_dense_eval x L : length x = ((L + 1) * (L + 1))%nat ->
  exists p, from_dense x None = Ok p /\ p_degree p = Z.of_nat L /\
   (forall a b c, dict_eval (p_data p) a b c = dense_eval L (fun n => nth n x 0) a b c).
Proof.
  intros Hl. assert (Hx : x <> []) by (intros ->; cbn in Hl; lia).
  destruct (from_dense_ok x None (or_introl Hx)) as (p & Hp & Hd & _ & Hdeg). specialize (Hdeg eq_refl). exists p. split; [exact Hp|].
  assert (HD : p_degree p = Z.of_nat L). { rewrite Hdeg, Hl. apply Z.sqrt_unique. nia. }
  split; [exact HD|]. intros a b c. rewrite Hd. rewrite <- (dense_of_coef L).
  - rewrite !dense_eval_flat. apply bigsum_ext. intros n _. now rewrite coef_from_dense.
  - intros k Hk. split; [now apply (from_dense_valid x)|]. rewrite keys_from_dense in Hk. apply in_map_iff in Hk. destruct Hk as (n & <- & Hn).
    apply in_seq in Hn. rewrite idx_n2ijk by lia. lia.
Qed.

(** * Arithmetic on Pijk values *)
Lemma pijk_add_spec u v : valid_dict (p_data u) -> valid_dict (p_data v) -> p_data u <> [] ->
  exists r, pijk_add u v = Ok r /\ valid_dict (p_data r) /\
    forall x y z, dict_eval (p_data r) x y z = dict_eval (p_data u) x y z + dict_eval (p_data v) x y z.
Proof.
  intros [Nu Vu] [Nv Vv] Hne. destruct (add_data_spec _ _ Nu Nv) as (He & Hk & Hn).
  assert (V : forall k, In k (keys (add_data (p_data u) (p_data v))) -> valid_ijk k).
  { intros k Hi. apply Hk in Hi. destruct Hi; [now apply Vu|now apply Vv]. }
  assert (Hne' : add_data (p_data u) (p_data v) <> []).
  { intros E. destruct (p_data u) as [|[k c] l] eqn:Eu; [contradiction|]. specialize (Hk k). rewrite E in Hk. cbn in Hk. tauto. }
  destruct (make_pijk_ok _ Hne' V) as (r & Hr & Hd & _). exists r. split; [exact Hr|]. rewrite Hd. split; [split; [exact Hn|exact V]|].
  intros x y z. rewrite !dict_eval_dsum. apply He.
Qed.
Lemma keys_list_prod (u v : list (ijk * R)) a b : In (a, b) (list_prod u v) -> In (fst a) (keys u) /\ In (fst b) (keys v).
Proof. intros H. apply in_prod_iff in H. destruct H as [Ha Hb]. split; now apply in_map. Qed.
Lemma pijk_mul_spec u v : valid_dict (p_data u) -> valid_dict (p_data v) -> p_data u <> [] -> p_data v <> [] ->
  exists r, pijk_mul u v = Ok r /\ valid_dict (p_data r) /\
    (forall Du Dv, max_degree (keys (p_data u)) = Ok Du -> max_degree (keys (p_data v)) = Ok Dv -> p_degree r = (Du + Dv)%Z) /\
    forall x y z, on_sphere x y z -> dict_eval (p_data r) x y z = dict_eval (p_data u) x y z * dict_eval (p_data v) x y z.
Proof.
  intros [Nu Vu] [Nv Vv] Hu Hv. change (map fst (p_data u)) with (keys (p_data u)) in *. change (map fst (p_data v)) with (keys (p_data v)) in *.
  destruct (max_degree_ok (keys (p_data u)) ltac:(now destruct (p_data u)) Vu) as (Du & EDu & _ & Lu & (iu & ju & ku & Iu & Eu)).
  destruct (max_degree_ok (keys (p_data v)) ltac:(now destruct (p_data v)) Vv) as (Dv & EDv & _ & Lv & (iv & jv & kv & Iv & Ev)).
  destruct (mul_pairs_inv (list_prod (p_data u) (p_data v)) [] (Du + Dv)) as (I1 & I2 & _ & I4).
  - intros a b Hab. apply keys_list_prod in Hab. destruct Hab as [Ha Hb]. split; [now apply Vu|]. split; [now apply Vv|].
    destruct a as [[[i j] k] ca], b as [[[i' j'] k'] cb]. cbn [fst] in *. specialize (Lu _ _ _ Ha). specialize (Lv _ _ _ Hb). unfold deg_of. lia.
  - constructor.
  - intros k [].
  - rewrite <- mul_as_pairs in I1, I2, I4.
    apply in_map_iff in Iu. destruct Iu as ([k1 c1] & E1 & Iu). cbn in E1. subst k1.
    apply in_map_iff in Iv. destruct Iv as ([k2 c2] & E2 & Iv). cbn in E2. subst k2.
    destruct (I4 _ _ (proj2 (in_prod_iff _ _ _ _) (conj Iu Iv))) as (kt & Hkt & Hdt).
    assert (V : forall k, In k (keys (mul_data (p_data u) (p_data v))) -> valid_ijk k) by (intros; now apply I2).
    assert (Hne' : mul_data (p_data u) (p_data v) <> []) by (intros E; rewrite E in Hkt; destruct Hkt).
    destruct (make_pijk_ok _ Hne' V) as (r & Hr & Hd & _ & Hle & (i & j & k & Hi & Hx)). exists r. split; [exact Hr|]. rewrite Hd.
    split; [split; [exact I1|exact V]|]. split.
    + intros Du' Dv' HDu HDv. rewrite EDu in HDu. rewrite EDv in HDv. injection HDu as <-. injection HDv as <-.
      destruct (I2 _ Hi) as [_ Hup]. destruct kt as [[it jt] kt]. specialize (Hle _ _ _ Hkt). unfold deg_of in *. cbn [fst] in Hdt. lia.
    + intros x y z Hs. now apply mul_data_eval.
Qed.
Lemma pijk_scale_spec p c x y z :
  dict_eval (p_data (pijk_mul_scalar p c)) x y z = c * dict_eval (p_data p) x y z /\
  dict_eval (p_data (pijk_rmul_scalar c p)) x y z = c * dict_eval (p_data p) x y z.
Proof.
  unfold dict_eval. cbn [p_data pijk_mul_scalar pijk_rmul_scalar pijk_map]. rewrite !map_map. rewrite <- !Rsum_map_scal.
  split; apply Rsum_map_ext; intros [[[i j] k] v] _; cbn [fst snd]; ring.
Qed.
Lemma pijk_add_scalar_spec p c x y z :
  dict_eval (p_data (pijk_add_scalar p c)) x y z = dict_eval (p_data p) x y z +
   c * dict_eval (map (fun kv => (fst kv, 1)) (p_data p)) x y z.
Proof.
  unfold dict_eval. cbn [p_data pijk_add_scalar pijk_map]. rewrite !map_map. rewrite <- Rsum_map_scal, <- Rsum_map_plus.
  apply Rsum_map_ext; intros [[[i j] k] v] _; cbn [fst snd]; ring.
Qed.
