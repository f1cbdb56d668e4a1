From Coq Require Import Reals ZArith Lra Lia List Bool Arith Psatz.
From Coquelicot Require Import Coquelicot.
From Verif.Base Require Import RealAux Analysis.
From Verif.Model Require Import Transforms.
From Verif.Proof Require Import LimbDarkGreen.
Import ListNotations.
Open Scope R_scope.

Lemma odd_samples_odd n : exists m, odd_samples n = (2 * m + 1)%nat /\ (n <= odd_samples n <= n + 1)%nat.
Proof.
  unfold odd_samples. pose proof (Nat.div_mod_eq n 2) as H.
  pose proof (Nat.mod_upper_bound n 2 ltac:(lia)) as H2.
  exists ((n + (1 - n mod 2)) / 2)%nat.
  assert (n mod 2 = 0 \/ n mod 2 = 1)%nat as [E|E] by lia; rewrite E in *; split; try lia.
  - replace (n + (1 - 0))%nat with (1 + (n/2) * 2)%nat by lia. rewrite Nat.div_add by lia. cbn. lia.
  - replace (n + (1 - 1))%nat with (1 + (n/2) * 2)%nat by lia. rewrite Nat.div_add by lia. cbn. lia.
Qed.

Lemma filter_slice1 n m : (m <= n)%nat ->
  filter (in_slice2 1 (2 * n + 1)) (seq 0 (2 * m + 1)) = map (fun k => (2 * k + 1)%nat) (seq 0 m).
Proof.
  induction m as [|m IH]; intros H.
  - reflexivity.
  - replace (2 * S m + 1)%nat with ((2 * m + 1) + 2)%nat by lia.
    rewrite seq_app, filter_app, IH by lia.
    replace (S m) with (m + 1)%nat by lia. rewrite (seq_app m 1), map_app. f_equal.
    cbn [seq Nat.add map filter].
    assert (in_slice2 1 (2 * n + 1) (2 * m + 1) = true) as E1.
    { unfold in_slice2. rewrite !andb_true_iff. repeat split.
      - apply Nat.leb_le. lia.
      - apply Nat.ltb_lt. lia.
      - replace (2 * m + 1 - 1)%nat with (2 * m)%nat by lia. apply Nat.even_spec. exists m. lia. }
    assert (in_slice2 1 (2 * n + 1) (S (2 * m + 1)) = false) as E2.
    { unfold in_slice2. apply andb_false_iff. right.
      replace (S (2 * m + 1) - 1)%nat with (S (2 * m))%nat by lia.
      rewrite Nat.even_succ. rewrite Nat.odd_mul, Nat.odd_2. reflexivity. }
    change (m + (m + 0))%nat with (2 * m)%nat in *. cbn in E1, E2. cbn. rewrite E1, E2. reflexivity.
Qed.

(** closed forms of the stencil as sums *)
Definition node (M : nat) (t T : R) (i : nat) : R := t + (-0.5 + INR i / INR M) * T.

Lemma raw0 n : stencil_raw 0 n = map (fun k => (linspace (-0.5) 0.5 (2 * n + 1) (2 * k + 1), 1)) (seq 0 n).
Proof. unfold stencil_raw. rewrite filter_slice1 by lia. now rewrite map_map. Qed.

Lemma weighted_sum {A} (g : A -> R * R) (l : list A) T (f : R -> R) t :
  apply_exposure (map (fun p => (fst p * T, snd p / Rsum (map snd (map g l)))) (map g l)) f t
  = Rsum (map (fun i => snd (g i) * f (t + fst (g i) * T)) l) / Rsum (map (fun i => snd (g i)) l).
Proof.
  unfold apply_exposure. rewrite !map_map. cbn [fst snd].
  set (S := Rsum (map (fun x => snd (g x)) l)).
  rewrite (Rsum_map_ext _ (fun x => / S * (snd (g x) * f (t + fst (g x) * T)))) by (intros; unfold Rdiv; ring).
  rewrite Rsum_map_scal. unfold Rdiv. ring.
Qed.

Definition wt1 (M i : nat) : R := if (i =? M)%nat then 1 else if (i =? 0)%nat then 1 else 2.
Definition wt2 (M i : nat) : R := if in_slice2 2 (S M) i then 2 else if in_slice2 1 (S M) i then 4 else 1.

Lemma bigsum_even_odd m g : bigsum (2 * m + 1) g = g 0%nat + bigsum m (fun j => g (2*j+1)%nat + g (2*j+2)%nat).
Proof.
  induction m as [|m IH]; [cbn; lra|].
  replace (2 * S m + 1)%nat with (S (S (2 * m + 1))) by lia. cbn [bigsum]. rewrite IH.
  replace (S (2 * m + 1)) with (2 * m + 2)%nat by lia. lra.
Qed.
Lemma wt2_odd m j : (j < m)%nat -> wt2 (2*m) (2*j+1) = 4.
Proof.
  intros H. unfold wt2, in_slice2.
  replace (2*j+1-1)%nat with (2*j)%nat by lia.
  replace (Nat.even (2*j)) with true by (symmetry; apply Nat.even_spec; exists j; lia).
  replace (2*j+1 <? S (2*m) - 1)%nat with true by (symmetry; apply Nat.ltb_lt; lia).
  replace (1 <=? 2*j+1)%nat with true by (symmetry; apply Nat.leb_le; lia).
  replace (Nat.even (2*j+1-2)) with (false && true || (Nat.even (2*j+1-2))) by reflexivity.
  destruct j as [|j]; [reflexivity|].
  replace (2 * S j + 1 - 2)%nat with (S (2*j)) by lia. rewrite Nat.even_succ, Nat.odd_mul, Nat.odd_2.
  cbn [andb orb]. rewrite andb_false_r. reflexivity.
Qed.
Lemma wt2_even m j : (j < m)%nat -> wt2 (2*m) (2*j+2) = if (S j =? m)%nat then 1 else 2.
Proof.
  intros H. unfold wt2, in_slice2.
  replace (2*j+2-2)%nat with (2*j)%nat by lia. replace (2*j+2-1)%nat with (S (2*j))%nat by lia.
  replace (Nat.even (2*j)) with true by (symmetry; apply Nat.even_spec; exists j; lia).
  rewrite Nat.even_succ, Nat.odd_mul, Nat.odd_2. cbn [andb].
  replace (2 <=? 2*j+2)%nat with true by (symmetry; apply Nat.leb_le; lia).
  destruct (Nat.eqb_spec (S j) m) as [E|E].
  - replace (2*j+2 <? S (2*m) - 1)%nat with false by (symmetry; apply Nat.ltb_ge; lia).
    rewrite !andb_false_r. reflexivity.
  - replace (2*j+2 <? S (2*m) - 1)%nat with true by (symmetry; apply Nat.ltb_lt; lia).
    reflexivity.
Qed.
Lemma wt2_0 M : wt2 M 0 = 1.
Proof. reflexivity. Qed.

Lemma simpson_panels m (f : nat -> R) : (0 < m)%nat ->
  bigsum (2*m+1) (fun i => wt2 (2*m) i * f i) =
  bigsum m (fun j => f (2*j)%nat + 4 * f (2*j+1)%nat + f (2*j+2)%nat).
Proof.
  intros Hm. rewrite bigsum_even_odd, wt2_0.
  rewrite (bigsum_ext m (fun j => wt2 (2*m) (2*j+1) * f (2*j+1)%nat + wt2 (2*m) (2*j+2) * f (2*j+2)%nat)
     (fun j => 4 * f (2*j+1)%nat + (if (S j =? m)%nat then 1 else 2) * f (2*j+2)%nat)).
  2:{ intros j Hj. rewrite wt2_odd, wt2_even by auto. reflexivity. }
  destruct m as [|m]; [lia|]. clear Hm.
  cbn [bigsum]. rewrite Nat.eqb_refl.
  rewrite (bigsum_ext m (fun j => 4 * f (2*j+1)%nat + (if (S j =? S m)%nat then 1 else 2) * f (2*j+2)%nat)
     (fun j => 4 * f (2*j+1)%nat + 2 * f (2*j+2)%nat)).
  2:{ intros j Hj. replace (S j =? S m)%nat with false by (symmetry; apply Nat.eqb_neq; lia). reflexivity. }
  assert (H : forall k, f 0%nat + bigsum k (fun j => 4 * f (2*j+1)%nat + 2 * f (2*j+2)%nat) =
     bigsum k (fun j => f (2*j)%nat + 4 * f (2*j+1)%nat + f (2*j+2)%nat) + f (2*k)%nat).
  { induction k as [|k IH]; [cbn; lra|]. cbn [bigsum].
    replace (2 * S k)%nat with (2*k+2)%nat by lia. lra. }
  specialize (H m). lra.
Qed.
Lemma trapz_panels M (f : nat -> R) : (0 < M)%nat ->
  bigsum (S M) (fun i => wt1 M i * f i) = bigsum M (fun j => f j + f (S j)).
Proof.
  intros H. destruct M as [|M]; [lia|]. clear H.
  cbn [bigsum]. unfold wt1 at 3. rewrite Nat.eqb_refl.
  assert (Hk : forall k, (k <= M)%nat -> bigsum (S k) (fun i => wt1 (S M) i * f i) = bigsum k (fun j => f j + f (S j)) + f k).
  { induction k as [|k IH]; intros Hk.
    - cbn. lra.
    - cbn [bigsum]. cbn [bigsum] in IH. rewrite IH by lia. unfold wt1.
      replace (S k =? S M)%nat with false by (symmetry; apply Nat.eqb_neq; lia). cbn [Nat.eqb]. lra. }
  specialize (Hk M ltac:(lia)). cbn [bigsum] in Hk. lra.
Qed.

Lemma telescope n (F : nat -> R) : bigsum n (fun j => F (S j) - F j) = F n - F 0%nat.
Proof. induction n as [|n IH]; cbn; [lra|rewrite IH; lra]. Qed.

Lemma linspace_node M i : (0 < M)%nat -> linspace (-0.5) 0.5 (S M) i = -0.5 + INR i / INR M.
Proof.
  intros H. unfold linspace. replace (S M =? 1)%nat with false by (symmetry; apply Nat.eqb_neq; lia).
  replace (S M - 1)%nat with M by lia. assert (0 < INR M) by (apply lt_0_INR; auto). lra.
Qed.

(** value of the transformed function as panel sums *)
Lemma value0 n T f t : (0 < n)%nat ->
  apply_exposure (stencil 0 n T) f t = bigsum n (fun k => f (node (2*n) t T (2*k+1))) / INR n.
Proof.
  intros H. unfold stencil. rewrite raw0, weighted_sum, !Rsum_map_seq. cbn [fst snd].
  rewrite bigsum_const, Rmult_1_r. f_equal. apply bigsum_ext. intros i Hi. cbn [Nat.add].
  rewrite Rmult_1_l. unfold node. replace (2*n+1)%nat with (S (2*n)) by lia.
  rewrite linspace_node by lia. reflexivity.
Qed.
Lemma value1 M T f t : (0 < M)%nat ->
  apply_exposure (stencil 1 (S M) T) f t
  = bigsum M (fun j => f (node M t T j) + f (node M t T (S j))) / (2 * INR M).
Proof.
  intros H. unfold stencil, stencil_raw. rewrite weighted_sum, !Rsum_map_seq. cbn [fst snd].
  replace (S M - 1)%nat with M by lia.
  rewrite <- (trapz_panels M (fun j => f (node M t T j))) by auto. f_equal.
  - apply bigsum_ext. intros i Hi. cbn [Nat.add]. unfold node. rewrite linspace_node by auto. reflexivity.
  - transitivity (bigsum (S M) (fun i => wt1 M i * 1)).
    + apply bigsum_ext. intros. cbn [Nat.add]. unfold wt1. lra.
    + rewrite (trapz_panels M (fun _ => 1)) by auto. rewrite bigsum_const. lra.
Qed.
Lemma value2 m T f t : (0 < m)%nat ->
  apply_exposure (stencil 2 (2*m+1) T) f t
  = bigsum m (fun j => f (node (2*m) t T (2*j)) + 4 * f (node (2*m) t T (2*j+1)) + f (node (2*m) t T (2*j+2))) / (6 * INR m).
Proof.
  intros H. unfold stencil, stencil_raw. rewrite weighted_sum, !Rsum_map_seq. cbn [fst snd].
  rewrite <- (simpson_panels m (fun j => f (node (2*m) t T j))) by auto. f_equal.
  - apply bigsum_ext. intros i Hi. cbn [Nat.add]. unfold node, wt2. replace (2*m+1)%nat with (S (2*m)) by lia.
    rewrite linspace_node by lia. reflexivity.
  - transitivity (bigsum (2*m+1) (fun i => wt2 (2*m) i * 1)).
    + apply bigsum_ext. intros. cbn [Nat.add]. unfold wt2. replace (2*m+1)%nat with (S (2*m)) by lia. lra.
    + rewrite (simpson_panels m (fun _ => 1)) by auto. rewrite bigsum_const. lra.
Qed.

(** ** Exactness *)
Lemma node_first M t T : (0 < M)%nat -> node M t T 0 = t - T / 2.
Proof. intros. unfold node. cbn [INR]. unfold Rdiv. rewrite Rmult_0_l. lra. Qed.
Lemma node_last M t T : (0 < M)%nat -> node M t T M = t + T / 2.
Proof. intros. assert (0 < INR M) by (apply lt_0_INR; auto). unfold node. replace (INR M / INR M) with 1 by (field; lra). lra. Qed.
Lemma node_step M t T i k : (0 < M)%nat -> node M t T (i + k) = node M t T i + INR k * (T / INR M).
Proof. intros. assert (0 < INR M) by (apply lt_0_INR; auto). unfold node. rewrite plus_INR. field. lra. Qed.

Definition lin (c0 c1 x : R) := c0 + c1 * x.
Definition Flin (c0 c1 x : R) := c0 * x + c1 * x^2 / 2.
Definition cubic (c0 c1 c2 c3 x : R) := c0 + c1 * x + c2 * x^2 + c3 * x^3.
Definition Fcubic (c0 c1 c2 c3 x : R) := c0 * x + c1 * x^2 / 2 + c2 * x^3 / 3 + c3 * x^4 / 4.

Lemma Fcubic_int c0 c1 c2 c3 a b :
  is_RInt (cubic c0 c1 c2 c3) a b (Fcubic c0 c1 c2 c3 b - Fcubic c0 c1 c2 c3 a).
Proof.
  apply (is_RInt_antider (Fcubic c0 c1 c2 c3)); auto.
  - intros x. unfold Fcubic, cubic. auto_derive; auto. field.
  - intros x. unfold cubic. apply continuous_ex_derive. auto_derive. auto.
Qed.
Lemma lin_cubic c0 c1 x : lin c0 c1 x = cubic c0 c1 0 0 x.
Proof. unfold lin, cubic. ring. Qed.

Lemma exact0 n T t c0 c1 : (0 < n)%nat ->
  T * apply_exposure (stencil 0 n T) (cubic c0 c1 0 0) t = Fcubic c0 c1 0 0 (t + T/2) - Fcubic c0 c1 0 0 (t - T/2).
Proof.
  intros H. assert (Hn : 0 < INR n) by (apply lt_0_INR; auto).
  rewrite value0 by auto.
  rewrite <- (node_last (2*n)), <- (node_first (2*n)) by lia.
  set (h := T / INR n).
  pose proof (telescope n (fun j => Fcubic c0 c1 0 0 (node (2*n) t T (2*j)))) as HTel. cbv beta in HTel. change (2*0)%nat with 0%nat in HTel. rewrite <- HTel.
  assert (HT : T * (bigsum n (fun k => cubic c0 c1 0 0 (node (2*n) t T (2*k+1))) / INR n) =
    bigsum n (fun k => h * cubic c0 c1 0 0 (node (2*n) t T (2*k+1)))).
  { rewrite bigsum_scal. unfold h. field. lra. }
  rewrite HT. apply bigsum_ext. intros j Hj.
  replace (2 * S j)%nat with (2*j+2)%nat by lia. rewrite !node_step by lia.
  set (x := node (2*n) t T (2*j)).
  replace (T / INR (2*n)) with (h/2) by (unfold h; rewrite mult_INR; cbn [INR]; field; lra).
  cbn [INR]. unfold cubic, Fcubic. field.
Qed.
Lemma exact1 M T t c0 c1 : (0 < M)%nat ->
  T * apply_exposure (stencil 1 (S M) T) (cubic c0 c1 0 0) t = Fcubic c0 c1 0 0 (t + T/2) - Fcubic c0 c1 0 0 (t - T/2).
Proof.
  intros H. assert (Hn : 0 < INR M) by (apply lt_0_INR; auto).
  rewrite value1 by auto. rewrite <- (node_last M), <- (node_first M) by auto.
  set (h := T / INR M).
  rewrite <- (telescope M (fun j => Fcubic c0 c1 0 0 (node M t T j))).
  match goal with |- T * (bigsum M ?g / _) = _ =>
    replace (T * (bigsum M g / (2 * INR M))) with (bigsum M (fun j => h / 2 * g j)) by (rewrite bigsum_scal; unfold h; field; lra) end.
  apply bigsum_ext. intros j Hj. replace (S j) with (j + 1)%nat by lia. rewrite !node_step by lia. fold h.
  set (x := node M t T j). cbn [INR]. unfold cubic, Fcubic. field.
Qed.
Lemma exact2 m T t c0 c1 c2 c3 : (0 < m)%nat ->
  T * apply_exposure (stencil 2 (2*m+1) T) (cubic c0 c1 c2 c3) t = Fcubic c0 c1 c2 c3 (t + T/2) - Fcubic c0 c1 c2 c3 (t - T/2).
Proof.
  intros H. assert (Hn : 0 < INR m) by (apply lt_0_INR; auto).
  rewrite value2 by auto. rewrite <- (node_last (2*m)), <- (node_first (2*m)) by lia.
  set (h := T / INR (2*m)).
  pose proof (telescope m (fun j => Fcubic c0 c1 c2 c3 (node (2*m) t T (2*j)))) as HTel. cbv beta in HTel. change (2*0)%nat with 0%nat in HTel. rewrite <- HTel.
  match goal with |- T * (bigsum m ?g / _) = _ =>
    replace (T * (bigsum m g / (6 * INR m))) with (bigsum m (fun j => h / 3 * g j)) by (rewrite bigsum_scal; unfold h; rewrite mult_INR; cbn [INR]; field; lra) end.
  apply bigsum_ext. intros j Hj. replace (2 * S j)%nat with (2*j+2)%nat by lia. rewrite !node_step by lia. fold h.
  set (x := node (2*m) t T (2*j)). cbn [INR]. unfold cubic, Fcubic. field.
Qed.

(** ** Stencil shape *)
Definition order_ok (order : Z) : Prop := order = 0%Z \/ order = 1%Z \/ order = 2%Z.

Definition raw_pt (order n i : nat) : R * R :=
  match order with
  | O => (linspace (-0.5) 0.5 (2*n+1) (2*i+1), 1)
  | S O => (linspace (-0.5) 0.5 n i, wt1 (n-1) i)
  | _ => (linspace (-0.5) 0.5 n i, wt2 (n-1) i)
  end.
Lemma stencil_raw_pt order n : (0 < n)%nat -> stencil_raw order n = map (raw_pt order n) (seq 0 n).
Proof.
  intros H. destruct order as [|[|o]].
  - apply raw0.
  - reflexivity.
  - unfold stencil_raw. apply map_ext. intros i. unfold raw_pt, wt2. replace (S (n-1)) with n by lia. reflexivity.
Qed.
Lemma raw_pt_range order n i : (i < n)%nat -> -0.5 <= fst (raw_pt order n i) <= 0.5.
Proof.
  intros H.
  assert (Hl : forall N j, (j < N)%nat -> -0.5 <= linspace (-0.5) 0.5 N j <= 0.5).
  { intros N j Hj. unfold linspace. destruct (Nat.eqb_spec N 1); [lra|].
    assert (0 < INR (N-1)) by (apply lt_0_INR; lia).
    assert (0 <= INR j <= INR (N-1)) by (split; [apply pos_INR|apply le_INR; lia]).
    assert (0 <= INR j / INR (N-1) <= 1).
    { split; [apply Rdiv_le_0_compat; lra|]. apply Rmult_le_reg_r with (INR (N-1)); auto.
      replace (INR j / INR (N-1) * INR (N-1)) with (INR j) by (field; lra). lra. }
    unfold Rdiv in *. lra. }
  destruct order as [|[|o]]; cbn [raw_pt fst]; apply Hl; lia.
Qed.
Lemma raw_pt_pos order n i : 0 < snd (raw_pt order n i).
Proof.
  destruct order as [|[|o]]; cbn [raw_pt snd].
  - lra.
  - unfold wt1. destruct (_ =? _)%nat; [lra|]. destruct (_ =? _)%nat; lra.
  - unfold wt2. destruct (in_slice2 _ _ _); [lra|]. destruct (in_slice2 _ _ _); lra.
Qed.
Lemma Rsum_pos_list (l : list R) : l <> [] -> (forall x, In x l -> 0 < x) -> 0 < Rsum l.
Proof.
  destruct l as [|a l]; [congruence|]. intros _ H. cbn.
  assert (0 < a) by (apply H; cbn; auto). assert (0 <= Rsum l) by (apply Rsum_nonneg; intros; left; apply H; cbn; auto). unfold Rsum in *. lra.
Qed.
Lemma raw_sum_pos order n : (0 < n)%nat -> 0 < Rsum (map snd (stencil_raw order n)).
Proof.
  intros H. rewrite stencil_raw_pt by auto. apply Rsum_pos_list.
  - destruct n; [lia|]. discriminate.
  - intros x. rewrite map_map, in_map_iff. intros (i & <- & _). apply raw_pt_pos.
Qed.
Lemma stencil_length order n T : (0 < n)%nat -> length (stencil order n T) = n.
Proof. intros. unfold stencil. rewrite map_length, stencil_raw_pt, map_length, seq_length by auto. reflexivity. Qed.
Lemma stencil_in order n T d w : (0 < n)%nat -> In (d, w) (stencil order n T) ->
  Rabs d <= Rabs T / 2 /\ 0 < w.
Proof.
  intros Hn. pose proof (raw_sum_pos order n Hn) as HS. unfold stencil. set (S := Rsum _) in *. cbv zeta. rewrite stencil_raw_pt by auto.
  rewrite map_map, in_map_iff. intros (i & Hi & Hin). apply in_seq in Hin. injection Hi as <- <-.
  split.
  - rewrite Rabs_mult. pose proof (raw_pt_range order n i ltac:(lia)). pose proof (Rabs_pos T).
    assert (Rabs (fst (raw_pt order n i)) <= 1/2) by (apply Rabs_le; lra). nra.
  - apply Rdiv_lt_0_compat; [apply raw_pt_pos|exact HS].
Qed.
Lemma stencil_weights order n T : (0 < n)%nat -> Rsum (map snd (stencil order n T)) = 1.
Proof.
  intros Hn. pose proof (raw_sum_pos order n Hn) as HS. unfold stencil. set (S := Rsum _) in *.
  cbv zeta. rewrite map_map. cbn [snd].
  rewrite (Rsum_map_ext _ (fun p => / S * snd p)) by (intros; unfold Rdiv; ring).
  rewrite Rsum_map_scal. fold S. field. lra.
Qed.
Lemma Rsum_le {A} (f g : A -> R) l : (forall x, In x l -> f x <= g x) -> Rsum (map f l) <= Rsum (map g l).
Proof.
  induction l as [|a l IH]; cbn; intros H; [lra|].
  assert (f a <= g a) by (apply H; auto). assert (Rsum (map f l) <= Rsum (map g l)) by (apply IH; intros; apply H; auto).
  unfold Rsum in *. lra.
Qed.
Lemma stencil_bounds order n T f t lo hi : (0 < n)%nat ->
  (forall s, Rabs (s - t) <= Rabs T / 2 -> lo <= f s <= hi) ->
  lo <= apply_exposure (stencil order n T) f t <= hi.
Proof.
  intros Hn H. unfold apply_exposure. pose proof (stencil_weights order n T Hn) as HW.
  assert (Hp : forall p, In p (stencil order n T) -> lo <= f (t + fst p) <= hi /\ 0 < snd p).
  { intros [d w] Hin. destruct (stencil_in _ _ _ _ _ Hn Hin) as [H1 H2]. cbn [fst snd].
    split; [|auto]. apply H. replace (t + d - t) with d by ring. exact H1. }
  split.
  - replace lo with (lo * Rsum (map snd (stencil order n T))) by (rewrite HW; ring).
    rewrite <- Rsum_map_scal. apply Rsum_le. intros p Hin. destruct (Hp p Hin) as [[? ?] ?]. nra.
  - replace hi with (hi * Rsum (map snd (stencil order n T))) by (rewrite HW; ring).
    rewrite <- Rsum_map_scal. apply Rsum_le. intros p Hin. destruct (Hp p Hin) as [[? ?] ?]. nra.
Qed.
Lemma stencil_const order n T t c : (0 < n)%nat -> apply_exposure (stencil order n T) (fun _ => c) t = c.
Proof.
  intros Hn. unfold apply_exposure. rewrite (Rsum_map_ext _ (fun p => c * snd p)) by (intros; ring).
  rewrite Rsum_map_scal, stencil_weights by auto. ring.
Qed.
Lemma apply_exposure_zero order n f t : (0 < n)%nat -> apply_exposure (stencil order n 0) f t = f t.
Proof.
  intros Hn. rewrite <- (stencil_const order n 0 t (f t) Hn). unfold apply_exposure.
  apply Rsum_map_ext. intros [d w] Hin. destruct (stencil_in _ _ _ _ _ Hn Hin) as [H1 _].
  rewrite Rabs_R0 in H1. cbn [fst snd]. replace d with 0; [now rewrite Rplus_0_r|].
  destruct (Req_dec d 0) as [|E]; [auto|]. apply Rabs_pos_lt in E. lra.
Qed.

(** symmetry *)
Lemma wt2_sym m i : (i <= 2*m)%nat -> wt2 (2*m) (2*m - i) = wt2 (2*m) i.
Proof.
  intros H. destruct (Nat.Even_or_Odd i) as [[k Hk]|[k Hk]]; subst i.
  - assert (Hev : forall j, (j <= m)%nat -> wt2 (2*m) (2*j) = if (j =? 0)%nat then 1 else if (j =? m)%nat then 1 else 2).
    { intros [|j] Hj; [reflexivity|]. replace (2 * S j)%nat with (2*j+2)%nat by lia.
      rewrite wt2_even by lia. reflexivity. }
    replace (2*m - 2*k)%nat with (2*(m-k))%nat by lia. rewrite !Hev by lia.
    destruct (Nat.eqb_spec (m-k) 0), (Nat.eqb_spec k 0), (Nat.eqb_spec k m), (Nat.eqb_spec (m-k) m); auto; lia.
  - replace (2*m - (2*k+1))%nat with (2*(m-k-1)+1)%nat by lia. rewrite !wt2_odd by lia. reflexivity.
Qed.
Lemma raw_pt_sym order m i : (0 < m)%nat \/ order = 0%nat -> (i < 2*m+1)%nat ->
  raw_pt order (2*m+1) (2*m - i) = (- fst (raw_pt order (2*m+1) i), snd (raw_pt order (2*m+1) i)).
Proof.
  intros Hm Hi.
  assert (Hl : forall M j, (0 < M)%nat -> (j <= M)%nat -> linspace (-0.5) 0.5 (S M) (M - j) = - linspace (-0.5) 0.5 (S M) j).
  { intros M j HM Hj. rewrite !linspace_node by auto. assert (0 < INR M) by (apply lt_0_INR; auto).
    rewrite minus_INR by lia. unfold Rdiv. rewrite Rmult_minus_distr_r, Rinv_r by lra. lra. }
  destruct order as [|[|o]]; cbn [raw_pt fst snd].
  - f_equal. replace (2 * (2*m+1) + 1)%nat with (S (2*(2*m+1))) by lia.
    rewrite <- Hl by lia. f_equal. lia.
  - destruct Hm; [|discriminate]. replace (2*m+1-1)%nat with (2*m)%nat by lia. replace (2*m+1)%nat with (S (2*m)) by lia.
    rewrite Hl by lia. f_equal. unfold wt1.
    destruct (Nat.eqb_spec (2*m-i) (2*m)), (Nat.eqb_spec (2*m-i) 0), (Nat.eqb_spec i (2*m)), (Nat.eqb_spec i 0); auto; lia.
  - destruct Hm; [|discriminate]. replace (2*m+1-1)%nat with (2*m)%nat by lia. rewrite wt2_sym by lia.
    replace (2*m+1)%nat with (S (2*m)) by lia. rewrite Hl by lia. reflexivity.
Qed.
Lemma rev_map_seq {A} (f : nat -> A) n : rev (map f (seq 0 n)) = map (fun i => f (n - 1 - i)%nat) (seq 0 n).
Proof.
  induction n as [|n IH]; [reflexivity|].
  replace (seq 0 (S n)) with (seq 0 n ++ [n]) at 1 by (rewrite seq_S; reflexivity).
  rewrite map_app, rev_app_distr. cbn [map rev app]. rewrite IH.
  cbn [seq map]. f_equal; [f_equal; lia|]. rewrite <- seq_shift, map_map. apply map_ext. intros; f_equal; lia.
Qed.
Lemma stencil_symmetric order m T : (0 < m)%nat \/ order = 0%nat ->
  rev (stencil order (2*m+1) T) = map (fun p => (- fst p, snd p)) (stencil order (2*m+1) T).
Proof.
  intros Hm. unfold stencil. set (S := Rsum _). cbv zeta. rewrite stencil_raw_pt by lia.
  rewrite !map_map, rev_map_seq. apply map_ext_in. intros i Hi. apply in_seq in Hi.
  replace (2*m+1-1-i)%nat with (2*m-i)%nat by lia. rewrite raw_pt_sym by (auto; lia). cbn [fst snd].
  f_equal. ring.
Qed.

(** ** integrate *)
Lemma integrate_ok f T order n : order_ok order ->
  integrate f (EScalar T) order n = Ok (apply_exposure (stencil (Z.to_nat order) (odd_samples n) T) f).
Proof. intros [-> | [-> | ->]]; reflexivity. Qed.
Lemma odd_samples_pos n : (0 < odd_samples n)%nat.
Proof. destruct (odd_samples_odd n) as (m & E & _). lia. Qed.

Lemma integrate_average_linear f g T order n t c0 c1 : order_ok order -> (2 <= n)%nat \/ order = 0%Z ->
  T <> 0 -> (forall x, f x = c0 + c1 * x) -> integrate f (EScalar T) order n = Ok g ->
  g t = / T * RInt f (t - T/2) (t + T/2) /\ g t = f t.
Proof.
  intros Ho Hn HT Hf Hg. rewrite integrate_ok in Hg by auto. injection Hg as <-.
  assert (Hc : forall x, f x = cubic c0 c1 0 0 x) by (intros; rewrite Hf; unfold cubic; ring).
  assert (HE : T * apply_exposure (stencil (Z.to_nat order) (odd_samples n) T) f t
     = Fcubic c0 c1 0 0 (t + T/2) - Fcubic c0 c1 0 0 (t - T/2)).
  { unfold apply_exposure at 1.
    rewrite (Rsum_map_ext _ (fun p => snd p * cubic c0 c1 0 0 (t + fst p))) by (intros; now rewrite Hc).
    fold (apply_exposure (stencil (Z.to_nat order) (odd_samples n) T) (cubic c0 c1 0 0) t).
    destruct (odd_samples_odd n) as (m & E & Hb).
    destruct Ho as [-> | [-> | ->]]; cbn [Z.to_nat].
    - apply exact0. lia.
    - change (Pos.to_nat 1) with 1%nat. replace (odd_samples n) with (S (2*m)) by lia. apply exact1. lia.
    - change (Pos.to_nat 2) with 2%nat. rewrite E. apply exact2. lia. }
  split.
  - rewrite (RInt_ext f (cubic c0 c1 0 0)) by (intros; apply Hc).
    rewrite (is_RInt_unique _ _ _ _ (Fcubic_int c0 c1 0 0 _ _)), <- HE. field. auto.
  - apply Rmult_eq_reg_l with T; [|auto]. rewrite HE, Hc. unfold Fcubic, cubic. field.
Qed.
Lemma integrate_average_cubic f g T n t c0 c1 c2 c3 : (2 <= n)%nat -> T <> 0 ->
  (forall x, f x = c0 + c1 * x + c2 * x^2 + c3 * x^3) -> integrate f (EScalar T) 2 n = Ok g ->
  g t = / T * RInt f (t - T/2) (t + T/2).
Proof.
  intros Hn HT Hf Hg. injection Hg as <-. change (Z.to_nat 2) with 2%nat. change (Pos.to_nat 2) with 2%nat.
  rewrite (RInt_ext f (cubic c0 c1 c2 c3)) by (intros; apply Hf).
  rewrite (is_RInt_unique _ _ _ _ (Fcubic_int c0 c1 c2 c3 _ _)).
  destruct (odd_samples_odd n) as (m & E & Hb). rewrite <- (exact2 m) by lia. rewrite E.
  unfold apply_exposure. rewrite (Rsum_map_ext _ (fun p => snd p * cubic c0 c1 c2 c3 (t + fst p))) by (intros; now rewrite Hf).
  field. auto.
Qed.
Lemma integrate_const_all T order n c g : order_ok order ->
  integrate (fun _ => c) (EScalar T) order n = Ok g -> forall t, g t = c.
Proof.
  intros Ho Hg t. rewrite integrate_ok in Hg by auto. injection Hg as <-. apply stencil_const, odd_samples_pos.
Qed.
Lemma integrate_zero f order n g : order_ok order -> integrate f (EScalar 0) order n = Ok g -> forall t, g t = f t.
Proof.
  intros Ho Hg t. rewrite integrate_ok in Hg by auto. injection Hg as <-. apply apply_exposure_zero, odd_samples_pos.
Qed.
(** with one sample the trapezoid and Simpson rules sample only the start of the exposure *)
Lemma integrate_single_refuted f T order n g : order = 1%Z \/ order = 2%Z -> (n <= 1)%nat ->
  integrate f (EScalar T) order n = Ok g -> forall t, g t = f (t - T / 2).
Proof.
  intros Ho Hn Hg t. rewrite integrate_ok in Hg by (unfold order_ok; tauto). injection Hg as <-.
  assert (odd_samples n = 1%nat) as -> by (destruct n as [|[|n]]; [reflexivity|reflexivity|lia]).
  assert (Hone : 1 / (1 + 0) = 1) by field.
  destruct Ho as [E|E]; rewrite E; [change (Z.to_nat 1) with 1%nat|change (Z.to_nat 2) with 2%nat];
    unfold apply_exposure, stencil, stencil_raw, linspace, in_slice2; cbn;
    rewrite Hone; replace (t + -0.5 * T) with (t - T / 2) by lra; ring.
Qed.
Lemma integrate_bounds f T order n g t lo hi : order_ok order ->
  (forall s, Rabs (s - t) <= Rabs T / 2 -> lo <= f s <= hi) ->
  integrate f (EScalar T) order n = Ok g -> lo <= g t <= hi.
Proof.
  intros Ho H Hg. rewrite integrate_ok in Hg by auto. injection Hg as <-.
  apply stencil_bounds; [apply odd_samples_pos|auto].
Qed.
Lemma integrate_is_weighted_average f T order n g : order_ok order ->
  integrate f (EScalar T) order n = Ok g ->
  exists st : list (R * R),
    (forall t, g t = Rsum (map (fun p => snd p * f (t + fst p)) st)) /\
    Nat.Odd (length st) /\ (n <= length st <= n + 1)%nat /\
    (forall d w, In (d, w) st -> Rabs d <= Rabs T / 2 /\ 0 < w) /\
    Rsum (map snd st) = 1 /\
    ((2 <= n)%nat \/ order = 0%Z -> rev st = map (fun p => (- fst p, snd p)) st).
Proof.
  intros Ho Hg. rewrite integrate_ok in Hg by auto. injection Hg as <-.
  destruct (odd_samples_odd n) as (m & E & Hb).
  exists (stencil (Z.to_nat order) (odd_samples n) T).
  split; [reflexivity|]. rewrite stencil_length by apply odd_samples_pos.
  split; [exists m; lia|]. split; [lia|].
  split; [intros d w; apply stencil_in, odd_samples_pos|].
  split; [apply stencil_weights, odd_samples_pos|].
  intros H. rewrite E. apply stencil_symmetric. destruct H; [left; lia|right; subst; reflexivity].
Qed.
Lemma integrate_validation f e order n :
  (e = ENone -> integrate f e order n = Ok f) /\
  (forall k, e = EArray k -> integrate f e order n = Err ValueError) /\
  (forall T, e = EScalar T -> (is_ok (integrate f e order n) <-> order_ok order) /\
     (~ order_ok order -> integrate f e order n = Err ValueError)).
Proof.
  repeat split.
  - intros ->. reflexivity.
  - intros k ->. reflexivity.
  - subst e. cbn [integrate]. intros [g Hg].
    destruct ((order =? 0)%Z || (order =? 1)%Z || (order =? 2)%Z) eqn:E; [|discriminate].
    unfold order_ok. rewrite !orb_true_iff, !Z.eqb_eq in E. tauto.
  - subst e. intros H0. rewrite integrate_ok by auto. eexists; reflexivity.
  - intros Hn. subst e. cbn [integrate]. 
    destruct ((order =? 0)%Z || (order =? 1)%Z || (order =? 2)%Z) eqn:E; [|reflexivity].
    exfalso. apply Hn. unfold order_ok. rewrite !orb_true_iff, !Z.eqb_eq in E. tauto.
Qed.
