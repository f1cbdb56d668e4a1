(** The multiprecision A2 matrix is the inverse of A2_inv. *)
From Coq Require Import Reals Lra Lia ZArith List Bool Classical.
From Verif Require Import Base.RealAux Base.Dict Base.LinAlg Model.Poly Model.Basis Model.MpBasis Spec.PolySpec Spec.BasisSpec Spec.YlmSpec
  Proof.PolyProof Proof.PolyMatrix Proof.PolyUnique Proof.BasisProof Proof.GreenProof Proof.GreenInv Proof.MpA1.
Import ListNotations.
Open Scope R_scope.

(** * all_subsets_indices *)
Section Dfs.
Variable sets : list (list ijk).
Let n := length sets.
Let st (i : nat) : list ijk := nth i sets [].
Definition touches (s : list ijk) (i : nat) : Prop := (i < n)%nat /\ exists p, In p s /\ In p (st i).
Definition okidx (l : list nat) : Prop := NoDup l /\ forall i, In i l -> (i < n)%nat.
(** every index added is closed *)
Definition grows (a b : list nat) : Prop := okidx b /\ incl a b /\ forall i, In i b -> ~ In i a -> forall i', touches (st i) i' -> In i' b.
Lemma grows_refl a : okidx a -> grows a a.
Proof. intros H. split; [exact H|split; [apply incl_refl|]]. intros i Hi Hn. contradiction. Qed.
Lemma grows_trans a b c : grows a b -> grows b c -> grows a c.
Proof.
  intros (Hb & I1 & C1) (Hc & I2 & C2). split; [exact Hc|split; [eapply incl_tran; eauto|]]. intros i Hi Hn i' Ht.
  destruct (in_dec Nat.eq_dec i b) as [Hib|Hib]; [apply I2, (C1 i Hib Hn i' Ht)|apply (C2 i Hi Hib i' Ht)].
Qed.
Lemma okidx_len l : okidx l -> (length l <= n)%nat.
Proof.
  intros [Hn Hb]. replace n with (length (seq 0 n)) by apply seq_length. apply NoDup_incl_length; [exact Hn|]. intros i Hi. apply in_seq. specialize (Hb i Hi). lia.
Qed.
Lemma nat_mem_In i l : nat_mem i l = true <-> In i l.
Proof.
  unfold nat_mem. rewrite existsb_exists. split; [intros (x & Hx & E); apply Nat.eqb_eq in E; now subst|]. intros H. exists i. split; [exact H|apply Nat.eqb_refl].
Qed.
Lemma ijk_mem_In i l : ijk_mem i l = true <-> In i l.
Proof.
  unfold ijk_mem. rewrite existsb_exists. split; [intros (x & Hx & E); apply ijk_eqb_eq in E; now subst|]. intros H. exists i. split; [exact H|now apply ijk_eqb_eq].
Qed.
Lemma enum_In i s : In (i, s) (combine (seq 0 n) sets) -> (i < n)%nat /\ s = st i.
Proof.
  intros H. destruct (In_nth _ _ (0%nat, []) H) as (k & Hk & E). rewrite combine_length, seq_length in Hk. rewrite combine_nth in E by apply seq_length.
  rewrite seq_nth in E by (unfold n in *; lia). injection E as <- <-. split; [unfold n in *; lia|reflexivity].
Qed.
Lemma enum_has i : (i < n)%nat -> In (i, st i) (combine (seq 0 n) sets).
Proof.
  intros H. replace (i, st i) with (nth i (combine (seq 0 n) sets) (0%nat, [])).
  - apply nth_In. rewrite combine_length, seq_length. fold n. lia.
  - rewrite combine_nth by apply seq_length. rewrite seq_nth by exact H. reflexivity.
Qed.
Lemma dfs_ok fuel : forall s idx, okidx idx -> (n - length idx < fuel)%nat ->
  let r := all_subsets_indices fuel sets s idx in grows idx r /\ forall i, touches s i -> In i r.
Proof.
  induction fuel as [|fuel IH]; intros s idx Hi Hf; [lia|]. cbv zeta. cbn [all_subsets_indices].
  (* one candidate *)
  assert (Hstep : forall si idx i, okidx idx -> (n - length idx < S fuel)%nat -> (i < n)%nat ->
    let r := if (ijk_mem si (st i) && negb (nat_mem i idx))%bool then all_subsets_indices fuel sets (st i) (idx ++ [i]) else idx in
    grows idx r /\ (In si (st i) -> In i r)).
  { clear s idx Hi Hf. intros si idx i Hi Hf Hn. cbv zeta. destruct (ijk_mem si (st i)) eqn:E1; cbn [andb].
    - destruct (nat_mem i idx) eqn:E2; cbn [negb].
      + split; [now apply grows_refl|]. intros _. now apply nat_mem_In.
      + assert (Hni : ~ In i idx) by (rewrite <- nat_mem_In, E2; discriminate). assert (Hok : okidx (idx ++ [i])).
        { destruct Hi as [H1 H2]. split.
          - apply (NoDup_Add (a := i) (l := idx)); [|split; [exact H1|exact Hni]]. rewrite <- (app_nil_r idx) at 1. apply Add_app.
          - intros x Hx. apply in_app_iff in Hx. destruct Hx as [Hx|[<-|[]]]; [now apply H2|exact Hn]. }
        assert (Hlen : (n - length (idx ++ [i]) < fuel)%nat). { pose proof (okidx_len _ Hok). rewrite app_length in *. cbn [length] in *. lia. }
        destruct (IH (st i) (idx ++ [i]) Hok Hlen) as (G & T). split.
        * destruct G as (Hb & I & Cl). split; [exact Hb|split; [intros x Hx; apply I, in_app_iff; now left|]]. intros x Hx Hnx i' Ht.
          destruct (Nat.eq_dec x i) as [->|Ne]; [now apply T|]. apply (Cl x Hx); [|exact Ht]. rewrite in_app_iff. intros [?|[?|[]]]; congruence.
        * intros _. apply G, in_app_iff. right. now left.
    - split; [now apply grows_refl|]. intros H. apply ijk_mem_In in H. congruence. }
  (* all candidates for one key *)
  assert (Hinner : forall si cs idx, okidx idx -> (n - length idx < S fuel)%nat -> (forall e, In e cs -> (fst e < n)%nat /\ snd e = st (fst e)) ->
    let r := fold_left (fun indices e => if (ijk_mem si (snd e) && negb (nat_mem (fst e) indices))%bool then all_subsets_indices fuel sets (snd e) (indices ++ [fst e]) else indices) cs idx in
    grows idx r /\ forall i, In (i, st i) cs -> In si (st i) -> In i r).
  { clear s idx Hi Hf. intros si cs. induction cs as [|[i s] cs IHc]; intros idx Hi Hf Hcs; cbv zeta; cbn [fold_left].
    - split; [now apply grows_refl|]. intros i [].
    - destruct (Hcs (i, s) (or_introl eq_refl)) as [Hn Es]. cbn [fst snd] in Hn, Es |- *. subst s.
      destruct (Hstep si idx i Hi Hf Hn) as (G & T). cbv zeta in G, T. match type of G with grows _ ?x => set (idx' := x) in * end.
      assert (Hf' : (n - length idx' < S fuel)%nat). { pose proof (NoDup_incl_length (proj1 Hi) (proj1 (proj2 G))). lia. }
      destruct (IHc idx' (proj1 G) Hf' (fun e He => Hcs e (or_intror He))) as (G' & T'). split; [eapply grows_trans; eauto|].
      intros j [Hj|Hj] Hs; [|now apply T']. injection Hj as <- _. apply G', T, Hs. }
  assert (Houter : forall s idx, okidx idx -> (n - length idx < S fuel)%nat ->
    let r := fold_left (fun indices si => fold_left (fun indices e => if (ijk_mem si (snd e) && negb (nat_mem (fst e) indices))%bool then all_subsets_indices fuel sets (snd e) (indices ++ [fst e]) else indices)
      (combine (seq 0 (length sets)) sets) indices) s idx in grows idx r /\ forall i, touches s i -> In i r).
  { clear s idx Hi Hf. induction s as [|si s IHs]; intros idx Hi Hf; cbv zeta; cbn [fold_left].
    - split; [now apply grows_refl|]. intros i (_ & p & [] & _).
    - destruct (Hinner si (combine (seq 0 (length sets)) sets) idx Hi Hf) as (G & T); [intros [i e] He; now apply enum_In|]. cbv zeta in G, T.
      match type of G with grows _ ?x => set (idx' := x) in * end.
      assert (Hf' : (n - length idx' < S fuel)%nat). { pose proof (NoDup_incl_length (proj1 Hi) (proj1 (proj2 G))). lia. }
      destruct (IHs idx' (proj1 G) Hf') as (G' & T'). split; [eapply grows_trans; eauto|].
      intros i (Hn & p & [<-|Hp] & Hpi); [apply G', T; [now apply enum_has|exact Hpi]|]. apply T'. split; [exact Hn|]. exists p. split; assumption. }
  apply Houter; assumption.
Qed.
End Dfs.

(** * The systems *)
Lemma gtilde_nodup n : NoDup (keys (gtilde n)).
Proof. unfold gtilde. cbv zeta. apply fold_nodup; [|constructor]. intros d a H. destruct (snd a =? 0)%Z; [exact H|]. apply NoDup_dupd; [apply ijk_eqb_eq|exact H]. Qed.
Lemma gtilde_valid (D n : nat) k : (n < (D + 1) * (D + 1))%nat -> In k (keys (gtilde (Z.of_nat n))) -> valid_ijk k /\ (idx k < Z.of_nat ((D + 1) * (D + 1)))%Z.
Proof.
  intros Hn Hk. destruct (slot_decomp D n Hn) as (l & nu & Hl & Hnu & ->). destruct (gtilde_keys l nu k Hnu Hk) as [Hv Hd]. split; [exact Hv|]. destruct k as [[i j] k].
  assert (Hd' : (i + j + k <= Z.of_nat D)%Z) by (unfold deg_of in Hd; lia). pose proof (idx_lt_degree (i, j, k) (Z.of_nat D) Hv Hd'). nia.
Qed.
Lemma A2_inv_get0 D (r n : nat) : (n < (D + 1) * (D + 1))%nat -> A2_inv (Z.of_nat D) (Z.of_nat r) (Z.of_nat n) = get0 (n2ijk (Z.of_nat r)) (gtilde (Z.of_nat n)).
Proof. intros Hn. rewrite A2_inv_entry by exact Hn. apply coef_get0; [apply gtilde_nodup|]. intros k Hk. now apply (gtilde_valid D n k Hn Hk). Qed.
Section OneRow.
Variable D : nat.
Let N := ((D + 1) * (D + 1))%nat.
Let g (n : nat) := gtilde (Z.of_nat n).
(** keys outside the range of degree D *)
Lemma get0_out p n : (n < N)%nat -> (forall r, (r < N)%nat -> p <> n2ijk (Z.of_nat r)) -> get0 p (g n) = 0.
Proof.
  intros Hn Hp. apply get0_notin. intros Hk. destruct (gtilde_valid D n p Hn Hk) as [Hv Hi]. fold N in Hi. pose proof (idx_nonneg p Hv).
  apply (Hp (Z.to_nat (idx p))); [lia|]. rewrite Z2Nat.id by lia. symmetry. now apply n2ijk_idx.
Qed.
Lemma combination_keys c v : (forall r, (r < N)%nat -> bigsum N (fun n => A2_inv (Z.of_nat D) (Z.of_nat r) (Z.of_nat n) * c n) = v (n2ijk (Z.of_nat r))) ->
  (forall p, (forall r, (r < N)%nat -> p <> n2ijk (Z.of_nat r)) -> v p = 0) -> forall p, bigsum N (fun n => get0 p (g n) * c n) = v p.
Proof.
  intros H Hv p. destruct (classic (exists r, (r < N)%nat /\ p = n2ijk (Z.of_nat r))) as [(r & Hr & ->)|Hn].
  - rewrite <- (H r Hr). apply bigsum_ext. intros n Hn. now rewrite A2_inv_get0.
  - assert (Hp : forall r, (r < N)%nat -> p <> n2ijk (Z.of_nat r)) by (intros r Hr E; apply Hn; now exists r).
    rewrite (Hv p Hp). apply bigsum_zero_ext. intros n Hn'. rewrite get0_out by assumption. ring.
Qed.
Lemma independent c : (forall p, bigsum N (fun n => get0 p (g n) * c n) = 0) -> forall n, (n < N)%nat -> c n = 0.
Proof.
  intros H. apply (A2_inv_injective D). intros r Hr. fold N. rewrite <- (H (n2ijk (Z.of_nat r))). apply bigsum_ext. intros n Hn. now rewrite A2_inv_get0.
Qed.
Lemma solvable k : (k < N)%nat -> exists c, forall p, bigsum N (fun n => get0 p (g n) * c n) = b2r (ijk_eqb (ptilde (Z.of_nat k)) p).
Proof.
  intros Hk. destruct (Sp_unit D k Hk) as (c & Hc). exists c. apply (combination_keys c (fun p => b2r (ijk_eqb (ptilde (Z.of_nat k)) p))).
  - intros r Hr. etransitivity; [exact (Hc r Hr)|]. rewrite ptilde_n2ijk. destruct (Nat.eqb_spec r k) as [->|Ne].
    + now rewrite (proj2 (ijk_eqb_eq _ _) eq_refl).
    + destruct (ijk_eqb _ _) eqn:E; [|reflexivity]. apply ijk_eqb_eq in E. apply (f_equal idx) in E. rewrite !idx_n2ijk in E by lia. lia.
  - intros p Hp. rewrite ptilde_n2ijk. destruct (ijk_eqb _ p) eqn:E; [|reflexivity]. apply ijk_eqb_eq in E. exfalso. now apply (Hp k Hk).
Qed.
End OneRow.

(** sums over a list of distinct indices *)
Lemma Rsum_indices (I : list nat) N f : NoDup I -> (forall i, In i I -> (i < N)%nat) -> Rsum (map f I) = bigsum N (fun n => if nat_mem n I then f n else 0).
Proof.
  induction I as [|a I IH]; intros Hn Hb; cbn [map].
  - rewrite bigsum_zero_ext; [reflexivity|]. intros; reflexivity.
  - inversion Hn as [|? ? Ha Hn']; subst. change (Rsum (f a :: map f I)) with (f a + Rsum (map f I)). rewrite IH; [|exact Hn'|intros; apply Hb; now right].
    rewrite (bigsum_ext N (fun n => if nat_mem n (a :: I) then f n else 0) (fun n => (if Nat.eqb n a then f n else 0) + (if nat_mem n I then f n else 0))).
    + rewrite bigsum_plus. f_equal. rewrite (bigsum_single _ a); [now rewrite Nat.eqb_refl|apply Hb; now left|]. intros i _ Hi. apply Nat.eqb_neq in Hi. now rewrite Hi.
    + intros n _. unfold nat_mem. cbn [existsb]. destruct (Nat.eqb_spec n a) as [->|Ne]; cbn [orb]; [|lra].
      destruct (existsb (Nat.eqb a) I) eqn:E; [|lra]. exfalso. apply Ha. now apply nat_mem_In.
Qed.
Lemma bigsum_indices (I : list nat) N f : NoDup I -> (forall i, In i I -> (i < N)%nat) -> bigsum (length I) (fun j => f (nth j I 0%nat)) = bigsum N (fun n => if nat_mem n I then f n else 0).
Proof.
  intros Hn Hb. rewrite <- Rsum_indices by assumption. clear. induction I as [|a I IH]; [reflexivity|].
  cbn [length map]. rewrite bigsum_split_first. cbn [nth]. rewrite IH. reflexivity.
Qed.
Lemma bigsum_sq0 n f : bigsum n (fun i => f i * f i) = 0 -> forall i, (i < n)%nat -> f i = 0.
Proof.
  induction n as [|n IH]; intros H i Hi; [lia|]. cbn [bigsum] in H. assert (P : 0 <= bigsum n (fun i => f i * f i)) by (apply bigsum_nonneg; intros; nra).
  assert (Q : 0 <= f n * f n) by nra. destruct (Nat.eq_dec i n) as [->|Ne]; [nra|]. apply IH; [lra|lia].
Qed.
(** the least-squares solution of a consistent system with independent columns is the solution *)
Lemma normal_equations rows cols A b x c :
  (forall c : nat -> R, (forall i, (i < rows)%nat -> bigsum cols (fun j => A i j * c j) = 0) -> forall j, (j < cols)%nat -> c j = 0) ->
  (forall i, (i < rows)%nat -> bigsum cols (fun j => A i j * c j) = b i) ->
  (forall j, (j < cols)%nat -> bigsum rows (fun i => A i j * bigsum cols (fun k => A i k * x k)) = bigsum rows (fun i => A i j * b i)) ->
  forall j, (j < cols)%nat -> x j = c j.
Proof.
  intros Hinj Hc Hx. set (e := fun j => x j - c j).
  assert (He : forall i, (i < rows)%nat -> bigsum cols (fun k => A i k * e k) = bigsum cols (fun k => A i k * x k) - b i).
  { intros i Hi. rewrite <- (Hc i Hi). unfold e. rewrite (bigsum_ext _ _ (fun k => A i k * x k + -1 * (A i k * c k))) by (intros; ring). rewrite bigsum_plus, bigsum_scal. ring. }
  assert (Z : forall j, (j < cols)%nat -> bigsum rows (fun i => A i j * bigsum cols (fun k => A i k * e k)) = 0).
  { intros j Hj. rewrite (bigsum_ext _ _ (fun i => A i j * bigsum cols (fun k => A i k * x k) + -1 * (A i j * b i))).
    - rewrite bigsum_plus, bigsum_scal, Hx by exact Hj. ring.
    - intros i Hi. rewrite He by exact Hi. ring. }
  assert (S : bigsum rows (fun i => bigsum cols (fun k => A i k * e k) * bigsum cols (fun k => A i k * e k)) = 0).
  { rewrite (bigsum_ext _ _ (fun i => bigsum cols (fun j => e j * (A i j * bigsum cols (fun k => A i k * e k))))).
    - rewrite (bigsum_swap rows cols (fun i j => e j * (A i j * bigsum cols (fun k => A i k * e k)))). apply bigsum_zero_ext. intros j Hj. rewrite bigsum_scal, Z by exact Hj. ring.
    - intros i _. rewrite <- bigsum_scal. apply bigsum_ext. intros; ring. }
  intros j Hj. assert (E : e j = 0); [|unfold e in E; lra]. apply Hinj; [|exact Hj]. exact (bigsum_sq0 rows _ S).
Qed.
Lemma injective_le rows cols (A : nat -> nat -> R) :
  (forall c : nat -> R, (forall i, (i < rows)%nat -> bigsum cols (fun j => A i j * c j) = 0) -> forall j, (j < cols)%nat -> c j = 0) -> (cols <= rows)%nat.
Proof.
  intros H. destruct (le_lt_dec cols rows) as [|L]; [assumption|]. exfalso. destruct (homogeneous rows cols A L) as (w & (n & Hn & Hw) & E). apply Hw. now apply H.
Qed.

(** * One row of A2 *)
Section Row.
Variable k : nat.
Let D := Nat.sqrt k.
Let N := ((D + 1) * (D + 1))%nat.
Let I := mp_indices k.
Let g (n : nat) := gtilde (Z.of_nat n).
Lemma k_in : (k < N)%nat.
Proof. unfold N, D. pose proof (Nat.sqrt_spec k ltac:(lia)). nia. Qed.
Lemma avail_length : length (mp_available k) = N.
Proof. unfold mp_available, green_sets. now rewrite map_length, seq_length. Qed.
Lemma avail_nth i : (i < N)%nat -> nth i (mp_available k) [] = keys (g i).
Proof.
  intros H. unfold mp_available, green_sets. fold D. fold N. rewrite nth_indep with (d' := keys (g 0)) by now rewrite map_length, seq_length.
  rewrite (map_nth (fun i => keys (g i))), seq_nth by exact H. reflexivity.
Qed.
Lemma I_facts : okidx (mp_available k) I /\ (forall i, (i < N)%nat -> In (ptilde (Z.of_nat k)) (keys (g i)) -> In i I) /\
  (forall i j p, In i I -> (j < N)%nat -> In p (keys (g i)) -> In p (keys (g j)) -> In j I).
Proof.
  destruct (dfs_ok (mp_available k) (S (length (mp_available k))) [ptilde (Z.of_nat k)] []) as ((Hok & _ & Hcl) & Ht).
  - split; [constructor|intros i []].
  - cbn [length]. lia.
  - change (okidx (mp_available k) I) in Hok. split; [exact Hok|]. split.
    + intros i Hi Hp. apply Ht. split; [now rewrite avail_length|]. exists (ptilde (Z.of_nat k)). split; [now left|]. now rewrite avail_nth.
    + intros i j p Hi Hj Hpi Hpj. assert (Hin : (i < N)%nat) by (rewrite <- avail_length; now apply Hok). apply (Hcl i Hi (fun x => x)). split; [now rewrite avail_length|].
      exists p. rewrite !avail_nth by assumption. split; assumption.
Qed.
Lemma I_nodup : NoDup I.
Proof. apply I_facts. Qed.
Lemma I_bound i : In i I -> (i < N)%nat.
Proof. intros H. rewrite <- avail_length. now apply I_facts. Qed.
(** a solution exists, supported on the indices found *)
Lemma row_solution : exists c, (forall n, ~ In n I -> c n = 0) /\ forall p, bigsum N (fun n => get0 p (g n) * c n) = b2r (ijk_eqb (ptilde (Z.of_nat k)) p).
Proof.
  destruct (solvable D k k_in) as (c & Hc). exists (fun n => if nat_mem n I then c n else 0). split.
  { intros n Hn. destruct (nat_mem n I) eqn:E; [|reflexivity]. apply nat_mem_In in E. contradiction. }
  intros p. destruct (classic (exists i, In i I /\ In p (keys (g i)))) as [(i & Hi & Hp)|Hno].
  - rewrite <- Hc. apply bigsum_ext. intros n Hn. destruct (nat_mem n I) eqn:E; [reflexivity|]. change (get0 p (g n) * 0 = get0 p (g n) * c n).
    rewrite get0_notin; [ring|]. intros Hp'. apply (proj2 (proj2 I_facts) i n p Hi Hn Hp) in Hp'. apply nat_mem_In in Hp'. congruence.
  - rewrite bigsum_zero_ext.
    + destruct (ijk_eqb _ p) eqn:E; [|reflexivity]. exfalso. apply ijk_eqb_eq in E. subst p.
      pose proof (Hc (ptilde (Z.of_nat k))) as Hk. rewrite (proj2 (ijk_eqb_eq _ _) eq_refl) in Hk. cbn [b2r] in Hk. rewrite bigsum_zero_ext in Hk; [lra|].
      intros n Hn. rewrite get0_notin; [ring|]. intros Hp. apply Hno. exists n. split; [now apply I_facts|exact Hp].
    + intros n Hn. destruct (nat_mem n I) eqn:E; [|ring]. rewrite get0_notin; [ring|]. intros Hp. apply Hno. exists n. split; [now apply nat_mem_In|exact Hp].
Qed.
Lemma I_nonempty : I <> [].
Proof.
  intros E. destruct row_solution as (c & Hc & Hs). specialize (Hs (ptilde (Z.of_nat k))). rewrite (proj2 (ijk_eqb_eq _ _) eq_refl) in Hs. cbn [b2r] in Hs.
  rewrite bigsum_zero_ext in Hs; [lra|]. intros n _. rewrite Hc; [ring|]. rewrite E. intros [].
Qed.
Section Powers.
Variable powers : list ijk.
Hypothesis HP : union_order I powers.
Lemma system_sum c p : bigsum (length I) (fun j => get0 p (g (nth j I 0%nat)) * c (nth j I 0%nat)) = bigsum N (fun n => get0 p (g n) * (if nat_mem n I then c n else 0)).
Proof.
  rewrite (bigsum_indices I N (fun n => get0 p (g n) * c n) I_nodup I_bound). apply bigsum_ext. intros n _. destruct (nat_mem n I); ring.
Qed.
(** position of an index in the list *)
Definition pos (x : nat -> R) (n : nat) : R := add_row I x n.
Lemma pos_nth x j : (j < length I)%nat -> pos x (nth j I 0%nat) = x j.
Proof.
  intros Hj. unfold pos, add_row. rewrite Rsum_map_seq. rewrite (bigsum_single _ j); [now rewrite Nat.add_0_l, Nat.eqb_refl|exact Hj|].
  intros i Hi Hne. rewrite Nat.add_0_l. destruct (Nat.eqb_spec (nth i I 0%nat) (nth j I 0%nat)) as [E|E]; [|reflexivity]. exfalso. apply Hne.
  now apply (proj1 (NoDup_nth I 0%nat) I_nodup).
Qed.
Lemma pos_out x n : ~ In n I -> pos x n = 0.
Proof.
  intros H. unfold pos, add_row. apply Rsum_map_zero. intros j Hj. apply in_seq in Hj. destruct (Nat.eqb_spec (nth j I 0%nat) n) as [E|E]; [|reflexivity].
  exfalso. apply H. rewrite <- E. apply nth_In. lia.
Qed.
Lemma system_pos x p : bigsum (length I) (fun j => get0 p (g (nth j I 0%nat)) * x j) = bigsum N (fun n => get0 p (g n) * pos x n).
Proof.
  rewrite (bigsum_ext (length I) _ (fun j => get0 p (g (nth j I 0%nat)) * pos x (nth j I 0%nat))) by (intros j Hj; now rewrite pos_nth).
  rewrite system_sum. apply bigsum_ext. intros n _. destruct (nat_mem n I) eqn:E; [reflexivity|]. rewrite pos_out; [reflexivity|]. rewrite <- nat_mem_In, E. discriminate.
Qed.
Lemma not_power p i : ~ In p powers -> In i I -> get0 p (g i) = 0.
Proof. intros Hp Hi. apply get0_notin. intros H. apply Hp. apply HP. exists i. split; assumption. Qed.
Lemma system_injective c : (forall i, (i < length powers)%nat -> bigsum (length I) (fun j => mp_system I powers i j * c j) = 0) -> forall j, (j < length I)%nat -> c j = 0.
Proof.
  intros H j Hj. rewrite <- (pos_nth c j Hj). apply (independent D (pos c)); [|apply I_bound, nth_In, Hj]. intros p. fold N. rewrite <- system_pos.
  destruct (classic (In p powers)) as [Hp|Hp].
  - destruct (In_nth powers p (0, 0, 0)%Z Hp) as (i & Hi & E). specialize (H i Hi). unfold mp_system in H. rewrite E in H. exact H.
  - apply bigsum_zero_ext. intros i Hi. rewrite not_power; [ring|exact Hp|now apply nth_In].
Qed.
Lemma system_solved c i : (forall n, ~ In n I -> c n = 0) -> (forall p, bigsum N (fun n => get0 p (g n) * c n) = b2r (ijk_eqb (ptilde (Z.of_nat k)) p)) ->
  bigsum (length I) (fun j => mp_system I powers i j * c (nth j I 0%nat)) = mp_target k powers i.
Proof.
  intros H0 Hc. unfold mp_system, mp_target. rewrite <- Hc. rewrite (system_sum c). apply bigsum_ext. intros n _. destruct (nat_mem n I) eqn:E; [reflexivity|].
  rewrite H0; [reflexivity|]. rewrite <- nat_mem_In, E. discriminate.
Qed.
(** what lu_solve returns is that solution *)
Lemma solve_is c x : (forall n, ~ In n I -> c n = 0) -> (forall p, bigsum N (fun n => get0 p (g n) * c n) = b2r (ijk_eqb (ptilde (Z.of_nat k)) p)) ->
  lu_solve_to (length powers) (length I) (mp_system I powers) (mp_target k powers) x -> forall n, add_row I x n = c n.
Proof.
  intros H0 Hc (_ & Hinj & Hx) n. fold (pos x n). destruct (in_dec Nat.eq_dec n I) as [Hn|Hn]; [|now rewrite pos_out, H0].
  destruct (In_nth I n 0%nat Hn) as (j & Hj & <-). rewrite pos_nth by exact Hj.
  apply (normal_equations _ _ _ _ x (fun j => c (nth j I 0%nat)) Hinj (fun i Hi => system_solved c i H0 Hc) Hx j Hj).
Qed.
Lemma solve_exists c : (forall n, ~ In n I -> c n = 0) -> (forall p, bigsum N (fun n => get0 p (g n) * c n) = b2r (ijk_eqb (ptilde (Z.of_nat k)) p)) ->
  lu_solve_to (length powers) (length I) (mp_system I powers) (mp_target k powers) (fun j => c (nth j I 0%nat)).
Proof.
  intros H0 Hc. split; [apply (injective_le _ _ (mp_system I powers)), system_injective|split; [exact system_injective|]].
  intros j Hj. apply bigsum_ext. intros i _. now rewrite system_solved.
Qed.
End Powers.
Lemma powers_exist : exists powers, union_order I powers.
Proof.
  assert (dec : forall a b : ijk, {a = b} + {a <> b}) by (intros [[a1 a2] a3] [[b1 b2] b3]; repeat decide equality).
  exists (nodup dec (flat_map (fun i => keys (g i)) I)). split; [exact I_nonempty|split; [apply NoDup_nodup|]]. intros p. rewrite nodup_In, in_flat_map. reflexivity.
Qed.
End Row.

(** * The matrix *)
Lemma extend_sum k D (c : nat -> R) p : (Nat.sqrt k <= D)%nat -> (forall n, ~ In n (mp_indices k) -> c n = 0) ->
  bigsum ((D + 1) * (D + 1)) (fun n => get0 p (gtilde (Z.of_nat n)) * c n) = bigsum ((Nat.sqrt k + 1) * (Nat.sqrt k + 1)) (fun n => get0 p (gtilde (Z.of_nat n)) * c n).
Proof.
  intros HD H0. set (a := ((Nat.sqrt k + 1) * (Nat.sqrt k + 1))%nat). set (b := ((D + 1) * (D + 1))%nat). assert (a <= b)%nat by (unfold a, b; nia).
  replace b with (a + (b - a))%nat by lia. rewrite bigsum_add. rewrite (bigsum_zero_ext (b - a)); [ring|]. intros i Hi. rewrite H0; [ring|]. intros Hin. apply I_bound in Hin. fold a in Hin. lia.
Qed.
Lemma sqrt_le k D : (k < (D + 1) * (D + 1))%nat -> (Nat.sqrt k <= D)%nat.
Proof. intros H. pose proof (Nat.sqrt_spec k ltac:(lia)). nia. Qed.
Lemma unit_entry (r k : nat) : b2r (ijk_eqb (ptilde (Z.of_nat k)) (n2ijk (Z.of_nat r))) = if Nat.eqb r k then 1 else 0.
Proof.
  rewrite ptilde_n2ijk. destruct (Nat.eqb_spec r k) as [->|Ne]; [now rewrite (proj2 (ijk_eqb_eq _ _) eq_refl)|].
  destruct (ijk_eqb _ _) eqn:E; [|reflexivity]. apply ijk_eqb_eq in E. apply (f_equal idx) in E. rewrite !idx_n2ijk in E by lia. lia.
Qed.
Lemma column_solution D k : (k < (D + 1) * (D + 1))%nat -> exists c, (forall n, ~ In n (mp_indices k) -> c n = 0) /\
  (forall p, bigsum ((Nat.sqrt k + 1) * (Nat.sqrt k + 1)) (fun n => get0 p (gtilde (Z.of_nat n)) * c n) = b2r (ijk_eqb (ptilde (Z.of_nat k)) p)) /\
  forall r, (r < (D + 1) * (D + 1))%nat -> bigsum ((D + 1) * (D + 1)) (fun n => A2_inv (Z.of_nat D) (Z.of_nat r) (Z.of_nat n) * c n) = if Nat.eqb r k then 1 else 0.
Proof.
  intros Hk. destruct (row_solution k) as (c & H0 & Hc). exists c. split; [exact H0|split; [exact Hc|]]. intros r Hr.
  rewrite <- unit_entry, <- (Hc (n2ijk (Z.of_nat r))), <- (extend_sum k D c) by (try assumption; now apply sqrt_le). apply bigsum_ext. intros n Hn. now rewrite A2_inv_get0.
Qed.
Lemma mp_A2_iff D M : mp_A2_returns D M <-> right_inverse ((D + 1) * (D + 1)) (A2_inv (Z.of_nat D)) M.
Proof.
  split.
  - intros H r k Hr Hk. destruct (H k Hk) as (powers & x & HP & Hx & HM). destruct (column_solution D k Hk) as (c & H0 & Hc & HD).
    rewrite <- (HD r Hr). apply bigsum_ext. intros n Hn. f_equal. rewrite (HM n Hn). exact (solve_is k powers c x H0 Hc Hx n).
  - intros H k Hk. destruct (powers_exist k) as (powers & HP). destruct (column_solution D k Hk) as (c & H0 & Hc & HD).
    exists powers, (fun j => c (nth j (mp_indices k) 0%nat)). assert (S := solve_exists k powers HP c H0 Hc). split; [exact HP|split; [exact S|]].
    intros i Hi. rewrite (solve_is k powers c _ H0 Hc S i). assert (E : M (Z.of_nat i) (Z.of_nat k) - c i = 0); [|lra].
    apply (A2_inv_injective D (fun n => M (Z.of_nat n) (Z.of_nat k) - c n)); [|exact Hi]. intros r Hr.
    rewrite (bigsum_ext _ _ (fun n => A2_inv (Z.of_nat D) (Z.of_nat r) (Z.of_nat n) * M (Z.of_nat n) (Z.of_nat k) + -1 * (A2_inv (Z.of_nat D) (Z.of_nat r) (Z.of_nat n) * c n))) by (intros; ring).
    rewrite bigsum_plus, bigsum_scal, (H r k Hr Hk), (HD r Hr). ring.
Qed.
