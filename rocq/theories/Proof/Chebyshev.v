(** Chebyshev interpolation of trigonometric functions. *)
From Coq Require Import Reals Lra Lia List Arith Permutation.
From Coquelicot Require Import Coquelicot.
From Verif Require Import Base.RealAux Base.Analysis Spec.HarmonicSpec Spec.QuadSpec Proof.Polynomials Proof.GaussLegendre.
Import ListNotations.
Open Scope R_scope.

(** * Derivatives of a polynomial in closed form *)
Definition dcoef (c : nat -> R) (j i : nat) : R := INR (fact (i + j)) / INR (fact i) * c (i + j)%nat.
Definition dpoly (n : nat) (c : nat -> R) (j : nat) (x : R) : R := bigsum (n - j) (fun i => dcoef c j i * x ^ i).
Lemma bigsum_derive n c (x : R) : is_derive (fun x : R => bigsum n (fun i => c i * x ^ i)) x (bigsum (n - 1) (fun i => INR (S i) * c (S i) * x ^ i)).
Proof.
  destruct n as [|n]; [apply (is_derive_const 0)|]. replace (S n - 1)%nat with n by lia.
  induction n as [|n IH].
  - cbn [bigsum]. apply (is_derive_ext (fun _ : R => 0 + c O * 1)); [intros t; reflexivity|]. apply (is_derive_const (0 + c O * 1)).
  - apply (is_derive_plus (fun t : R => bigsum (S n) (fun i => c i * t ^ i)) (fun t : R => c (S n) * t ^ S n)); [exact IH|].
    replace (INR (S n) * c (S n) * x ^ n) with (c (S n) * (INR (S n) * 1 * x ^ Nat.pred (S n))) by (cbn [Nat.pred]; ring). apply is_derive_scal. apply (is_derive_pow (fun t : R => t) (S n)). apply @is_derive_id.
Qed.
Lemma dpoly_derive n c j (x : R) : is_derive (dpoly n c j) x (dpoly n c (S j) x).
Proof.
  unfold dpoly. replace (n - S j)%nat with (n - j - 1)%nat by lia. pose proof (bigsum_derive (n - j) (dcoef c j) x) as D.
  match type of D with is_derive _ _ ?v => match goal with |- is_derive _ _ ?w => replace w with v; [exact D|] end end.
  apply bigsum_ext. intros i _. f_equal. unfold dcoef. replace (S i + j)%nat with (i + S j)%nat by lia. change (fact (S i)) with (S i * fact i)%nat. rewrite mult_INR. field.
  split; [apply INR_fact_neq_0|]. apply not_0_INR. lia.
Qed.
Lemma dpoly_0 n c x : dpoly n c 0 x = bigsum n (fun i => c i * x ^ i).
Proof. unfold dpoly. rewrite Nat.sub_0_r. apply bigsum_ext. intros i _. unfold dcoef. rewrite Nat.add_0_r. field. apply INR_fact_neq_0. Qed.
Lemma dpoly_top n c x : dpoly (S n) c n x = INR (fact n) * c n.
Proof. unfold dpoly. replace (S n - n)%nat with 1%nat by lia. unfold dcoef. cbn. field. Qed.
Lemma dpoly_end n c x : dpoly n c n x = 0.
Proof. unfold dpoly. rewrite Nat.sub_diag. reflexivity. Qed.

(** * Zeros of repeated derivatives *)
Lemma inner_rolle (f f' : R -> R) : (forall x : R, is_derive f x (f' x)) -> forall l a hi, chain a l hi -> f a = 0 -> (forall x, In x l -> f x = 0) ->
  exists l', length l' = length l /\ chain a l' hi /\ forall x, In x l' -> f' x = 0.
Proof.
  intros D. induction l as [|x l IH]; intros a hi C Ha H; [exists []; split; [reflexivity|split; [exact C|intros y []]]|]. destruct C as [C1 C2].
  destruct (rolle f f' a x D C1 Ha (H x (or_introl eq_refl))) as (c & Hc & E). destruct (IH x hi C2 (H x (or_introl eq_refl)) (fun y I => H y (or_intror I))) as (l' & Hl & Cl & El).
  exists (c :: l'). split; [cbn; now rewrite Hl|split; [split; [lra|apply (chain_weaken x); [lra|exact Cl]]|]]. intros y [<-|I]; [exact E|now apply El].
Qed.
Lemma many_rolle (G : nat -> R -> R) : (forall k (x : R), is_derive (G k) x (G (S k) x)) -> forall n l k lo hi, length l = S n -> chain lo l hi -> (forall x, In x l -> G k x = 0) ->
  exists x, lo < x < hi /\ G (k + n)%nat x = 0.
Proof.
  intros D. induction n as [|n IH]; intros l k lo hi Hl C H; (destruct l as [|a l]; [discriminate|]).
  - exists a. rewrite Nat.add_0_r. split; [apply (chain_in (a :: l)); [exact C|now left]|apply H; now left].
  - destruct C as [C1 C2]. destruct (inner_rolle (G k) (G (S k)) (D k) l a hi C2 (H a (or_introl eq_refl)) (fun y I => H y (or_intror I))) as (l' & Hl' & C' & E').
    destruct (IH l' (S k) lo hi) as (x & Hx & E); [cbn in Hl; lia|apply (chain_weaken a); [lra|exact C']|exact E'|]. exists x. split; [exact Hx|]. replace (k + S n)%nat with (S k + n)%nat by lia. exact E.
Qed.
Lemma chain_insert l : forall lo hi x, chain lo l hi -> lo < x < hi -> ~ In x l -> exists l', length l' = S (length l) /\ chain lo l' hi /\ forall y, In y l' -> y = x \/ In y l.
Proof.
  induction l as [|a l IH]; intros lo hi x C Hx N.
  - exists [x]. split; [reflexivity|split; [cbn; lra|intros y [<-|[]]; now left]].
  - destruct C as [C1 C2]. destruct (Rtotal_order x a) as [L|[E|L]].
    + exists (x :: a :: l). split; [reflexivity|split; [cbn; tauto|]]. intros y [<-|I]; [now left|now right].
    + exfalso. apply N. left. congruence.
    + destruct (IH a hi x C2) as (l' & Hl & C' & I'); [lra|intros I; apply N; now right|]. exists (a :: l'). split; [cbn; now rewrite Hl|split; [split; assumption|]]. intros y [<-|I]; [right; now left|]. destruct (I' y I); [now left|right; now right].
Qed.
(** any list of distinct numbers can be put in order *)
Lemma chain_sort l : forall lo hi, NoDup l -> lo < hi -> (forall x, In x l -> lo < x < hi) -> exists l', length l' = length l /\ chain lo l' hi /\ forall y, In y l' -> In y l.
Proof.
  induction l as [|a l IH]; intros lo hi ND Hlh H; [exists []; split; [reflexivity|split; [exact Hlh|intros y []]]|]. inversion ND as [|? ? Ha ND']; subst.
  destruct (IH lo hi ND' Hlh (fun x I => H x (or_intror I))) as (l' & Hl & C & I'). destruct (chain_insert l' lo hi a C (H a (or_introl eq_refl))) as (l2 & Hl2 & C2 & I2); [intros I; apply Ha; now apply I'|].
  exists l2. split; [cbn; lia|split; [exact C2|]]. intros y I. destruct (I2 y I) as [->|J]; [now left|right; now apply I'].
Qed.
(** nodal xs is monic *)
Lemma nodal_monic xs : exists c, c (length xs) = 1 /\ forall x, nodal xs x = bigsum (S (length xs)) (fun i => c i * x ^ i).
Proof.
  induction xs as [|a xs (c & Hc & E)]; [exists (fun _ => 1); split; [reflexivity|intros; cbn; ring]|].
  exists (fun i => match i with O => 0 | S i => c i end - (if (i <=? length xs)%nat then a * c i else 0)). split.
  - cbn [length]. rewrite Hc. destruct (Nat.leb_spec (S (length xs)) (length xs)); [lia|ring].
  - intros x. cbn [length]. rewrite (bigsum_ext _ _ (fun i => match i with O => 0 | S i => c i end * x ^ i + -1 * ((if (i <=? length xs)%nat then a * c i else 0) * x ^ i))) by (intros; ring).
    rewrite bigsum_plus, bigsum_scal. rewrite bigsum_split_first, Rmult_0_l, Rplus_0_l. change (bigsum (S (S (length xs))) (fun i => (if (i <=? length xs)%nat then a * c i else 0) * x ^ i)) with (bigsum (S (length xs)) (fun i => (if (i <=? length xs)%nat then a * c i else 0) * x ^ i) + (if (S (length xs) <=? length xs)%nat then a * c (S (length xs)) else 0) * x ^ S (length xs)).
    destruct (Nat.leb_spec (S (length xs)) (length xs)); [lia|]. rewrite Rmult_0_l, Rplus_0_r.
    rewrite (bigsum_ext (S (length xs)) (fun i => (if (i <=? length xs)%nat then a * c i else 0) * x ^ i) (fun i => a * (c i * x ^ i))) by (intros i Hi; destruct (Nat.leb_spec i (length xs)); [ring|lia]).
    rewrite bigsum_scal, <- E. rewrite (bigsum_ext _ (fun i => c i * x ^ S i) (fun i => x * (c i * x ^ i))) by (intros; cbn [pow]; ring). rewrite bigsum_scal, <- E. unfold nodal. cbn [fold_right]. ring.
Qed.
Lemma exists_bound l : exists B, forall x, In x l -> - B < x < B.
Proof.
  induction l as [|a l (B & H)]; [exists 0; intros x []|]. exists (Rmax B (Rabs a + 1)). pose proof (Rmax_l B (Rabs a + 1)). pose proof (Rmax_r B (Rabs a + 1)). intros x [<-|I].
  - pose proof (Rle_abs a). pose proof (Rle_abs (- a)) as Q. rewrite Rabs_Ropp in Q. lra.
  - specialize (H x I). lra.
Qed.
(** * Interpolation error *)
Lemma interpolation_error (G : nat -> R -> R) xs M : (forall k (x : R), is_derive (G k) x (G (S k) x)) -> NoDup xs -> (forall x, Rabs (G (length xs) x) <= M) ->
  exists p, polynomial (length xs) p /\ forall x, Rabs (G O x - p x) <= M / INR (fact (length xs)) * Rabs (nodal xs x).
Proof.
  intros D ND HM. set (n := length xs) in *. set (p := fun t => Rsum (map (fun x => G O x * lagrange xs x t) xs)).
  assert (Hp : polynomial n p). { apply poly_Rsum. intros x I. apply poly_scal. unfold n. now apply lagrange_poly. }
  assert (Hi : forall a, In a xs -> G O a = p a). { intros a I. unfold p. rewrite (Rsum_delta _ xs a ND I); [rewrite lagrange_self; ring|]. intros b Ib N. rewrite lagrange_other by (auto; congruence). ring. }
  exists p. split; [exact Hp|]. intros x. destruct (in_dec Req_EM_T x xs) as [I|I].
  - rewrite (Hi x I), Rminus_eq_0, (proj2 (nodal_zero xs x) I), Rabs_R0. lra.
  - assert (Nz : nodal xs x <> 0) by (intros E; apply I; now apply nodal_zero). set (K := (G O x - p x) / nodal xs x). destruct Hp as [cp Ep]. destruct (nodal_monic xs) as (cn & H1 & En). fold n in H1, En.
    set (H := fun k t => G k t - dpoly n cp k t - K * dpoly (S n) cn k t).
    assert (DH : forall k (t : R), is_derive (H k) t (H (S k) t)). { intros k t. unfold H. apply (is_derive_minus (fun t : R => G k t - dpoly n cp k t) (fun t : R => K * dpoly (S n) cn k t)); [apply (is_derive_minus (G k) (dpoly n cp k)); [apply D|apply dpoly_derive]|]. apply is_derive_scal. apply dpoly_derive. }
    assert (Hz : forall a, In a (x :: xs) -> H O a = 0). { intros a [<-|J]; unfold H; rewrite !dpoly_0, <- Ep, <- En; [unfold K; field; exact Nz|]. rewrite (Hi a J), (proj2 (nodal_zero xs a) J). ring. }
    destruct (exists_bound (x :: xs)) as (B & HB).
    destruct (chain_sort (x :: xs) (- B) B) as (l & Hl & C & Il); [now constructor| | |].
    { destruct (HB x (or_introl eq_refl)). lra. } { exact HB. }
    destruct (many_rolle H DH n l 0 (- B) B) as (xi & _ & E); [rewrite Hl; reflexivity|exact C|intros y J; apply Hz, Il, J|]. cbn [Nat.add] in E. unfold H in E. rewrite dpoly_end, dpoly_top, H1 in E.
    assert (EK : K = G n xi / INR (fact n)). { apply (Rmult_eq_reg_r (INR (fact n))); [|apply INR_fact_neq_0]. unfold Rdiv. rewrite Rmult_assoc, Rinv_l by apply INR_fact_neq_0. lra. }
    replace (G O x - p x) with (K * nodal xs x) by (unfold K; field; exact Nz). rewrite Rabs_mult. apply Rmult_le_compat_r; [apply Rabs_pos|]. rewrite EK. unfold Rdiv. rewrite Rabs_mult, (Rabs_right (/ INR (fact n))).
    + apply Rmult_le_compat_r; [left; apply Rinv_0_lt_compat, INR_fact_lt_0|apply HM].
    + left. apply Rinv_0_lt_compat, INR_fact_lt_0.
Qed.

(** * Chebyshev nodes *)
Fixpoint cheb2 (n : nat) (x : R) : R * R := match n with O => (1, x) | S n => let '(a, b) := cheb2 n x in (b, 2 * x * b - a) end.
Definition cheb (n : nat) (x : R) : R := fst (cheb2 n x).
Lemma cheb2_S n x : snd (cheb2 n x) = cheb (S n) x.
Proof. unfold cheb. cbn [cheb2]. destruct (cheb2 n x). reflexivity. Qed.
Lemma cheb_SS n x : cheb (S (S n)) x = 2 * x * cheb (S n) x - cheb n x.
Proof. rewrite <- (cheb2_S (S n)), <- (cheb2_S n). unfold cheb. cbn [cheb2]. destruct (cheb2 n x). reflexivity. Qed.
Lemma cheb_cos n t : cheb n (cos t) = cos (INR n * t).
Proof.
  enough (cheb n (cos t) = cos (INR n * t) /\ cheb (S n) (cos t) = cos (INR (S n) * t)) by tauto. induction n as [|n [IH1 IH2]].
  - unfold cheb. cbn. rewrite Rmult_0_l, cos_0, Rmult_1_l. split; reflexivity.
  - split; [exact IH2|]. rewrite cheb_SS, IH1, IH2. rewrite !S_INR. replace ((INR n + 1 + 1) * t) with ((INR n + 1) * t + t) by ring. replace (INR n * t) with ((INR n + 1) * t - t) by ring. rewrite cos_plus, cos_minus. ring.
Qed.
Lemma cheb_poly n : polynomial (S n) (cheb n) /\ polynomial (S (S n)) (cheb (S n)) /\ exists q, polynomial (S n) q /\ forall x, cheb (S n) x = 2 ^ n * x ^ S n + q x.
Proof.
  induction n as [|n (I1 & I2 & q & Hq & E)].
  - split; [|split].
    + apply (poly_ext _ (fun _ => 1)); [intros; reflexivity|apply poly_const].
    + apply (poly_ext _ (fun x => x)); [intros; reflexivity|apply poly_id].
    + exists (fun _ => 0). split; [apply poly_zero|]. intros x. unfold cheb. cbn. ring.
  - split; [exact I2|split].
    + apply (poly_ext _ (fun x => 2 * (x * cheb (S n) x) - cheb n x)); [intros; rewrite cheb_SS; ring|]. apply poly_minus; [apply poly_scal; now apply poly_mulx|]. apply (poly_mono (S n)); [lia|exact I1].
    + exists (fun x => 2 * (x * q x) - cheb n x). split; [apply poly_minus; [apply poly_scal; now apply poly_mulx|apply (poly_mono (S n)); [lia|exact I1]]|]. intros x. rewrite cheb_SS, E. cbn [pow]. ring.
Qed.
Definition cheb_node (n i : nat) : R := cos ((2 * INR i + 1) * PI / (2 * INR n)).
Definition cheb_nodes (n : nat) : list R := map (cheb_node n) (seq 0 n).
Lemma cheb_angle n i : (i < n)%nat -> 0 < (2 * INR i + 1) * PI / (2 * INR n) < PI.
Proof.
  intros Hi. pose proof PI_RGT_0 as P. assert (0 < INR n) by (apply lt_0_INR; lia). pose proof (pos_INR i). assert (INR i + 1 <= INR n) by (rewrite <- S_INR; apply le_INR; lia). split.
  - apply Rdiv_lt_0_compat; [apply Rmult_lt_0_compat; lra|lra].
  - apply (Rmult_lt_reg_r (2 * INR n)); [lra|]. unfold Rdiv. rewrite Rmult_assoc, Rinv_l, Rmult_1_r by lra. rewrite (Rmult_comm _ PI). apply Rmult_lt_compat_l; lra.
Qed.
Lemma cheb_nodes_nodup n : NoDup (cheb_nodes n).
Proof.
  unfold cheb_nodes. assert (K : forall i j, (i < n)%nat -> (j < n)%nat -> cheb_node n i = cheb_node n j -> i = j).
  { intros i j Hi Hj E. unfold cheb_node in E. pose proof (cheb_angle n i Hi) as A. pose proof (cheb_angle n j Hj) as B. assert (0 < INR n) by (apply lt_0_INR; lia). pose proof PI_RGT_0.
    assert (E' : (2 * INR i + 1) * PI / (2 * INR n) = (2 * INR j + 1) * PI / (2 * INR n)). { apply cos_inj; [lra|lra|exact E]. }
    apply INR_eq. apply (f_equal (fun v => v * (2 * INR n))) in E'. unfold Rdiv in E'. rewrite !Rmult_assoc, !Rinv_l, !Rmult_1_r in E' by lra. apply Rmult_eq_reg_r in E'; lra. }
  assert (K2 : forall l, NoDup l -> (forall i, In i l -> (i < n)%nat) -> NoDup (map (cheb_node n) l)).
  { induction l as [|a l IH]; intros ND H; [constructor|]. inversion ND as [|? ? Ha ND']; subst. cbn [map]. constructor; [|apply IH; [exact ND'|intros; apply H; now right]].
    intros I. apply in_map_iff in I as (j & E & J). apply Ha. rewrite <- (K j a); [exact J|apply H; now right|apply H; now left|exact E]. }
  apply K2; [apply seq_NoDup|]. intros i Hi. apply in_seq in Hi. lia.
Qed.
Lemma cheb_nodal n x : cheb (S n) x = 2 ^ n * nodal (cheb_nodes (S n)) x.
Proof.
  set (xs := cheb_nodes (S n)). assert (Hl : length xs = S n) by (unfold xs, cheb_nodes; now rewrite map_length, seq_length).
  destruct (cheb_poly n) as (_ & _ & q & Hq & E). destruct (nodal_monic xs) as (c & Hc & En). rewrite Hl in Hc, En.
  assert (Hp : polynomial (length xs) (fun x => cheb (S n) x - 2 ^ n * nodal xs x)).
  { rewrite Hl. apply (poly_ext _ (fun x => q x - 2 ^ n * bigsum (S n) (fun i => c i * x ^ i))); [intros t; rewrite E, En; change (bigsum (S (S n)) (fun i => c i * t ^ i)) with (bigsum (S n) (fun i => c i * t ^ i) + c (S n) * t ^ S n); rewrite Hc; ring|].
    apply poly_minus; [exact Hq|]. apply poly_scal. exists c. reflexivity. }
  pose proof (poly_many_roots xs _ (cheb_nodes_nodup (S n)) Hp) as Z. enough (cheb (S n) x - 2 ^ n * nodal xs x = 0) by lra. apply Z.
  intros a I. rewrite (proj2 (nodal_zero xs a) I), Rmult_0_r, Rminus_0_r. unfold xs, cheb_nodes in I. apply in_map_iff in I as (i & <- & Hi). unfold cheb_node. rewrite cheb_cos.
  replace (INR (S n) * ((2 * INR i + 1) * PI / (2 * INR (S n)))) with (PI / 2 + IZR (Z.of_nat i) * PI). 2:{ rewrite <- INR_IZR_INZ. field. apply not_0_INR. lia. }
  rewrite cos_plus, cos_PI2, sin_PI2, Rmult_0_l, Rmult_1_l. replace (sin (IZR (Z.of_nat i) * PI)) with 0; [ring|]. symmetry. apply sin_eq_0_1. exists (Z.of_nat i). reflexivity.
Qed.
Lemma cheb_bound n x : -1 <= x <= 1 -> Rabs (cheb n x) <= 1.
Proof. intros Hx. rewrite <- (cos_acos x) by exact Hx. rewrite cheb_cos. apply Rabs_le. apply COS_bound. Qed.

(** * Trigonometric functions *)
Definition cosd (k phi : R) (j : nat) (x : R) : R := k ^ j * cos (k * x + phi + INR j * (PI / 2)).
Lemma cosd_derive k phi j (x : R) : is_derive (cosd k phi j) x (cosd k phi (S j) x).
Proof.
  unfold cosd. auto_derive; [exact I|]. rewrite S_INR. replace (k * x + phi + (INR j + 1) * (PI / 2)) with ((k * x + phi + INR j * (PI / 2)) + PI / 2) by ring. rewrite cos_plus, cos_PI2, sin_PI2. cbn [pow]. ring.
Qed.
Lemma cos_approx n k phi : exists p, polynomial (S n) p /\ forall x, -1 <= x <= 1 -> Rabs (cos (k * x + phi) - p x) <= Rabs k ^ S n / (INR (fact (S n)) * 2 ^ n).
Proof.
  set (xs := cheb_nodes (S n)). assert (Hl : length xs = S n) by (unfold xs, cheb_nodes; now rewrite map_length, seq_length).
  destruct (interpolation_error (cosd k phi) xs (Rabs k ^ S n)) as (p & Hp & H).
  - intros j x. apply cosd_derive.
  - apply cheb_nodes_nodup.
  - intros x. rewrite Hl. unfold cosd. rewrite Rabs_mult, RPow_abs. rewrite <- (Rmult_1_r (Rabs (k ^ S n))) at 2. apply Rmult_le_compat_l; [apply Rabs_pos|]. apply Rabs_le, COS_bound.
  - rewrite Hl in Hp, H. exists p. split; [exact Hp|]. intros x Hx. specialize (H x). unfold cosd at 1 in H. cbn [pow INR] in H. rewrite Rmult_1_l, Rmult_0_l, Rplus_0_r in H.
    eapply Rle_trans; [exact H|]. pose proof (cheb_bound (S n) x Hx) as B. rewrite cheb_nodal in B. fold xs in B. rewrite Rabs_mult, (Rabs_right (2 ^ n)) in B by (apply Rle_ge, pow_le; lra).
    assert (P2 : 0 < 2 ^ n) by (apply pow_lt; lra). assert (B' : Rabs (nodal xs x) <= / 2 ^ n). { apply (Rmult_le_reg_l (2 ^ n)); [exact P2|]. rewrite Rinv_r by lra. exact B. }
    change (Rabs k * Rabs k ^ n) with (Rabs k ^ S n). replace (Rabs k ^ S n / (INR (fact (S n)) * 2 ^ n)) with (Rabs k ^ S n / INR (fact (S n)) * / 2 ^ n) by (field; split; [lra|apply INR_fact_neq_0]).
    apply Rmult_le_compat_l; [|exact B']. apply Rmult_le_pos; [apply pow_le, Rabs_pos|left; apply Rinv_0_lt_compat, INR_fact_lt_0].
Qed.
