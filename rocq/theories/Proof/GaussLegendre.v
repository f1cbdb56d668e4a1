(** Gauss-Legendre rules exist for every order, and their weights are not negative. *)
From Coq Require Import Reals Lra Lia List Arith.
From Coquelicot Require Import Coquelicot.
From Verif Require Import Base.RealAux Base.Analysis Spec.HarmonicSpec Spec.QuadSpec Proof.LegendreT Proof.Polynomials.
Import ListNotations.
Open Scope R_scope.

Lemma poly_ex_RInt n f a b : polynomial n f -> ex_RInt f a b.
Proof. intros H. apply @ex_RInt_continuous. intros x _. apply (poly_cont n f H). Qed.

(** * Derivatives of (x^2-1)^n *)
Section Rodrigues.
Variable n : nat.
Let F (k : nat) : R -> R := Derive_n (fun s => (s ^ 2 - 1) ^ n) k.
Lemma F_derive k (x : R) : is_derive (F k) x (F (S k) x).
Proof. unfold F. cbn [Derive_n]. apply Derive_correct. apply smooth_pow. Qed.
Lemma F_poly k : (k <= 2 * n)%nat -> polynomial (S (2 * n) - k) (F k).
Proof.
  induction k as [|k IH]; intros Hk.
  - rewrite Nat.sub_0_r. unfold F. cbn [Derive_n]. replace (S (2 * n)) with (S (n * 2)) by lia. apply poly_pow. apply (poly_ext _ (fun x => x * x - 1)); [intros; cbn [pow]; ring|].
    apply poly_minus; [|apply (poly_const 2 1)]. apply poly_mulx. apply (poly_id 0).
  - specialize (IH ltac:(lia)). replace (S (2 * n) - k)%nat with (S (S (2 * n) - S k))%nat in IH by lia. destruct (poly_derive _ _ IH) as (g & Hg & D).
    apply (poly_ext _ g); [|exact Hg]. intros x. apply (is_derive_unique _ _ _ (D x)) || (symmetry; unfold F; cbn [Derive_n]; apply is_derive_unique; apply D).
Qed.
Lemma F_edge k : (k <= n)%nat -> exists q m, polynomial m q /\ 0 < q 1 /\ forall x, F k x = (x ^ 2 - 1) ^ (n - k) * q x.
Proof.
  induction k as [|k IH]; intros Hk.
  - exists (fun _ => 1), 1%nat. split; [apply (poly_const 0 1)|split; [lra|]]. intros x. unfold F. cbn [Derive_n]. rewrite Nat.sub_0_r. ring.
  - destruct IH as (q & m & Hq & H1 & E); [lia|]. destruct (poly_derive m q (poly_mono m (S m) q ltac:(lia) Hq)) as (q' & Hq' & D).
    exists (fun x => 2 * INR (n - k) * (x * q x) + (x ^ 2 - 1) * q' x), (S (S m)). split; [|split].
    + apply poly_plus; [apply poly_scal; apply (poly_mono (S m)); [lia|now apply poly_mulx]|]. apply (poly_ext _ (fun x => x ^ 2 * q' x - q' x)); [intros; ring|]. apply poly_minus; [now apply (poly_powx 2)|]. apply (poly_mono m); [lia|exact Hq'].
    + assert (0 < INR (n - k)) by (apply lt_0_INR; lia). assert (0 < INR (n - k) * q 1) by now apply Rmult_lt_0_compat. cbn [pow]. lra.
    + intros x. unfold F. cbn [Derive_n]. apply is_derive_unique. apply (is_derive_ext (fun x : R => (x ^ 2 - 1) ^ (n - k) * q x)); [intros t; symmetry; apply E|].
      replace (n - k)%nat with (S (n - S k)) by lia. set (j := (n - S k)%nat).
      assert (DP : is_derive (fun x : R => (x ^ 2 - 1) ^ S j) x (INR (S j) * (2 * x) * (x ^ 2 - 1) ^ j)).
      { apply (is_derive_pow (fun x : R => x ^ 2 - 1) (S j)). auto_derive; [exact I|ring]. }
      pose proof (is_derive_mult _ _ x _ _ DP (D x) Rmult_comm) as DM. match type of DM with is_derive _ _ ?v => match goal with |- is_derive _ _ ?w => replace w with v; [exact DM|] end end.
      unfold plus, mult. cbn -[INR pow]. cbn [pow]. ring.
Qed.
Lemma F_ends k : (k < n)%nat -> F k 1 = 0 /\ F k (-1) = 0.
Proof. intros Hk. destruct (F_edge k) as (q & m & _ & _ & E); [lia|]. rewrite !E. replace (n - k)%nat with (S (n - S k)) by lia. cbn [pow]. split; ring. Qed.
Lemma F_one : F n 1 <> 0.
Proof. destruct (F_edge n) as (q & m & _ & H & E); [lia|]. rewrite E, Nat.sub_diag. cbn [pow]. lra. Qed.

(** * Roots between roots *)
Fixpoint chain (lo : R) (l : list R) (hi : R) : Prop := match l with [] => lo < hi | x :: l => lo < x /\ chain x l hi end.
Lemma chain_weaken lo lo' l hi : lo' <= lo -> chain lo l hi -> chain lo' l hi.
Proof. destruct l; cbn; [lra|]. intros H [K C]. split; [lra|exact C]. Qed.
Lemma chain_in l : forall lo hi x, chain lo l hi -> In x l -> lo < x < hi.
Proof.
  induction l as [|a l IH]; intros lo hi x C I; [destruct I|]. destruct C as [C1 C2]. assert (K : forall l lo, chain lo l hi -> lo < hi).
  { clear. induction l as [|b l IH]; intros lo; cbn; [tauto|]. intros [H C]. specialize (IH b C). lra. }
  destruct I as [->|I]; [split; [exact C1|now apply (K l)]|]. specialize (IH a hi x C2 I). lra.
Qed.
Lemma chain_nodup l : forall lo hi, chain lo l hi -> NoDup l.
Proof. induction l as [|a l IH]; intros lo hi C; constructor; destruct C as [C1 C2]; [|now apply (IH a hi)]. intros I. pose proof (chain_in l a hi a C2 I). lra. Qed.
Lemma rolle (f f' : R -> R) a b : (forall x : R, is_derive f x (f' x)) -> a < b -> f a = 0 -> f b = 0 -> exists c, a < c < b /\ f' c = 0.
Proof.
  intros D H Ha Hb. destruct (MVT_cor2 f f' a b H) as (c & E & Hc). { intros c _. apply is_derive_Reals. apply D. }
  exists c. split; [exact Hc|]. rewrite Ha, Hb in E. assert (E' : f' c * (b - a) = 0) by lra. apply Rmult_integral in E' as [E'|E']; [exact E'|lra].
Qed.
Lemma chain_rolle (f f' : R -> R) : (forall x : R, is_derive f x (f' x)) -> forall l lo hi, chain lo l hi -> f lo = 0 -> f hi = 0 -> (forall x, In x l -> f x = 0) ->
  exists l', length l' = S (length l) /\ chain lo l' hi /\ forall x, In x l' -> f' x = 0.
Proof.
  intros D. induction l as [|a l IH]; intros lo hi C Hlo Hhi H.
  - cbn in C. destruct (rolle f f' lo hi D C Hlo Hhi) as (c & Hc & E). exists [c]. split; [reflexivity|split; [cbn; lra|intros x [<-|[]]; exact E]].
  - destruct C as [C1 C2]. destruct (rolle f f' lo a D C1 Hlo (H a (or_introl eq_refl))) as (c & Hc & E).
    destruct (IH a hi C2 (H a (or_introl eq_refl)) Hhi (fun x I => H x (or_intror I))) as (l' & Hl & Cl & El).
    exists (c :: l'). split; [cbn; now rewrite Hl|split; [split; [lra|apply (chain_weaken a); [lra|exact Cl]]|]]. intros x [<-|I]; [exact E|now apply El].
Qed.
Lemma F_roots k : (k <= n)%nat -> exists l, length l = k /\ chain (-1) l 1 /\ forall x, In x l -> F k x = 0.
Proof.
  induction k as [|k IH]; intros Hk; [exists []; split; [reflexivity|split; [cbn; lra|intros x []]]|]. destruct IH as (l & Hl & C & E); [lia|].
  destruct (F_ends k) as [E1 E2]; [lia|]. destruct (chain_rolle (F k) (F (S k)) (F_derive k) l (-1) 1 C E2 E1 E) as (l' & Hl' & C' & E'). exists l'. split; [lia|split; [exact C'|exact E']].
Qed.

(** * Orthogonality *)
Lemma F_orth k : (k <= n)%nat -> forall p, polynomial k p -> is_RInt (fun x => F k x * p x) (-1) 1 0.
Proof.
  induction k as [|k IH]; intros Hk p Hp.
  - destruct Hp as [c Hp]. apply (is_RInt_ext (fun _ => 0)); [intros x _; rewrite Hp; cbn; ring|]. pose proof (is_RInt_const (-1) 1 0) as J. change (is_RInt (fun _ : R => 0) (-1) 1 ((1 - -1) * 0)) in J. rewrite Rmult_0_r in J. exact J.
  - destruct (poly_derive k p Hp) as (p' & Hp' & D). specialize (IH ltac:(lia) p' Hp'). destruct (F_ends k) as [E1 E2]; [lia|].
    assert (J : is_RInt (fun x : R => F (S k) x * p x + F k x * p' x) (-1) 1 (F k 1 * p 1 - F k (-1) * p (-1))).
    { apply (is_RInt_derive (fun x : R => F k x * p x)).
      - intros x _. pose proof (is_derive_mult _ _ x _ _ (F_derive k x) (D x) Rmult_comm) as DM. exact DM.
      - intros x _. apply cont_plus; apply cont_mult.
        + apply (poly_cont _ _ (F_poly (S k) ltac:(lia))).
        + apply (poly_cont _ _ Hp).
        + apply (poly_cont _ _ (F_poly k ltac:(lia))).
        + apply (poly_cont _ _ Hp'). }
    rewrite E1, E2 in J. pose proof (is_RInt_minus _ _ _ _ _ _ J IH) as M. apply (is_RInt_ext (fun x => minus (F (S k) x * p x + F k x * p' x) (F k x * p' x))).
    + intros x _. unfold minus, plus, opp. cbn. lra.
    + match type of M with is_RInt _ _ _ ?v => replace 0 with v; [exact M|] end. unfold minus, plus, opp. cbn. ring.
Qed.
Lemma F_nodal l : length l = n -> NoDup l -> (forall x, In x l -> F n x = 0) -> exists c, c <> 0 /\ forall x, F n x = nodal l x * c.
Proof.
  intros Hl ND H. pose proof (F_poly n ltac:(lia)) as HP. replace (S (2 * n) - n)%nat with (length l + 1)%nat in HP by lia.
  destruct (poly_roots l 1 (F n) ND HP H) as (g & [c Hg] & E). exists (c O). assert (E' : forall x, F n x = nodal l x * c O) by (intros x; rewrite E, Hg; cbn; ring).
  split; [|exact E']. intros Z. apply F_one. rewrite E', Z. ring.
Qed.
Lemma nodal_orth l : length l = n -> NoDup l -> (forall x, In x l -> F n x = 0) -> forall q, polynomial n q -> is_RInt (fun x => nodal l x * q x) (-1) 1 0.
Proof.
  intros Hl ND H q Hq. destruct (F_nodal l Hl ND H) as (c & Hc & E). pose proof (is_RInt_scal _ _ _ (/ c) _ (F_orth n (le_n n) q Hq)) as S.
  apply (is_RInt_ext (fun y => scal (/ c) (F n y * q y))); [|replace 0 with (/ c * 0) by ring; exact S].
  intros x _. unfold scal. cbn. unfold mult. cbn. rewrite E. field. exact Hc.
Qed.
Lemma legendre_F x : legendre_deriv n 0 x = 0 <-> F n x = 0.
Proof.
  unfold legendre_deriv. rewrite Nat.add_0_r. change (Derive_n (fun s => (s ^ 2 - 1) ^ n) n x) with (F n x). set (K := 2 ^ n * INR (fact n)).
  assert (0 < K) by (apply Rmult_lt_0_compat; [apply pow_lt; lra|apply INR_fact_lt_0]). split; intros E.
  - replace (F n x) with (F n x / K * K) by (field; lra). rewrite E. ring.
  - rewrite E. unfold Rdiv. ring.
Qed.
End Rodrigues.

(** * Lagrange interpolation *)
Definition lagrange (xs : list R) (x t : R) : R := nodal (remove Req_EM_T x xs) t / nodal (remove Req_EM_T x xs) x.
Lemma remove_length xs x : NoDup xs -> In x xs -> S (length (remove Req_EM_T x xs)) = length xs.
Proof.
  induction xs as [|a xs IH]; intros ND I; [destruct I|]. inversion ND as [|? ? Ha ND']; subst. cbn [remove]. destruct (Req_EM_T x a) as [->|N].
  - rewrite notin_remove by exact Ha. reflexivity.
  - cbn [length]. rewrite IH; [reflexivity|exact ND'|]. destruct I as [E|I]; [congruence|exact I].
Qed.
Lemma lagrange_poly xs x : NoDup xs -> In x xs -> polynomial (length xs) (lagrange xs x).
Proof.
  intros ND I. rewrite <- (remove_length xs x ND I). apply (poly_ext _ (fun t => / nodal (remove Req_EM_T x xs) x * nodal (remove Req_EM_T x xs) t)); [intros; unfold lagrange, Rdiv; ring|].
  apply poly_scal. apply nodal_poly.
Qed.
Lemma lagrange_self xs x : lagrange xs x x = 1.
Proof. unfold lagrange. apply Rinv_r. intros E. apply nodal_zero in E. apply in_remove in E as [_ N]. now apply N. Qed.
Lemma lagrange_other xs x y : In y xs -> y <> x -> lagrange xs x y = 0.
Proof. intros I N. unfold lagrange. rewrite (proj2 (nodal_zero (remove Req_EM_T x xs) y)); [unfold Rdiv; ring|]. now apply in_in_remove. Qed.
Lemma Rsum_delta {A} (F : A -> R) l a : NoDup l -> In a l -> (forall b, In b l -> b <> a -> F b = 0) -> Rsum (map F l) = F a.
Proof.
  induction l as [|c l IH]; intros ND I H; [destruct I|]. inversion ND as [|? ? Hc ND']; subst. cbn [map Rsum fold_right]. change (fold_right Rplus 0 (map F l)) with (Rsum (map F l)). destruct I as [->|I].
  - rewrite Rsum_map_zero; [ring|]. intros b Hb. apply H; [now right|]. intros ->. now apply Hc.
  - rewrite (H c (or_introl eq_refl)), IH; [ring|exact ND'|exact I|intros; apply H; [now right|assumption]|]. intros ->. now apply Hc.
Qed.
Lemma is_RInt_Rsum {A} (F : A -> R -> R) (v : A -> R) l a b : (forall x, In x l -> is_RInt (F x) a b (v x)) -> is_RInt (fun t => Rsum (map (fun x => F x t) l)) a b (Rsum (map v l)).
Proof.
  induction l as [|x l IH]; intros H.
  - cbn [map Rsum fold_right]. pose proof (is_RInt_const a b 0) as J. change (is_RInt (fun _ : R => 0) a b ((b - a) * 0)) in J. now rewrite Rmult_0_r in J.
  - cbn [map Rsum fold_right]. apply (is_RInt_plus (F x) (fun t => Rsum (map (fun x => F x t) l)) a b (v x) (Rsum (map v l))); [apply H; now left|apply IH; intros; apply H; now right].
Qed.
Theorem gauss_exists n : exists rule, gauss_legendre n rule.
Proof.
  destruct (F_roots n n (le_n n)) as (xs & Hl & C & E). pose proof (chain_nodup _ _ _ C) as ND.
  exists (map (fun x => (x, RInt (lagrange xs x) (-1) 1)) xs). split; [rewrite map_length; exact Hl|]. split; [|split].
  - rewrite map_map. cbn [fst]. rewrite map_id. exact ND.
  - intros x w I. apply in_map_iff in I as (y & K & I). injection K as <- <-. split; [now apply (chain_in xs)|]. apply legendre_F. now apply E.
  - intros p Hp. rewrite map_map. cbn [fst snd]. symmetry. apply is_RInt_unique.
    set (r := fun t => Rsum (map (fun x => p x * lagrange xs x t) xs)).
    assert (Hr : polynomial n r). { apply poly_Rsum. intros x I. apply poly_scal. rewrite <- Hl. now apply lagrange_poly. }
    assert (Hd : polynomial (length xs + n) (fun x => p x - r x)). { replace (length xs + n)%nat with (2 * n)%nat by lia. apply poly_minus; [exact Hp|]. apply (poly_mono n); [lia|exact Hr]. }
    destruct (poly_roots xs n _ ND Hd) as (q & Hq & Eq).
    { intros a I. unfold r. rewrite (Rsum_delta _ xs a ND I); [rewrite lagrange_self; ring|]. intros b Ib N. rewrite lagrange_other by (auto; congruence). ring. }
    pose proof (nodal_orth n xs Hl ND E q Hq) as O.
    assert (Ir : is_RInt r (-1) 1 (Rsum (map (fun x => p x * RInt (lagrange xs x) (-1) 1) xs))).
    { apply is_RInt_Rsum. intros x I. apply (is_RInt_scal (lagrange xs x) (-1) 1 (p x)). apply (RInt_correct (lagrange xs x)). apply (poly_ex_RInt n). rewrite <- Hl. now apply lagrange_poly. }
    pose proof (is_RInt_plus _ _ _ _ _ _ Ir O) as S. match type of S with is_RInt _ _ _ ?v => change v with (Rsum (map (fun x => p x * RInt (lagrange xs x) (-1) 1) xs) + 0) in S end. rewrite Rplus_0_r in S.
    apply (is_RInt_ext (fun x => plus (r x) (nodal xs x * q x))); [|exact S]. intros x _. change (r x + nodal xs x * q x = p x). rewrite <- Eq. ring.
Qed.
(** * Weights *)
Lemma gauss_weights n rule : gauss_legendre n rule -> forall x w, In (x, w) rule -> 0 <= w.
Proof.
  intros (Hl & ND & Hx & Hp) x w I. set (xs := map fst rule) in *. assert (Ix : In x xs) by (apply in_map_iff; exists (x, w); split; [reflexivity|exact I]).
  pose proof (lagrange_poly xs x ND Ix) as HL. assert (Hn : length xs = n) by (unfold xs; now rewrite map_length). rewrite Hn in HL. destruct n as [|n]; [destruct rule; [destruct I|discriminate]|].
  assert (HS : polynomial (2 * S n) (fun t => lagrange xs x t * lagrange xs x t)). { apply (poly_mono (S n + n)); [lia|]. now apply poly_mul. }
  specialize (Hp _ HS). cbn beta in Hp. assert (ND' : NoDup rule) by (eapply NoDup_map_inv; exact ND).
  rewrite (Rsum_delta _ rule (x, w) ND' I) in Hp.
  - cbn [fst snd] in Hp. rewrite lagrange_self, !Rmult_1_l in Hp. rewrite Hp. apply RInt_ge_0; [lra|now apply (poly_ex_RInt (2 * S n))|]. intros t _. apply Rle_0_sqr.
  - intros [y v] Iy N. cbn [fst snd]. rewrite lagrange_other; [ring|apply in_map_iff; exists (y, v); split; [reflexivity|exact Iy]|]. intros ->. apply N.
    f_equal. clear -ND Iy I. unfold xs in ND. clear xs. induction rule as [|[a b] rule IH]; [destruct I|]. cbn [map fst] in ND. inversion ND as [|? ? Ha ND']; subst.
    assert (Ho : forall w, In (x, w) rule -> In x (map fst rule)) by (intros w' J; apply in_map_iff; exists (x, w'); split; [reflexivity|exact J]).
    destruct I as [E|I], Iy as [E'|Iy].
    + congruence.
    + injection E as -> ->. exfalso. apply Ha. now apply (Ho v).
    + injection E' as -> ->. exfalso. apply Ha. now apply (Ho w).
    + now apply IH.
Qed.
Lemma gauss_total n rule : (0 < n)%nat -> gauss_legendre n rule -> Rsum (map snd rule) = 2.
Proof.
  intros Hn (_ & _ & _ & Hp). assert (P : polynomial (2 * n) (fun _ => 1)). { replace (2 * n)%nat with (S (2 * n - 1)) by lia. apply (poly_const _ 1). }
  specialize (Hp _ P). rewrite RInt_const in Hp. change (scal (1 - -1) 1) with ((1 - -1) * 1) in Hp. replace 2 with ((1 - -1) * 1) by ring. rewrite <- Hp. apply Rsum_map_ext. intros; ring.
Qed.
