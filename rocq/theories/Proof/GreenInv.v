From Coq Require Import Reals Lra Lia ZArith List Bool.
From Verif Require Import Base.RealAux Base.Dict Base.LinAlg Model.Poly Model.Basis Spec.PolySpec Spec.BasisSpec Proof.PolyProof Proof.PolyMatrix Proof.PolyUnique Proof.BasisProof Proof.GreenProof.
Import ListNotations.
Open Scope R_scope.

(** * Entries of the change of basis matrices *)
Lemma A_impl_entry D func (r c : nat) : (c < (D + 1) * (D + 1))%nat ->
  let '(l, m) := n2lm (Z.of_nat c) in
  (forall k, In k (keys (func l m (Z.of_nat c))) -> valid_ijk k /\ (deg_of k <= Z.of_nat D)%Z) ->
  A_impl (Z.of_nat D) func (Z.of_nat r) (Z.of_nat c) = coef (func l m (Z.of_nat c)) r.
Proof.
  intros Hc. destruct (n2lm (Z.of_nat c)) as [l m] eqn:E. intros Hk. unfold A_impl. cbv zeta. rewrite lm_enum_form, map_map, Rsum_map_seq.
  rewrite (bigsum_single _ c); [| exact Hc |].
  - cbv beta. rewrite Nat.add_0_l, E, Z.eqb_refl. apply column_entry_coef. intros k Hi. destruct (Hk k Hi) as [Hv Hd]. split; [exact Hv|]. destruct k as [[? ?] ?]. now apply idx_lt_degree.
  - intros i Hi Hne. rewrite Nat.add_0_l. destruct (n2lm (Z.of_nat i)). destruct (Z.eqb_spec (Z.of_nat i) (Z.of_nat c)); [lia|reflexivity].
Qed.

(** * gtilde only has monomials of degree at most l *)
Lemma gtilde_keys l nu k : (nu <= 2 * l)%nat -> In k (keys (gtilde (Z.of_nat (l * l + nu)))) -> valid_ijk k /\ (deg_of k <= Z.of_nat l)%Z.
Proof.
  intros Hnu. destruct (gcase_all l nu Hnu) as [i j| |h Hh|h Hh|a b].
  - rewrite gt_even. cbn. intros [<-|[]]. unfold valid_ijk, deg_of. lia.
  - change (Z.of_nat (1 * 1 + 1)) with 2%Z. rewrite gt_10. cbn [keys map fst In]. intros [<-|[]]. unfold valid_ijk, deg_of. lia.
  - rewrite gt_mu1_even by exact Hh. cbn [keys map fst In]. intros [<-|[]]. unfold valid_ijk, deg_of. lia.
  - rewrite gt_mu1_odd by exact Hh. cbn [keys map fst In]. intros [<-|[<-|[<-|[]]]]; unfold valid_ijk, deg_of; lia.
  - destruct a as [|a].
    + rewrite Nat.add_0_l, gt_gen0. cbn [keys map fst In]. intros [<-|[]]. unfold valid_ijk, deg_of. lia.
    + rewrite gt_gen by lia. cbn [keys map fst In]. intros [<-|[<-|[<-|[]]]]; unfold valid_ijk, deg_of; lia.
Qed.
Lemma slot_le l nu D : (nu <= 2 * l)%nat -> (l * l + nu < (D + 1) * (D + 1))%nat -> (l <= D)%nat.
Proof. intros H H'. nia. Qed.
Lemma A2_inv_entry D r c : (c < (D + 1) * (D + 1))%nat -> A2_inv (Z.of_nat D) (Z.of_nat r) (Z.of_nat c) = coef (gtilde (Z.of_nat c)) r.
Proof.
  intros Hc. unfold A2_inv. pose proof (A_impl_entry D (fun _ _ n => gtilde n) r c Hc) as H. destruct (n2lm (Z.of_nat c)) as [l m]. apply H.
  intros k Hk. destruct (slot_decomp D c Hc) as (l' & nu & Hl & Hnu & ->). destruct (gtilde_keys l' nu k Hnu Hk). split; [assumption|lia].
Qed.

(** * Spanning *)
Section Span.
Variable D : nat.
Let N := ((D + 1) * (D + 1))%nat.
Definition Sp (v : nat -> R) : Prop := exists c, forall r, (r < N)%nat -> bigsum N (fun n => A2_inv (Z.of_nat D) (Z.of_nat r) (Z.of_nat n) * c n) = v r.
Definition ev (i j k : nat) : nat -> R := coef [((Z.of_nat i, Z.of_nat j, Z.of_nat k), 1)].
Lemma Sp_lin v w u a b : Sp v -> Sp w -> (forall r, u r = a * v r + b * w r) -> Sp u.
Proof.
  intros (c & Hc) (d & Hd) H. exists (fun n => a * c n + b * d n). intros r Hr. rewrite H, <- (Hc r Hr), <- (Hd r Hr), <- !bigsum_scal, <- bigsum_plus.
  apply bigsum_ext. intros; ring.
Qed.
Lemma Sp_col l nu : (nu <= 2 * l)%nat -> (l <= D)%nat -> Sp (coef (gtilde (Z.of_nat (l * l + nu)))).
Proof.
  intros Hnu Hl. assert (Hn : (l * l + nu < N)%nat) by (unfold N; nia).
  exists (fun n => if Nat.eqb n (l * l + nu) then 1 else 0). intros r Hr. rewrite (bigsum_single _ (l * l + nu)%nat); [|exact Hn|].
  - rewrite Nat.eqb_refl, A2_inv_entry by exact Hn. ring.
  - intros i _ Hi. destruct (Nat.eqb_spec i (l * l + nu)); [contradiction|ring].
Qed.
Lemma coef1 i j k v r : coef [((Z.of_nat i, Z.of_nat j, Z.of_nat k), v)] r = v * ev i j k r.
Proof. unfold ev, coef, Rsum. cbn [map fold_right fst snd]. destruct (Z.eqb _ _); ring. Qed.
Lemma coef_cons p v e d r : coef ((p, v) :: e :: d) r = coef [(p, v)] r + coef (e :: d) r.
Proof. unfold coef, Rsum. cbn [map fold_right]. ring. Qed.
Lemma Sp_scal v u a : a <> 0 -> Sp v -> (forall r, v r = a * u r) -> Sp u.
Proof. intros Ha Hv H. apply (Sp_lin v v u (/ a) 0 Hv Hv). intros r. rewrite H. field. exact Ha. Qed.
Lemma Sp_even i j : (i + j <= D)%nat -> Sp (ev i j 0).
Proof.
  intros H. apply (Sp_scal (coef (gtilde (Z.of_nat ((i + j) * (i + j) + 2 * j)))) _ (INR (i + 1))).
  - apply not_0_INR. lia.
  - apply Sp_col; lia.
  - intros r. rewrite gt_even. apply (coef1 i j 0).
Qed.
(** a e(a-1,b+2) + (a+3) e(a+1,b) is in the span, given the lower total degrees *)
Lemma Sp_pair s a b : (s + 1 <= D)%nat -> (a + b + 1 = s)%nat -> (1 <= a)%nat -> (forall i j, (i + j < s)%nat -> Sp (ev i j 1)) ->
  Sp (fun r => INR a * ev (a - 1) (b + 2) 1 r + INR (a + 3) * ev (a + 1) b 1 r).
Proof.
  intros Hs Hab Ha Hlow.
  apply (Sp_lin (coef (gtilde (Z.of_nat ((a + b + 2) * (a + b + 2) + (2 * b + 1))))) (ev (a - 1) b 1) _ (-1) (INR a)).
  - apply Sp_col; lia.
  - apply Hlow. lia.
  - intros r. rewrite gt_gen by exact Ha. rewrite !coef_cons, (coef1 (a - 1) b 1), (coef1 (a - 1) (b + 2) 1), (coef1 (a + 1) b 1).
    ring.
Qed.
Lemma Sp_odd_col s : (s + 1 <= D)%nat -> (forall i j, (i + j < s)%nat -> Sp (ev i j 1)) -> forall h j, (2 * h + 1 + j = s)%nat -> Sp (ev (2 * h + 1) j 1).
Proof.
  intros Hs Hlow. induction h as [|h IH]; intros j Hj.
  - apply (Sp_scal (coef (gtilde (Z.of_nat ((j + 2) * (j + 2) + (2 * j + 1))))) _ (-3)); [lra|apply Sp_col; lia|].
    intros r. rewrite gt_gen0. apply (coef1 1 j 1).
  - apply (Sp_lin _ _ _ (/ INR (2 * h + 2 + 3)) (- (INR (2 * h + 2) / INR (2 * h + 2 + 3))) (Sp_pair s (2 * h + 2) j Hs ltac:(lia) ltac:(lia) Hlow) (IH (j + 2)%nat ltac:(lia))).
    intros r. replace (2 * h + 2 - 1)%nat with (2 * h + 1)%nat by lia. replace (2 * S h + 1)%nat with (2 * h + 2 + 1)%nat by lia. field. apply not_0_INR. lia.
Qed.
(** downward chain *)
Lemma Sp_down s : (s + 1 <= D)%nat -> (forall i j, (i + j < s)%nat -> Sp (ev i j 1)) ->
  forall t i j, (i + 2 * t + j = s)%nat -> Sp (ev (i + 2 * t) j 1) -> Sp (ev i (j + 2 * t) 1).
Proof.
  intros Hs Hlow. induction t as [|t IH]; intros i j Hij H.
  - now rewrite Nat.mul_0_r, Nat.add_0_r in *.
  - replace (j + 2 * S t)%nat with (j + 2 + 2 * t)%nat by lia. apply IH; [lia|].
    pose proof (Sp_pair s (i + 2 * t + 1) j Hs ltac:(lia) ltac:(lia) Hlow) as P.
    replace (i + 2 * S t)%nat with (i + 2 * t + 1 + 1)%nat in H by lia.
    apply (Sp_lin _ _ _ (/ INR (i + 2 * t + 1)) (- (INR (i + 2 * t + 1 + 3) / INR (i + 2 * t + 1))) P H).
    intros r. replace (i + 2 * t + 1 - 1)%nat with (i + 2 * t)%nat by lia. field. apply not_0_INR. lia.
Qed.
Lemma Sp_odd s : forall i j, (i + j = s)%nat -> (s + 1 <= D)%nat -> Sp (ev i j 1).
Proof.
  induction s as [s IHs] using lt_wf_ind. intros i j Hij Hs.
  assert (Hlow : forall i j, (i + j < s)%nat -> Sp (ev i j 1)) by (intros; eapply IHs; [|reflexivity|]; lia).
  destruct (Nat.Even_or_Odd i) as [[h ->]|[h ->]]; [|now apply (Sp_odd_col s Hs Hlow)].
  destruct (Nat.Even_or_Odd s) as [[q Hq]|[q Hq]].
  - destruct (Nat.eq_dec q 0) as [->|Hq0].
    + assert (h = 0%nat) by lia. assert (j = 0%nat) by lia. subst h j. change (2 * 0)%nat with 0%nat.
      apply (Sp_scal (coef (gtilde (Z.of_nat (1 * 1 + 1)))) _ 1); [lra|apply Sp_col; lia|]. intros r. change (Z.of_nat (1 * 1 + 1)) with 2%Z. rewrite gt_10. apply (coef1 0 0 1).
    + (* s = 2 q, l = 2 q + 1 *)
      pose proof (Sp_pair s (2 * q - 1) 0 Hs ltac:(lia) ltac:(lia) Hlow) as P.
      replace (2 * q - 1 - 1)%nat with (2 * q - 2)%nat in P by lia. replace (2 * q - 1 + 1)%nat with (2 * q)%nat in P by lia. rewrite Nat.add_0_l in P.
      assert (Q : Sp (fun r => ev (2 * q) 0 1 r + 4 * ev (2 * q - 2) 2 1 r)).
      { apply (Sp_lin (coef (gtilde (Z.of_nat ((2 * q + 1) * (2 * q + 1) + (4 * q + 1))))) (ev (2 * q - 2) 0 1) _ 1 1); [apply Sp_col; lia|apply Hlow; lia|].
        intros r. rewrite gt_mu1_odd by lia. rewrite !coef_cons, (coef1 (2 * q - 2) 0 1), (coef1 (2 * q) 0 1), (coef1 (2 * q - 2) 2 1). ring. }
      assert (E2 : Sp (ev (2 * q - 2) 2 1)).
      { apply (Sp_scal (fun r => INR (6 * q + 9) * ev (2 * q - 2) 2 1 r) _ (INR (6 * q + 9))); [apply not_0_INR; lia| |reflexivity].
        apply (Sp_lin _ _ _ (INR (2 * q + 2)) (-1) Q P). intros r. replace (2 * q - 1 + 3)%nat with (2 * q + 2)%nat by lia.
        rewrite minus_INR by lia. rewrite !plus_INR, !mult_INR. simpl INR. ring. }
      assert (E0 : Sp (ev (2 * q) 0 1)) by (apply (Sp_lin _ _ _ 1 (-4) Q E2); intros r; ring).
      replace j with (0 + 2 * (q - h))%nat by lia. apply (Sp_down s Hs Hlow); [lia|]. now replace (2 * h + 2 * (q - h))%nat with (2 * q)%nat by lia.
  - (* s = 2 q + 1, l = 2 (q + 1) *)
    assert (E : Sp (ev (2 * q) 1 1)).
    { apply (Sp_scal (coef (gtilde (Z.of_nat (2 * (q + 1) * (2 * (q + 1)) + (4 * (q + 1) - 1))))) _ 3); [lra|apply Sp_col; lia|].
      intros r. rewrite gt_mu1_even by lia. replace (2 * (q + 1) - 2)%nat with (2 * q)%nat by lia. apply (coef1 (2 * q) 1 1). }
    replace j with (1 + 2 * (q - h))%nat by lia. apply (Sp_down s Hs Hlow); [lia|]. now replace (2 * h + 2 * (q - h))%nat with (2 * q)%nat by lia.
Qed.
Lemma Sp_unit n : (n < N)%nat -> Sp (fun r => if Nat.eqb r n then 1 else 0).
Proof.
  intros Hn. pose proof (idx_n2ijk (Z.of_nat n) ltac:(lia)) as Hi. pose proof (n2ijk_valid (Z.of_nat n) ltac:(lia)) as Hv.
  destruct (n2ijk (Z.of_nat n)) as [[i j] k]. destruct Hv as (H1 & H2 & H3).
  assert (Hd : (i + j + k <= Z.of_nat D)%Z). { unfold idx, lm2n in Hi. unfold N in Hn. nia. }
  assert (S1 : Sp (ev (Z.to_nat i) (Z.to_nat j) (Z.to_nat k))).
  { destruct H3 as [-> | ->]; [apply Sp_even; lia|]. apply (Sp_odd (Z.to_nat i + Z.to_nat j)); lia. }
  apply (Sp_scal _ _ 1 ltac:(lra) S1). intros r. unfold ev, coef, Rsum. cbn [map fold_right fst snd]. rewrite !Z2Nat.id, Hi by lia.
  destruct (Z.eqb_spec (Z.of_nat n) (Z.of_nat r)), (Nat.eqb_spec r n); try lia; ring.
Qed.
Lemma Sp_all v : Sp v.
Proof.
  assert (H : forall M, (M <= N)%nat -> Sp (fun r => if Nat.ltb r M then v r else 0)).
  { induction M as [|M IH]; intros HM.
    - exists (fun _ => 0). intros r _. rewrite bigsum_zero_ext; [reflexivity|]. intros; ring.
    - apply (Sp_lin _ _ _ 1 (v M) (IH ltac:(lia)) (Sp_unit M ltac:(lia))). intros r.
      destruct (Nat.ltb_spec r M), (Nat.ltb_spec r (S M)), (Nat.eqb_spec r M); subst; try lia; ring. }
  destruct (H N (le_n _)) as (c & Hc). exists c. intros r Hr. rewrite (Hc r Hr). destruct (Nat.ltb_spec r N); [reflexivity|lia].
Qed.
Lemma A2_inv_injective c : (forall r, (r < N)%nat -> bigsum N (fun n => A2_inv (Z.of_nat D) (Z.of_nat r) (Z.of_nat n) * c n) = 0) -> forall n, (n < N)%nat -> c n = 0.
Proof. intros H. apply (span_injective N (fun r n => A2_inv (Z.of_nat D) (Z.of_nat r) (Z.of_nat n))); [|exact H]. apply Sp_all. Qed.
End Span.

(** the polynomial with Green coefficients g, evaluated, is the combination of the gtilde *)
Lemma gtilde_dict_eval (l nu : nat) x y z : dict_eval (gtilde (Z.of_nat (l * l + nu))) x y z = dsum (fun k => mono k x y z) (gtilde (Z.of_nat (l * l + nu))).
Proof. apply dict_eval_dsum. Qed.
Lemma dense_eval_sum (D M : nat) (f : nat -> nat -> R) (g : nat -> R) x y z :
  dense_eval D (fun r => bigsum M (fun n => f r n * g n)) x y z = bigsum M (fun n => g n * dense_eval D (fun r => f r n) x y z).
Proof.
  rewrite dense_eval_flat. rewrite (bigsum_ext _ _ (fun r => bigsum M (fun n => g n * (f r n * mono (n2ijk (Z.of_nat r)) x y z)))).
  - rewrite bigsum_swap. apply bigsum_ext. intros n _. rewrite dense_eval_flat, <- bigsum_scal. reflexivity.
  - intros r _. rewrite Rmult_comm, <- bigsum_scal. apply bigsum_ext. intros; ring.
Qed.
Lemma A2_inv_eval D g x y z : let N := ((D + 1) * (D + 1))%nat in
  dense_eval D (fun r => bigsum N (fun n => A2_inv (Z.of_nat D) (Z.of_nat r) (Z.of_nat n) * g n)) x y z =
  bigsum (S D) (fun l => bigsum (2 * l + 1) (fun nu => g (l * l + nu)%nat * dict_eval (gtilde (Z.of_nat (l * l + nu))) x y z)).
Proof.
  cbv zeta. rewrite dense_eval_sum, <- (bigsum_square D (fun n => g n * dict_eval (gtilde (Z.of_nat n)) x y z)). apply bigsum_ext. intros n Hn. f_equal.
  destruct (slot_decomp D n Hn) as (l & nu & Hl & Hnu & ->). rewrite <- (dense_of_coef D).
  - rewrite !dense_eval_flat. apply bigsum_ext. intros r _. now rewrite A2_inv_entry by exact Hn.
  - intros k Hk. destruct (gtilde_keys l nu k Hnu Hk) as [Hv Hd]. split; [exact Hv|]. destruct k as [[i j] k].
    assert (Hd' : (i + j + k <= Z.of_nat D)%Z) by (unfold deg_of in Hd; lia). pose proof (idx_lt_degree (i, j, k) (Z.of_nat D) Hv Hd'). nia.
Qed.
From Coquelicot Require Import Coquelicot.
Lemma is_derive_bigsum n (f : nat -> R -> R) (d : nat -> R) x : (forall i, (i < n)%nat -> is_derive (f i) x (d i)) ->
  is_derive (fun t : R => bigsum n (fun i => f i t)) x (bigsum n d).
Proof.
  induction n as [|n IH]; intros H; cbn [bigsum]; [apply deriv_const|].
  apply (is_derive_plus (fun t : R => bigsum n (fun i => f i t)) (f n)); [apply IH; intros; apply H; lia|apply H; lia].
Qed.
Lemma deriv_scal_l (f : R -> R) (c x a : R) : is_derive f x a -> is_derive (fun t : R => c * f t) x (c * a).
Proof. intros Hf. exact (is_derive_scal f x c a Hf). Qed.
Lemma bigsum_minus' n f g : bigsum n f - bigsum n g = bigsum n (fun i => f i - g i).
Proof. induction n as [|n IH]; cbn [bigsum]; lra. Qed.
Lemma green_combination_curl D g x y : in_disk x y -> 0 < x ^ 2 + y ^ 2 ->
  is_curl (green_combination D g) x y
    (dense_eval D (fun r => bigsum ((D + 1) * (D + 1)) (fun n => A2_inv (Z.of_nat D) (Z.of_nat r) (Z.of_nat n) * g n)) x y (zdisk x y)).
Proof.
  intros Hd H0.
  assert (H : forall l nu, exists ab : R * R, (nu <= 2 * l)%nat -> is_derive (fun t : R => snd (green_field l nu t y)) x (fst ab) /\
            is_derive (fun t : R => fst (green_field l nu x t)) y (snd ab) /\ dict_eval (gtilde (Z.of_nat (l * l + nu))) x y (zdisk x y) = fst ab - snd ab).
  { intros l nu. destruct (le_dec nu (2 * l)) as [Hnu|]; [|exists (0, 0); intros; contradiction].
    destruct (green_curl l nu x y Hnu Hd ltac:(intros; exact H0)) as (a & b & Ha & Hb & E). exists (a, b). auto. }
  assert (H' : exists F : nat -> nat -> R * R, forall l nu, (nu <= 2 * l)%nat -> is_derive (fun t : R => snd (green_field l nu t y)) x (fst (F l nu)) /\
            is_derive (fun t : R => fst (green_field l nu x t)) y (snd (F l nu)) /\ dict_eval (gtilde (Z.of_nat (l * l + nu))) x y (zdisk x y) = fst (F l nu) - snd (F l nu)).
  { exists (fun l nu => (Derive (fun t : R => snd (green_field l nu t y)) x, Derive (fun t : R => fst (green_field l nu x t)) y)).
    intros l nu Hnu. destruct (H l nu) as ([a b] & Hab). destruct (Hab Hnu) as (Ha & Hb & E). cbn [fst snd] in *.
    rewrite (is_derive_unique _ _ _ Ha), (is_derive_unique _ _ _ Hb). auto. }
  destruct H' as (F & HF). unfold is_curl, green_combination. cbn [fst snd].
  exists (bigsum (S D) (fun l => bigsum (2 * l + 1) (fun nu => g (l * l + nu)%nat * fst (F l nu)))).
  exists (bigsum (S D) (fun l => bigsum (2 * l + 1) (fun nu => g (l * l + nu)%nat * snd (F l nu)))).
  split; [|split].
  - apply (is_derive_bigsum (S D) (fun l t => bigsum (2 * l + 1) (fun nu => g (l * l + nu)%nat * snd (green_field l nu t y)))). intros l _.
    apply (is_derive_bigsum (2 * l + 1) (fun nu t => g (l * l + nu)%nat * snd (green_field l nu t y))). intros nu Hnu. apply deriv_scal_l. apply (HF l nu). lia.
  - apply (is_derive_bigsum (S D) (fun l t => bigsum (2 * l + 1) (fun nu => g (l * l + nu)%nat * fst (green_field l nu x t)))). intros l _.
    apply (is_derive_bigsum (2 * l + 1) (fun nu t => g (l * l + nu)%nat * fst (green_field l nu x t))). intros nu Hnu. apply deriv_scal_l. apply (HF l nu). lia.
  - rewrite A2_inv_eval, bigsum_minus'. apply bigsum_ext. intros l _. rewrite bigsum_minus'. apply bigsum_ext. intros nu Hnu.
    destruct (HF l nu ltac:(lia)) as (_ & _ & ->). ring.
Qed.
