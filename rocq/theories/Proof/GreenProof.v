From Coq Require Import Reals Lra Lia ZArith List Bool.
From Coquelicot Require Import Coquelicot.
From Verif Require Import Base.RealAux Base.Dict Base.LinAlg Model.Poly Model.Basis Spec.PolySpec Spec.BasisSpec Proof.PolyProof Proof.PolyMatrix Proof.PolyUnique Proof.BasisProof.
Import ListNotations.
Open Scope R_scope.

(** * Closed form of gtilde *)
Definition gterms (l nu : Z) : list (ijk * Z) :=
  let mu := (2 * l - nu)%Z in
    if (nu mod 2 =? 0)%Z then [((mu / 2, nu / 2, 0)%Z, ((mu + 2) / 2)%Z)]
    else if ((l =? 1) && (nu =? 1))%Z%bool then [((0, 0, 1)%Z, 1%Z)]
    else if ((mu =? 1) && (l mod 2 =? 0))%Z%bool then [((l - 2, 1, 1)%Z, 3%Z)]
    else if (mu =? 1)%Z then
      [((l - 3, 0, 1)%Z, (-1)%Z); ((l - 1, 0, 1)%Z, 1%Z); ((l - 3, 2, 1)%Z, 4%Z)]
    else
      [(((mu - 5) / 2, (nu - 1) / 2, 1)%Z, ((mu - 3) / 2)%Z);
       (((mu - 5) / 2, (nu + 3) / 2, 1)%Z, ((- (mu - 3)) / 2)%Z);
       (((mu - 1) / 2, (nu - 1) / 2, 1)%Z, ((- (mu + 3)) / 2)%Z)].
Definition gfold (t : list (ijk * Z)) : list (ijk * R) :=
  fold_left (fun res e => if (snd e =? 0)%Z then res else dset ijk_eqb (fst e) (IZR (snd e)) res) t [].
Lemma gtilde_unfold l nu : (nu <= 2 * l)%nat -> gtilde (Z.of_nat (l * l + nu)) = gfold (gterms (Z.of_nat l) (Z.of_nat nu)).
Proof.
  intros H. unfold gtilde.
  replace (Z.sqrt (Z.of_nat (l * l + nu))) with (Z.of_nat l) by (symmetry; apply Z.sqrt_unique; lia).
  cbv zeta. replace (Z.of_nat (l * l + nu) - Z.of_nat l * Z.of_nat l - Z.of_nat l)%Z with (Z.of_nat nu - Z.of_nat l)%Z by lia.
  replace (Z.of_nat l + (Z.of_nat nu - Z.of_nat l))%Z with (Z.of_nat nu) by lia.
  replace (Z.of_nat l - (Z.of_nat nu - Z.of_nat l))%Z with (2 * Z.of_nat l - Z.of_nat nu)%Z by lia.
  unfold gfold, gterms. cbv zeta.
  replace ((Z.of_nat l =? 1) && (Z.of_nat nu - Z.of_nat l =? 0))%Z%bool with ((Z.of_nat l =? 1) && (Z.of_nat nu =? 1))%Z%bool; [reflexivity|].
  destruct (Z.eqb_spec (Z.of_nat l) 1); [|reflexivity]. cbn [andb]. destruct (Z.eqb_spec (Z.of_nat nu) 1), (Z.eqb_spec (Z.of_nat nu - Z.of_nat l) 0); try reflexivity; lia.
Qed.
Lemma zdiv2 a : (2 * a / 2 = a)%Z.
Proof. rewrite Z.mul_comm. apply Z.div_mul. lia. Qed.
Lemma zmod2_even a : ((2 * a) mod 2 = 0)%Z.
Proof. rewrite Z.mul_comm. apply Z.mod_mul. lia. Qed.
Lemma zmod2_odd a : ((2 * a + 1) mod 2 = 1)%Z.
Proof. rewrite Z.add_comm, Z.mul_comm, Z.mod_add by lia. reflexivity. Qed.
Lemma ijk_neqb i j k i' j' k' : (i <> i' \/ j <> j' \/ k <> k')%Z -> ijk_eqb (i, j, k) (i', j', k') = false.
Proof.
  intros H. destruct (ijk_eqb (i, j, k) (i', j', k')) eqn:E; [|reflexivity]. apply ijk_eqb_eq in E. injection E as -> -> ->. lia.
Qed.
Lemma gt_even (i j : nat) : gtilde (Z.of_nat ((i + j) * (i + j) + 2 * j)) = [((Z.of_nat i, Z.of_nat j, 0%Z), INR (i + 1))].
Proof.
  rewrite gtilde_unfold by lia. unfold gterms. cbv zeta.
  replace (Z.of_nat (2 * j)) with (2 * Z.of_nat j)%Z by lia. rewrite zmod2_even. cbn [Z.eqb].
  replace (2 * Z.of_nat (i + j) - 2 * Z.of_nat j)%Z with (2 * Z.of_nat i)%Z by lia.
  replace (2 * Z.of_nat i + 2)%Z with (2 * (Z.of_nat i + 1))%Z by lia. rewrite !zdiv2. unfold gfold. cbn [fold_left fst snd].
  destruct (Z.eqb_spec (Z.of_nat i + 1) 0); [lia|]. cbn. rewrite INR_IZR_INZ. repeat f_equal. lia.
Qed.
Lemma gt_10 : gtilde 2 = [((0, 0, 1)%Z, 1)].
Proof. reflexivity. Qed.
(** l = 2 h, mu = 1 *)
Lemma gt_mu1_even (h : nat) : (1 <= h)%nat -> gtilde (Z.of_nat (2 * h * (2 * h) + (4 * h - 1))) = [((Z.of_nat (2 * h - 2), 1, 1)%Z, 3)].
Proof.
  intros Hh. rewrite gtilde_unfold by lia. unfold gterms. cbv zeta.
  replace (Z.of_nat (4 * h - 1)) with (2 * (2 * Z.of_nat h - 1) + 1)%Z by lia. rewrite zmod2_odd. change (1 =? 0)%Z with false. cbv iota.
  destruct (Z.eqb_spec (Z.of_nat (2 * h)) 1); [lia|]. cbn [andb].
  replace (2 * Z.of_nat (2 * h) - (2 * (2 * Z.of_nat h - 1) + 1))%Z with 1%Z by lia.
  replace (Z.of_nat (2 * h) mod 2)%Z with 0%Z by (replace (Z.of_nat (2 * h)) with (2 * Z.of_nat h)%Z by lia; now rewrite zmod2_even).
  cbn [Z.eqb Pos.eqb andb]. unfold gfold. cbn. repeat f_equal. lia.
Qed.
(** l = 2 h + 1, mu = 1 *)
Lemma gt_mu1_odd (h : nat) : (1 <= h)%nat -> gtilde (Z.of_nat ((2 * h + 1) * (2 * h + 1) + (4 * h + 1))) =
  [((Z.of_nat (2 * h - 2), 0, 1)%Z, -1); ((Z.of_nat (2 * h), 0, 1)%Z, 1); ((Z.of_nat (2 * h - 2), 2, 1)%Z, 4)].
Proof.
  intros Hh. rewrite gtilde_unfold by lia. unfold gterms. cbv zeta.
  replace (Z.of_nat (4 * h + 1)) with (2 * (2 * Z.of_nat h) + 1)%Z by lia. rewrite zmod2_odd. change (1 =? 0)%Z with false. cbv iota.
  destruct (Z.eqb_spec (Z.of_nat (2 * h + 1)) 1); [lia|]. cbn [andb].
  replace (2 * Z.of_nat (2 * h + 1) - (2 * (2 * Z.of_nat h) + 1))%Z with 1%Z by lia.
  replace (Z.of_nat (2 * h + 1) mod 2)%Z with 1%Z by (replace (Z.of_nat (2 * h + 1)) with (2 * Z.of_nat h + 1)%Z by lia; now rewrite zmod2_odd).
  cbn [Z.eqb Pos.eqb andb]. replace (Z.of_nat (2 * h + 1) - 3)%Z with (Z.of_nat (2 * h - 2)) by lia. replace (Z.of_nat (2 * h + 1) - 1)%Z with (Z.of_nat (2 * h)) by lia.
  unfold gfold. cbn [fold_left fst snd Z.eqb]. unfold dset. cbn [dupd].
  rewrite (ijk_neqb (Z.of_nat (2 * h)) 0 1 (Z.of_nat (2 * h - 2)) 0 1) by lia. cbn [dupd].
  rewrite (ijk_neqb (Z.of_nat (2 * h - 2)) 2 1 (Z.of_nat (2 * h - 2)) 0 1) by lia.
  rewrite (ijk_neqb (Z.of_nat (2 * h - 2)) 2 1 (Z.of_nat (2 * h)) 0 1) by lia. reflexivity.
Qed.
(** generic odd case: mu = 2 a + 3, nu = 2 b + 1 *)
Lemma gt_gen0 (b : nat) : gtilde (Z.of_nat ((b + 2) * (b + 2) + (2 * b + 1))) = [((1, Z.of_nat b, 1)%Z, -3)].
Proof.
  rewrite gtilde_unfold by lia. unfold gterms. cbv zeta.
  replace (Z.of_nat (2 * b + 1)) with (2 * (Z.of_nat b) + 1)%Z by lia. rewrite zmod2_odd. change (1 =? 0)%Z with false. cbv iota.
  destruct (Z.eqb_spec (Z.of_nat (b + 2)) 1); [lia|]. cbn [andb].
  replace (2 * Z.of_nat (b + 2) - (2 * Z.of_nat b + 1))%Z with 3%Z by lia. change (3 =? 1)%Z with false. cbn [andb]. cbv iota.
  change ((3 - 3) / 2)%Z with 0%Z. change (- (3 - 3) / 2)%Z with 0%Z. change (- (3 + 3) / 2)%Z with (-3)%Z. change ((3 - 1) / 2)%Z with 1%Z.
  replace (2 * Z.of_nat b + 1 - 1)%Z with (2 * Z.of_nat b)%Z by lia. rewrite zdiv2. reflexivity.
Qed.
Lemma gt_gen (a b : nat) : (1 <= a)%nat -> gtilde (Z.of_nat ((a + b + 2) * (a + b + 2) + (2 * b + 1))) =
  [((Z.of_nat (a - 1), Z.of_nat b, 1)%Z, INR a); ((Z.of_nat (a - 1), Z.of_nat (b + 2), 1)%Z, - INR a); ((Z.of_nat (a + 1), Z.of_nat b, 1)%Z, - INR (a + 3))].
Proof.
  intros Ha. rewrite gtilde_unfold by lia. unfold gterms. cbv zeta.
  replace (Z.of_nat (2 * b + 1)) with (2 * (Z.of_nat b) + 1)%Z by lia. rewrite zmod2_odd. change (1 =? 0)%Z with false. cbv iota.
  destruct (Z.eqb_spec (Z.of_nat (a + b + 2)) 1); [lia|]. cbn [andb].
  replace (2 * Z.of_nat (a + b + 2) - (2 * Z.of_nat b + 1))%Z with (2 * Z.of_nat a + 3)%Z by lia.
  destruct (Z.eqb_spec (2 * Z.of_nat a + 3) 1); [lia|]. cbn [andb].
  replace (2 * Z.of_nat a + 3 - 5)%Z with (2 * Z.of_nat (a - 1))%Z by lia. replace (2 * Z.of_nat b + 1 - 1)%Z with (2 * Z.of_nat b)%Z by lia.
  replace (2 * Z.of_nat b + 1 + 3)%Z with (2 * Z.of_nat (b + 2))%Z by lia. replace (2 * Z.of_nat a + 3 - 1)%Z with (2 * Z.of_nat (a + 1))%Z by lia.
  replace (2 * Z.of_nat a + 3 - 3)%Z with (2 * Z.of_nat a)%Z by lia. replace (- (2 * Z.of_nat a))%Z with (2 * - Z.of_nat a)%Z by lia.
  replace (- (2 * Z.of_nat a + 3 + 3))%Z with (2 * - Z.of_nat (a + 3))%Z by lia. rewrite !zdiv2.
  unfold gfold. cbn [fold_left fst snd].
  destruct (Z.eqb_spec (Z.of_nat a) 0); [lia|]. destruct (Z.eqb_spec (- Z.of_nat a) 0); [lia|]. destruct (Z.eqb_spec (- Z.of_nat (a + 3)) 0); [lia|].
  unfold dset. cbn [dupd].
  rewrite (ijk_neqb (Z.of_nat (a - 1)) (Z.of_nat (b + 2)) 1 (Z.of_nat (a - 1)) (Z.of_nat b) 1) by lia. cbn [dupd].
  rewrite (ijk_neqb (Z.of_nat (a + 1)) (Z.of_nat b) 1 (Z.of_nat (a - 1)) (Z.of_nat b) 1) by lia.
  rewrite (ijk_neqb (Z.of_nat (a + 1)) (Z.of_nat b) 1 (Z.of_nat (a - 1)) (Z.of_nat (b + 2)) 1) by lia.
  rewrite !opp_IZR, <- !INR_IZR_INZ. reflexivity.
Qed.
(** the five cases cover every slot *)
Inductive gcase : nat -> nat -> Prop :=
| GEven i j : gcase (i + j) (2 * j)
| G10 : gcase 1 1
| GMu1e h : (1 <= h)%nat -> gcase (2 * h) (4 * h - 1)
| GMu1o h : (1 <= h)%nat -> gcase (2 * h + 1) (4 * h + 1)
| GGen a b : gcase (a + b + 2) (2 * b + 1).
Lemma gcase_all l nu : (nu <= 2 * l)%nat -> gcase l nu.
Proof.
  intros H. destruct (Nat.Even_or_Odd nu) as [[h ->]|[b ->]].
  - replace l with ((l - h) + h)%nat by lia. constructor.
  - destruct (Nat.eq_dec (2 * b + 1) (2 * l - 1)) as [E|E].
    + destruct (Nat.eq_dec l 1) as [->|H1]; [replace (2 * b + 1)%nat with 1%nat by lia; constructor|].
      destruct (Nat.Even_or_Odd l) as [[h ->]|[h ->]].
      * replace (2 * b + 1)%nat with (4 * h - 1)%nat by lia. constructor. lia.
      * replace (2 * b + 1)%nat with (4 * h + 1)%nat by lia. constructor. lia.
    + replace l with ((l - b - 2) + b + 2)%nat by lia. constructor.
Qed.

(** * Curl *)
Lemma zdisk_pos x y : in_disk x y -> 0 < zdisk x y.
Proof. unfold in_disk, zdisk. intros H. apply sqrt_lt_R0. lra. Qed.
Lemma zdisk_sq x y : in_disk x y -> zdisk x y ^ 2 = 1 - x ^ 2 - y ^ 2.
Proof. unfold in_disk, zdisk. intros H. rewrite pow2_sqrt; lra. Qed.
Lemma zdisk_sphere x y : in_disk x y -> on_sphere x y (zdisk x y).
Proof. intros H. unfold on_sphere. rewrite zdisk_sq by exact H. ring. Qed.
Lemma zdisk_sym x y : zdisk x y = zdisk y x.
Proof. unfold zdisk. f_equal. ring. Qed.
Lemma zdisk_dx x y : in_disk x y -> is_derive (fun t : R => zdisk t y) x (- x / zdisk x y).
Proof.
  intros H. pose proof (zdisk_pos x y H) as Hp. unfold zdisk in *. auto_derive.
  - unfold in_disk in H. simpl in H. lra.
  - simpl. replace (1 + - (x * (x * 1)) + - (y * (y * 1))) with (1 - x * (x * 1) - y * (y * 1)) by ring. simpl in Hp. field. lra.
Qed.
Lemma zdisk_dy x y : in_disk x y -> is_derive (fun t : R => zdisk x t) y (- y / zdisk x y).
Proof.
  intros H. eapply is_derive_ext; [intros t; apply zdisk_sym|]. rewrite (zdisk_sym x y). apply zdisk_dx. unfold in_disk in *. lra.
Qed.
Lemma z3_dx x y : in_disk x y -> is_derive (fun t : R => zdisk t y ^ 3) x (- 3 * x * zdisk x y).
Proof.
  intros H. pose proof (zdisk_pos x y H) as Hp. evar_last.
  - apply is_derive_pow. now apply zdisk_dx.
  - simpl. field. lra.
Qed.
Lemma z3_dy x y : in_disk x y -> is_derive (fun t : R => zdisk x t ^ 3) y (- 3 * y * zdisk x y).
Proof.
  intros H. pose proof (zdisk_pos x y H) as Hp. evar_last.
  - apply is_derive_pow. now apply zdisk_dy.
  - simpl. field. lra.
Qed.
Lemma pow_d (n : nat) (x : R) : is_derive (fun t : R => t ^ n) x (INR n * x ^ pred n).
Proof. evar_last; [apply is_derive_pow, is_derive_id|]. simpl. unfold one. simpl. ring. Qed.
Lemma deriv_mul (f g : R -> R) (x a b : R) : is_derive f x a -> is_derive g x b -> is_derive (fun t : R => f t * g t) x (a * g x + f x * b).
Proof. intros Hf Hg. apply (is_derive_mult f g x a b Hf Hg). intros; apply Rmult_comm. Qed.
Lemma deriv_scal_r (f : R -> R) (c x a : R) : is_derive f x a -> is_derive (fun t : R => f t * c) x (a * c).
Proof. intros Hf. evar_last; [apply deriv_mul; [exact Hf|apply is_derive_const]|]. unfold zero. simpl. ring. Qed.
Lemma deriv_const (c x : R) : is_derive (fun _ : R => c) x 0.
Proof. auto_derive; [exact I|reflexivity]. Qed.

Lemma INR_S1 n : INR (n + 1) = INR n + 1.
Proof. now rewrite plus_INR. Qed.
Lemma green_curl l nu x y : (nu <= 2 * l)%nat -> in_disk x y -> (l = 1%nat -> nu = 1%nat -> 0 < x ^ 2 + y ^ 2) ->
  is_curl (green_field l nu) x y (dict_eval (gtilde (Z.of_nat (l * l + nu))) x y (zdisk x y)).
Proof.
  intros Hnu Hd H10. pose proof (zdisk_pos x y Hd) as Hz. pose proof (zdisk_sq x y Hd) as Hz2.
  destruct (gcase_all l nu Hnu) as [i j| |h Hh|h Hh|a b].
  - rewrite gt_even. unfold is_curl, green_field.
    assert (Ev : Nat.even (2 * j) = true) by (apply Nat.even_spec; now exists j). rewrite Ev.
    replace (2 * (i + j) - 2 * j + 2)%nat with (2 * (i + 1))%nat by lia. rewrite !div2_even. cbn [fst snd].
    eexists. exists 0. split; [|split].
    + apply deriv_scal_r. apply pow_d.
    + apply deriv_const.
    + unfold dict_eval, Rsum. cbn [map fold_right]. rewrite !Nat2Z.id. replace (pred (i + 1)) with i by lia. cbn. ring.
  - change (Z.of_nat (1 * 1 + 1)) with 2%Z. rewrite gt_10. unfold is_curl, green_field. cbn [Nat.even Nat.eqb andb fst snd].
    specialize (H10 eq_refl eq_refl). set (z := zdisk x y) in *.
    assert (Hr : 1 - z ^ 2 <> 0) by (rewrite Hz2; lra).
    assert (Hr' : x ^ 2 + y ^ 2 <> 0) by lra.
    assert (Dh : forall (f : R -> R) (t0 dz : R), is_derive f t0 dz -> 1 - f t0 ^ 2 <> 0 ->
       is_derive (fun t : R => (1 - f t ^ 3) / (3 * (1 - f t ^ 2))) t0
         (((- (3 * f t0 ^ 2 * dz)) * (3 * (1 - f t0 ^ 2)) - (1 - f t0 ^ 3) * (3 * (- (2 * f t0 * dz)))) / (3 * (1 - f t0 ^ 2)) ^ 2)).
    { intros f t0 dz Hf Hn. evar_last.
      - apply is_derive_div; [| |nra].
        + apply (is_derive_minus (fun _ : R => 1) (fun t => f t ^ 3)); [apply is_derive_const|]. apply (is_derive_pow f 3 t0 dz Hf).
        + apply (is_derive_scal (fun t => 1 - f t ^ 2) t0 3). apply (is_derive_minus (fun _ : R => 1) (fun t => f t ^ 2)); [apply is_derive_const|]. apply (is_derive_pow f 2 t0 dz Hf).
      - unfold minus, plus, opp, zero. simpl. field. simpl in Hn. intros E. apply Hn. lra. }
    pose proof (Dh _ _ _ (zdisk_dx x y Hd) Hr) as Dx. pose proof (Dh _ _ _ (zdisk_dy x y Hd) Hr) as Dy. fold z in Dx, Dy.
    eexists. eexists. split; [|split].
    + apply deriv_mul; [apply (is_derive_id x)|exact Dx].
    + apply deriv_mul; [apply (is_derive_opp (fun t : R => t)); apply (is_derive_id y)|exact Dy].
    + unfold dict_eval, Rsum. cbn [map fold_right]. change (Z.to_nat 0) with 0%nat. change (Z.to_nat 1) with 1%nat. fold z. rewrite !pow_O, !pow_1.
      unfold one, opp. simpl (AbelianGroup.opp _ _ _). cbn -[pow].
      assert (E : x ^ 2 + y ^ 2 = 1 - z ^ 2) by lra.
      transitivity (2 * ((1 - z ^ 3) / (3 * (1 - z ^ 2))) - (x ^ 2 + y ^ 2) / z * ((- (3 * z ^ 2) * (3 * (1 - z ^ 2)) + (1 - z ^ 3) * (3 * (2 * z))) / (3 * (1 - z ^ 2)) ^ 2)).
      * rewrite E. field. lra.
      * field. lra.
  - rewrite gt_mu1_even by exact Hh. unfold is_curl, green_field.
    assert (Ev : Nat.even (4 * h - 1) = false).
    { replace (4 * h - 1)%nat with (S (2 * (2 * h - 1)))%nat by lia. rewrite Nat.even_succ, Nat.odd_mul. reflexivity. }
    rewrite Ev. replace (Nat.eqb (2 * h) 1) with false by (symmetry; apply Nat.eqb_neq; lia). cbn [andb].
    replace (2 * (2 * h) - (4 * h - 1))%nat with 1%nat by lia. rewrite Nat.eqb_refl.
    replace (Nat.even (2 * h)) with true by (symmetry; rewrite Nat.even_mul; reflexivity). cbn [fst snd].
    exists 0. exists (x ^ (2 * h - 2) * (- 3 * y * zdisk x y)). split; [apply deriv_const|split].
    + apply (is_derive_scal (fun t : R => zdisk x t ^ 3) y (x ^ (2 * h - 2)) (-3 * y * zdisk x y)). now apply z3_dy.
    + unfold dict_eval, Rsum. cbn [map fold_right]. rewrite Nat2Z.id. change (Z.to_nat 1) with 1%nat. ring.
  - rewrite gt_mu1_odd by exact Hh. unfold is_curl, green_field.
    assert (Ev : Nat.even (4 * h + 1) = false).
    { replace (4 * h + 1)%nat with (S (2 * (2 * h)))%nat by lia. rewrite Nat.even_succ, Nat.odd_mul. reflexivity. }
    rewrite Ev. replace (Nat.eqb (2 * h + 1) 1) with false by (symmetry; apply Nat.eqb_neq; lia). cbn [andb].
    replace (2 * (2 * h + 1) - (4 * h + 1))%nat with 1%nat by lia. rewrite Nat.eqb_refl.
    replace (Nat.even (2 * h + 1)) with false by (symmetry; rewrite Nat.add_comm; cbn [Nat.add]; rewrite Nat.even_succ, Nat.odd_mul; reflexivity). cbn [fst snd].
    replace (2 * h + 1 - 3)%nat with (2 * h - 2)%nat by lia.
    exists 0. eexists. split; [apply deriv_const|split].
    + apply deriv_mul; [|now apply z3_dy]. apply (is_derive_scal (fun t : R => t) y (x ^ (2 * h - 2)) 1). apply (is_derive_id y).
    + unfold dict_eval, Rsum. cbn [map fold_right]. rewrite !Nat2Z.id. change (Z.to_nat 1) with 1%nat. change (Z.to_nat 0) with 0%nat. change (Z.to_nat 2) with 2%nat.
      replace (2 * h)%nat with (2 * h - 2 + 2)%nat at 2 by lia. rewrite pow_add.
      replace (zdisk x y ^ 3) with (zdisk x y * zdisk x y ^ 2) by ring. rewrite Hz2. ring.
  - unfold is_curl, green_field.
    assert (Ev : Nat.even (2 * b + 1) = false).
    { rewrite Nat.add_comm. cbn [Nat.add]. rewrite Nat.even_succ, Nat.odd_mul. reflexivity. }
    rewrite Ev. replace (Nat.eqb (a + b + 2) 1) with false by (symmetry; apply Nat.eqb_neq; lia). cbn [andb].
    replace (2 * (a + b + 2) - (2 * b + 1))%nat with (2 * a + 3)%nat by lia. replace (Nat.eqb (2 * a + 3) 1) with false by (symmetry; apply Nat.eqb_neq; lia).
    replace (2 * a + 3 - 3)%nat with (2 * a)%nat by lia. replace (2 * b + 1 - 1)%nat with (2 * b)%nat by lia. rewrite !div2_even. cbn [fst snd].
    eexists. exists 0. split; [|split; [apply deriv_const|]].
    + apply deriv_mul; [|now apply z3_dx]. apply deriv_scal_r, pow_d.
    + cbv beta. replace (zdisk x y ^ 3) with (zdisk x y * zdisk x y ^ 2) by ring. rewrite Hz2. destruct a as [|a].
      * rewrite Nat.add_0_l. rewrite gt_gen0. unfold dict_eval, Rsum. cbn [map fold_right]. rewrite !Nat2Z.id. change (Z.to_nat 1) with 1%nat. simpl. ring.
      * rewrite gt_gen by lia. unfold dict_eval, Rsum. cbn [map fold_right]. rewrite !Nat2Z.id. change (Z.to_nat 1) with 1%nat.
        replace (S a - 1)%nat with a by lia. replace (S a + 1)%nat with (a + 2)%nat by lia. replace (S a + 3)%nat with (S a + 1 + 1 + 1)%nat by lia. rewrite !INR_S1.
        cbn [pred]. rewrite !pow_add. replace (x ^ S a) with (x * x ^ a) by reflexivity. ring.
Qed.
