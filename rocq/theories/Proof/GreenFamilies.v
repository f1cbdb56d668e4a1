(** Potentials of the five families of the Green's basis. *)
From Coq Require Import Reals Lra Lia List Bool Arith Psatz.
From Coquelicot Require Import Coquelicot.
From Verif Require Import Base.RealAux Base.Analysis Spec.BasisSpec Spec.DiskSpec Spec.OccultSpec Spec.SkySpec
  Proof.LimbDarkGreen Proof.Ray Proof.Edge Proof.Occult Proof.Monomial Proof.GreenLine.
Import ListNotations.
Open Scope R_scope.

Lemma pow_derive (X : R -> R) a (t dx : R) : is_derive X t dx -> is_derive (fun t : R => X t ^ a) t (INR a * X t ^ pred a * dx).
Proof. intros D. evar_last; [apply (is_derive_pow X a t dx D)|]. match goal with |- ?a = ?b => change (@eq R a b) end. ring. Qed.
Lemma mul_derive (f g : R -> R) (t a c : R) : is_derive f t a -> is_derive g t c -> is_derive (fun t : R => f t * g t) t (a * g t + f t * c).
Proof. intros D1 D2. apply (is_derive_mult f g t a c D1 D2). intros; apply Rmult_comm. Qed.
Lemma comp_derive (f g : R -> R) (t a c : R) : is_derive f (g t) a -> is_derive g t c -> is_derive (fun t : R => f (g t)) t (a * c).
Proof. intros D1 D2. evar_last; [apply (is_derive_comp f g t a c D1 D2)|]. unfold scal; cbn; unfold mult; cbn. match goal with |- ?a = ?b => change (@eq R a b) end. ring. Qed.
Section Fam.
Variables X Y dX dY : R -> R.
Hypothesis HC : is_curve X Y dX dY.
Notation s t := (X t ^ 2 + Y t ^ 2).
Lemma s_derive (t : R) : is_derive (fun t : R => s t) t (2 * (X t * dX t + Y t * dY t)).
Proof using HC.
  destruct HC as (D1 & D2 & _). evar_last; [apply (is_derive_plus (V := R_NormedModule)); [apply (pow_derive X 2 t _ (D1 t))|apply (pow_derive Y 2 t _ (D2 t))]|].
  unfold plus; cbn. match goal with |- ?a = ?b => change (@eq R a b) end. ring.
Qed.
Lemma XY_derive a c (t : R) : is_derive (fun t : R => X t ^ a * Y t ^ c) t (INR a * X t ^ pred a * dX t * Y t ^ c + X t ^ a * (INR c * Y t ^ pred c * dY t)).
Proof using HC. destruct HC as (D1 & D2 & _). apply (mul_derive (fun t => X t ^ a) (fun t => Y t ^ c)); apply pow_derive; auto. Qed.
Lemma Sp_derive a c n (t : R) : is_derive (fun t : R => X t ^ a * Y t ^ c * Mint n (s t)) t
  ((INR a * X t ^ pred a * dX t * Y t ^ c + X t ^ a * (INR c * Y t ^ pred c * dY t)) * Mint n (s t) +
   X t ^ a * Y t ^ c * (- (3 / 2) * Nint 1 (n + 2) (s t) * (2 * (X t * dX t + Y t * dY t)))).
Proof using HC.
  apply (mul_derive (fun t => X t ^ a * Y t ^ c) (fun t => Mint n (s t))); [apply XY_derive|]. apply (comp_derive (Mint n) (fun t => s t)); [apply Mint_derive|apply s_derive].
Qed.
Lemma XY_cont a c (t : R) : continuous (fun t => X t ^ a * Y t ^ c) t.
Proof using HC. destruct (curve_cont _ _ _ _ HC) as [C1 C2]. apply cont_mult; [apply (cont_pow X), C1|apply (cont_pow Y), C2]. Qed.
Lemma s_cont (f : R -> R) (t : R) : (forall u, continuous f u) -> continuous (fun t => f (s t)) t.
Proof using HC. intros Cf. destruct (curve_cont _ _ _ _ HC) as [C1 C2]. apply (cont_comp (fun t => s t) f); [|apply Cf]. apply cont_plus; [apply (cont_pow X), C1|apply (cont_pow Y), C2]. Qed.
Lemma p32_s_cont (t : R) : continuous (fun t => p32 (1 - s t)) t.
Proof using HC. apply (s_cont (fun u => p32 (1 - u))). intros u. apply (cont_comp (fun u => 1 - u) p32); [|apply p32_cont]. apply cont_minus; [apply cont_const|apply cont_id]. Qed.
End Fam.
Definition LQ0 i j (x y dx dy : R) : R := x ^ S i * y ^ j * dy.
Definition LQ i j (x y dx dy : R) : R := x ^ S i * y ^ j * p32 (1 - (x ^ 2 + y ^ 2)) * dy.
Definition LP i j (x y dx dy : R) : R := x ^ i * y ^ j * p32 (1 - (x ^ 2 + y ^ 2)) * dx.
Definition LZ (x y dx dy : R) : R := Nint 1 1 (x ^ 2 + y ^ 2) * (x * dy - y * dx).
Definition mQ0 i j : list mono := [(INR (S i), i, j, 0%nat)].
Definition mQ i j : list mono := [(INR (S i), i, j, 1%nat); (- INR (S i), i, (j + 2)%nat, 1%nat); (- (INR (S i) + 3), (i + 2)%nat, j, 1%nat)].
Definition mP0 i : list mono := [(3, i, 1%nat, 1%nat)].
Definition mP1 i : list mono := [(-1, i, 0%nat, 1%nat); (1, (i + 2)%nat, 0%nat, 1%nat); (4, i, 2%nat, 1%nat)].
Definition mZ : list mono := [(1, 0%nat, 0%nat, 1%nat)].
Ltac single := match goal with |- ?a = ?b => change (@eq R a b) end.
Lemma pot_Q0 i j : potential (mQ0 i j) (fun x y => x ^ S i * y ^ S j / INR (i + j + 2)) (LQ0 i j).
Proof.
  split; [intros y; rewrite pow_i by lia; unfold Rdiv; ring|]. intros X Y dX dY HC. split.
  - intros t. assert (N : INR (i + j + 2) <> 0) by (apply not_0_INR; lia). evar_last; [apply (is_derive_scal_l (V := R_NormedModule)); apply (XY_derive X Y dX dY HC (S i) (S j) t)|].
    unfold LQ0, mQ0. rewrite psum_cons. unfold psum, mbrk; cbn [map]. rewrite Nint_0. replace (S (i + j + 1)) with (i + j + 2)%nat by lia. cbn [pred].
    assert (E : INR (i + j + 2) = INR (S i) + INR (S j)) by (rewrite <- plus_INR; f_equal; lia).
    change (@eq R ((INR (S i) * X t ^ i * dX t * Y t ^ S j + X t ^ S i * (INR (S j) * Y t ^ j * dY t)) * / INR (i + j + 2)) (X t ^ S i * Y t ^ j * dY t - (INR (S i) * (X t ^ i * Y t ^ j * / INR (i + j + 2)) + 0) * (X t * dY t - Y t * dX t))).
    rewrite E in *. cbn [pow]. field. exact N.
  - intros t. assert (HC' := HC). destruct HC' as (_ & _ & _ & C4). apply cont_mult; [|apply C4]. apply (XY_cont X Y dX dY HC).
Qed.
Lemma pot_Q i j : potential (mQ i j) (fun x y => x ^ S i * y ^ S j * Mint (S i + j) (x ^ 2 + y ^ 2)) (LQ i j).
Proof.
  split; [intros y; rewrite pow_i by lia; ring|]. intros X Y dX dY HC. split.
  - intros t. evar_last; [apply (Sp_derive X Y dX dY HC)|]. single. unfold LQ, mQ. rewrite !psum_cons. unfold psum at 1, mbrk; cbn [map Rsum fold_right].
    set (s := X t ^ 2 + Y t ^ 2). replace (i + j + 1)%nat with (S i + j)%nat by lia. replace (i + (j + 2) + 1)%nat with (S i + j + 2)%nat by lia. replace (i + 2 + j + 1)%nat with (S i + j + 2)%nat by lia.
    assert (R1 := Mint_rec (S i + j) s). assert (R2 := Mint_N (S i + j) s). assert (R3 : INR (S i + j + 1) = INR (S i) + INR (S j)) by (rewrite <- plus_INR; f_equal; lia). rewrite R3 in R1.
    assert (R4 : Nint 1 (S i + j) s = Mint (S i + j) s + s * Nint 1 (S i + j + 2) s) by lra. rewrite R4. set (N := Nint 1 (S i + j + 2) s) in *. set (M := Mint (S i + j) s) in *.
    assert (R5 : p32 (1 - s) = (INR (S i) + INR (S j)) * M - 3 * s * N) by lra. rewrite R5. cbn [pred]. rewrite !pow_add. cbn [pow]. unfold s. unfold Rsum; cbn [fold_right]. field.
  - intros t. assert (HC' := HC). destruct HC' as (D1 & D2 & C3 & C4). apply cont_mult; [|apply C4]. apply cont_mult; [apply (XY_cont X Y dX dY HC)|apply (p32_s_cont X Y dX dY HC)].
Qed.
Lemma pot_P0 i : potential (mP0 i) (fun x y => x ^ S i * y ^ 0 * Mint i (x ^ 2 + y ^ 2)) (LP i 0).
Proof.
  split; [intros y; rewrite pow_i by lia; ring|]. intros X Y dX dY HC. split.
  - intros t. evar_last; [apply (Sp_derive X Y dX dY HC)|]. single. unfold LP, mP0. rewrite !psum_cons. unfold psum at 1, mbrk; cbn [map Rsum fold_right].
    set (s := X t ^ 2 + Y t ^ 2). replace (i + 1 + 1)%nat with (i + 2)%nat by lia.
    assert (R1 := Mint_rec i s). assert (R3 : INR (i + 1) = INR (S i)) by (f_equal; lia). rewrite R3 in R1. set (N := Nint 1 (i + 2) s) in *. set (M := Mint i s) in *.
    assert (R5 : p32 (1 - s) = INR (S i) * M - 3 * s * N) by lra. rewrite R5. cbn [pred INR pow]. unfold s. unfold Rsum; cbn [fold_right]. field.
  - intros t. assert (HC' := HC). destruct HC' as (D1 & D2 & C3 & C4). apply cont_mult; [|apply C3]. apply cont_mult; [apply (XY_cont X Y dX dY HC)|apply (p32_s_cont X Y dX dY HC)].
Qed.
Lemma pot_P1 i : potential (mP1 i) (fun x y => x ^ S i * y ^ 1 * Mint (i + 1) (x ^ 2 + y ^ 2)) (LP i 1).
Proof.
  split; [intros y; rewrite pow_i by lia; ring|]. intros X Y dX dY HC. split.
  - intros t. evar_last; [apply (Sp_derive X Y dX dY HC)|]. single. unfold LP, mP1. rewrite !psum_cons. unfold psum at 1, mbrk; cbn [map Rsum fold_right].
    set (s := X t ^ 2 + Y t ^ 2). replace (i + 0 + 1)%nat with (i + 1)%nat by lia. replace (i + 2 + 0 + 1)%nat with (i + 1 + 2)%nat by lia. replace (i + 2 + 1)%nat with (i + 1 + 2)%nat by lia.
    assert (R1 := Mint_rec (i + 1) s). assert (R2 := Mint_N (i + 1) s). assert (R3 : INR (i + 1 + 1) = INR (S i) + 1) by (replace (i + 1 + 1)%nat with (S (S i)) by lia; rewrite (S_INR (S i)); ring). rewrite R3 in R1.
    assert (R4 : Nint 1 (i + 1) s = Mint (i + 1) s + s * Nint 1 (i + 1 + 2) s) by lra. rewrite R4. set (N := Nint 1 (i + 1 + 2) s) in *. set (M := Mint (i + 1) s) in *.
    assert (R5 : p32 (1 - s) = (INR (S i) + 1) * M - 3 * s * N) by lra. rewrite R5. rewrite !pow_add. cbn [pred pow]. replace (INR 1) with 1 by reflexivity. unfold s. unfold Rsum; cbn [fold_right]. field.
  - intros t. assert (HC' := HC). destruct HC' as (D1 & D2 & C3 & C4). apply cont_mult; [|apply C3]. apply cont_mult; [apply (XY_cont X Y dX dY HC)|apply (p32_s_cont X Y dX dY HC)].
Qed.
Lemma pot_Z : potential mZ (fun _ _ => 0) LZ.
Proof.
  split; [reflexivity|]. intros X Y dX dY HC. split.
  - intros t. evar_last; [apply (is_derive_const (V := R_NormedModule))|]. single. unfold LZ, mZ. rewrite !psum_cons. unfold psum, mbrk; cbn. unfold Rsum; cbn. ring.
  - intros t. destruct (curve_cont _ _ _ _ HC) as [C1 C2]. apply cont_mult; [apply (s_cont X Y dX dY HC), Nint1_cont|]. destruct HC as (D1 & D2 & C3 & C4). apply cont_minus; apply cont_mult; auto.
Qed.
Lemma N1_closed s : 3 * s * Nint 1 1 s = 1 - p32 (1 - s).
Proof.
  assert (A : is_RInt (fun t => 3 * s * (t ^ 1 * sqrt (1 - t ^ 2 * s) ^ 1)) 0 1 (1 - p32 (1 - s))).
  { apply (is_RInt_antider (fun t => - p32 (1 - t ^ 2 * s))).
    - intros t. evar_last; [apply (is_derive_opp (V := R_NormedModule)), (comp_derive p32 (fun t : R => 1 - t ^ 2 * s) t _ (- 2 * t * s) (p32_derive _)); auto_derive; [exact I|ring]|].
      unfold opp; cbn. single. field.
    - intros t. apply cont_scal, Nint_cont_in.
    - replace (1 - 1 ^ 2 * s) with (1 - s) by ring. replace (1 - 0 ^ 2 * s) with 1 by ring. unfold p32 at 2. rewrite sqrt_1. ring. }
  assert (B : is_RInt (fun t => 3 * s * (t ^ 1 * sqrt (1 - t ^ 2 * s) ^ 1)) 0 1 (3 * s * Nint 1 1 s)) by (apply (is_RInt_scal (V := R_NormedModule)), Nint_is).
  symmetry. apply (rint_val _ _ 0 1 _ _ A B (fun x _ => eq_refl)).
Qed.
