(** Real-number helpers shared by the models: comparisons, floor-mod, atan2, cube root.
    These model the numpy/JAX primitives used by /repo; IEEE effects (rounding, NaN,
    signed zero) are not modelled. *)
From Coq Require Import Reals Lra Lia ZArith List Bool Psatz.
From Coquelicot Require Import Coquelicot.
Import ListNotations.
Open Scope R_scope.

(** Results of Python functions that may raise. *)
Inductive exn := ValueError | TypeError | KeyError | DimensionalityError
               | AssertionError | AttributeError | IndexError
               | ZeroDivisionError | NameError.
Inductive result (A : Type) := Ok (a : A) | Err (e : exn).
Arguments Ok {A}. Arguments Err {A}.
Definition is_ok {A} (r : result A) : Prop := exists a, r = Ok a.
Definition rbind {A B} (r : result A) (f : A -> result B) : result B :=
  match r with Ok a => f a | Err e => Err e end.

(** Boolean comparisons, for jnp.less, jnp.greater_equal, ... *)
Definition Rltb (x y : R) : bool := if Rlt_dec x y then true else false.
Definition Rleb (x y : R) : bool := if Rle_dec x y then true else false.
Definition Rgtb (x y : R) : bool := Rltb y x.
Definition Rgeb (x y : R) : bool := Rleb y x.
Definition Reqb (x y : R) : bool := if Req_EM_T x y then true else false.

(** jnp.where *)
Definition where_ {A} (c : bool) (a b : A) : A := if c then a else b.

(** Python's and jnp's [%]: x - p*floor(x/p). *)
Definition Rfloor (x : R) : Z := Int_part x.
Definition Rceil (x : R) : Z := (- Int_part (- x))%Z.
Definition Rmod (x p : R) : R := x - p * IZR (Rfloor (x / p)).

(** jnp.arctan2 y x, on reals; arctan2(0,0) = 0 as in C (positive zeros). *)
Definition atan2 (y x : R) : R :=
  if Rlt_dec 0 x then atan (y / x)
  else if Rlt_dec x 0 then
         (if Rle_dec 0 y then atan (y / x) + PI else atan (y / x) - PI)
       else if Rlt_dec 0 y then PI / 2
            else if Rlt_dec y 0 then - (PI / 2) else 0.

(** jnp.cbrt: the real (signed) cube root. *)
Definition cbrt (x : R) : R :=
  if Rlt_dec 0 x then Rpower x (/ 3)
  else if Rlt_dec x 0 then - Rpower (- x) (/ 3) else 0.

(** [x ** y] for a non-negative base and a real exponent (numpy float power). *)
Definition fpow (x y : R) : R :=
  if Rlt_dec 0 x then Rpower x y else if Req_EM_T y 0 then 1 else 0.

Definition Rsum (l : list R) : R := fold_right Rplus 0 l.
(** Σ_{i<n} f i *)
Fixpoint bigsum (n : nat) (f : nat -> R) : R :=
  match n with O => 0 | S k => bigsum k f + f k end.
Definition dotp (a b : list R) : R := Rsum (map (fun p => fst p * snd p) (combine a b)).

(* ------------------------------------------------------------------ *)
(** * Lemmas *)

Lemma Rltb_true x y : Rltb x y = true <-> x < y.
Proof. unfold Rltb; destruct (Rlt_dec x y); split; intros; try discriminate; auto; lra. Qed.
Lemma Rltb_false x y : Rltb x y = false <-> y <= x.
Proof. unfold Rltb; destruct (Rlt_dec x y); split; intros; try discriminate; auto; lra. Qed.
Lemma Rleb_true x y : Rleb x y = true <-> x <= y.
Proof. unfold Rleb; destruct (Rle_dec x y); split; intros; try discriminate; auto; lra. Qed.
Lemma Rleb_false x y : Rleb x y = false <-> y < x.
Proof. unfold Rleb; destruct (Rle_dec x y); split; intros; try discriminate; auto; lra. Qed.
Lemma Reqb_true x y : Reqb x y = true <-> x = y.
Proof. unfold Reqb; destruct (Req_EM_T x y); split; intros; try discriminate; auto; lra. Qed.
Lemma Reqb_false x y : Reqb x y = false <-> x <> y.
Proof. unfold Reqb; destruct (Req_EM_T x y); split; intros; try discriminate; auto; lra. Qed.

Lemma Rsum_app a b : Rsum (a ++ b) = Rsum a + Rsum b.
Proof. induction a as [|x a IH]; simpl; [|rewrite IH]; lra. Qed.
Lemma Rsum_map_scal {A} c (f : A -> R) l :
  Rsum (map (fun x => c * f x) l) = c * Rsum (map f l).
Proof. induction l as [|x l IH]; simpl; [|rewrite IH]; lra. Qed.
Lemma Rsum_map_plus {A} (f g : A -> R) l :
  Rsum (map (fun x => f x + g x) l) = Rsum (map f l) + Rsum (map g l).
Proof. induction l as [|x l IH]; simpl; [|rewrite IH]; lra. Qed.
Lemma Rsum_map_ext {A} (f g : A -> R) l :
  (forall x, In x l -> f x = g x) -> Rsum (map f l) = Rsum (map g l).
Proof.
  induction l as [|x l IH]; simpl; intros H; [reflexivity|].
  rewrite IH by (intros; apply H; auto). rewrite H by auto. reflexivity.
Qed.
Lemma Rsum_map_zero {A} (f : A -> R) l : (forall x, In x l -> f x = 0) -> Rsum (map f l) = 0.
Proof.
  induction l as [|x l IH]; simpl; intros H; [reflexivity|].
  rewrite IH by (intros; apply H; auto). rewrite H by auto. lra.
Qed.
Lemma Rsum_nonneg l : (forall x, In x l -> 0 <= x) -> 0 <= Rsum l.
Proof.
  induction l as [|x l IH]; simpl; intros H; [lra|].
  assert (0 <= x) by auto. assert (0 <= Rsum l) by auto. lra.
Qed.

Lemma bigsum_ext n f g : (forall i, (i < n)%nat -> f i = g i) -> bigsum n f = bigsum n g.
Proof.
  induction n as [|n IH]; simpl; intros H; [reflexivity|].
  rewrite IH by (intros; apply H; lia). rewrite H by lia. reflexivity.
Qed.
Lemma bigsum_plus n f g : bigsum n (fun i => f i + g i) = bigsum n f + bigsum n g.
Proof. induction n as [|n IH]; simpl; [|rewrite IH]; lra. Qed.
Lemma bigsum_scal n c f : bigsum n (fun i => c * f i) = c * bigsum n f.
Proof. induction n as [|n IH]; simpl; [|rewrite IH]; lra. Qed.
Lemma bigsum_zero n : bigsum n (fun _ => 0) = 0.
Proof. induction n as [|n IH]; simpl; [|rewrite IH]; lra. Qed.
Lemma bigsum_zero_ext n f : (forall i, (i < n)%nat -> f i = 0) -> bigsum n f = 0.
Proof. intros H. rewrite (bigsum_ext n f (fun _ => 0)) by auto. apply bigsum_zero. Qed.
Lemma bigsum_const n c : bigsum n (fun _ => c) = INR n * c.
Proof. induction n as [|n IH]; [simpl; lra|]. rewrite S_INR. simpl. rewrite IH. lra. Qed.
Lemma bigsum_split_first n f : bigsum (S n) f = f O + bigsum n (fun i => f (S i)).
Proof. induction n as [|n IH]; [simpl; lra|]. change (bigsum (S (S n)) f) with (bigsum (S n) f + f (S n)).
  rewrite IH. simpl. lra. Qed.
Lemma bigsum_add n m f : bigsum (n + m) f = bigsum n f + bigsum m (fun i => f (n + i)%nat).
Proof.
  induction m as [|m IH]; simpl; [rewrite Nat.add_0_r; lra|].
  rewrite Nat.add_succ_r. simpl. rewrite IH. lra.
Qed.
Lemma bigsum_swap n m f :
  bigsum n (fun i => bigsum m (fun j => f i j)) = bigsum m (fun j => bigsum n (fun i => f i j)).
Proof.
  induction n as [|n IH]; simpl.
  - now rewrite bigsum_zero.
  - rewrite IH. now rewrite <- bigsum_plus.
Qed.
Lemma bigsum_single n k f : (k < n)%nat -> (forall i, (i < n)%nat -> i <> k -> f i = 0) ->
  bigsum n f = f k.
Proof.
  revert k. induction n as [|n IH]; intros k Hk H; [lia|]. simpl.
  destruct (Nat.eq_dec k n) as [->|Hne].
  - rewrite bigsum_zero_ext by (intros; apply H; lia). lra.
  - rewrite (IH k) by (try lia; intros; apply H; lia). rewrite (H n) by lia. lra.
Qed.
Lemma bigsum_nonneg n f : (forall i, (i < n)%nat -> 0 <= f i) -> 0 <= bigsum n f.
Proof.
  induction n as [|n IH]; simpl; intros H; [lra|].
  assert (0 <= f n) by (apply H; lia). assert (0 <= bigsum n f) by (apply IH; intros; apply H; lia). lra.
Qed.
Lemma Rsum_map_seq f s n : Rsum (map f (seq s n)) = bigsum n (fun i => f (s + i)%nat).
Proof.
  revert s. induction n as [|n IH]; intros s; [reflexivity|].
  cbn [seq map Rsum fold_right]. fold (Rsum (map f (seq (S s) n))). rewrite IH.
  rewrite bigsum_split_first. rewrite Nat.add_0_r. f_equal.
  apply bigsum_ext. intros. f_equal. lia.
Qed.

(** floor / ceil *)
Lemma Rfloor_spec x : IZR (Rfloor x) <= x < IZR (Rfloor x) + 1.
Proof. unfold Rfloor. destruct (base_Int_part x). lra. Qed.
Lemma Rfloor_unique x z : IZR z <= x < IZR z + 1 -> Rfloor x = z.
Proof.
  intros [H1 H2]. destruct (Rfloor_spec x) as [H3 H4].
  assert (IZR (Rfloor x) < IZR (z + 1)) by (rewrite plus_IZR; lra).
  assert (IZR z < IZR (Rfloor x + 1)) by (rewrite plus_IZR; lra).
  apply lt_IZR in H. apply lt_IZR in H0. lia.
Qed.
Lemma Rfloor_plus_Z x k : Rfloor (x + IZR k) = (Rfloor x + k)%Z.
Proof.
  apply Rfloor_unique. rewrite plus_IZR. destruct (Rfloor_spec x). lra.
Qed.
Lemma Rfloor_IZR k : Rfloor (IZR k) = k.
Proof. apply Rfloor_unique. lra. Qed.
Lemma Rceil_spec x : IZR (Rceil x) - 1 < x <= IZR (Rceil x).
Proof. unfold Rceil. rewrite opp_IZR. destruct (Rfloor_spec (-x)). unfold Rfloor in *. lra. Qed.

Lemma Rmod_range x p : 0 < p -> 0 <= Rmod x p < p.
Proof.
  intros Hp. unfold Rmod. destruct (Rfloor_spec (x / p)) as [H1 H2].
  assert (x = p * (x / p)) by (field; lra).
  split; nra.
Qed.
Lemma Rmod_plus_mult x p k : p <> 0 -> Rmod (x + IZR k * p) p = Rmod x p.
Proof.
  intros Hp. unfold Rmod.
  replace ((x + IZR k * p) / p) with (x / p + IZR k) by (field; auto).
  rewrite Rfloor_plus_Z, plus_IZR. ring.
Qed.
Lemma Rmod_small x p : 0 < p -> 0 <= x < p -> Rmod x p = x.
Proof.
  intros Hp Hx. unfold Rmod.
  assert (Rfloor (x / p) = 0%Z) as ->.
  { apply Rfloor_unique. simpl. split.
    - apply Rmult_le_reg_r with p; auto. replace (x/p*p) with x by (field; lra). lra.
    - apply Rmult_lt_reg_r with p; auto. replace (x/p*p) with x by (field; lra). lra. }
  simpl. lra.
Qed.
Lemma Rmod_decomp x p : exists k : Z, x = Rmod x p + IZR k * p.
Proof. exists (Rfloor (x / p)). unfold Rmod. ring. Qed.
Lemma Rmod_unique x p y k : 0 < p -> 0 <= y < p -> x = y + IZR k * p -> Rmod x p = y.
Proof. intros Hp Hy ->. rewrite Rmod_plus_mult by lra. now apply Rmod_small. Qed.

(** atan2 *)
Lemma atan2_0_pos x : 0 < x -> atan2 0 x = 0.
Proof. intros H. unfold atan2. destruct (Rlt_dec 0 x); [|lra]. unfold Rdiv. rewrite Rmult_0_l. apply atan_0. Qed.
Lemma atan2_0_neg x : x < 0 -> atan2 0 x = PI.
Proof.
  intros H. unfold atan2. destruct (Rlt_dec 0 x); [lra|]. destruct (Rlt_dec x 0); [|lra].
  destruct (Rle_dec 0 0); [|lra]. unfold Rdiv. rewrite Rmult_0_l, atan_0. lra.
Qed.
Lemma atan2_0_0 : atan2 0 0 = 0.
Proof. unfold atan2. repeat (destruct (Rlt_dec _ _); try lra). Qed.

Lemma sqrt_1_tan_pos x y : 0 < x -> sqrt (1 + (y / x)²) = sqrt (x² + y²) / x.
Proof.
  intros H.
  replace (1 + (y/x)²) with ((x² + y²) / x²) by (unfold Rsqr; field; lra).
  rewrite sqrt_div_alt by (unfold Rsqr; nra). rewrite sqrt_Rsqr by lra. reflexivity.
Qed.
Lemma sqrt_1_tan_neg x y : x < 0 -> sqrt (1 + (y / x)²) = sqrt (x² + y²) / - x.
Proof.
  intros H. replace (y / x) with ((- y) / (- x)) by (field; lra).
  rewrite sqrt_1_tan_pos by lra. f_equal. f_equal. unfold Rsqr. ring.
Qed.

Lemma cos_atan_ x : cos (atan x) = / sqrt (1 + x²).
Proof. rewrite cos_atan. unfold Rdiv. ring. Qed.
Lemma sin_atan_ x : sin (atan x) = x / sqrt (1 + x²).
Proof. apply sin_atan. Qed.

Lemma hyp_pos y x : x <> 0 \/ y <> 0 -> 0 < sqrt (x² + y²).
Proof.
  intros H. apply sqrt_lt_R0. unfold Rsqr.
  destruct H; [assert (0 < x*x) by nra|assert (0 < y*y) by nra]; nra.
Qed.

Lemma cos_atan2 y x : x <> 0 \/ y <> 0 -> cos (atan2 y x) = x / sqrt (x² + y²).
Proof.
  intros Hn. pose proof (hyp_pos y x Hn) as Hh. unfold atan2.
  destruct (Rlt_dec 0 x).
  { rewrite cos_atan_, sqrt_1_tan_pos by auto. field. split; lra. }
  destruct (Rlt_dec x 0).
  { assert (cos (atan (y/x)) = - x / sqrt (x² + y²)) as Hc.
    { rewrite cos_atan_, sqrt_1_tan_neg by auto. field. split; lra. }
    destruct (Rle_dec 0 y).
    - rewrite neg_cos, Hc. field. lra.
    - replace (atan (y/x) - PI) with (- (PI - atan (y/x))) by ring.
      rewrite cos_neg. rewrite Rtrigo_facts.cos_pi_minus, Hc. field. lra. }
  assert (x = 0) by lra. subst x.
  destruct (Rlt_dec 0 y). { rewrite cos_PI2. unfold Rdiv. ring. }
  destruct (Rlt_dec y 0). { rewrite cos_neg, cos_PI2. unfold Rdiv. ring. }
  destruct Hn; lra.
Qed.
Lemma sin_atan2 y x : x <> 0 \/ y <> 0 -> sin (atan2 y x) = y / sqrt (x² + y²).
Proof.
  intros Hn. pose proof (hyp_pos y x Hn) as Hh. unfold atan2.
  destruct (Rlt_dec 0 x).
  { rewrite sin_atan_, sqrt_1_tan_pos by auto. field. split; lra. }
  destruct (Rlt_dec x 0).
  { assert (sin (atan (y/x)) = - y / sqrt (x² + y²)) as Hc.
    { rewrite sin_atan_, sqrt_1_tan_neg by auto. field. repeat split; lra. }
    destruct (Rle_dec 0 y).
    - rewrite neg_sin, Hc. field. lra.
    - replace (atan (y/x) - PI) with (- (PI - atan (y/x))) by ring.
      rewrite sin_neg. rewrite Rtrigo_facts.sin_pi_minus, Hc. field. lra. }
  assert (x = 0) by lra. subst x.
  destruct (Rlt_dec 0 y).
  { rewrite sin_PI2. replace (0² + y²) with (y²) by (unfold Rsqr; ring).
    rewrite sqrt_Rsqr by lra. field. lra. }
  destruct (Rlt_dec y 0).
  { rewrite sin_neg, sin_PI2. replace (0² + y²) with ((-y)²) by (unfold Rsqr; ring).
    rewrite sqrt_Rsqr by lra. field. lra. }
  destruct Hn; lra.
Qed.

Lemma atan2_pos_y y x : 0 < y -> 0 < atan2 y x < PI.
Proof.
  intros Hy. pose proof PI_RGT_0. pose proof (atan_bound (y / x)) as Hb. unfold atan2.
  destruct (Rlt_dec 0 x).
  { assert (0 < y / x) by (apply Rdiv_lt_0_compat; lra).
    pose proof (atan_increasing _ _ H0). rewrite atan_0 in H1. lra. }
  destruct (Rlt_dec x 0).
  { destruct (Rle_dec 0 y); [|lra].
    assert (y / x < 0) by (apply Rmult_lt_reg_r with (-x); [lra|]; replace (y / x * - x) with (-y) by (field; lra); lra).
    pose proof (atan_increasing _ _ H0). rewrite atan_0 in H1. lra. }
  destruct (Rlt_dec 0 y); lra.
Qed.
Lemma atan2_range y x : - PI < atan2 y x <= PI.
Proof.
  pose proof PI_RGT_0. pose proof (atan_bound (y / x)) as Hb. unfold atan2.
  destruct (Rlt_dec 0 x); [lra|].
  destruct (Rlt_dec x 0).
  { assert (Hsgn: y / x = - (y / (-x))) by (field; lra).
    destruct (Rle_dec 0 y).
    - split; [lra|]. assert (y / x <= 0).
      { rewrite Hsgn. assert (0 <= y / (-x)) by (apply Rdiv_le_0_compat; lra). lra. }
      destruct (Req_dec (y/x) 0) as [->|]; [rewrite atan_0; lra|].
      pose proof (atan_increasing (y/x) 0). rewrite atan_0 in H2. lra.
    - split; [|lra]. assert (0 < y / x).
      { rewrite Hsgn. replace (- (y / - x)) with ((-y) / (-x)) by (field; lra). apply Rdiv_lt_0_compat; lra. }
      pose proof (atan_increasing 0 (y/x)). rewrite atan_0 in H1. lra. }
  destruct (Rlt_dec 0 y); [lra|]. destruct (Rlt_dec y 0); lra.
Qed.

(** cube root *)
Lemma cbrt_cube x : (cbrt x) ^ 3 = x.
Proof.
  unfold cbrt. destruct (Rlt_dec 0 x).
  - rewrite <- Rpower_pow by apply exp_pos. rewrite Rpower_mult.
    replace (/3 * INR 3) with 1 by (simpl; field). now apply Rpower_1.
  - destruct (Rlt_dec x 0).
    + replace ((- Rpower (-x) (/3))^3) with (- (Rpower (-x) (/3))^3) by ring.
      rewrite <- Rpower_pow by apply exp_pos. rewrite Rpower_mult.
      replace (/3 * INR 3) with 1 by (simpl; field). rewrite Rpower_1 by lra. ring.
    + replace x with 0 by lra. ring.
Qed.
Lemma cbrt_pos x : 0 < x -> 0 < cbrt x.
Proof. intros H. unfold cbrt. destruct (Rlt_dec 0 x); [|lra]. apply exp_pos. Qed.
Lemma cbrt_nonneg x : 0 <= x -> 0 <= cbrt x.
Proof.
  intros H. destruct (Req_dec x 0) as [->|].
  - unfold cbrt. repeat (destruct (Rlt_dec _ _); try lra).
  - left. apply cbrt_pos. lra.
Qed.
Lemma cube_inj x y : x ^ 3 = y ^ 3 -> x = y.
Proof.
  intros H. assert (Hf : (x - y) * (x*x + x*y + y*y) = 0) by nra.
  apply Rmult_integral in Hf. destruct Hf as [Hf|Hf]; [lra|].
  assert (x*x + x*y + y*y = (x + y/2)*(x+y/2) + 3/4*(y*y)) by field.
  assert (0 <= (x + y/2)*(x+y/2)) by nra. assert (0 <= y*y) by nra.
  assert (y*y = 0) by nra. assert (y = 0) by nra. subst. nra.
Qed.
Lemma cbrt_unique x y : y ^ 3 = x -> cbrt x = y.
Proof. intros <-. apply cube_inj. apply cbrt_cube. Qed.

Lemma fpow_half_nat x n : 0 <= x -> (0 < n)%nat -> fpow x (0.5 * INR n) = sqrt x ^ n.
Proof.
  intros Hx Hn. unfold fpow. destruct (Rlt_dec 0 x).
  - rewrite <- Rpower_pow by now apply sqrt_lt_R0.
    rewrite <- (Rpower_sqrt x) by auto. rewrite Rpower_mult. f_equal. lra.
  - assert (x = 0) by lra. subst. destruct (Req_EM_T _ _) as [H|H].
    + assert (0 < INR n) by (apply lt_0_INR; auto). lra.
    + rewrite sqrt_0. rewrite pow_i; auto.
Qed.
