(** Real polynomial functions: closure, factor theorem, derivatives. *)
From Coq Require Import Reals Lra Lia List Arith.
From Coquelicot Require Import Coquelicot.
From Verif Require Import Base.RealAux Base.Analysis Spec.HarmonicSpec Spec.QuadSpec.
Import ListNotations.
Open Scope R_scope.

Lemma poly_ext n f g : (forall x, f x = g x) -> polynomial n f -> polynomial n g.
Proof. intros E [c H]. exists c. intros x. rewrite <- E. apply H. Qed.
Lemma poly_zero n : polynomial n (fun _ => 0).
Proof. exists (fun _ => 0). intros x. rewrite bigsum_zero_ext; [reflexivity|]. intros; ring. Qed.
Lemma poly_mono n m f : (n <= m)%nat -> polynomial n f -> polynomial m f.
Proof.
  intros L [c H]. exists (fun i => if (i <? n)%nat then c i else 0). intros x. rewrite H. replace m with (n + (m - n))%nat by lia.
  rewrite bigsum_add. rewrite (bigsum_zero_ext (m - n)), Rplus_0_r.
  - apply bigsum_ext. intros i Hi. destruct (Nat.ltb_spec i n); [reflexivity|lia].
  - intros i Hi. destruct (Nat.ltb_spec (n + i) n); [lia|ring].
Qed.
Lemma poly_plus n f g : polynomial n f -> polynomial n g -> polynomial n (fun x => f x + g x).
Proof. intros [c H] [d K]. exists (fun i => c i + d i). intros x. rewrite H, K, <- bigsum_plus. apply bigsum_ext. intros; ring. Qed.
Lemma poly_scal n a f : polynomial n f -> polynomial n (fun x => a * f x).
Proof. intros [c H]. exists (fun i => a * c i). intros x. rewrite H, <- bigsum_scal. apply bigsum_ext. intros; ring. Qed.
Lemma poly_minus n f g : polynomial n f -> polynomial n g -> polynomial n (fun x => f x - g x).
Proof. intros Hf Hg. apply (poly_ext _ (fun x => f x + -1 * g x)); [intros; ring|]. apply poly_plus; [exact Hf|now apply poly_scal]. Qed.
Lemma poly_const n a : polynomial (S n) (fun _ => a).
Proof. apply (poly_mono 1); [lia|]. exists (fun _ => a). intros x. cbn. ring. Qed.
Lemma poly_mulx n f : polynomial n f -> polynomial (S n) (fun x => x * f x).
Proof.
  intros [c H]. exists (fun i => match i with O => 0 | S i => c i end). intros x. rewrite bigsum_split_first, H, <- bigsum_scal, Rmult_0_l, Rplus_0_l.
  apply bigsum_ext. intros. cbn [pow]. ring.
Qed.
Lemma poly_powx k n f : polynomial n f -> polynomial (k + n) (fun x => x ^ k * f x).
Proof. intros H. induction k as [|k IH]; [apply (poly_ext _ f); [intros; ring|exact H]|]. apply (poly_ext _ (fun x => x * (x ^ k * f x))); [intros; cbn [pow]; ring|]. now apply poly_mulx. Qed.
Lemma poly_bigsum n k (f : nat -> R -> R) : (forall i, (i < k)%nat -> polynomial n (f i)) -> polynomial n (fun x => bigsum k (fun i => f i x)).
Proof. induction k as [|k IH]; intros H; [apply poly_zero|]. cbn [bigsum]. apply poly_plus; [apply IH; intros; apply H; lia|apply H; lia]. Qed.
Lemma poly_mul n m f g : polynomial n f -> polynomial (S m) g -> polynomial (n + m) (fun x => f x * g x).
Proof.
  intros [c H] Hg. apply (poly_ext _ (fun x => bigsum n (fun i => c i * (x ^ i * g x)))).
  - intros x. rewrite H, Rmult_comm, <- bigsum_scal. apply bigsum_ext. intros; ring.
  - apply poly_bigsum. intros i Hi. apply poly_scal. apply (poly_mono (i + S m)); [lia|]. now apply poly_powx.
Qed.
Lemma poly_Rsum {A} n (F : A -> R -> R) l : (forall a, In a l -> polynomial n (F a)) -> polynomial n (fun x => Rsum (map (fun a => F a x) l)).
Proof. induction l as [|a l IH]; intros H; [apply poly_zero|]. cbn [map Rsum fold_right]. apply (poly_plus _ (F a)); [apply H; now left|apply IH; intros; apply H; now right]. Qed.
Lemma poly_pow n k f : polynomial (S n) f -> polynomial (S (k * n)) (fun x => f x ^ k).
Proof. intros H. induction k as [|k IH]; [apply (poly_ext _ (fun _ => 1)); [reflexivity|apply poly_const]|]. apply (poly_ext _ (fun x => f x ^ k * f x)); [intros; cbn [pow]; ring|]. replace (S (S k * n))%nat with (S (k * n) + n)%nat by lia. now apply poly_mul. Qed.
Lemma poly_id n : polynomial (S (S n)) (fun x => x).
Proof. apply (poly_ext _ (fun x => x * 1)); [intros; ring|]. apply poly_mulx. apply (poly_const n 1). Qed.

(** composition with an affine map *)
Lemma poly_affine n a b f : polynomial n f -> polynomial n (fun x => f (a * x + b)).
Proof.
  intros [c H]. apply (poly_ext _ (fun x => bigsum n (fun i => c i * (a * x + b) ^ i))); [intros; now rewrite H|]. apply poly_bigsum. intros i Hi. apply poly_scal.
  apply (poly_mono (S (i * 1))); [lia|]. apply poly_pow. apply (poly_plus 2 (fun x => a * x) (fun _ => b)); [|apply (poly_const 1)]. apply poly_scal. apply (poly_id 0).
Qed.

(** * Continuity and derivative *)
Lemma poly_cont n f : polynomial n f -> forall x : R, continuous f x.
Proof.
  intros [c H] x. apply (continuous_ext (fun x : R => bigsum n (fun i => c i * x ^ i))); [intros; now rewrite H|]. clear H. induction n as [|n IH]; [apply cont_const|].
  cbn [bigsum]. apply cont_plus; [apply IH|]. apply cont_scal. apply cont_pow. apply cont_id.
Qed.
Lemma poly_derive n f : polynomial (S n) f -> exists g, polynomial n g /\ forall x : R, is_derive f x (g x).
Proof.
  intros [c H]. exists (fun x => bigsum n (fun i => INR (S i) * c (S i) * x ^ i)). split; [eexists; intros x; reflexivity|].
  intros x. apply (is_derive_ext (fun x : R => c O + bigsum n (fun i => c (S i) * x ^ (S i)))); [intros t; rewrite H, bigsum_split_first; cbn [pow]; now rewrite Rmult_1_r|]. clear H.
  induction n as [|n IH].
  - cbn [bigsum]. apply (is_derive_const (c O + 0)).
  - cbn [bigsum]. apply (is_derive_ext (fun t : R => (c O + bigsum n (fun i => c (S i) * t ^ S i)) + c (S n) * t ^ S n)); [intros t; match goal with |- @eq _ ?a ?b => change (@eq R a b) end; ring|].
    apply (is_derive_plus (fun t : R => c O + bigsum n (fun i => c (S i) * t ^ S i)) (fun t : R => c (S n) * t ^ S n)); [exact IH|].
    replace (INR (S n) * c (S n) * x ^ n) with (c (S n) * (INR (S n) * 1 * x ^ Nat.pred (S n))) by (cbn [Nat.pred]; ring). apply is_derive_scal. apply (is_derive_pow (fun t : R => t) (S n)). apply @is_derive_id.
Qed.

(** * Roots *)
Fixpoint quot_pow (a : R) (i : nat) (x : R) : R := match i with O => 0 | S i => x * quot_pow a i x + a ^ i end.
Lemma quot_pow_eq a i x : x ^ i - a ^ i = (x - a) * quot_pow a i x.
Proof. induction i as [|i IH]; [cbn; ring|]. cbn [pow quot_pow]. replace ((x - a) * (x * quot_pow a i x + a ^ i)) with (x * ((x - a) * quot_pow a i x) + (x - a) * a ^ i) by ring. rewrite <- IH. ring. Qed.
Lemma quot_pow_poly a i : polynomial i (quot_pow a i).
Proof. induction i as [|i IH]; [apply poly_zero|]. cbn [quot_pow]. apply poly_plus; [now apply poly_mulx|apply (poly_const i (a ^ i))]. Qed.
Lemma poly_factor n f a : polynomial (S n) f -> f a = 0 -> exists g, polynomial n g /\ forall x, f x = (x - a) * g x.
Proof.
  intros [c H] H0. exists (fun x => bigsum (S n) (fun i => c i * quot_pow a i x)). split.
  - apply poly_bigsum. intros i Hi. apply poly_scal. apply (poly_mono i); [lia|apply quot_pow_poly].
  - intros x. rewrite <- (Rminus_0_r (f x)), <- H0, (H x), (H a), <- bigsum_scal. replace (bigsum (S n) (fun i => c i * x ^ i) - bigsum (S n) (fun i => c i * a ^ i)) with (bigsum (S n) (fun i => c i * x ^ i) + -1 * bigsum (S n) (fun i => c i * a ^ i)) by ring.
    rewrite <- bigsum_scal, <- bigsum_plus. apply bigsum_ext. intros i _. pose proof (quot_pow_eq a i x) as Q. replace ((x - a) * (c i * quot_pow a i x)) with (c i * ((x - a) * quot_pow a i x)) by ring. rewrite <- Q. ring.
Qed.
(** product of (x - a) over the list *)
Definition nodal (xs : list R) (x : R) : R := fold_right (fun a p => (x - a) * p) 1 xs.
Lemma nodal_poly xs : polynomial (S (length xs)) (nodal xs).
Proof.
  induction xs as [|a xs IH]; [apply (poly_const 0 1)|]. cbn [length]. apply (poly_ext _ (fun x => x * nodal xs x + - a * nodal xs x)); [intros; unfold nodal; cbn [fold_right]; ring|].
  apply poly_plus; [now apply poly_mulx|]. apply poly_scal. apply (poly_mono (S (length xs))); [lia|exact IH].
Qed.
Lemma nodal_zero xs x : nodal xs x = 0 <-> In x xs.
Proof.
  induction xs as [|a xs IH]; [cbn; split; [lra|tauto]|]. unfold nodal in *. cbn [fold_right In]. split.
  - intros H. apply Rmult_integral in H as [H|H]; [left; lra|right; now apply IH].
  - intros [->|H]; [ring|]. rewrite (proj2 IH H). ring.
Qed.
Lemma poly_roots xs : forall m f, NoDup xs -> polynomial (length xs + m) f -> (forall a, In a xs -> f a = 0) -> exists g, polynomial m g /\ forall x, f x = nodal xs x * g x.
Proof.
  induction xs as [|a xs IH]; intros m f ND Hf H0.
  - exists f. split; [exact Hf|]. intros; cbn; ring.
  - inversion ND as [|? ? Ha ND']; subst. destruct (poly_factor (length xs + m) f a Hf (H0 a (or_introl eq_refl))) as (g & Hg & E).
    destruct (IH m g ND' Hg) as (h & Hh & E').
    { intros b Hb. specialize (H0 b (or_intror Hb)). rewrite E in H0. apply Rmult_integral in H0 as [H0|H0]; [|exact H0]. exfalso. apply Ha. replace a with b by lra. exact Hb. }
    exists h. split; [exact Hh|]. intros x. rewrite E, E'. unfold nodal. cbn [fold_right]. ring.
Qed.
Lemma poly_many_roots xs f : NoDup xs -> polynomial (length xs) f -> (forall a, In a xs -> f a = 0) -> forall x, f x = 0.
Proof.
  intros ND Hf H0 x. rewrite <- (Nat.add_0_r (length xs)) in Hf. destruct (poly_roots xs 0 f ND Hf H0) as (g & [c Hg] & E). rewrite E, Hg. cbn. ring.
Qed.
