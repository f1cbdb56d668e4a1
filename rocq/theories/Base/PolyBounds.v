(** Polynomials with rational coefficients: evaluation, sign on an interval (checked by computation), and Taylor bounds
    of sine and cosine. *)
From Coq Require Import Reals Lra Lia ZArith QArith Qreals Qround List Bool.
From Coquelicot Require Import Coquelicot.
Import ListNotations.
Open Scope R_scope.
Ltac req := match goal with |- @eq _ ?a ?b => change (@eq R a b) end.

Fixpoint peval (p : list Q) (x : R) : R := match p with [] => 0 | c :: p => Q2R c + x * peval p x end.
Fixpoint padd (p q : list Q) : list Q :=
  match p, q with [], _ => q | _, [] => p | a :: p, b :: q => Qred (a + b) :: padd p q end.
Definition pscale (c : Q) (p : list Q) : list Q := map (fun a => Qred (c * a)) p.
Fixpoint pmul (p q : list Q) : list Q := match p with [] => [] | a :: p => padd (pscale a q) (0%Q :: pmul p q) end.
Definition psub (p q : list Q) : list Q := padd p (pscale (-1) q).
Lemma Q2R_red a : Q2R (Qred a) = Q2R a.
Proof. apply Qeq_eqR, Qred_correct. Qed.
Lemma Q2R_0 : Q2R 0 = 0. Proof. unfold Q2R. cbn. lra. Qed.
Lemma peval_add p : forall q x, peval (padd p q) x = peval p x + peval q x.
Proof. induction p as [|a p IH]; intros q x; [cbn; ring|]. destruct q as [|b q]; [cbn; ring|]. cbn [padd peval]. rewrite IH, Q2R_red, Q2R_plus. ring. Qed.
Lemma peval_scale c p x : peval (pscale c p) x = Q2R c * peval p x.
Proof. induction p as [|a p IH]; [cbn; ring|]. cbn [pscale map peval]. unfold pscale in IH. rewrite IH, Q2R_red, Q2R_mult. ring. Qed.
Lemma peval_mul p : forall q x, peval (pmul p q) x = peval p x * peval q x.
Proof. induction p as [|a p IH]; intros q x; [cbn; ring|]. cbn [pmul]. rewrite peval_add, peval_scale. cbn [peval]. rewrite IH, Q2R_0. ring. Qed.
Lemma peval_sub p q x : peval (psub p q) x = peval p x - peval q x.
Proof. unfold psub. rewrite peval_add, peval_scale. replace (Q2R (-1)) with (-1) by (unfold Q2R; cbn; lra). ring. Qed.

(** * Integration *)
Fixpoint pint_from (k : positive) (p : list Q) : list Q := match p with [] => [] | c :: p => Qred (c * (1 # k)) :: pint_from (Pos.succ k) p end.
Definition pint (p : list Q) : list Q := 0%Q :: pint_from 1 p.
Lemma pint_from_derive p : forall k (x : R), is_derive (fun x : R => x ^ (S k) * peval (pint_from (Pos.of_succ_nat k) p) x) x (x ^ k * peval p x).
Proof.
  induction p as [|c p IH]; intros k x.
  - cbn [pint_from peval]. apply (is_derive_ext (fun _ : R => 0)); [intros t; req; ring|]. rewrite Rmult_0_r. apply @is_derive_const.
  - cbn [pint_from peval]. rewrite Q2R_red, Q2R_mult.
    apply (is_derive_ext (fun t : R => Q2R c * Q2R (1 # Pos.of_succ_nat k) * t ^ (S k) + t ^ (S (S k)) * peval (pint_from (Pos.of_succ_nat (S k)) p) t)).
    { intros t. cbn [Pos.of_succ_nat]. req. cbn [pow]. ring. }
    replace (x ^ k * (Q2R c + x * peval p x)) with (Q2R c * x ^ k + x ^ (S k) * peval p x) by (cbn [pow]; ring).
    apply (is_derive_plus (fun t : R => Q2R c * Q2R (1 # Pos.of_succ_nat k) * t ^ S k)); [|apply IH].
    assert (D : is_derive (fun t : R => t ^ S k) x (INR (S k) * x ^ k)).
    { replace (INR (S k) * x ^ k) with (INR (S k) * 1 * x ^ Nat.pred (S k)) by (cbn [Nat.pred]; ring). apply (is_derive_pow (fun t : R => t) (S k)). apply @is_derive_id. }
    apply (is_derive_scal _ x (Q2R c * Q2R (1 # Pos.of_succ_nat k))) in D.
    replace (Q2R c * x ^ k) with (Q2R c * Q2R (1 # Pos.of_succ_nat k) * (INR (S k) * x ^ k)); [exact D|].
    unfold Q2R at 2. cbn [Qnum Qden]. rewrite INR_IZR_INZ, Nat2Z.inj_succ, <- Zpos_P_of_succ_nat. field. apply IZR_neq. discriminate.
Qed.
Lemma pint_derive p (x : R) : is_derive (peval (pint p)) x (peval p x).
Proof.
  apply (is_derive_ext (fun x : R => x ^ 1 * peval (pint_from (Pos.of_succ_nat 0) p) x)). { intros t. unfold pint. cbn [peval Pos.of_succ_nat]. rewrite Q2R_0. req. ring. }
  replace (peval p x) with (x ^ 0 * peval p x) by ring. apply pint_from_derive.
Qed.
Lemma pint_0 p : peval (pint p) 0 = 0.
Proof. unfold pint. cbn [peval]. rewrite Q2R_0. ring. Qed.
Lemma from_derivative (f f' : R -> R) : (forall x : R, 0 <= x -> is_derive f x (f' x)) -> (forall x, 0 <= x -> 0 <= f' x) -> 0 <= f 0 -> forall x, 0 <= x -> 0 <= f x.
Proof.
  intros D P H0 x Hx. destruct (MVT_gen f 0 x f') as (c & Hc & E).
  - intros t Ht. rewrite Rmin_left, Rmax_right in Ht by lra. apply D. lra.
  - intros t Ht. rewrite Rmin_left, Rmax_right in Ht by lra. apply continuity_pt_filterlim. apply (ex_derive_continuous f). eexists. apply D. lra.
  - rewrite Rmin_left, Rmax_right in Hc by lra. assert (0 <= f' c) by (apply P; lra). nra.
Qed.

(** * Taylor bounds of sine and cosine *)
(** cosine upper bound number n: 1, then 1 - int int of the previous one applied to the lower bounds *)
Definition next (p : list Q) : list Q := psub [1%Q] (pint (pint p)).
Fixpoint taylor_cos (n : nat) : list Q := match n with O => [1%Q] | S n => next (taylor_cos n) end.
Definition taylor_sin (n : nat) : list Q := pint (taylor_cos n).
Lemma Q2R_1 : Q2R 1 = 1. Proof. unfold Q2R. cbn. lra. Qed.
Lemma cos_to_sin (s : R) p : (forall x, 0 <= x -> 0 <= s * (peval p x - cos x)) -> forall x, 0 <= x -> 0 <= s * (peval (pint p) x - sin x).
Proof.
  intros H. apply (from_derivative _ (fun x => s * (peval p x - cos x))); [|exact H|].
  - intros x _. apply (is_derive_scal (fun x => peval (pint p) x - sin x) x s). apply (is_derive_minus (peval (pint p)) sin); [apply pint_derive|]. apply is_derive_Reals, derivable_pt_lim_sin.
  - rewrite pint_0, sin_0. lra.
Qed.
Lemma sin_to_cos (s : R) p : (forall x, 0 <= x -> 0 <= s * (peval p x - sin x)) -> forall x, 0 <= x -> 0 <= - s * (peval (psub [1%Q] (pint p)) x - cos x).
Proof.
  intros H x Hx. rewrite peval_sub. cbn [peval]. rewrite Q2R_1. replace (- s * (1 + x * 0 - peval (pint p) x - cos x)) with (s * (peval (pint p) x - (1 - cos x))) by ring.
  revert x Hx. apply (from_derivative _ (fun x => s * (peval p x - sin x))); [|exact H|].
  - intros x _. apply (is_derive_scal (fun x => peval (pint p) x - (1 - cos x)) x s). apply (is_derive_minus (peval (pint p)) (fun x => 1 - cos x)); [apply pint_derive|]. auto_derive; [exact I|ring].
  - rewrite pint_0, cos_0. lra.
Qed.
Lemma taylor_bounds n : forall x, 0 <= x ->
  0 <= (-1) ^ n * (peval (taylor_cos n) x - cos x) /\ 0 <= (-1) ^ n * (peval (taylor_sin n) x - sin x).
Proof.
  induction n as [|n IH]; intros x Hx.
  - assert (C : forall x, 0 <= x -> 0 <= (-1) ^ 0 * (peval (taylor_cos 0) x - cos x)). { intros t _. cbn. rewrite Q2R_1. pose proof (COS_bound t). lra. }
    split; [apply C, Hx|]. apply cos_to_sin; [exact C|exact Hx].
  - assert (C : forall x, 0 <= x -> 0 <= (-1) ^ (S n) * (peval (taylor_cos (S n)) x - cos x)).
    { intros t Ht. cbn [pow taylor_cos]. unfold next. replace (-1 * (-1) ^ n) with (- (-1) ^ n) by ring. apply sin_to_cos; [|exact Ht]. intros u Hu. apply IH, Hu. }
    split; [apply C, Hx|]. apply cos_to_sin; [exact C|exact Hx].
Qed.
Lemma m1_even n : (-1) ^ (2 * n) = 1. Proof. rewrite pow_mult. replace ((-1) ^ 2) with 1 by ring. apply pow1. Qed.
Lemma taylor_upper n x : 0 <= x -> cos x <= peval (taylor_cos (2 * n)) x /\ sin x <= peval (taylor_sin (2 * n)) x.
Proof. intros H. destruct (taylor_bounds (2 * n) x H) as [A B]. rewrite m1_even in A, B. lra. Qed.
Lemma taylor_lower n x : 0 <= x -> peval (taylor_cos (2 * n + 1)) x <= cos x /\ peval (taylor_sin (2 * n + 1)) x <= sin x.
Proof. intros H. destruct (taylor_bounds (2 * n + 1) x H) as [A B]. rewrite pow_add, m1_even in A, B. lra. Qed.

(** * Sign of a polynomial on an interval *)
Fixpoint zev (l : list Z) (x : R) : R := match l with [] => 0 | c :: l => IZR c + x * zev l x end.
(** coefficients times 2^K, rounded down *)
Definition zfloor (K : positive) (p : list Q) : list Z := map (fun c => Qfloor (c * inject_Z (2 ^ Zpos K))) p.
Lemma pow2_pos K : 0 < IZR (2 ^ Zpos K). Proof. apply IZR_lt. apply Z.pow_pos_nonneg; lia. Qed.
Lemma zfloor_le K p x : 0 <= x -> zev (zfloor K p) x <= IZR (2 ^ Zpos K) * peval p x.
Proof.
  intros Hx. induction p as [|c p IH]; cbn [zfloor map zev peval]; [lra|]. fold (zfloor K p).
  assert (F : IZR (Qfloor (c * inject_Z (2 ^ Zpos K))) <= Q2R c * IZR (2 ^ Zpos K)).
  { pose proof (Qfloor_le (c * inject_Z (2 ^ Zpos K))) as H. apply Qle_Rle in H. rewrite Q2R_mult in H. unfold Q2R at 1 3 in H. cbn [Qnum Qden inject_Z] in H. lra. }
  nra.
Qed.
(** p((m + t) / 2^k) *)
Fixpoint rescale (k : Z) (l : list Z) : list Z := match l with [] => [] | c :: l => (c * 2 ^ (k * Z.of_nat (length l)))%Z :: rescale k l end.
Fixpoint zadd (p q : list Z) : list Z := match p, q with [], _ => q | _, [] => p | a :: p, b :: q => (a + b)%Z :: zadd p q end.
Fixpoint zshift (m : Z) (l : list Z) : list Z := match l with [] => [] | c :: l => let q := zshift m l in zadd (c :: q) (map (Z.mul m) q) end.
Fixpoint zneg (l : list Z) : Z := match l with [] => 0%Z | c :: l => (Z.min 0 c + zneg l)%Z end.
Definition zlow (l : list Z) : Z := match l with [] => 0%Z | c :: l => (c + zneg l)%Z end.
Definition check_piece (k : positive) (l : list Z) (m : Z) : bool := (0 <=? zlow (zshift m l))%Z.
Definition check (K k : positive) (p : list Q) (m n : Z) : bool :=
  let l := rescale (Zpos k) (zfloor K p) in forallb (fun i => check_piece k l (m + Z.of_nat i)) (seq 0 (Z.to_nat (n - m))).
Lemma zev_rescale k l x : (0 <= k)%Z -> IZR (2 ^ k) * zev (rescale k l) (IZR (2 ^ k) * x) = IZR (2 ^ (k * Z.of_nat (length l))) * zev l x.
Proof.
  intros Hk. induction l as [|c l IH]; [cbn [rescale zev length]; rewrite !Rmult_0_r; reflexivity|]. cbn [rescale zev length]. rewrite mult_IZR.
  replace (k * Z.of_nat (S (length l)))%Z with (k + k * Z.of_nat (length l))%Z by lia. rewrite Z.pow_add_r, mult_IZR by lia.
  transitivity (IZR (2 ^ k) * (IZR c * IZR (2 ^ (k * Z.of_nat (length l)))) + IZR (2 ^ k) * x * (IZR (2 ^ k) * zev (rescale k l) (IZR (2 ^ k) * x))); [ring|]. rewrite IH. ring.
Qed.
Lemma zev_add p : forall q x, zev (zadd p q) x = zev p x + zev q x.
Proof. induction p as [|a p IH]; intros q x; [cbn; ring|]. destruct q as [|b q]; [cbn; ring|]. cbn. rewrite IH, plus_IZR. ring. Qed.
Lemma zev_scale m l x : zev (map (Z.mul m) l) x = IZR m * zev l x.
Proof. induction l as [|c l IH]; cbn; [ring|]. rewrite IH, mult_IZR. ring. Qed.
Lemma zev_shift m l t : zev (zshift m l) t = zev l (IZR m + t).
Proof. induction l as [|c l IH]; [reflexivity|]. cbn [zshift]. cbv zeta. rewrite zev_add, zev_scale. cbn [zev]. rewrite IH. ring. Qed.
Lemma zneg_nonpos l : (zneg l <= 0)%Z.
Proof. induction l; cbn; lia. Qed.
Lemma zneg_le l t : 0 <= t <= 1 -> IZR (zneg l) <= t * zev l t.
Proof.
  intros Ht. induction l as [|c l IH]; cbn [zneg zev]; [lra|]. rewrite plus_IZR. pose proof (IZR_le _ _ (zneg_nonpos l)) as N.
  assert (M1 : IZR (Z.min 0 c) <= 0) by (apply IZR_le; lia). assert (M2 : IZR (Z.min 0 c) <= IZR c) by (apply IZR_le; lia). nra.
Qed.
Lemma zlow_le l t : 0 <= t <= 1 -> IZR (zlow l) <= zev l t.
Proof. intros Ht. destruct l as [|c l]; cbn [zlow zev]; [lra|]. rewrite plus_IZR. pose proof (zneg_le l t Ht). lra. Qed.
Lemma check_sound K k p m n : (0 <= m)%Z -> check K k p m n = true -> forall x, IZR m <= IZR (2 ^ Zpos k) * x < IZR n -> 0 <= peval p x.
Proof.
  intros Hm H x Hx. unfold check in H. rewrite forallb_forall in H. pose proof (pow2_pos k) as Pk. pose proof (pow2_pos K) as PK.
  set (y := IZR (2 ^ Zpos k) * x) in *. assert (A := archimed y). set (j := (up y - 1)%Z).
  assert (J1 : IZR j <= y < IZR j + 1) by (unfold j; rewrite minus_IZR; lra).
  assert (Jm : (m <= j)%Z). { apply Z.lt_succ_r. apply lt_IZR. unfold Z.succ. rewrite plus_IZR. lra. }
  assert (Jn : (j < n)%Z). { apply lt_IZR. lra. }
  specialize (H (Z.to_nat (j - m))). assert (I0 : In (Z.to_nat (j - m)) (seq 0 (Z.to_nat (n - m)))) by (apply in_seq; lia). specialize (H I0).
  replace (m + Z.of_nat (Z.to_nat (j - m)))%Z with j in H by lia. unfold check_piece in H. apply Z.leb_le, IZR_le in H.
  assert (L := zlow_le (zshift j (rescale (Zpos k) (zfloor K p))) (y - IZR j) ltac:(lra)). rewrite zev_shift in L. replace (IZR j + (y - IZR j)) with y in L by ring.
  assert (E := zev_rescale (Zpos k) (zfloor K p) x ltac:(lia)). fold y in E.
  assert (Hx0 : 0 <= x). { assert (0 <= IZR m) by (apply IZR_le; lia). unfold y in Hx. nra. }
  assert (F := zfloor_le K p x Hx0). set (N := length (zfloor K p)) in E.
  assert (PN : 0 < IZR (2 ^ (Zpos k * Z.of_nat N))) by (apply IZR_lt, Z.pow_pos_nonneg; lia).
  assert (Z1 : 0 <= zev (zfloor K p) x). { apply (Rmult_le_reg_l _ _ _ PN). rewrite Rmult_0_r, <- E. apply Rmult_le_pos; lra. }
  apply (Rmult_le_reg_l _ _ _ PK). lra.
Qed.
(** the value at a rational point *)
Fixpoint qeval (p : list Q) (x : Q) : Q := match p with [] => 0%Q | c :: p => Qred (c + x * qeval p x) end.
Lemma qeval_ok p x : Q2R (qeval p x) = peval p (Q2R x).
Proof. induction p as [|c p IH]; cbn [qeval peval]; [apply Q2R_0|]. rewrite Q2R_red, Q2R_plus, Q2R_mult, IH. reflexivity. Qed.
