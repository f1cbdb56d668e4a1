(** The generating function of the spherical harmonics of degree l, and the matrices of the symmetric
    powers of a planar rotation. *)
From Coq Require Import Reals Lra Lia ZArith List Bool Arith.
From Verif Require Import Base.RealAux Spec.PolySpec Spec.HarmonicSpec Spec.RotationSpec Proof.PolyUnique Proof.LegendreT.
Import ListNotations.
Open Scope R_scope.
Local Notation C := Binomial.C.

(** * homogeneous polynomials in (s, t) *)
Definition hsum (n : nat) (a : Z -> R) (s t : R) : R := bigsum (S n) (fun k => a (Z.of_nat k) * (s ^ (n - k) * t ^ k)).
Lemma hsum_ext n a b s t : (forall k, (0 <= k <= Z.of_nat n)%Z -> a k = b k) -> hsum n a s t = hsum n b s t.
Proof. intros H. apply bigsum_ext. intros k Hk. rewrite H by lia. reflexivity. Qed.
Lemma hsum_plus n a b s t : hsum n (fun k => a k + b k) s t = hsum n a s t + hsum n b s t.
Proof. unfold hsum. rewrite <- bigsum_plus. apply bigsum_ext. intros. ring. Qed.
Lemma hsum_scal n c a s t : hsum n (fun k => c * a k) s t = c * hsum n a s t.
Proof. unfold hsum. rewrite <- bigsum_scal. apply bigsum_ext. intros. ring. Qed.
Lemma hsum_s n a s t : a (Z.of_nat (S n)) = 0 -> hsum (S n) a s t = s * hsum n a s t.
Proof.
  intros H. unfold hsum. rewrite <- bigsum_scal.
  change (bigsum (S (S n)) (fun k => a (Z.of_nat k) * (s ^ (S n - k) * t ^ k))) with
    (bigsum (S n) (fun k => a (Z.of_nat k) * (s ^ (S n - k) * t ^ k)) + a (Z.of_nat (S n)) * (s ^ (S n - S n) * t ^ S n)).
  rewrite H, Rmult_0_l, Rplus_0_r. apply bigsum_ext. intros k Hk. replace (S n - k)%nat with (S (n - k)) by lia. cbn [pow]. ring.
Qed.
Lemma hsum_t n a s t : a (-1)%Z = 0 -> hsum (S n) (fun k => a (k - 1)%Z) s t = t * hsum n a s t.
Proof.
  intros H. unfold hsum. rewrite bigsum_split_first. change (Z.of_nat 0 - 1)%Z with (-1)%Z. rewrite H, Rmult_0_l, Rplus_0_l.
  rewrite <- bigsum_scal. apply bigsum_ext. intros k Hk. replace (Z.of_nat (S k) - 1)%Z with (Z.of_nat k) by lia.
  replace (S n - S k)%nat with (n - k)%nat by lia. cbn [pow]. ring.
Qed.
Lemma hsum_inj n a b : (forall s t, hsum n a s t = hsum n b s t) -> forall k, (0 <= k <= Z.of_nat n)%Z -> a k = b k.
Proof.
  intros H k Hk. assert (E : a k - b k = 0); [|lra].
  replace k with (Z.of_nat (Z.to_nat k)) by lia.
  apply (poly1_zero (S n) (fun i => a (Z.of_nat i) - b (Z.of_nat i)) 1 ltac:(lra)); [|lia].
  intros x _. pose proof (H 1 x) as E. unfold hsum in E.
  rewrite (bigsum_ext _ _ (fun i => a (Z.of_nat i) * (1 ^ (n - i) * x ^ i) + -1 * (b (Z.of_nat i) * (1 ^ (n - i) * x ^ i)))).
  2:{ intros i _. rewrite pow1. ring. }
  rewrite bigsum_plus, bigsum_scal, E. ring.
Qed.

(** * coefficients of (-W t^2 + 2 z s t + conj(W) s^2)^l, W = x + i y *)
Fixpoint gc (x y z : R) (l : nat) (k : Z) : R * R :=
  match l with
  | O => if (k =? 0)%Z then (1, 0) else (0, 0)
  | S l => let g := gc x y z l in
    (- (x * fst (g (k - 2)%Z) - y * snd (g (k - 2)%Z)) + 2 * z * fst (g (k - 1)%Z) + (x * fst (g k) + y * snd (g k)),
     - (x * snd (g (k - 2)%Z) + y * fst (g (k - 2)%Z)) + 2 * z * snd (g (k - 1)%Z) + (x * snd (g k) - y * fst (g k)))
  end.
Lemma gc_out x y z l : forall k, (k < 0 \/ 2 * Z.of_nat l < k)%Z -> gc x y z l k = (0, 0).
Proof.
  induction l as [|l IH]; intros k Hk; cbn [gc].
  - destruct (Z.eqb_spec k 0); [lia|reflexivity].
  - rewrite !IH by lia. cbn [fst snd]. f_equal; ring.
Qed.
Definition Gre (x y z s t : R) : R := x * (s ^ 2 - t ^ 2) + 2 * z * s * t.
Definition Gim (x y z s t : R) : R := - y * (s ^ 2 + t ^ 2).
Lemma gc_gen x y z l s t :
  (hsum (2 * l) (fun k => fst (gc x y z l k)) s t, hsum (2 * l) (fun k => snd (gc x y z l k)) s t) = cpow l (Gre x y z s t) (Gim x y z s t).
Proof.
  induction l as [|l IH]; [unfold hsum; cbn; f_equal; ring|].
  cbn [cpow]. destruct (cpow l _ _) as [a b]. pose proof (f_equal fst IH) as Ea. pose proof (f_equal snd IH) as Eb. cbn [fst snd] in Ea, Eb.
  assert (S2 : forall f : Z -> R, (forall k, (k < 0 \/ 2 * Z.of_nat l < k)%Z -> f k = 0) ->
    hsum (2 * S l) f s t = s ^ 2 * hsum (2 * l) f s t /\ hsum (2 * S l) (fun k => f (k - 1)%Z) s t = s * t * hsum (2 * l) f s t /\
    hsum (2 * S l) (fun k => f (k - 2)%Z) s t = t ^ 2 * hsum (2 * l) f s t).
  { intros f Hf. replace (2 * S l)%nat with (S (S (2 * l))) by lia. split; [|split].
    - rewrite !hsum_s by (apply Hf; lia). ring.
    - rewrite (hsum_t (S (2 * l)) f) by (apply Hf; lia). rewrite hsum_s by (apply Hf; lia). ring.
    - rewrite (hsum_ext _ _ (fun k => f (k - 1 - 1)%Z)) by (intros; f_equal; lia).
      rewrite (hsum_t (S (2 * l)) (fun k => f (k - 1)%Z)) by (apply Hf; lia). rewrite (hsum_t (2 * l) f) by (apply Hf; lia). ring. }
  destruct (S2 (fun k => fst (gc x y z l k))) as (A0 & A1 & A2); [intros k Hk; now rewrite gc_out|].
  destruct (S2 (fun k => snd (gc x y z l k))) as (B0 & B1 & B2); [intros k Hk; now rewrite gc_out|].
  cbn [gc fst snd]. unfold Gre, Gim. f_equal.
  - transitivity (- x * hsum (2 * S l) (fun k => fst (gc x y z l (k - 2)%Z)) s t + y * hsum (2 * S l) (fun k => snd (gc x y z l (k - 2)%Z)) s t +
      2 * z * hsum (2 * S l) (fun k => fst (gc x y z l (k - 1)%Z)) s t + x * hsum (2 * S l) (fun k => fst (gc x y z l k)) s t + y * hsum (2 * S l) (fun k => snd (gc x y z l k)) s t).
    + rewrite <- !hsum_scal, <- !hsum_plus. apply hsum_ext. intros k _. ring.
    + rewrite A0, A1, A2, B0, B2, Ea, Eb. ring.
  - transitivity (- x * hsum (2 * S l) (fun k => snd (gc x y z l (k - 2)%Z)) s t - y * hsum (2 * S l) (fun k => fst (gc x y z l (k - 2)%Z)) s t +
      2 * z * hsum (2 * S l) (fun k => snd (gc x y z l (k - 1)%Z)) s t + x * hsum (2 * S l) (fun k => snd (gc x y z l k)) s t + - y * hsum (2 * S l) (fun k => fst (gc x y z l k)) s t).
    + replace (- x * hsum (2 * S l) (fun k => snd (gc x y z l (k - 2)%Z)) s t - y * hsum (2 * S l) (fun k => fst (gc x y z l (k - 2)%Z)) s t) with
        (- x * hsum (2 * S l) (fun k => snd (gc x y z l (k - 2)%Z)) s t + - y * hsum (2 * S l) (fun k => fst (gc x y z l (k - 2)%Z)) s t) by ring.
      rewrite <- !hsum_scal, <- !hsum_plus. apply hsum_ext. intros k _. ring.
    + rewrite A0, A2, B0, B1, B2, Ea, Eb. ring.
Qed.
(** its coefficients in terms of W and the Legendre derivatives *)
Lemma cpow_S m x y : cpow (S m) x y = (fst (cpow m x y) * x - snd (cpow m x y) * y, fst (cpow m x y) * y + snd (cpow m x y) * x).
Proof. cbn [cpow]. destruct (cpow m x y). reflexivity. Qed.
Lemma gc_legendre x y z l : forall m : nat, let rho := x ^ 2 + y ^ 2 in
  gc x y z l (Z.of_nat l + Z.of_nat m) = ((-1) ^ m * fst (cpow m x y) * Tc z rho l (Z.of_nat l + Z.of_nat m), (-1) ^ m * snd (cpow m x y) * Tc z rho l (Z.of_nat l + Z.of_nat m)) /\
  gc x y z l (Z.of_nat l - Z.of_nat m) = (fst (cpow m x y) * Tc z rho l (Z.of_nat l + Z.of_nat m), - snd (cpow m x y) * Tc z rho l (Z.of_nat l + Z.of_nat m)).
Proof.
  intros m rho. revert m. induction l as [|l IH]; intros m.
  - destruct m as [|m].
    + cbn. split; f_equal; ring.
    + cbn [gc Tc]. destruct (Z.eqb_spec (Z.of_nat 0 - Z.of_nat (S m)) 0), (Z.eqb_spec (Z.of_nat 0 + Z.of_nat (S m)) 0); try lia. split; f_equal; ring.
  - destruct m as [|m].
    + assert (E : gc x y z (S l) (Z.of_nat (S l) + Z.of_nat 0) = (Tc z rho (S l) (Z.of_nat (S l) + Z.of_nat 0), 0)).
      { cbn [gc Tc]. replace (Z.of_nat (S l) + Z.of_nat 0 - 2)%Z with (Z.of_nat l - Z.of_nat 1)%Z by lia.
        replace (Z.of_nat (S l) + Z.of_nat 0 - 1)%Z with (Z.of_nat l + Z.of_nat 0)%Z by lia.
        replace (Z.of_nat (S l) + Z.of_nat 0)%Z with (Z.of_nat l + Z.of_nat 1)%Z by lia.
        rewrite (Tc_sym z rho l 1). destruct (IH 0%nat) as [-> _]. destruct (IH 1%nat) as [-> ->]. cbn [cpow fst snd pow]. unfold rho. f_equal; ring. }
      replace (Z.of_nat (S l) - Z.of_nat 0)%Z with (Z.of_nat (S l) + Z.of_nat 0)%Z by lia. rewrite E. cbn [cpow fst snd pow]. split; f_equal; ring.
    + cbn [gc Tc].
      replace (Z.of_nat (S l) + Z.of_nat (S m) - 2)%Z with (Z.of_nat l + Z.of_nat m)%Z by lia.
      replace (Z.of_nat (S l) + Z.of_nat (S m) - 1)%Z with (Z.of_nat l + Z.of_nat (S m))%Z by lia.
      replace (Z.of_nat (S l) + Z.of_nat (S m))%Z with (Z.of_nat l + Z.of_nat (S (S m)))%Z by lia.
      replace (Z.of_nat (S l) - Z.of_nat (S m) - 2)%Z with (Z.of_nat l - Z.of_nat (S (S m)))%Z by lia.
      replace (Z.of_nat (S l) - Z.of_nat (S m) - 1)%Z with (Z.of_nat l - Z.of_nat (S m))%Z by lia.
      replace (Z.of_nat (S l) - Z.of_nat (S m))%Z with (Z.of_nat l - Z.of_nat m)%Z by lia.
      destruct (IH m) as [-> ->]. destruct (IH (S m)) as [-> ->]. destruct (IH (S (S m))) as [-> ->].
      set (T0 := Tc z rho l (Z.of_nat l + Z.of_nat m)). set (T1 := Tc z rho l (Z.of_nat l + Z.of_nat (S m))). set (T2 := Tc z rho l (Z.of_nat l + Z.of_nat (S (S m)))).
      rewrite !cpow_S. cbn [fst snd pow]. unfold rho. split; f_equal; ring.
Qed.
(** rotating the point about y is a planar rotation of (s, t) *)
Lemma G_rot_y x y z b s t : let c := cos (b / 2) in let d := sin (b / 2) in
  Gre (x * cos b + z * sin b) y (- x * sin b + z * cos b) s t = Gre x y z (c * s - d * t) (d * s + c * t) /\
  Gim (x * cos b + z * sin b) y (- x * sin b + z * cos b) s t = Gim x y z (c * s - d * t) (d * s + c * t).
Proof.
  intros c d. assert (H1 : c ^ 2 + d ^ 2 = 1) by (unfold c, d; rewrite <- (sin2_cos2 (b / 2)); unfold Rsqr; ring).
  assert (Hc : cos b = c ^ 2 - d ^ 2) by (unfold c, d; replace b with (2 * (b / 2)) at 1 by field; rewrite cos_2a; ring).
  assert (Hs : sin b = 2 * d * c) by (unfold c, d; replace b with (2 * (b / 2)) at 1 by field; rewrite sin_2a; ring).
  unfold Gre, Gim. rewrite Hc, Hs. split; [ring|]. transitivity (- y * ((c ^ 2 + d ^ 2) * (s ^ 2 + t ^ 2))); [rewrite H1; ring|ring].
Qed.
