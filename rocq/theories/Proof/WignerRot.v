(** The rotation matrices of s2fft_rotation.py rotate maps. *)
From Coq Require Import Reals Lra Lia ZArith List Bool Arith.
From Coquelicot Require Import Coquelicot.
From Verif Require Import Base.RealAux Model.Poly Model.S2fft Spec.PolySpec Spec.HarmonicSpec Spec.RotationSpec
  Proof.HarmonicProof Proof.RotationProof Proof.LegendreT Proof.WignerGen Proof.WignerStep.
Import ListNotations.
Open Scope R_scope.

(** * the y-rotation of the generating coefficients *)
Lemma bz_nz J k : (0 <= k <= Z.of_nat J)%Z -> bz J k <> 0.
Proof. intros H. apply Rgt_not_eq. now apply bz_pos. Qed.
Lemma gc_rot_y L b l x y z k : (0 <= k <= 2 * Z.of_nat l)%Z ->
  gc (x * cos b + z * sin b) y (- x * sin b + z * cos b) l k =
  (bz (2 * l) k * bigsum (2 * l + 1) (fun i => wigner_d L b l k (Z.of_nat i) * (fst (gc x y z l (Z.of_nat i)) / bz (2 * l) (Z.of_nat i))),
   bz (2 * l) k * bigsum (2 * l + 1) (fun i => wigner_d L b l k (Z.of_nat i) * (snd (gc x y z l (Z.of_nat i)) / bz (2 * l) (Z.of_nat i)))).
Proof.
  intros Hk. set (x' := x * cos b + z * sin b). set (z' := - x * sin b + z * cos b).
  destruct (wigner_d_sym L b l) as [_ Hd]. set (c := cos (b / 2)) in *. set (d := sin (b / 2)) in *.
  (* both parts at once: for a real coefficient family a of degree 2l *)
  assert (K : forall (a : Z -> R) s t, hsum (2 * l) a (- c * s + d * t) (- d * s + - c * t) =
    hsum (2 * l) (fun k => bz (2 * l) k * bigsum (2 * l + 1) (fun i => wigner_d L b l k (Z.of_nat i) * (a (Z.of_nat i) / bz (2 * l) (Z.of_nat i)))) s t).
  { intros a s t. unfold hsum at 1. rewrite (bigsum_ext _ _ (fun i => a (Z.of_nat i) / bz (2 * l) (Z.of_nat i) * hsum (2 * l) (fun k => wigner_d L b l k (Z.of_nat i) * bz (2 * l) k) s t)).
    - unfold hsum. replace (S (2 * l)) with (2 * l + 1)%nat by lia.
      rewrite (bigsum_ext _ _ (fun i => bigsum (2 * l + 1) (fun k => a (Z.of_nat i) / bz (2 * l) (Z.of_nat i) * (wigner_d L b l (Z.of_nat k) (Z.of_nat i) * bz (2 * l) (Z.of_nat k) * (s ^ (2 * l - k) * t ^ k))))) by (intros; now rewrite bigsum_scal).
      rewrite bigsum_swap. apply bigsum_ext. intros k' _.
      rewrite (Rmult_comm (_ * bigsum _ _)), <- Rmult_assoc, <- bigsum_scal. apply bigsum_ext. intros i _. ring.
    - intros i Hi. rewrite Hd by lia. rewrite Nat2Z.id. field. apply bz_nz. lia. }
  assert (G1 : forall s t, hsum (2 * l) (fun k => fst (gc x' y z' l k)) s t = hsum (2 * l) (fun k => fst (gc x y z l k)) (- c * s + d * t) (- d * s + - c * t) /\
                           hsum (2 * l) (fun k => snd (gc x' y z' l k)) s t = hsum (2 * l) (fun k => snd (gc x y z l k)) (- c * s + d * t) (- d * s + - c * t)).
  { intros s t. pose proof (gc_gen x' y z' l s t) as A. pose proof (gc_gen x y z l (- c * s + d * t) (- d * s + - c * t)) as B.
    destruct (G_rot_y x y z b s t) as [E1 E2]. fold c d x' z' in E1, E2.
    replace (Gre x y z (- c * s + d * t) (- d * s + - c * t)) with (Gre x' y z' s t) in B by (rewrite E1; unfold Gre; ring).
    replace (Gim x y z (- c * s + d * t) (- d * s + - c * t)) with (Gim x' y z' s t) in B by (rewrite E2; unfold Gim; ring).
    rewrite <- A in B. split; [symmetry; exact (f_equal fst B)|symmetry; exact (f_equal snd B)]. }
  rewrite (surjective_pairing (gc x' y z' l k)). f_equal.
  - apply (hsum_inj (2 * l) (fun k => fst (gc x' y z' l k)) (fun k => bz (2 * l) k * bigsum (2 * l + 1) (fun i => wigner_d L b l k (Z.of_nat i) * (fst (gc x y z l (Z.of_nat i)) / bz (2 * l) (Z.of_nat i))))); [|lia].
    intros s t. destruct (G1 s t) as [-> _]. rewrite (K (fun k => fst (gc x y z l k))). reflexivity.
  - apply (hsum_inj (2 * l) (fun k => snd (gc x' y z' l k)) (fun k => bz (2 * l) k * bigsum (2 * l + 1) (fun i => wigner_d L b l k (Z.of_nat i) * (snd (gc x y z l (Z.of_nat i)) / bz (2 * l) (Z.of_nat i))))); [|lia].
    intros s t. destruct (G1 s t) as [_ ->]. rewrite (K (fun k => snd (gc x y z l k))). reflexivity.
Qed.

(** * complex harmonics *)
Definition Vx (F : Z -> R) (m : Z) : R * R :=
  if (0 <? m)%Z then ((-1) ^ Z.to_nat m / sqrt 2 * F m, - ((-1) ^ Z.to_nat m / sqrt 2) * F (- m)%Z)
  else if (m =? 0)%Z then (F 0%Z, 0)
  else (F (- m)%Z / sqrt 2, F m / sqrt 2).
Definition kap (l : nat) : R := sqrt (INR (2 * l + 1) / (4 * PI)) * sqrt (INR (fact (2 * l))) / (2 ^ l * INR (fact l)).
Definition Yat (l : nat) (p : vec3) (m : Z) : R := let '(x, y, z) := p in real_Y l m x y z.
Definition sphere (p : vec3) : Prop := let '(x, y, z) := p in on_sphere x y z.
Lemma sqrt2_pos : 0 < sqrt 2.
Proof. apply sqrt_lt_R0. lra. Qed.
Lemma norm_kap l a k : (a <= l)%nat -> k = (Z.of_nat l + Z.of_nat a)%Z \/ k = (Z.of_nat l - Z.of_nat a)%Z ->
  harmonic_norm l a = (if Nat.eqb a 0 then 1 else sqrt 2) * (kap l / bz (2 * l) k * (2 ^ l * INR (fact l) / INR (fact (l + a)))).
Proof.
  intros Ha Hk. assert (Eb : bz (2 * l) k = sqrt (INR (fact (2 * l)) / (INR (fact (l + a)) * INR (fact (l - a))))).
  { rewrite bz_in by lia. f_equal. unfold Binomial.C. destruct Hk as [-> | ->].
    - replace (Z.to_nat (Z.of_nat l + Z.of_nat a)) with (l + a)%nat by lia. replace (2 * l - (l + a))%nat with (l - a)%nat by lia. reflexivity.
    - replace (Z.to_nat (Z.of_nat l - Z.of_nat a)) with (l - a)%nat by lia. replace (2 * l - (l - a))%nat with (l + a)%nat by lia. f_equal. ring. }
  assert (P2 : forall n, 0 < INR (fact n)) by (intros; apply fact_pos). assert (H2l : 2 ^ l <> 0) by (apply pow_nonzero; lra).
  pose proof PI_RGT_0 as Hpi. assert (H21 : 0 < INR (2 * l + 1)) by (apply lt_0_INR; lia).
  pose proof (P2 (l + a)%nat) as Fp. pose proof (P2 (l - a)%nat) as Fm. pose proof (P2 (2 * l)%nat) as F2. pose proof (P2 l) as Fl.
  assert (En : harmonic_norm l a = (if Nat.eqb a 0 then 1 else sqrt 2) * (sqrt (INR (2 * l + 1) / (4 * PI)) * sqrt (INR (fact (l - a)) / INR (fact (l + a))))).
  { unfold harmonic_norm.
    assert (Q1 : 0 < INR (2 * l + 1) / (4 * PI)) by (apply Rdiv_lt_0_compat; lra).
    assert (Q2 : 0 < INR (fact (l - a)) / INR (fact (l + a))) by (now apply Rdiv_lt_0_compat).
    destruct (Nat.eqb_spec a 0).
    - rewrite (Rmult_1_l (sqrt _ * sqrt _)), <- sqrt_mult by lra. f_equal. field. split; lra.
    - rewrite <- sqrt_mult by lra. rewrite <- sqrt_mult by (try lra; apply Rlt_le, Rmult_lt_0_compat; lra). f_equal. field. split; lra. }
  rewrite En. f_equal. unfold kap. rewrite Eb. set (q := sqrt (INR (2 * l + 1) / (4 * PI))).
  rewrite (sqrt_div (INR (fact (l - a)))) by lra. rewrite (sqrt_div (INR (fact (2 * l)))) by (try lra; apply Rmult_lt_0_compat; assumption).
  rewrite (sqrt_mult (INR (fact (l + a)))) by lra.
  assert (S1 : 0 < sqrt (INR (fact (l + a)))) by now apply sqrt_lt_R0. assert (S2 : 0 < sqrt (INR (fact (l - a)))) by now apply sqrt_lt_R0.
  assert (S3 : 0 < sqrt (INR (fact (2 * l)))) by now apply sqrt_lt_R0.
  assert (Hsq : INR (fact (l + a)) = sqrt (INR (fact (l + a))) * sqrt (INR (fact (l + a)))) by (rewrite sqrt_sqrt; lra).
  revert Hsq S1 S2 S3. generalize (sqrt (INR (fact (l + a)))) (sqrt (INR (fact (l - a)))) (sqrt (INR (fact (2 * l)))). intros s1 s2 s3 Hsq S1 S2 S3.
  rewrite Hsq. field. repeat split; lra.
Qed.
Lemma Vx_gc l x y z m : on_sphere x y z -> (Z.abs m <= Z.of_nat l)%Z ->
  Vx (Yat l (x, y, z)) m = (kap l / bz (2 * l) (Z.of_nat l + m) * fst (gc x y z l (Z.of_nat l + m)), - (kap l / bz (2 * l) (Z.of_nat l + m)) * snd (gc x y z l (Z.of_nat l + m))).
Proof.
  intros Hs Hm. assert (Er : x ^ 2 + y ^ 2 = 1 - z ^ 2) by (unfold on_sphere in Hs; lra).
  pose proof sqrt2_pos as H2. set (a := Z.abs_nat m).
  assert (Nk := fun k H => norm_kap l a k ltac:(unfold a; lia) H).
  assert (Na : Z.abs_nat (- m) = a) by (unfold a; lia).
  assert (HT : Tc z (x ^ 2 + y ^ 2) l (Z.of_nat l + Z.of_nat a) = legendre_deriv l a z * (2 ^ l * INR (fact l)) / INR (fact (l + a))) by (rewrite Er; apply Tc_legendre).
  pose proof (fact_nz (l + a)) as Hf.
  unfold Vx, Yat, real_Y. fold a. rewrite Na.
  destruct (Z.ltb_spec 0 m).
  - replace (Z.of_nat l + m)%Z with (Z.of_nat l + Z.of_nat a)%Z by (unfold a; lia). destruct (gc_legendre x y z l a) as [-> _]. cbn [fst snd]. rewrite HT.
    replace (Z.to_nat m) with a by (unfold a; lia). rewrite (Nk (Z.of_nat l + Z.of_nat a)%Z) by (left; reflexivity).
    destruct (Z.ltb_spec m 0); [lia|]. destruct (Z.ltb_spec (- m) 0); [|lia]. destruct (Nat.eqb_spec a 0); [unfold a in *; lia|].
    f_equal; field; (split; [assumption|split; [apply bz_nz; unfold a; lia|lra]]).
  - destruct (Z.eqb_spec m 0) as [-> | Hne].
    + assert (Ea : a = 0%nat) by reflexivity. rewrite Ea in *. cbn [Z.ltb Z.compare]. change (Z.abs_nat 0) with 0%nat. rewrite (Nk (Z.of_nat l + 0)%Z) by (left; reflexivity).
      destruct (gc_legendre x y z l 0) as [E0 _]. change (Z.of_nat 0) with 0%Z in E0, HT. rewrite E0. cbn [fst snd]. rewrite HT. cbn [cpow fst snd]. cbn [Nat.eqb].
      f_equal; field; (split; [assumption|apply bz_nz; lia]).
    + replace (Z.of_nat l + m)%Z with (Z.of_nat l - Z.of_nat a)%Z by (unfold a; lia). destruct (gc_legendre x y z l a) as [_ ->]. cbn [fst snd]. rewrite HT.
      rewrite (Nk (Z.of_nat l - Z.of_nat a)%Z) by (right; reflexivity).
      destruct (Z.ltb_spec m 0); [|lia]. destruct (Z.ltb_spec (- m) 0); [lia|]. destruct (Nat.eqb_spec a 0); [unfold a in *; lia|].
      f_equal; field; (split; [assumption|split; [apply bz_nz; unfold a; lia|lra]]).
Qed.
