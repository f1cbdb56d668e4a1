(** fast_direct_left_project *)
From Coq Require Import Reals Lra Lia ZArith List Bool Arith.
From Coquelicot Require Import Coquelicot.
From Verif Require Import Base.RealAux Model.Poly Model.Basis Model.S2fft Model.Rotation Model.StarryUtils Model.FastProject
  Spec.PolySpec Spec.HarmonicSpec Spec.RotationSpec
  Proof.PolyProof Proof.PolyMatrix Proof.UtilsProof Proof.HarmonicProof Proof.RotationProof Proof.AxisAngle Proof.Euler Proof.WignerStep Proof.WignerRot Proof.WignerMap Proof.HarmonicUnique Proof.RotationMap Proof.RotationMore.
Import ListNotations.
Open Scope R_scope.
Local Notation C := Complex.C.

Lemma Ceq (a b c d : R) : a = c -> b = d -> (a, b) = ((c, d) : C).
Proof. intros -> ->; reflexivity. Qed.
(** utils.C is the transpose of U *)
Lemma utils_C_Umn D i j : (i <= 2 * D)%nat -> (j <= 2 * D)%nat -> utils_C D i j = Umn (Z.of_nat j - Z.of_nat D) (Z.of_nat i - Z.of_nat D).
Proof.
  intros Hi Hj. unfold utils_C. cbv zeta. rewrite Cdiv_sqrt2. pose proof sqrt2_pos as H2.
  destruct (Nat.ltb_spec i D) as [Hl|Hl]; [|destruct (Nat.eqb_spec i D) as [E|E]].
  - (* real order - N *)
    destruct (Umn_val (D - i) ltac:(lia)) as (_ & _ & U3 & U4).
    replace (Z.of_nat i - Z.of_nat D)%Z with (- Z.of_nat (D - i))%Z by lia.
    destruct (Nat.ltb_spec j D) as [Hj1|Hj1]; [|destruct (Nat.eqb_spec j D) as [Ej|Ej]].
    + destruct (Nat.eqb_spec (D - 1 - i) (D - 1 - j)) as [E|E].
      * replace (Z.of_nat j - Z.of_nat D)%Z with (- Z.of_nat (D - i))%Z by lia. rewrite U3. unfold Cmult, Ci, RtoC; cbn [fst snd]. apply Ceq; unfold Rdiv; ring.
      * rewrite Umn_zero by lia. unfold Cmult, Ci, RtoC; cbn [fst snd]. apply Ceq; unfold Rdiv; ring.
    + rewrite Umn_zero by lia. cbn [fst snd RtoC]. apply Ceq; unfold Rdiv; ring.
    + destruct (Nat.eqb_spec (D - 1 - i) (j - D - 1)) as [E|E].
      * replace (Z.of_nat j - Z.of_nat D)%Z with (Z.of_nat (D - i))%Z by lia. rewrite U4. replace (D - 1 - i + 1)%nat with (D - i)%nat by lia. unfold Cmult, Copp, Ci, RtoC; cbn [fst snd]. apply Ceq; unfold Rdiv; ring.
      * rewrite Umn_zero by lia. unfold Cmult, Copp, Ci, RtoC; cbn [fst snd]. apply Ceq; unfold Rdiv; ring.
  - subst i. rewrite Z.sub_diag. destruct (Nat.eqb_spec j D) as [E|E].
    + subst j. rewrite Z.sub_diag, Umn_00. cbn [fst snd RtoC]. apply Ceq; field; lra.
    + rewrite Umn_zero by lia. cbn [fst snd RtoC]. apply Ceq; unfold Rdiv; ring.
  - destruct (Umn_val (i - D) ltac:(lia)) as (U1 & U2 & _ & _).
    replace (Z.of_nat i - Z.of_nat D)%Z with (Z.of_nat (i - D))%Z by lia.
    destruct (Nat.ltb_spec j D) as [Hj1|Hj1]; [|destruct (Nat.eqb_spec j D) as [Ej|Ej]].
    + destruct (Nat.eqb_spec (i - D - 1) (D - 1 - j)) as [E1|E1].
      * replace (Z.of_nat j - Z.of_nat D)%Z with (- Z.of_nat (i - D))%Z by lia. rewrite U2. cbn [fst snd RtoC]. apply Ceq; unfold Rdiv; ring.
      * rewrite Umn_zero by lia. cbn [fst snd RtoC]. apply Ceq; unfold Rdiv; ring.
    + rewrite Umn_zero by lia. cbn [fst snd RtoC]. apply Ceq; unfold Rdiv; ring.
    + destruct (Nat.eqb_spec (i - D - 1) (j - D - 1)) as [E1|E1].
      * replace (Z.of_nat j - Z.of_nat D)%Z with (Z.of_nat (i - D))%Z by lia. rewrite U1. replace (i - D - 1 + 1)%nat with (i - D)%nat by lia. cbn [fst snd RtoC]. apply Ceq; unfold Rdiv; ring.
      * rewrite Umn_zero by lia. cbn [fst snd RtoC]. apply Ceq; unfold Rdiv; ring.
Qed.
(** the precomputed matrices are those computed on the fly *)
Lemma precomputed flm L a b g : rotate_flms flm L (a, b, g) (Some (rotate_dls L b)) = rotate_flms flm L (a, b, g) None.
Proof. reflexivity. Qed.

Section Fast.
Variables (deg : nat) (alpha beta gamma : R).
Let ang : R * R * R -> R * R * R := fun _ => (alpha, - beta, gamma).
Let rmat := rotation_matrix ang deg 1 0 0 1.
Lemma ang_euler : euler ang 1 0 0 1 = (alpha, - beta, gamma).
Proof. unfold euler, ang. destruct (Reqb_spec 1 0); [lra|reflexivity]. Qed.
(** one entry of the rotation matrix, on its band *)
Lemma rmat_band l r c : (l <= deg)%nat -> (r <= 2 * l)%nat -> (c <= 2 * l)%nat ->
  rmat l r c = Re (csum (2 * l + 1) (fun a => csum (2 * l + 1) (fun b =>
    (Cconj (Umn (Z.of_nat a - Z.of_nat l) (Z.of_nat r - Z.of_nat l)) *
     (cexpm (IZR (Z.of_nat b - Z.of_nat l) * alpha) * cexpm (IZR (Z.of_nat a - Z.of_nat l) * gamma) * RtoC (wigner_d (S deg) beta l (Z.of_nat b) (Z.of_nat a))) *
     Umn (Z.of_nat b - Z.of_nat l) (Z.of_nat c - Z.of_nat l))%C))).
Proof.
  intros Hl Hr Hc. unfold rmat, rotation_matrix. rewrite ang_euler. cbv zeta. f_equal. destruct (wigner_d_sym (S deg) (- beta) l) as [Ho _].
  rewrite (csum_band deg l).
  - apply csum_ext. intros a Ha. rewrite (csum_band deg l).
    + apply csum_ext. intros b Hb. rewrite dls_wigner.
      replace (Z.of_nat (deg - l + a) - (Z.of_nat deg - Z.of_nat l))%Z with (Z.of_nat a) by lia.
      replace (Z.of_nat (deg - l + b) - (Z.of_nat deg - Z.of_nat l))%Z with (Z.of_nat b) by lia.
      rewrite (wigner_transpose (S deg) beta).
      replace (Z.of_nat (deg - l + a) - Z.of_nat deg)%Z with (Z.of_nat a - Z.of_nat l)%Z by lia.
      replace (Z.of_nat (deg - l + b) - Z.of_nat deg)%Z with (Z.of_nat b - Z.of_nat l)%Z by lia.
      replace (Z.of_nat (deg - l + r) - Z.of_nat deg)%Z with (Z.of_nat r - Z.of_nat l)%Z by lia.
      replace (Z.of_nat (deg - l + c) - Z.of_nat deg)%Z with (Z.of_nat c - Z.of_nat l)%Z by lia.
      set (u := IZR (Z.of_nat a - Z.of_nat l) * gamma). set (v := IZR (Z.of_nat b - Z.of_nat l) * alpha).
      assert (Ec : cexpm (v + u) = (cexpm v * cexpm u)%C). { unfold cexpm, Cmult. cbn [fst snd]. rewrite cos_plus, sin_plus. apply Ceq; ring. }
      rewrite Ec. ring.
    + exact Hl.
    + intros b Hb. rewrite dls_wigner, Ho by lia. ring.
  - exact Hl.
  - intros a Ha. apply csum_zero. intros b Hb. rewrite dls_wigner, Ho by lia. ring.
Qed.
Variable y : list R.
Hypothesis Hy : length y = ncoef deg.
Let u := utils_C deg.
Let d := Z.of_nat deg.
Let y2c : cmatrix := fun l n => csum (2 * deg + 1) (fun j => (Cconj (u j (Z.to_nat n)) * RtoC (y1d_to_2d deg y l (Z.of_nat j)))%C).
Let rotated := rotate_flms y2c (d + 1) (alpha, beta, gamma) None.
Let real (l i : Z) := Re (csum (2 * deg + 1) (fun m => (u (Z.to_nat i) m * rotated l (Z.of_nat m))%C)).
Lemma y2c_band l n : (l <= deg)%nat -> (n <= 2 * l)%nat -> y2c (Z.of_nat l) (Z.of_nat (deg - l + n)) =
  csum (2 * l + 1) (fun j => (Cconj (Umn (Z.of_nat n - Z.of_nat l) (Z.of_nat j - Z.of_nat l)) * RtoC (nth (l * l + j) y 0%R))%C).
Proof.
  intros Hl Hn. unfold y2c. destruct (y1d_spec deg y Hy) as (V1 & V0). rewrite (csum_band deg l).
  - apply csum_ext. intros j Hj. unfold u. rewrite Nat2Z.id, utils_C_Umn by lia.
    replace (Z.of_nat (deg - l + j)) with ((Z.of_nat j - Z.of_nat l) + Z.of_nat deg)%Z by lia.
    rewrite V1 by (unfold lm_valid; lia). f_equal.
    + f_equal. f_equal; lia.
    + do 2 f_equal. unfold lm2n. nia.
  - exact Hl.
  - intros j Hj. replace (Z.of_nat j) with ((Z.of_nat j - Z.of_nat deg) + Z.of_nat deg)%Z by lia. rewrite V0 by (unfold lm_valid; lia).
    apply Cmult_0_r.
Qed.
Lemma rotated_band l m : (l <= deg)%nat -> (m <= 2 * l)%nat -> rotated (Z.of_nat l) (Z.of_nat (deg - l + m)) =
  csum (2 * l + 1) (fun n => (RtoC (wigner_d (S deg) beta l (Z.of_nat m) (Z.of_nat n)) * cexpm (IZR (Z.of_nat m - Z.of_nat l) * alpha) *
    (cexpm (IZR (Z.of_nat n - Z.of_nat l) * gamma) * y2c (Z.of_nat l) (Z.of_nat (deg - l + n))))%C).
Proof.
  intros Hl Hm. unfold rotated, rotate_flms. unfold d.
  destruct (Z.leb_spec 0 (Z.of_nat l)); [|lia]. destruct (Z.ltb_spec (Z.of_nat l) (Z.of_nat deg + 1)); [|lia].
  destruct (Z.leb_spec (Z.of_nat deg + 1 - 1 - Z.of_nat l) (Z.of_nat (deg - l + m))); [|lia].
  destruct (Z.leb_spec (Z.of_nat (deg - l + m)) (Z.of_nat deg + 1 - 1 + Z.of_nat l)); [|lia]. cbn [andb]. rewrite Nat2Z.id.
  apply csum_ext. intros n Hn. cbv zeta. unfold exp_array, wigner_d.
  replace (Z.of_nat (S deg)) with (Z.of_nat deg + 1)%Z by lia.
  replace (Z.of_nat n - Z.of_nat l + (Z.of_nat deg + 1) - 1)%Z with (Z.of_nat (deg - l + n)) by lia.
  replace (Z.of_nat deg + 1 - 1 - Z.of_nat l + Z.of_nat m)%Z with (Z.of_nat (deg - l + m)) by lia.
  replace (Z.of_nat deg + 1 - 1 - Z.of_nat l + Z.of_nat n)%Z with (Z.of_nat (deg - l + n)) by lia.
  replace (Z.of_nat (deg - l + m) - (Z.of_nat deg + 1) + 1)%Z with (Z.of_nat m - Z.of_nat l)%Z by lia.
  replace (Z.of_nat (deg - l + n) - (Z.of_nat deg + 1) + 1)%Z with (Z.of_nat n - Z.of_nat l)%Z by lia. reflexivity.
Qed.
Lemma rotated_out l m : (l <= deg)%nat -> (m < deg - l \/ deg + l < m)%nat -> rotated (Z.of_nat l) (Z.of_nat m) = 0%C.
Proof.
  intros Hl Hm. unfold rotated, rotate_flms, d. destruct (Z.leb_spec 0 (Z.of_nat l)); [|lia]. destruct (Z.ltb_spec (Z.of_nat l) (Z.of_nat deg + 1)); [|lia].
  destruct (Z.leb_spec (Z.of_nat deg + 1 - 1 - Z.of_nat l) (Z.of_nat m)); [|reflexivity].
  destruct (Z.leb_spec (Z.of_nat m) (Z.of_nat deg + 1 - 1 + Z.of_nat l)); [lia|reflexivity].
Qed.
Lemma real_block l i : (l <= deg)%nat -> (i <= 2 * l)%nat -> real (Z.of_nat l) (Z.of_nat (deg - l + i)) =
  bigsum (2 * l + 1) (fun r => nth (l * l + r) y 0 * rmat l r i).
Proof.
  intros Hl Hi. unfold real. rewrite (csum_band deg l); [| exact Hl | intros m Hm; rewrite rotated_out by assumption; apply Cmult_0_r].
  rewrite (csum_ext _ _ (fun m => csum (2 * l + 1) (fun n => csum (2 * l + 1) (fun j =>
    (Cconj (Umn (Z.of_nat n - Z.of_nat l) (Z.of_nat j - Z.of_nat l)) *
     (cexpm (IZR (Z.of_nat m - Z.of_nat l) * alpha) * cexpm (IZR (Z.of_nat n - Z.of_nat l) * gamma) * RtoC (wigner_d (S deg) beta l (Z.of_nat m) (Z.of_nat n))) *
     Umn (Z.of_nat m - Z.of_nat l) (Z.of_nat i - Z.of_nat l) * RtoC (nth (l * l + j) y 0%R))%C)))).
  2:{ intros m Hm. rewrite rotated_band by lia. rewrite <- csum_scal. apply csum_ext. intros n Hn. rewrite y2c_band by lia.
      rewrite <- !csum_scal. apply csum_ext. intros j Hj. unfold u. rewrite Nat2Z.id, utils_C_Umn by lia.
      replace (Z.of_nat (deg - l + m) - Z.of_nat deg)%Z with (Z.of_nat m - Z.of_nat l)%Z by lia.
      replace (Z.of_nat (deg - l + i) - Z.of_nat deg)%Z with (Z.of_nat i - Z.of_nat l)%Z by lia. ring. }
  rewrite (csum_ext _ _ (fun m => csum (2 * l + 1) (fun j => csum (2 * l + 1) (fun n =>
    (Cconj (Umn (Z.of_nat n - Z.of_nat l) (Z.of_nat j - Z.of_nat l)) *
     (cexpm (IZR (Z.of_nat m - Z.of_nat l) * alpha) * cexpm (IZR (Z.of_nat n - Z.of_nat l) * gamma) * RtoC (wigner_d (S deg) beta l (Z.of_nat m) (Z.of_nat n))) *
     Umn (Z.of_nat m - Z.of_nat l) (Z.of_nat i - Z.of_nat l) * RtoC (nth (l * l + j) y 0%R))%C)))) by (intros; apply csum_swap).
  rewrite csum_swap, csum_pair. unfold Re at 1. cbn [fst]. apply bigsum_ext. intros j Hj. rewrite rmat_band by lia. rewrite csum_swap.
  match goal with |- fst ?B = ?w * Re ?A => assert (EB : B = (RtoC w * A)%C) end.
  { rewrite <- csum_scal. apply csum_ext. intros n Hn. rewrite <- csum_scal. apply csum_ext. intros m Hm. ring. }
  rewrite EB. unfold Re, Cmult, RtoC. cbn [fst snd]. ring.
Qed.
Lemma fast_blocks : y2d_to_1d deg real = dot_blocks deg rmat y.
Proof.
  destruct (y2d_spec deg real) as (L & V). apply (list_slots_ext deg); [exact L|apply dot_blocks_length|].
  intros l nu Hl Hnu. rewrite dot_blocks_nth by lia. rewrite V by nia.
  rewrite n2lm_slot by lia. rewrite <- real_block by lia. f_equal. lia.
Qed.
Lemma fast_blocks_map p : sphere3 p -> map_at deg (y2d_to_1d deg real) p = map_at deg y (rot_z gamma (rot_y (- beta) (rot_z alpha p))).
Proof.
  intros Hs. rewrite fast_blocks. apply sphere3_sphere in Hs.
  rewrite !map_at_Yat. apply bigsum_ext. intros l Hl.
  rewrite (bigsum_ext _ _ (fun c => bigsum (2 * l + 1) (fun r => nth (l * l + r) y 0 * (rmat l r c * Yat l p (Z.of_nat c - Z.of_nat l))))).
  2:{ intros c Hc. rewrite dot_blocks_nth by lia. rewrite Rmult_comm, <- bigsum_scal. apply bigsum_ext. intros r Hr. ring. }
  rewrite bigsum_swap. apply bigsum_ext. intros r Hr. rewrite bigsum_scal. f_equal.
  apply (block_rotates ang deg 1 0 0 1 alpha (- beta) gamma l r p ang_euler); (assumption || lia).
Qed.
End Fast.
