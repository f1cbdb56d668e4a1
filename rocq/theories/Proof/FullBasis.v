(** basis(lmax) turns harmonic coefficients into coefficients of the Green's basis functions. *)
From Coq Require Import Reals Lra Lia ZArith List Bool.
From Verif Require Import Base.RealAux Base.Dict Model.Poly Model.Basis Model.FullBasis Spec.PolySpec Spec.BasisSpec Spec.HarmonicSpec Proof.HarmonicProof Proof.PolyProof Proof.BasisProof Proof.GreenInv.
Import ListNotations.
Local Open Scope R_scope.

Lemma basis_action D B d x y z : basis_to D B -> on_sphere x y z -> let N := ((D + 1) * (D + 1))%nat in
  bigsum (S D) (fun l => bigsum (2 * l + 1) (fun nu =>
    bigsum N (fun c => B (Z.of_nat (l * l + nu)) (Z.of_nat c) * d c) * dict_eval (gtilde (Z.of_nat (l * l + nu))) x y z)) =
  2 / sqrt PI * harmonic_eval D d x y z.
Proof.
  intros HB Hs N. rewrite <- (A1_eval D d x y z Hs).
  rewrite <- (A2_inv_eval D (fun n => bigsum N (fun c => B (Z.of_nat n) (Z.of_nat c) * d c)) x y z). cbv zeta. fold N.
  rewrite !dense_eval_flat. apply bigsum_ext. intros r Hr. f_equal. fold N in Hr.
  rewrite (bigsum_ext N _ (fun n => bigsum N (fun c => d c * (A2_inv (Z.of_nat D) (Z.of_nat r) (Z.of_nat n) * B (Z.of_nat n) (Z.of_nat c))))).
  2:{ intros n Hn. rewrite <- bigsum_scal. apply bigsum_ext. intros; ring. }
  rewrite bigsum_swap. apply bigsum_ext. intros c Hc. rewrite bigsum_scal. unfold N. rewrite (HB r c Hr Hc). ring.
Qed.
Lemma basis_exists D : exists B, basis_to D B /\
  forall B', basis_to D B' -> forall n c, (n < (D + 1) * (D + 1))%nat -> (c < (D + 1) * (D + 1))%nat -> B' (Z.of_nat n) (Z.of_nat c) = B (Z.of_nat n) (Z.of_nat c).
Proof.
  set (N := ((D + 1) * (D + 1))%nat).
  assert (H : forall M, (M <= N)%nat -> exists B : matrix, forall r c, (r < N)%nat -> (c < M)%nat ->
    bigsum N (fun n => A2_inv (Z.of_nat D) (Z.of_nat r) (Z.of_nat n) * B (Z.of_nat n) (Z.of_nat c)) = A1 (Z.of_nat D) (Z.of_nat r) (Z.of_nat c)).
  { induction M as [|M IH]; intros HM; [exists (fun _ _ => 0); intros; lia|].
    destruct (IH ltac:(lia)) as [B HB]. destruct (Sp_all D (fun r => A1 (Z.of_nat D) (Z.of_nat r) (Z.of_nat M))) as [g Hg]. fold N in Hg.
    exists (fun n c => if (c =? Z.of_nat M)%Z then g (Z.to_nat n) else B n c). intros r c Hr Hc.
    destruct (Z.eqb_spec (Z.of_nat c) (Z.of_nat M)) as [E|E].
    - apply Nat2Z.inj in E. subst c. rewrite <- (Hg r Hr). apply bigsum_ext. intros n _. now rewrite Nat2Z.id.
    - apply HB; [exact Hr|]. assert (c <> M) by congruence. lia. }
  destruct (H N (le_n _)) as [B HB]. exists B. split; [exact HB|].
  intros B' HB' n c Hn Hc. fold N in Hn, Hc. unfold basis_to in HB'. cbv zeta in HB'. fold N in HB'.
  assert (E : B' (Z.of_nat n) (Z.of_nat c) - B (Z.of_nat n) (Z.of_nat c) = 0); [|lra].
  apply (A2_inv_injective D (fun n => B' (Z.of_nat n) (Z.of_nat c) - B (Z.of_nat n) (Z.of_nat c))); [|exact Hn]. fold N. intros r Hr.
  rewrite (bigsum_ext _ _ (fun n => A2_inv (Z.of_nat D) (Z.of_nat r) (Z.of_nat n) * B' (Z.of_nat n) (Z.of_nat c) - A2_inv (Z.of_nat D) (Z.of_nat r) (Z.of_nat n) * B (Z.of_nat n) (Z.of_nat c))) by (intros; ring).
  rewrite <- bigsum_minus', HB', HB by assumption. ring.
Qed.
