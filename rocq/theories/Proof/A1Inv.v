(** The harmonic change of basis is invertible. *)
From Coq Require Import Reals Lra Lia ZArith List Bool.
From Verif Require Import Base.RealAux Base.Dict Base.LinAlg Model.Poly Model.Basis Spec.PolySpec Spec.BasisSpec Spec.HarmonicSpec
  Proof.PolyProof Proof.HarmonicProof Proof.HarmonicUnique.
Import ListNotations.
Open Scope R_scope.
Lemma A1_injective D c : let N := ((D + 1) * (D + 1))%nat in
  (forall r, (r < N)%nat -> bigsum N (fun n => A1 (Z.of_nat D) (Z.of_nat r) (Z.of_nat n) * c n) = 0) -> forall n, (n < N)%nat -> c n = 0.
Proof.
  intros N H n Hn. set (l := Nat.sqrt n). pose proof (Nat.sqrt_spec n ltac:(lia)) as [S1 S2]. fold l in S1, S2.
  replace n with (l * l + (n - l * l))%nat by lia. apply (harmonic_unique D c); [|unfold N in Hn; nia|lia].
  intros x y z Hs. pose proof (A1_eval D c x y z Hs) as E. cbv zeta in E. rewrite dense_eval_flat in E.
  rewrite bigsum_zero_ext in E by (intros i Hi; fold N; rewrite H by (unfold N; lia); ring).
  assert (P : 2 / sqrt PI <> 0). { pose proof PI_RGT_0. assert (0 < sqrt PI) by now apply sqrt_lt_R0. apply Rgt_not_eq, Rdiv_lt_0_compat; lra. }
  symmetry in E. apply Rmult_integral in E. destruct E; [contradiction|assumption].
Qed.
Lemma A1_invertible D v : let N := ((D + 1) * (D + 1))%nat in
  exists d, (forall r, (r < N)%nat -> bigsum N (fun n => A1 (Z.of_nat D) (Z.of_nat r) (Z.of_nat n) * d n) = v r) /\
   (forall d', (forall r, (r < N)%nat -> bigsum N (fun n => A1 (Z.of_nat D) (Z.of_nat r) (Z.of_nat n) * d' n) = v r) -> forall n, (n < N)%nat -> d' n = d n).
Proof.
  intros N. destruct (injective_span N (fun r n => A1 (Z.of_nat D) (Z.of_nat r) (Z.of_nat n)) (fun c H => A1_injective D c H) v) as (d & Hd).
  exists d. split; [exact Hd|]. intros d' Hd' n Hn. assert (E : d' n - d n = 0); [|lra].
  apply (A1_injective D (fun n => d' n - d n)); [|exact Hn]. intros r Hr. fold N.
  rewrite (bigsum_ext _ _ (fun n => A1 (Z.of_nat D) (Z.of_nat r) (Z.of_nat n) * d' n + -1 * (A1 (Z.of_nat D) (Z.of_nat r) (Z.of_nat n) * d n))) by (intros; ring).
  rewrite bigsum_plus, bigsum_scal, Hd', Hd by exact Hr. ring.
Qed.
