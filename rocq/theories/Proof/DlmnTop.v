(** rotar and compute_rotation_matrices. *)
From Coq Require Import Reals Lra Lia ZArith List Bool Arith.
From Coquelicot Require Import Coquelicot.
From Verif Require Import Base.RealAux Model.Poly Model.S2fft Model.Rotation Model.Dlmn Spec.PolySpec Spec.HarmonicSpec Spec.RotationSpec
  Proof.AxisAngle Proof.Euler Proof.WignerGen Proof.WignerStep Proof.WignerMap Proof.RotationMap Proof.RotationMore Proof.DlmnRec Proof.DlmnProof Proof.DlmnReal.
Import ListNotations.
Open Scope R_scope.

Section Rotar.
Variables al be ga eps : R.
Hypothesis Heps0 : 0 < eps.
Hypothesis Heps : Rabs (sin be) < 10 * eps -> sin be = 0.
Let c := - cos (be / 2).
Let d := sin (be / 2).
Let dd (l : nat) (x y : Z) : R := spow (2 * l) c d (x + Z.of_nat l) (y + Z.of_nat l).
Lemma Hcd : c ^ 2 + d ^ 2 = 1.
Proof. unfold c, d. pose proof (sin2_cos2 (be / 2)) as H. unfold Rsqr in H. rewrite <- H. ring. Qed.
Lemma Hc2 : cos be = c ^ 2 - d ^ 2.
Proof. unfold c, d. rewrite (proj1 (half_trig be)). ring. Qed.
Definition tg : R := where_ (Rltb (Rabs (sin be)) (10 * eps)) (sin be) ((1 - cos be) / where_ (Rltb (Rabs (sin be)) (10 * eps)) 1 (sin be)).
Lemma Htg : c <> 0 -> tg = - (d / c).
Proof.
  intros Hc. unfold tg. assert (Es : sin be = - (2 * d * c)) by (unfold c, d; rewrite (proj2 (half_trig be)); ring). pose proof Hcd as H1. pose proof Hc2 as H2.
  unfold Rltb. destruct (Rlt_dec (Rabs (sin be)) (10 * eps)) as [H|H]; cbn [where_].
  - rewrite Heps by exact H. rewrite Heps in Es by exact H. assert (E : d = 0). { apply (Rmult_eq_reg_r c); [lra|exact Hc]. } rewrite E. unfold Rdiv. ring.
  - assert (Hd : d <> 0) by (intros E; apply H; rewrite Es, E; replace (- (2 * 0 * c)) with 0 by ring; rewrite Rabs_R0; lra).
    rewrite H2, Es. replace (1 - (c ^ 2 - d ^ 2)) with (2 * d ^ 2) by lra. field. split; assumption.
Qed.
Definition Rok (n : nat) (R_ : list matrix) : Prop := length R_ = n /\
  forall l, (l < n)%nat -> forall x y, (Z.abs x <= Z.of_nat l)%Z -> (Z.abs y <= Z.of_nat l)%Z ->
    nth l R_ (fun _ _ => 0) (x + Z.of_nat l)%Z (y + Z.of_nat l)%Z = expR al ga (dd l) x y.
Definition inv6 (ell : Z) (st : list matrix * list matrix) : Prop := Dok c d (Z.to_nat ell) (fst st) /\ Rok (Z.to_nat ell) (snd st).
Lemma spow_0 : spow (2 * 0) c d 0 0 = 1.
Proof. reflexivity. Qed.
Lemma spow_2 k i : spow (2 * 1) c d k i = wigner_d 2 be 1 k i.
Proof. symmetry. apply (sym_power_unique _ _ _ _ _ (wigner_d_sym 2 be 1) (spow_sym _ _ _)). Qed.
Lemma deg0_R x y : (Z.abs x <= 0)%Z -> (Z.abs y <= 0)%Z -> expR al ga (dd 0) x y = 1.
Proof. intros Hx Hy. replace x with 0%Z by lia. replace y with 0%Z by lia. reflexivity. Qed.
Lemma half_c : / 2 * (1 + cos be) = cos (be / 2) ^ 2.
Proof. rewrite Hc2, <- Hcd. unfold c. field. Qed.
Lemma half_d : / 2 * (1 - cos be) = sin (be / 2) ^ 2.
Proof. rewrite Hc2, <- Hcd. unfold d. field. Qed.
Lemma rotar_ok ydeg : Rok (S ydeg) (snd (rotar eps ydeg (cos al) (sin al) (cos be) (sin be) (cos ga) (sin ga))).
Proof.
  unfold rotar. destruct (Nat.eqb_spec ydeg 0) as [-> | Hy]; cbv zeta.
  - cbn [snd]. split; [reflexivity|]. intros l Hl x y Hx Hyy. replace l with O in * by lia. cbn [nth]. symmetry. now apply deg0_R.
  - rewrite half_c, half_d. pose proof (sqrt_lt_R0 2 ltac:(lra)) as H2.
    match goal with |- Rok _ (snd (fold_left ?f (zrange ?a ?b) ?s)) => pose proof (zup_ind f inv6 b (Z.to_nat (b - a)) a s) as H end.
    replace (S ydeg) with (Z.to_nat (Z.of_nat ydeg + 1)) by lia. destruct H as (_ & H).
    + lia.
    + change (Z.to_nat 2) with 2%nat. split; cbn [fst snd].
      * split; [reflexivity|]. intros l Hl k i Hk Hi. destruct l as [|l]; [replace k with 0%Z by lia; replace i with 0%Z by lia; reflexivity|].
        replace l with O in * by lia. cbn [nth]. rewrite spow_2, wigner_d_1.
        assert (Hk' : k = 0%Z \/ k = 1%Z \/ k = 2%Z) by lia. assert (Hi' : i = 0%Z \/ i = 1%Z \/ i = 2%Z) by lia.
        destruct Hk' as [-> | [-> | ->]]; destruct Hi' as [-> | [-> | ->]]; cbn [Z.leb Z.compare Pos.compare Pos.compare_cont andb array3]; cbv zeta; rewrite ?(proj1 (half_trig be)); try reflexivity; field; lra.
      * split; [reflexivity|]. intros l Hl x y Hx Hyy. destruct l as [|l]; [cbn [nth]; symmetry; now apply deg0_R|].
        replace l with O in * by lia. cbn [nth]. change (Z.of_nat 1) with 1%Z in *.
        assert (Hx' : x = (-1)%Z \/ x = 0%Z \/ x = 1%Z) by lia. assert (Hy' : y = (-1)%Z \/ y = 0%Z \/ y = 1%Z) by lia.
        assert (Hq : sqrt 2 * sqrt 2 = 2) by (apply sqrt_sqrt; lra).
        destruct Hx' as [-> | [-> | ->]]; destruct Hy' as [-> | [-> | ->]]; unfold expR, dd; cbv zeta; rewrite !spow_2, !wigner_d_1; change (Z.of_nat 1) with 1%Z;
          cbn [Z.abs Z.add Z.opp Z.pos_sub Pos.pred_double Pos.add Pos.succ Z.leb Z.ltb Z.eqb Z.compare Pos.compare Pos.compare_cont Pos.eqb andb array3]; cbv zeta; rewrite ?Rmult_1_l; unfold psign; cbn [Z.even];
          rewrite ?(proj1 (half_trig be)); try reflexivity; try (field; lra).
    + intros m [D R_] Hm [HD HR]. cbn [fst snd] in HD, HR. fold tg.
      destruct (dlmn m (sin al) (cos al) (cos be) tg (sin ga) (cos ga) D) as [D_ Rm] eqn:E.
      set (l := Z.to_nat m) in *. assert (Em : m = Z.of_nat l) by (unfold l; lia). assert (Hl : (2 <= l)%nat) by lia.
      assert (A : forall k i, (0 <= k <= 2 * m)%Z -> (0 <= i <= 2 * m)%Z -> D_ k i = spow (2 * l) c d k i).
      { intros k i Hk Hi. rewrite Em in *. pose proof (dlmn_D c d (cos be) tg Hcd Hc2 Htg l Hl D HD (sin al) (cos al) (sin ga) (cos ga) k i Hk Hi) as P. rewrite E in P. exact P. }
      assert (B : forall x y, (Z.abs x <= m)%Z -> (Z.abs y <= m)%Z -> Rm (x + m)%Z (y + m)%Z = expR al ga (dd l) x y).
      { intros x y Hx Hyy. assert (P : Rm = real_matrix m (sin al) (cos al) (sin ga) (cos ga) D_) by (unfold dlmn in E; injection E as <- <-; reflexivity). rewrite P.
        apply (real_matrix_ok al ga (dd l) m ltac:(lia) D_); [|lia]. intros x' y' Hx' Hy'. unfold dd. rewrite <- Em. apply A; lia. }
      destruct HD as [LD HD], HR as [LR HR]. unfold inv6. replace (Z.to_nat (m + 1)) with (S l) by lia. cbn [fst snd]. split.
      * split; [rewrite app_length, LD; cbn; lia|]. intros l' Hl' k i Hk Hi. destruct (Nat.eq_dec l' l) as [-> |Hne].
        -- rewrite app_nth2, LD, Nat.sub_diag by lia. cbn [nth]. apply A; lia.
        -- rewrite app_nth1 by lia. apply HD; lia.
      * split; [rewrite app_length, LR; cbn; lia|]. intros l' Hl' x y Hx Hyy. destruct (Nat.eq_dec l' l) as [-> |Hne].
        -- rewrite app_nth2, LR, Nat.sub_diag by lia. cbn [nth]. rewrite <- Em. apply B; lia.
        -- rewrite app_nth1 by lia. apply HR; lia.
    + exact H.
Qed.
End Rotar.
