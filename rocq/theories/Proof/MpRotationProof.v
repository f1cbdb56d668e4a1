(** The blocks of multiprecision/rotation.py, their use on a map, and the limit of a high working precision. *)
From Coq Require Import Reals Lra Lia ZArith List Bool Arith.
From Coquelicot Require Import Coquelicot.
From Verif Require Import Base.RealAux Base.Dict Model.Poly Model.Basis Model.S2fft Model.Rotation Model.MpBasis Model.MpRotation Spec.PolySpec Spec.HarmonicSpec Spec.RotationSpec Spec.MpRotationSpec
  Proof.BasisProof Proof.HarmonicProof Proof.RotationProof Proof.WignerGen Proof.WignerStep Proof.WignerRot Proof.WignerMap Proof.AxisAngle Proof.Euler Proof.RotationMap Proof.RotationMore Proof.MpWigner Proof.MpEuler.
Import ListNotations.
Open Scope R_scope.
Local Notation C := Complex.C.

(** * the adjoint of U is an inverse *)
Lemma adjoint_inverse : inverse_of_U (fun l r c => Cconj (mp_U l c r)).
Proof.
  intros l r c Hr Hc. unfold mp_U. set (rz := (Z.of_nat r - Z.of_nat l)%Z). set (cz := (Z.of_nat c - Z.of_nat l)%Z).
  pose proof sqrt2_pos as H2. assert (E2 : / sqrt 2 * / sqrt 2 = / 2). { rewrite <- Rinv_mult_distr by lra. rewrite sqrt_sqrt by lra. reflexivity. }
  destruct (Z.eq_dec rz 0) as [E0|Hne].
  - rewrite E0. rewrite (csum_single _ l); [|lia|].
    + rewrite Z.sub_diag, Umn_00. destruct (Nat.eqb_spec r c) as [E|Hn].
      * replace cz with 0%Z by (unfold cz, rz in *; lia). rewrite Umn_00. unfold Cconj, Cmult, RtoC. cbn [fst snd]. f_equal; ring.
      * rewrite Umn_zero by (unfold cz, rz in *; lia). unfold Cconj, Cmult, RtoC. cbn [fst snd]. f_equal; ring.
    + intros i Hi Hn. rewrite Umn_zero by lia. ring.
  - set (N := Z.abs_nat rz). assert (HN : (0 < N)%nat) by (unfold N; lia). destruct (Umn_val N HN) as (U1 & U2 & U3 & U4).
    assert (Hs : ((-1) ^ N) * ((-1) ^ N) = 1) by (rewrite <- pow_add; replace (N + N)%nat with (2 * N)%nat by lia; apply pow_1_even).
    rewrite (csum_two _ (l + N) (l - N)); try (unfold N, rz in *; lia).
    2:{ intros i Hi H3 H4. rewrite (Umn_zero rz) by (unfold N, rz in *; lia). ring. }
    replace (Z.of_nat (l + N) - Z.of_nat l)%Z with (Z.of_nat N) by lia. replace (Z.of_nat (l - N) - Z.of_nat l)%Z with (- Z.of_nat N)%Z by (unfold N, rz in *; lia).
    destruct (Nat.eqb_spec r c) as [E|Hn].
    + replace cz with rz by (unfold cz, rz; lia). destruct (Z_lt_le_dec 0 rz) as [Hp|Hp].
      * replace rz with (Z.of_nat N) by (unfold N; lia). rewrite U1, U4. unfold Cconj, Cmult, Cplus, RtoC. cbn [fst snd].
        f_equal; [|ring]. transitivity (2 * (((-1) ^ N) * ((-1) ^ N)) * (/ sqrt 2 * / sqrt 2)); [ring|]. rewrite Hs, E2. field.
      * replace rz with (- Z.of_nat N)%Z by (unfold N; lia). rewrite U2, U3. unfold Cconj, Cmult, Cplus, RtoC. cbn [fst snd].
        f_equal; [|ring]. transitivity (2 * (/ sqrt 2 * / sqrt 2)); [ring|]. rewrite E2. field.
    + destruct (Z.eq_dec cz (- rz)) as [Ec|Hc2].
      * rewrite Ec. destruct (Z_lt_le_dec 0 rz) as [Hp|Hp].
        -- replace rz with (Z.of_nat N) by (unfold N; lia). rewrite U1, U2, U3, U4. unfold Cconj, Cmult, Cplus, RtoC. cbn [fst snd]. f_equal; ring.
        -- replace rz with (- Z.of_nat N)%Z by (unfold N; lia). rewrite Z.opp_involutive, U1, U2, U3, U4. unfold Cconj, Cmult, Cplus, RtoC. cbn [fst snd]. f_equal; ring.
      * rewrite !(Umn_zero cz) by (unfold N, cz, rz in *; lia). unfold Cconj, Cmult, Cplus, RtoC. cbn [fst snd]. f_equal; ring.
Qed.

(** * the exact block of three Euler angles *)
Definition ZYZ (a b g : R) (l r c : nat) : R := rotation_matrix (fun _ => (g, b, a)) l 1 0 0 1 l r c.
Lemma ZYZ_rotates a b g l move : (forall p, rot_z a (rot_y b (rot_z g p)) = move p) -> rotates_degree l (ZYZ a b g l) move.
Proof.
  intros H r p Hr Hp. rewrite <- H. apply sphere3_sphere in Hp.
  pose proof (block_rotates (fun _ => (g, b, a)) l 1 0 0 1 g b a l r p) as B. change (harmonic_at l) with (fun m p => Yat l p m). cbv beta. rewrite <- B; [reflexivity| |lia|exact Hr|exact Hp].
  unfold euler. destruct (Reqb 1 0) eqn:E1; [apply Reqb_true in E1; lra|]. reflexivity.
Qed.
Lemma rot_cut Uinv prec l a b g : inverse_of_U Uinv -> (1 <= l)%nat ->
  cut_below prec (2 * l + 1) (ZYZ a (if Reqb b 0 then prec else b) g l) (mp_rot_matrix Uinv prec l a b g).
Proof.
  intros HU Hl r c Hr Hc. unfold mp_rot_matrix. destruct (Nat.eqb_spec l 0); [lia|]. cbv zeta. rewrite mp_block_core by (assumption || lia).
  change (rotation_matrix (fun _ => (g, if Reqb b 0 then prec else b, a)) l 1 0 0 1 l r c) with (ZYZ a (if Reqb b 0 then prec else b) g l r c).
  set (w := ZYZ _ _ _ _ _ _). destruct (Rltb (Rabs w) prec) eqn:E; [apply Rltb_true in E; right; split; [exact E|reflexivity]|apply Rltb_false in E; left; split; [lra|reflexivity]].
Qed.
Lemma cut_error prec n W b r c : cut_below prec n W b -> (r < n)%nat -> (c < n)%nat -> 0 < prec -> Rabs (b r c - W r c) < prec.
Proof.
  intros H Hr Hc Hp. destruct (H r c Hr Hc) as [[_ ->]|[Ha ->]]; [rewrite Rminus_eq_0, Rabs_R0; exact Hp|]. now rewrite Rminus_0_l, Rabs_Ropp.
Qed.

(** * R *)
Lemma direction_unit u : norm3 u <> 0 -> unit3 (direction u).
Proof. apply unit3_scal. Qed.
Lemma mp_R_unfold Uinv tol prec u t : norm3 u <> 0 -> let '(v1, v2, v3) := direction u in
  mp_R Uinv tol prec u t = rbind (mp_axis_angle_to_euler tol v1 v2 v3 t) (fun e => let '(al, be, ga) := e in Ok (fun l => mp_rot_matrix Uinv prec l al be ga)).
Proof.
  destruct u as [[u1 u2] u3]. intros Hn. unfold direction, scal3, mp_R. unfold norm3, dot3 in *.
  replace (u1 ^ 2 + u2 ^ 2 + u3 ^ 2) with (u1 * u1 + u2 * u2 + u3 * u3) by ring. set (n := sqrt _) in *.
  destruct (Reqb n 0) eqn:E; [apply Reqb_true in E; contradiction|]. unfold Rdiv. rewrite !(Rmult_comm (/ n)). reflexivity.
Qed.
(** the pole is neither kept nor reversed *)
Lemma mp_R_general Uinv tol u t : norm3 u <> 0 -> t <> 0 -> direction u <> (0, 0, 1) -> direction u <> (0, 0, -1) ->
  rot_axis (direction u) t (0, 0, 1) <> (0, 0, 1) -> rot_axis (direction u) t (0, 0, 1) <> (0, 0, -1) ->
  exists a b g, (forall prec, mp_R Uinv tol prec u t = Ok (fun l => mp_rot_matrix Uinv prec l a b g)) /\ 0 < b < PI /\ (forall p, rot_z a (rot_y b (rot_z g p)) = rot_axis (direction u) t p).
Proof.
  intros Hn Ht D1 D2 Hp Hm. pose proof (direction_unit u Hn) as Hu. destruct (direction u) as [[v1 v2] v3] eqn:Ed.
  destruct (mp_euler_general tol v1 v2 v3 t Hu) as (a & b & g & He & Hb & Hr); try assumption.
  { intros [-> ->]. unfold unit3, dot3 in Hu. assert (H : (v3 - 1) * (v3 + 1) = 0) by nra. apply Rmult_integral in H. destruct H; [apply D1|apply D2]; apply triple_eq; lra. }
  exists a, b, g. split; [|split; assumption]. intros prec. pose proof (mp_R_unfold Uinv tol prec u t Hn) as E. rewrite Ed in E. rewrite E, He. reflexivity.
Qed.
Lemma mp_R_z Uinv tol u t s : norm3 u <> 0 -> direction u = (0, 0, s) -> 0 < tol -> t <> 0 -> cos t <> 1 ->
  exists a g, (forall prec, mp_R Uinv tol prec u t = Ok (fun l => mp_rot_matrix Uinv prec l a 0 g)) /\ (forall p, rot_z a (rot_z g p) = rot_axis (direction u) t p).
Proof.
  intros Hn Ed Htol Ht Hc. pose proof (direction_unit u Hn) as Hu. rewrite Ed in Hu. unfold unit3, dot3 in Hu.
  destruct (mp_euler_z tol s t) as (a & g & He & Ec & Es).
  - lra.
  - exact Htol.
  - destruct (Reqb t 0) eqn:E; [apply Reqb_true in E; contradiction|exact Hc].
  - destruct (Reqb t 0) eqn:E; [apply Reqb_true in E; contradiction|]. exists a, g. split.
    + intros prec. pose proof (mp_R_unfold Uinv tol prec u t Hn) as E'. rewrite Ed in E'. rewrite E', He. reflexivity.
    + intros p. rewrite Ed. rewrite <- !(rot_axis_z _ p). rewrite <- rot_axis_z. rewrite rot_axis_add by (unfold unit3, dot3; ring). rewrite rot_axis_z.
      destruct p as [[x y] z]. unfold rot_z, rot_axis, add3, scal3, cross3, dot3. rewrite Ec, Es. apply triple_eq; try ring.
      transitivity (z * cos t + (1 - cos t) * z * (0 * 0 + 0 * 0 + s * s)); [rewrite Hu; ring|ring].
Qed.
Lemma mp_R_zero Uinv tol u : norm3 u <> 0 -> 0 < tol < 1 -> exists a b g, forall prec, mp_R Uinv tol prec u 0 = Ok (fun l => mp_rot_matrix Uinv prec l a b g).
Proof.
  intros Hn Htol. pose proof (direction_unit u Hn) as Hu. assert (Ht : tol <> 0) by lra.
  assert (Hc : 0 < cos tol < 1).
  { pose proof PI2_1 as P. split; [apply cos_gt_0; lra|]. rewrite <- cos_0. apply cos_decreasing_1; pose proof PI_RGT_0; lra. }
  assert (Hs : 0 < sin tol) by (apply sin_gt_0; pose proof PI2_1; lra).
  assert (E0 : forall v1 v2 v3, mp_axis_angle_to_euler tol v1 v2 v3 0 = mp_axis_angle_to_euler tol v1 v2 v3 tol).
  { intros. unfold mp_axis_angle_to_euler. cbv zeta. rewrite (proj2 (Reqb_true 0 0) eq_refl). destruct (Reqb tol 0) eqn:E; [apply Reqb_true in E; contradiction|reflexivity]. }
  destruct (direction u) as [[v1 v2] v3] eqn:Ed. pose proof Hu as Hu'. unfold unit3, dot3 in Hu'.
  assert (K : exists e, mp_axis_angle_to_euler tol v1 v2 v3 0 = Ok e).
  { destruct (Req_dec (v1 * v1 + v2 * v2) 0) as [Z|Z].
    - assert (v1 = 0) by nra. assert (v2 = 0) by nra. subst. destruct (mp_euler_z tol v3 0) as (a & g & He & _); [lra|lra| |exists (a, 0, g); exact He].
      rewrite (proj2 (Reqb_true 0 0) eq_refl). lra.
    - rewrite E0. destruct (proj2 (pole_moved v1 v2 v3 tol Hu')) as [P1 P2].
      2:{ destruct (mp_euler_general tol v1 v2 v3 tol Hu) as (a & b & g & He & _); try assumption; [|exists (a, b, g); exact He]. intros [-> ->]. apply Z. ring. }
      cbv zeta. assert (H3 : v3 * v3 < 1) by (assert (0 <= v1 * v1 + v2 * v2) by nra; lra). assert (B : 0 <= v3 * v3) by nra.
      assert (B1 : cos tol + v3 * v3 * (1 - cos tol) < 1) by nra. assert (B2 : 0 < cos tol + v3 * v3 * (1 - cos tol)) by nra. nra. }
  destruct K as [[[a b] g] He]. exists a, b, g. intros prec. pose proof (mp_R_unfold Uinv tol prec u 0 Hn) as E. rewrite Ed in E. rewrite E, He. reflexivity.
Qed.
