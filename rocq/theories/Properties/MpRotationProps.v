(** C84: starry/multiprecision/rotation.py.  [Uinv] is what U ** -1 returns (assumed: U times it is the identity), [tol] the
    1e-20 of axis_angle_to_euler, [prec] the last digit 10 ** -mp.dps of the working precision. *)
From Coq Require Import Reals Lra Lia ZArith List Bool.
From Coquelicot Require Import Complex.
From Verif Require Import Base.RealAux Base.Dict Model.Poly Model.S2fft Model.Rotation Model.MpRotation Spec.PolySpec Spec.HarmonicSpec Spec.RotationSpec Spec.MpRotationSpec Spec.MpCacheSpec
  Proof.RotationProof Proof.AxisAngle Proof.Euler Proof.RotationMap Proof.RotationMore Proof.MpWigner Proof.MpEuler Proof.MpRotationProof Proof.MpRotationDot Proof.MpRotationCache.
From Verif Require Proof.YlmFacts Proof.DopplerProof.
Import ListNotations.
Open Scope R_scope.

(** any axis, any angle that neither keeps nor reverses the pole: the block of degree l is, up to the cut of the small entries, the
    matrix that expands the rotated harmonics of degree l *)
Theorem C84_blocks : forall Uinv, inverse_of_U Uinv -> forall tol prec u t, norm3 u <> 0 ->
  rot_axis (direction u) t (0, 0, 1) <> (0, 0, 1) -> rot_axis (direction u) t (0, 0, 1) <> (0, 0, -1) ->
  exists Rm, mp_R Uinv tol prec u t = Ok Rm /\ Rm 0%nat 0%nat 0%nat = 1 /\
    forall l, (1 <= l)%nat -> exists W, rotates_degree l W (rot_axis (direction u) t) /\ cut_below prec (2 * l + 1) W (Rm l).
Proof.
  intros Uinv HU tol prec u t Hn H1 H2.
  destruct (mp_R_general Uinv tol u t Hn) as (a & b & g & A & Hb & B); try assumption.
  - intros ->. apply H1. apply rot_axis_zero.
  - intros E. apply H1. rewrite E, rot_axis_z. unfold rot_z. apply triple_eq; ring.
  - intros E. apply H1. rewrite E. unfold rot_axis, add3, scal3, cross3, dot3. apply triple_eq; ring.
  - eexists. split; [apply A|]. split; [reflexivity|]. intros l Hl. exists (ZYZ a b g l). split; [now apply ZYZ_rotates|].
    pose proof (rot_cut Uinv prec l a b g HU Hl) as K. destruct (Reqb b 0) eqn:E; [apply Reqb_true in E; lra|exact K].
Qed.
Print Assumptions C84_blocks.
(** about the z axis: the middle Euler angle is 0 and is replaced by prec *)
Theorem C84_blocks_z : forall Uinv, inverse_of_U Uinv -> forall tol prec u t, norm3 u <> 0 -> 0 < tol -> t <> 0 -> cos t <> 1 ->
  direction u = (0, 0, 1) \/ direction u = (0, 0, -1) ->
  exists Rm a g, mp_R Uinv tol prec u t = Ok Rm /\ Rm 0%nat 0%nat 0%nat = 1 /\ (forall p, rot_z a (rot_z g p) = rot_axis (direction u) t p) /\
    forall l, (1 <= l)%nat -> exists W, rotates_degree l W (fun p => rot_z a (rot_y prec (rot_z g p))) /\ cut_below prec (2 * l + 1) W (Rm l).
Proof.
  intros Uinv HU tol prec u t Hn Htol Ht Hc Hd.
  assert (K : exists s, direction u = (0, 0, s)) by (destruct Hd; eexists; eassumption). destruct K as [s Ed].
  destruct (mp_R_z Uinv tol u t s Hn Ed Htol Ht Hc) as (a & g & A & B). eexists. exists a, g. split; [apply A|split; [reflexivity|split; [exact B|]]].
  intros l Hl. exists (ZYZ a prec g l). split; [apply ZYZ_rotates; reflexivity|]. pose proof (rot_cut Uinv prec l a 0 g HU Hl) as K. rewrite (proj2 (Reqb_true 0 0) eq_refl) in K. exact K.
Qed.
Print Assumptions C84_blocks_z.
(** dot_rotation_matrix: against the coefficients e of the rotated map, the error is at most prec times the sum of the coefficients of the degree *)
Theorem C84_dot_error : forall Uinv, inverse_of_U Uinv -> forall tol prec deg u t M, 0 < prec -> norm3 u <> 0 -> length M = ncoef deg ->
  rot_axis (direction u) t (0, 0, 1) <> (0, 0, 1) -> rot_axis (direction u) t (0, 0, 1) <> (0, 0, -1) ->
  exists r e, mp_dot_rotation Uinv tol prec deg u t M = Ok r /\ length r = ncoef deg /\ length e = ncoef deg /\
    (forall p, sphere3 p -> map_at deg e p = map_at deg M (rot_axis (direction u) t p)) /\
    forall l c, (1 <= l <= deg)%nat -> (c <= 2 * l)%nat ->
      Rabs (nth (l * l + c) r 0 - nth (l * l + c) e 0) <= prec * bigsum (2 * l + 1) (fun k => Rabs (nth (l * l + k) M 0)).
Proof.
  intros Uinv HU tol prec deg u t M Hp Hn HM H1 H2.
  destruct (mp_R_general Uinv tol u t Hn) as (a & b & g & A & Hb & B); try assumption.
  - intros ->. apply H1. apply rot_axis_zero.
  - intros E. apply H1. rewrite E, rot_axis_z. unfold rot_z. apply triple_eq; ring.
  - intros E. apply H1. rewrite E. unfold rot_axis, add3, scal3, cross3, dot3. apply triple_eq; ring.
  - assert (Ht : t <> 0) by (intros ->; apply H1; apply rot_axis_zero).
    exists (dot_one deg (fun l => mp_rot_matrix Uinv prec l a b g) M), (dot_blocks deg (ZYZ a b g) M).
    split; [unfold mp_dot_rotation; rewrite A; cbn [rbind]; now apply do_dot_ok|]. split; [apply dot_one_length|split; [apply dot_blocks_length|split]].
    + intros p Hs. apply dot_blocks_map; [|exact Hs]. intros. now apply ZYZ_rotates.
    + intros l c Hl Hc. rewrite dot_one_nth, dot_blocks_nth by lia. destruct (Nat.eqb_spec l 0); [lia|].
      pose proof (rot_cut Uinv prec l a b g HU ltac:(lia)) as K. destruct (Reqb b 0) eqn:E; [apply Reqb_true in E; lra|].
      assert (G : forall n, (n <= 2 * l + 1)%nat -> Rabs (bigsum n (fun r => nth (l * l + r) M 0 * mp_rot_matrix Uinv prec l a b g r c) - bigsum n (fun r => nth (l * l + r) M 0 * ZYZ a b g l r c)) <= prec * bigsum n (fun k => Rabs (nth (l * l + k) M 0))); [|now apply G].
      intros k; induction k as [|m IH]; intros Hm; cbn [bigsum]; [rewrite Rminus_eq_0, Rabs_R0; lra|].
      specialize (IH ltac:(lia)). pose proof (cut_error prec _ _ _ m c K ltac:(lia) ltac:(lia) Hp) as Q.
      set (x := nth (l * l + m) M 0). set (w := mp_rot_matrix _ _ _ _ _ _ _ _) in *. set (v := ZYZ a b g l m c) in *.
      match goal with |- Rabs (?s1 + x * w - (?s2 + x * v)) <= _ => replace (s1 + x * w - (s2 + x * v)) with ((s1 - s2) + x * (w - v)) by ring end.
      eapply Rle_trans; [apply Rabs_triang|]. rewrite Rabs_mult, Rmult_plus_distr_l. apply Rplus_le_compat; [exact IH|]. rewrite (Rmult_comm prec). apply Rmult_le_compat_l; [apply Rabs_pos|lra].
Qed.
Print Assumptions C84_dot_error.
(** as the working precision grows, any expressible rotation of a map with y00 = 1 approaches the exact one *)
Theorem C84_dot_approaches : forall Uinv, inverse_of_U Uinv -> forall tol deg u t M, 0 < tol -> expressible u t -> length M = ncoef deg -> nth 0 M 0 = 1 ->
  exists r, length r = ncoef deg /\ (forall p, sphere3 p -> map_at deg r p = map_at deg M (rot_axis (direction u) t p)) /\
    approaches (fun prec => mp_dot_rotation Uinv tol prec deg u t M) r.
Proof.
  intros Uinv HU tol deg u t M Ht He HM H1. destruct (conv_dot Uinv tol deg u t _ M HU Ht He HM H1 (conv_const M)) as (r & L & _ & V & K). exists r. split; [exact L|split; [exact V|]].
  apply conv_approaches. eapply conv_ext; [|exact K]. reflexivity.
Qed.
Print Assumptions C84_dot_approaches.
Theorem C84_zero_angle : forall Uinv tol prec deg u M, norm3 u <> 0 -> 0 < tol < 1 -> mp_dot_rotation Uinv tol prec deg u 0 M = Ok M.
Proof. exact dot_zero_angle. Qed.
Print Assumptions C84_zero_angle.
(** left_project approaches the left_project of the double precision code (C70) *)
Theorem C84_left_project : forall Uinv, inverse_of_U Uinv -> forall as_euler, zyz_euler as_euler -> forall tol deg inc obl theta y, 0 < tol < 1 -> length y = ncoef deg -> nth 0 y 0 = 1 ->
  theta = 0 \/ cos theta <> 1 -> obl = 0 \/ cos obl <> 1 -> inc = PI / 2 \/ cos inc <> 0 ->
  exists r, left_project as_euler deg (Some inc) (Some obl) (Some theta) None y = Ok r /\
    approaches (fun prec => mp_left_project Uinv tol prec deg inc obl theta 0 y) r.
Proof.
  intros Uinv HU ae Hz tol deg inc obl theta y Htol HL H1 A B D.
  destruct (left_project_conv Uinv tol deg inc obl theta y HU Htol HL H1 A B D) as (r & Lr & Vr & Cr).
  destruct (left_project_ok ae Hz deg (Some inc) (Some obl) (Some theta) None y HL) as (r' & E & Lr' & Vr').
  assert (r' = r) as <-; [|exists r'; split; [exact E|exact Cr]].
  apply (map_unique deg); auto. intros p Hp. rewrite Vr' by exact Hp. rewrite Vr by exact Hp. cbn [angle0 sky_rot]. rewrite Ropp_0, rot_z_0. reflexivity.
Qed.
Print Assumptions C84_left_project.
(** the first coefficient is not used: it comes back as 1 *)
Theorem C84_monopole : forall Uinv tol prec deg u t M r, 0 < tol -> expressible u t -> length M = ncoef deg ->
  mp_dot_rotation Uinv tol prec deg u t M = Ok r -> nth 0 r 0 = 1.
Proof.
  intros Uinv tol prec deg u t M r Ht He HM. destruct (mp_R_angles Uinv tol u t Ht He) as (a & b & g & A & _). unfold mp_dot_rotation. rewrite A. cbn [rbind]. rewrite do_dot_ok by (assumption || now apply (expressible_t u)).
  intros E. injection E as <-. rewrite (dot_one_nth deg _ _ 0 0) by lia. reflexivity.
Qed.
Print Assumptions C84_monopole.
Theorem C84_monopole_refuted : forall Uinv tol prec, 0 < tol -> exists M r, length M = ncoef 0 /\ mp_dot_rotation Uinv tol prec 0 (1, 0, 0) (PI / 2) M = Ok r /\
  forall p, map_at 0 r p <> map_at 0 M (rot_axis (direction (1, 0, 0)) (PI / 2) p).
Proof.
  intros Uinv tol prec Ht. exists [2]. pose proof (expressible_x (PI / 2) cos_PI2) as He. destruct (mp_R_angles Uinv tol _ _ Ht He) as (a & b & g & A & _).
  eexists. split; [reflexivity|split; [unfold mp_dot_rotation; rewrite A; cbn [rbind]; apply do_dot_ok; [reflexivity|now apply (expressible_t (1, 0, 0))]|]].
  intros p. destruct (rot_axis _ _ p) as [[x y] z]. destruct p as [[x' y'] z']. unfold map_at, harmonic_eval. cbn [bigsum Nat.mul Nat.add]. change (Z.of_nat 0 - Z.of_nat 0)%Z with 0%Z. rewrite !YlmFacts.Y00.
  cbn [nth dot_one flat_map seq Nat.add Nat.eqb app]. assert (0 < sqrt (4 * PI)) by (apply sqrt_lt_R0; pose proof PI_RGT_0; lra). assert (0 < 1 / sqrt (4 * PI)) by (apply Rdiv_lt_0_compat; lra). lra.
Qed.
Print Assumptions C84_monopole_refuted.
(** left_project with a rotation in the plane of the sky raises *)
Theorem C84_theta_z_refuted : forall Uinv tol prec deg inc obl theta theta_z y r, mp_left_project Uinv tol prec deg inc obl theta 0 y = Ok r -> theta_z <> 0 ->
  mp_left_project Uinv tol prec deg inc obl theta theta_z y = Err TypeError.
Proof.
  intros Uinv tol prec deg inc obl theta theta_z y r H Ht. unfold mp_left_project in *.
  destruct (if Reqb theta 0 then Ok y else _) as [v|e]; [|discriminate]. cbn [rbind] in *. destruct (if Reqb obl 0 then Ok v else _) as [v'|e]; [|discriminate]. cbn [rbind] in *.
  destruct (mp_dot_rotation _ _ _ _ _ _ v') as [v''|e]; [|discriminate]. cbn [rbind] in *. destruct (Reqb theta_z 0) eqn:E; [apply Reqb_true in E; contradiction|reflexivity].
Qed.
Print Assumptions C84_theta_z_refuted.
(** dot_rz turns by the opposite angle *)
Theorem C84_dot_rz : forall deg t M, length M = ncoef deg ->
  exists r, mp_dot_rz deg t M = Ok r /\ length r = ncoef deg /\ forall p, map_at deg r p = map_at deg M (rot_z (- t) p).
Proof.
  intros deg t M HM. destruct (dot_rz_ok deg (- t) M HM) as (r & E & L & _). exists r. split; [|split; [exact L|intros p; now apply (dot_rz_map deg (- t) M)]].
  unfold mp_dot_rz. unfold dot_rz in E. cbv zeta in *. rewrite nmax_ncoef, HM, Nat.eqb_refl in E. rewrite nmax_ncoef, HM. now rewrite Nat.ltb_irrefl.
Qed.
Print Assumptions C84_dot_rz.
Theorem C84_dot_rz_short : forall deg t M, (length M < ncoef deg)%nat -> mp_dot_rz deg t M = Err IndexError.
Proof. intros deg t M H. unfold mp_dot_rz. cbv zeta. rewrite nmax_ncoef. destruct (Nat.ltb_spec (length M) (ncoef deg)); [reflexivity|lia]. Qed.
Print Assumptions C84_dot_rz_short.
(** get_R, after any history of calls *)
Theorem C84_cache : forall Uinv tol h n q, nth_error h n = Some q -> exists a, nth_error (run_calls Uinv tol [] h) n = Some a /\ answer_ok Uinv tol (firstn n h) q a.
Proof. exact run_empty. Qed.
Print Assumptions C84_cache.
(** a matrix computed at a low working precision is served when a higher one is asked for *)
Theorem C84_cache_precision_refuted : forall Uinv, inverse_of_U Uinv -> forall tol, 0 < tol -> exists h m m', length h = 2%nat /\ nth_error (run_calls Uinv tol [] h) 1 = Some (Ok (Matrices m)) /\
  (exists q, nth_error h 1 = Some q /\ mp_R Uinv tol (rc_prec q) (1, 0, 0) (1 / 2 * PI) = Ok m') /\ m <> m'.
Proof.
  intros Uinv HU tol Ht. set (q := fun p => {| rc_prec := p; rc_name := R_mx; rc_l := 1; rc_obl := None; rc_inc := None |}).
  assert (Ec : cos (1 / 2 * PI) = 0) by (replace (1 / 2 * PI) with (PI / 2) by field; apply cos_PI2).
  destruct (mp_R_angles Uinv tol _ _ Ht (expressible_x _ Ec)) as (a & b & g & A & B). rewrite (proj2 (direction_of_unit (1, 0, 0) ltac:(unfold unit3, dot3; ring))) in B.
  (* the matrices at precision 2 are zero, those at precision w are not *)
  assert (Hb : b <> 0). { intros ->. pose proof (B (0, 0, 1)) as E. rewrite rot_axis_x in E. unfold rot_x, rot_y, rot_z in E. rewrite Ec, cos_0, sin_0 in E. injection E. intros. lra. }
  assert (Eb : Reqb b 0 = false) by (destruct (Reqb b 0) eqn:E; [apply Reqb_true in E; contradiction|reflexivity]).
  assert (K : exists r c, (r < 3)%nat /\ (c < 3)%nat /\ ZYZ a b g 1 r c <> 0).
  { destruct (Req_dec (ZYZ a b g 1 0 0) 0); [|exists 0%nat, 0%nat; auto with arith]. destruct (Req_dec (ZYZ a b g 1 0 1) 0); [|exists 0%nat, 1%nat; auto with arith]. destruct (Req_dec (ZYZ a b g 1 0 2) 0); [|exists 0%nat, 2%nat; auto with arith]. exfalso.
    pose proof (ZYZ_rotates a b g 1 _ B 0%nat (0, 0, 1) ltac:(lia) ltac:(unfold sphere3, dot3; ring)) as E. cbn [Nat.mul Nat.add bigsum] in E. rewrite H, H0, H1 in E. rewrite rot_axis_x in E. unfold rot_x in E.
    cbn [harmonic_at] in E. change (Z.of_nat 0 - Z.of_nat 1)%Z with (-1)%Z in E. rewrite !(DopplerProof.Y1pm (-1)) in E by lia. cbn [Z.ltb Z.compare] in E.
    replace (1 / 2 * PI) with (PI / 2) in E by field. rewrite sin_PI2 in E. revert E. match goal with |- ?l = ?r -> False => replace l with 0 by ring end. intros E.
    assert (0 < sqrt (3 / (4 * PI))) by (apply sqrt_lt_R0; pose proof PI_RGT_0; apply Rdiv_lt_0_compat; lra). assert (0 < sqrt 3) by (apply sqrt_lt_R0; lra). assert (0 < sqrt (4 * PI)) by (apply sqrt_lt_R0; pose proof PI_RGT_0; lra).
    assert (0 < / sqrt (4 * PI)) by (apply Rinv_0_lt_compat; lra). assert (P : 0 < sqrt 3 / sqrt (4 * PI)) by (apply Rdiv_lt_0_compat; lra). set (k := sqrt 3 / sqrt (4 * PI)) in *. clearbody k. match type of E with 0 = ?x => replace x with (- k) in E by ring end. lra. }
  destruct K as (r & c & Hr & Hc & Hw). set (w := ZYZ a b g 1 r c) in *. assert (W0 : 0 < Rabs w) by (now apply Rabs_pos_lt).
  exists [q (2 * Rabs w); q (Rabs w)]. eexists. eexists. split; [reflexivity|split].
  { cbn [run_calls nth_error]. cbn [q rc_prec rc_name rc_l rc_obl rc_inc mp_get_R]. unfold get_key. cbn [R_find find option_map]. cbn [R_build]. rewrite A. cbn [find option_map]. unfold R_find. cbn [find Nat.eqb R_key_eqb andb option_map snd]. reflexivity. }
  split; [exists (q (Rabs w)); split; [reflexivity|cbn [q rc_prec]; apply A]|]. intros E. apply (f_equal (fun m => m 1%nat r c)) in E. cbv beta in E.
  pose proof (rot_cut Uinv (2 * Rabs w) 1 a b g HU ltac:(lia) r c Hr Hc) as K1. pose proof (rot_cut Uinv (Rabs w) 1 a b g HU ltac:(lia) r c Hr Hc) as K2. rewrite Eb in K1, K2. fold w in K1, K2.
  destruct K1 as [[K1 _]|[_ K1]]; [lra|]. destruct K2 as [[_ K2]|[K2 _]]; [|lra]. rewrite K1, K2 in E. apply Hw. now symmetry.
Qed.
Print Assumptions C84_cache_precision_refuted.

(** the assumption on U ** -1 and the hypotheses above are met *)
Example C84_sat : inverse_of_U (fun l r c => Cconj (mp_U l c r)) /\ zyz_euler rotvec_zyz /\ expressible (1, 0, 0) (PI / 2) /\ expressible (0, 0, 1) PI /\
  (rot_axis (direction (1, 0, 0)) (PI / 2) (0, 0, 1) <> (0, 0, 1) /\ rot_axis (direction (1, 0, 0)) (PI / 2) (0, 0, 1) <> (0, 0, -1)) /\
  exists r, mp_left_project (fun l r c => Cconj (mp_U l c r)) (/ 10) (/ 100) 1 (PI / 4) 0 0 0 [1; 0; 0; 0] = Ok r.
Proof.
  split; [exact adjoint_inverse|split; [exact rotvec_zyz_ok|split; [apply expressible_x, cos_PI2|split; [apply expressible_z; rewrite cos_PI; lra|split]]]].
  - rewrite (proj2 (direction_of_unit (1, 0, 0) ltac:(unfold unit3, dot3; ring))), rot_axis_x. unfold rot_x. rewrite cos_PI2. split; intros E; injection E; intros; lra.
  - set (Ui := fun l r c => Cconj (mp_U l c r)). unfold mp_left_project. rewrite (proj2 (Reqb_true 0 0) eq_refl). cbn [rbind].
    assert (He : expressible (- cos 0, - sin 0, 0) (1 / 2 * PI - PI / 4)). { apply expressible_horizontal. replace (1 / 2 * PI - PI / 4) with (PI / 4) by field. rewrite sin_PI4. assert (0 < sqrt 2) by (apply sqrt_lt_R0; lra). apply Rgt_not_eq. apply Rdiv_lt_0_compat; lra. }
    destruct (mp_R_angles Ui (/ 10) _ _ ltac:(lra) He) as (a & b & g & A & _). unfold mp_dot_rotation. rewrite A. cbn [rbind]. rewrite do_dot_ok; [|reflexivity|now apply (expressible_t _ _ He)]. cbn [rbind]. eexists. reflexivity.
Qed.
