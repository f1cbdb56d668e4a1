(** Whether a traced computation of the flux succeeds does not depend on the values: at exact alignment it returns a result
    without gradient. *)
From Coq Require Import Reals List Bool Arith ZArith Lia Lra Psatz.
From Coquelicot Require Import Hierarchy Derive.
From Verif Require Import Base.RealAux Base.Dict Model.LimbDark Model.Poly Model.Basis Model.S2fft Model.Rotation Model.Solution Model.SolutionVector Model.Ylm Model.RvMap Model.Surface Model.StarryLightCurve Model.AutoDiff Model.LightCurveGrad Model.TransitGrad Model.StarryGrad.
From Verif Require Import Spec.LimbDarkSpec Spec.OccultSpec Spec.PolySpec Spec.BasisSpec Spec.HarmonicSpec Spec.RotationSpec Spec.DiskSpec Spec.SurfaceSpec Spec.YlmSpec Spec.AutoDiffSpec Spec.StarryGradSpec.
From Verif Require Import Proof.RotationMore Proof.SurfaceProof.
From Verif Require Import Proof.AutoDiff Proof.StarryGrad Proof.StarryGradFlux Proof.StarryGradDesign Proof.StarryGradPoly Proof.StarryGradCurve Proof.StarryGradFree.
From Verif Require Proof.StarryProof Proof.YlmProof.
Import ListNotations.
Local Open Scope R_scope.

Lemma keys_upd {A B} k (f : A -> A) x (g : B -> B) y d e : keys d = keys e -> keys (dupd ijk_eqb k f x d) = keys (dupd ijk_eqb k g y e).
Proof.
  revert e. induction d as [|[a v] d IH]; intros e H; destruct e as [|[b w] e]; try discriminate; [reflexivity|]. cbn [keys map fst] in H. injection H as -> H.
  cbn [dupd]. destruct (ijk_eqb k b); cbn [keys map fst]; [now f_equal|]. f_equal. exact (IH e H).
Qed.
Lemma keys_fold {A B C E} (f : list (ijk * A) -> C -> list (ijk * A)) (g : list (ijk * B) -> E -> list (ijk * B)) (P : C -> E -> Prop) :
  (forall d e c c', keys d = keys e -> P c c' -> keys (f d c) = keys (g e c')) -> forall l l', List.Forall2 P l l' -> forall d e, keys d = keys e -> keys (fold_left f l d) = keys (fold_left g l' e).
Proof. intros H l l' HF. induction HF as [|a b l l' Hab HF IH]; intros d e Hk; [exact Hk|]. cbn [fold_left]. apply IH. now apply H. Qed.
Lemma keys_dense (d : list D) (v : list R) : length d = length v -> keys (from_dense_data_d d) = keys (from_dense_data v).
Proof.
  intros L. unfold from_dense_data_d, from_dense_data. rewrite L.
  apply (keys_fold _ _ eq); [|induction (seq 0 (length v)); constructor; [reflexivity|assumption]|reflexivity].
  intros a b c c' H ->. now apply keys_upd.
Qed.
Definition same_key {A B} (a : ijk * A) (b : ijk * B) : Prop := fst a = fst b.
Lemma same_keys {A B} (d : list (ijk * A)) (e : list (ijk * B)) : keys d = keys e -> List.Forall2 same_key d e.
Proof. revert e. induction d as [|a d IH]; intros [|b e] H; try discriminate; [constructor|]. cbn in H. injection H as H H'. constructor; [exact H|exact (IH e H')]. Qed.
Lemma keys_mul_step k v1 k' v2 d w1 w2 e : keys d = keys e -> keys (mul_step_d k v1 k' v2 d) = keys (mul_step k w1 k' w2 e).
Proof.
  intros H. unfold mul_step_d, mul_step. destruct k as [[i j] k], k' as [[i' j'] k']. cbv zeta. unfold add_to_d, add_to. destruct (k + k' =? 2)%Z; repeat apply keys_upd; exact H.
Qed.
Lemma keys_mul ud vd u v : keys ud = keys u -> keys vd = keys v -> keys (mul_data_d ud vd) = keys (mul_data u v).
Proof.
  intros Hu Hv. unfold mul_data_d, mul_data. apply (keys_fold _ _ same_key); [|now apply same_keys|reflexivity].
  intros d e c c' H Hc. apply (keys_fold _ _ same_key); [|now apply same_keys|exact H]. intros d' e' b b' H' Hb. rewrite Hc, Hb. now apply keys_mul_step.
Qed.
(** a traced polynomial with the terms of a polynomial *)
Definition same_terms (d : pijk_d) (p : pijk) : Prop := keys (pd_data d) = keys (p_data p) /\ pd_degree d = p_degree p.
Lemma make_shape d e deg p : keys d = keys e -> make_pijk e deg = Ok p -> exists q, make_pijk_d d deg = Ok q /\ same_terms q p.
Proof.
  intros H. unfold make_pijk, make_pijk_d. rewrite H. destruct (match deg with None => max_degree (keys e) | Some d => Ok d end) as [dg|er]; cbn [rbind]; [|discriminate].
  destruct (all_diagonal (keys e)) as [b|er]; cbn [rbind]; [|discriminate]. intros E. injection E as <-. eexists. split; [reflexivity|]. split; [exact H|reflexivity].
Qed.
Lemma dense_shape d v deg p : length d = length v -> from_dense v deg = Ok p -> exists q, from_dense_d d deg = Ok q /\ same_terms q p.
Proof. intros L. apply make_shape. now apply keys_dense. Qed.
Lemma mul_shape d e p q r : same_terms d p -> same_terms e q -> pijk_mul p q = Ok r -> exists x, pijk_mul_d d e = Ok x /\ same_terms x r.
Proof. intros [H _] [H' _]. apply make_shape. now apply keys_mul. Qed.
Lemma todense_shape d p v : same_terms d p -> todense p = Ok v -> exists x, todense_d d = Ok x /\ length x = length v.
Proof.
  intros [H Hd]. unfold todense, todense_d, shape. destruct (pd_data d) as [|a da], (p_data p) as [|b pa]; try discriminate. rewrite H, Hd. destruct (indices _) as [ns|er]; cbn [rbind]; [|discriminate].
  intros E. injection E as <-. eexists. split; [reflexivity|]. now rewrite !map_length.
Qed.
Lemma dot_shape d p a b f : same_terms d p -> length a = length b -> pijk_dot p b = Ok f -> exists x, pijk_dot_d d a = Ok x.
Proof.
  intros Hs L. unfold pijk_dot, pijk_dot_d. destruct (todense p) as [v|er] eqn:E; cbn [rbind]; [|discriminate]. destruct (todense_shape d p v Hs E) as (x & -> & Lx). cbn [rbind].
  unfold dot_vec, dot_vec_d. rewrite Lx, L. destruct (Nat.eqb _ _); [|discriminate]. intros _. now eexists.
Qed.
Lemma flux_shape sd u amp design dd ry rd v : length (sd_u sd) = length u -> length dd = length design -> length rd = length ry ->
  flux_core (sd_ydeg sd) u amp design ry = Ok v -> exists x, flux_of_d sd dd rd = Ok x.
Proof.
  intros Lu Ld Lr. unfold flux_core, flux_of_d. destruct (ldp u) as [pu|er] eqn:E1; cbn [rbind]; [|discriminate].
  assert (S1 : exists q, ld_poly_d (sd_u sd) = Ok q /\ same_terms q pu).
  { unfold ldp in E1. unfold ld_poly_d. rewrite Lu. destruct (length u =? 0)%nat; [exact (dense_shape [cst 1] [1] None pu eq_refl E1)|].
    refine (dense_shape _ _ _ pu _ E1). unfold ld_row_d, ld_row. now rewrite !map_length, !seq_length, Lu. }
  destruct S1 as (qu & -> & S1). cbn [rbind]. destruct (from_dense (A1_mul _ ry) _) as [py|er] eqn:E2; cbn [rbind]; [|discriminate].
  assert (LA : length (A1_mul_d (sd_ydeg sd) rd) = length (A1_mul (sd_ydeg sd) ry)) by (unfold A1_mul_d, A1_mul; rewrite !map_length; reflexivity).
  destruct (dense_shape _ _ _ py LA E2) as (qy & -> & S2). cbn [rbind]. clear LA.
  destruct (pijk_mul py pu) as [pyu|er] eqn:E3; cbn [rbind]; [|discriminate]. destruct (mul_shape _ _ _ _ _ S2 S1 E3) as (qyu & -> & S3). cbn [rbind].
  destruct (pijk_dot pu _) as [f|er] eqn:E4; cbn [rbind]; [|discriminate].
  assert (LB : length (map cst (rT (length (sd_u sd)))) = length (rT (length u))) by (rewrite map_length, Lu; reflexivity).
  unfold ld_norm_d. destruct (dot_shape qu pu _ _ f S1 LB E4) as (x & ->). cbn [rbind].
  destruct (pijk_dot pyu design) as [g|er] eqn:E5; cbn [rbind]; [|discriminate]. destruct (dot_shape qyu pyu dd design g S3 Ld E5) as (w & ->). cbn [rbind]. intros _. now eexists.
Qed.
(** rotations *)
Lemma updl_length l i v : length (updl_d l i v) = length l.
Proof. revert i. induction l as [|a l IH]; intros [|i]; cbn; try reflexivity. now rewrite IH. Qed.
Lemma fold_length {A B} (f : list A -> B -> list A) l : (forall a b, length (f a b) = length a) -> forall a, length (fold_left f l a) = length a.
Proof. intros H. induction l as [|b l IH]; intros a; [reflexivity|]. cbn [fold_left]. now rewrite IH, H. Qed.
Lemma rz_length deg c s M : length (rz_impl_d deg c s M) = (deg ^ 2 + 2 * deg + 1)%nat.
Proof. unfold rz_impl_d. rewrite fold_length; [apply repeat_length|]. intros a l. apply fold_length. intros b j. apply updl_length. Qed.
Lemma blocks_length deg Rm M : length (dot_blocks_d deg Rm M) = (deg ^ 2 + 2 * deg + 1)%nat.
Proof.
  unfold dot_blocks_d. induction deg as [|deg IH]; [reflexivity|]. replace (S deg + 1)%nat with (S (deg + 1)) by lia. rewrite seq_S, flat_map_app, app_length, IH. cbn [flat_map]. rewrite app_nil_r, map_length, seq_length. cbn [Nat.pow]. lia.
Qed.
Lemma rotation_shape as_euler deg x y z t M : length M = (deg ^ 2 + 2 * deg + 1)%nat -> (x = None -> y = None -> z <> None \/ t = None) ->
  exists r, dot_rotation_matrix_d as_euler deg x y z t M = Ok r /\ length r = (deg ^ 2 + 2 * deg + 1)%nat.
Proof.
  intros L H. unfold dot_rotation_matrix_d. destruct t as [t|]; [|now exists M]. rewrite L, Nat.eqb_refl.
  assert (B : exists r, Ok (dot_blocks_d deg (rotation_matrix as_euler deg (none0 x) (none0 y) (none0 z) (val t)) M) = Ok r /\ length r = (deg ^ 2 + 2 * deg + 1)%nat) by (eexists; split; [reflexivity|apply blocks_length]).
  destruct x as [x|], y as [y|]; cbv zeta; try exact B. destruct z as [z|]; [|destruct (H eq_refl eq_refl) as [H'|H']; [congruence|discriminate]].
  unfold dot_rz_d. cbv zeta. rewrite L, Nat.eqb_refl. eexists. split; [reflexivity|apply rz_length].
Qed.
Lemma left_shape as_euler deg inc obl t tz y : length y = (deg ^ 2 + 2 * deg + 1)%nat -> exists r, left_project_d as_euler deg inc obl t tz y = Ok r /\ length r = (deg ^ 2 + 2 * deg + 1)%nat.
Proof.
  intros L. unfold left_project_d. cbv zeta.
  assert (HA : let '(ax, ay, az, angle) := sky_projection_axis_angle inc obl in ax = None -> ay = None -> az <> None \/ option_map cst angle = None).
  { unfold sky_projection_axis_angle. destruct inc, obl; cbn; intros; try discriminate. left. discriminate. }
  destruct (sky_projection_axis_angle inc obl) as [[[ax ay] az] angle].
  destruct (rotation_shape as_euler deg (Some 1) None None (Some (cst (- (1 / 2) * PI))) y L ltac:(discriminate)) as (r1 & -> & L1). cbn [rbind].
  destruct (rotation_shape as_euler deg None None (Some 1) (option_map dneg t) r1 L1 ltac:(left; discriminate)) as (r2 & -> & L2). cbn [rbind].
  destruct (rotation_shape as_euler deg ax ay az (option_map cst angle) r2 L2 HA) as (r3 & -> & L3). cbn [rbind].
  exact (rotation_shape as_euler deg None None (Some 1) (option_map dneg tz) r3 L3 ltac:(left; discriminate)).
Qed.
Lemma aligned_none as_euler eps low high A2 sf sd R' X Y Z td : wf_ylm (s_y sf) -> fin_surface sd sf -> sd_ydeg sd <> 0%nat -> fin X 0 -> fin Y 0 ->
  occulted_light_curve_d as_euler eps low high A2 sd R' X Y Z td = Ok None.
Proof.
  intros Hy (Ey & Ei & Eo & Fy & Fu & Fa) H0 HX HY.
  assert (LF : forall d v, List.Forall2 fin d v -> length d = length v) by (intros d v H; induction H; cbn; congruence).
  pose proof (LF _ _ Fy) as Ly. pose proof (LF _ _ Fu) as Lu. rewrite (dense_len sf Hy), Ey in Ly.
  assert (E : exists d, occulted_light_curve_d as_euler eps low high A2 sd R' X Y Z td = Ok d).
  { unfold occulted_light_curve_d. cbv zeta. destruct (sd_ydeg sd =? 0)%nat eqn:E0; [apply Nat.eqb_eq in E0; contradiction|].
    destruct (design_none eps low high A2 (sd_ydeg sd + length (sd_u sd)) R' X Y Z HX HY ltac:(lia)) as (ds & -> & L & _). cbn [rbind].
    unfold rotated_y_d. rewrite E0. destruct (left_shape as_euler (sd_ydeg sd) (sd_inc sd) (sd_obl sd) td (Some (gd_theta_z (geometry_d R' X Y Z))) (sd_y sd) ltac:(rewrite Ly; unfold ncoef; cbn [Nat.pow]; lia)) as (rd & -> & Lr). cbn [rbind].
    assert (Lr' : length rd = ncoef (sd_ydeg sd)) by (rewrite Lr; unfold ncoef; cbn [Nat.pow]; lia).
    refine (flux_shape sd (s_u sf) 1 (rT (sd_ydeg sd + length (s_u sf))) ds (repeat 0 (length rd)) rd _ Lu _ _ (flux_core_rT (sd_ydeg sd) (s_u sf) 1 (repeat 0 (length rd)) _)).
    - rewrite L, Lu, RTProof.rT_length. reflexivity.
    - now rewrite repeat_length.
    - now rewrite repeat_length. }
  destruct E as (d & E). rewrite E. f_equal. exact (occulted_none _ _ _ _ _ _ _ _ _ _ _ _ H0 HX HY E).
Qed.
