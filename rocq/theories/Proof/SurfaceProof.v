(** Proofs about starry/surface.py: the intensity of a surface. *)
From Coq Require Import Reals Lra Lia ZArith List Bool Arith Psatz.
From Verif Require Import Base.RealAux Base.Dict Model.Poly Model.Basis Model.S2fft Model.Rotation Model.Solution Model.Ylm Model.RvMap Model.Surface
  Spec.PolySpec Spec.BasisSpec Spec.HarmonicSpec Spec.RotationSpec Spec.DiskSpec Spec.YlmSpec
  Proof.PolyProof Proof.PolyUnique Proof.BasisProof Proof.HarmonicProof Proof.YlmProof Proof.YlmMore Proof.YlmFacts Proof.RotationMap Proof.RotationMore Proof.AxisAngle.
Import ListNotations.
Open Scope R_scope.

(** * Polynomials that represent a function on the sphere *)
Definition repr (p : pijk) (D : nat) (f : R -> R -> R -> R) : Prop :=
  valid_dict (p_data p) /\ p_data p <> [] /\ p_degree p = Z.of_nat D /\ max_degree (keys (p_data p)) = Ok (Z.of_nat D) /\
  forall x y z, on_sphere x y z -> dict_eval (p_data p) x y z = f x y z.

Lemma repr_ext p D f g : (forall x y z, on_sphere x y z -> f x y z = g x y z) -> repr p D f -> repr p D g.
Proof. intros H (A & B & C & E & F). split; [exact A|split; [exact B|split; [exact C|split; [exact E|]]]]. intros x y z Hs. rewrite F by exact Hs. apply H, Hs. Qed.
Lemma repr_mul p D f q E g : repr p D f -> repr q E g -> exists r, pijk_mul p q = Ok r /\ repr r (D + E) (fun x y z => f x y z * g x y z).
Proof.
  intros (Vp & Np & Dp & Mp & Fp) (Vq & Nq & Dq & Mq & Fq). destruct (pijk_mul_spec p q Vp Vq Np Nq) as (r & Hr & Vr & Dr & Fr).
  specialize (Dr _ _ Mp Mq). exists r. split; [exact Hr|].
  unfold pijk_mul, make_pijk in Hr. destruct (max_degree (keys (mul_data (p_data p) (p_data q)))) as [d|] eqn:Md; cbn [rbind] in Hr; [|discriminate].
  destruct (all_diagonal _) as [b|]; cbn [rbind] in Hr; [|discriminate]. injection Hr as <-. cbn [p_data p_degree] in *. subst d.
  split; [exact Vr|split; [|split; [cbn [p_degree]; lia|split]]].
  - cbn [p_data]. intros E0. rewrite E0 in Md. discriminate.
  - cbn [p_data]. rewrite Md. f_equal. lia.
  - intros x y z Hs. cbn [p_data]. rewrite Fr, Fp, Fq by exact Hs. reflexivity.
Qed.
Lemma from_dense_repr v D degree : length v = ncoef D -> degree = None \/ degree = Some (Z.of_nat D) ->
  exists p, from_dense v degree = Ok p /\ repr p D (dense_eval D (fun n => nth n v 0)).
Proof.
  intros L Hd. assert (Hv : v <> []) by (intros ->; unfold ncoef in L; cbn in L; lia).
  destruct (from_dense_eval v D L) as (p0 & E0 & D0 & F0).
  destruct (from_dense_ok v None (or_introl Hv)) as (p0' & E0' & Data0 & _). rewrite E0 in E0'. injection E0' as <-.
  destruct (from_dense_ok v degree (or_introl Hv)) as (p & E & Data & Deg & DegN). exists p. split; [exact E|].
  assert (DP : p_degree p = Z.of_nat D). { destruct Hd as [-> | ->]; [|now apply Deg]. rewrite E in E0. injection E0 as <-. exact D0. }
  unfold repr. rewrite Data. split; [apply from_dense_valid|]. split; [rewrite from_dense_data_form; destruct v; [contradiction|discriminate]|]. split; [exact DP|]. split.
  - unfold from_dense, make_pijk in E0. destruct (max_degree (keys (from_dense_data v))) as [d|]; cbn [rbind] in E0; [|discriminate].
    destruct (all_diagonal _); cbn [rbind] in E0; [|discriminate]. injection E0 as <-. cbn [p_degree] in D0. rewrite D0. reflexivity.
  - intros x y z _. rewrite <- Data0. apply F0.
Qed.
Lemma A1_mul_length d y : length (A1_mul d y) = ncoef d.
Proof. unfold A1_mul. rewrite map_length, seq_length. reflexivity. Qed.
Lemma A1_mul_repr d y degree : length y = ncoef d -> degree = None \/ degree = Some (Z.of_nat d) ->
  exists p, from_dense (A1_mul d y) degree = Ok p /\ repr p d (fun x y' z => 2 / sqrt PI * map_at d y (x, y', z)).
Proof.
  intros L Hd. destruct (from_dense_repr (A1_mul d y) d degree (A1_mul_length d y) Hd) as (p & E & Rp). exists p. split; [exact E|].
  revert Rp. apply repr_ext. intros a b c Hs. unfold map_at. rewrite <- A1_eval by exact Hs. rewrite !dense_eval_flat. apply bigsum_ext. intros n Hn. f_equal.
  unfold A1_mul. apply (nth_map_seq (fun r => bigsum ((d + 1) * (d + 1)) (fun n => A1 (Z.of_nat d) (Z.of_nat r) (Z.of_nat n) * nth n y 0))). exact Hn.
Qed.
Lemma ld_row_repr u degree : degree = None \/ degree = Some (Z.of_nat (length u)) ->
  exists p, from_dense (ld_row u) degree = Ok p /\ repr p (length u) (fun x y z => ld_profile u z).
Proof.
  intros Hd. assert (L : length (ld_row u) = ncoef (length u)) by (unfold ld_row; rewrite map_length, seq_length; reflexivity).
  destruct (from_dense_repr (ld_row u) (length u) degree L Hd) as (p & E & Rp). exists p. split; [exact E|].
  revert Rp. apply repr_ext. intros a b c Hs. unfold ld_profile. rewrite <- (limb_dark_eval u a b c Hs). rewrite !dense_eval_flat. apply bigsum_ext. intros n Hn. f_equal.
  unfold ld_row. apply (nth_map_seq (fun n => limb_dark_vector u (Z.of_nat n))). exact Hn.
Qed.
Lemma one_repr : exists p, from_dense [1] None = Ok p /\ repr p 0 (fun x y z => 1).
Proof.
  destruct (from_dense_repr [1] 0 None eq_refl (or_introl eq_refl)) as (p & E & Rp). exists p. split; [exact E|]. revert Rp. apply repr_ext.
  intros x y z _. unfold dense_eval, basis_monomial. cbn. ring.
Qed.
Lemma repr_todense p D f : repr p D f -> exists v, todense p = Ok v /\ length v = ncoef D /\
  forall x y z, on_sphere x y z -> dense_eval D (fun n => nth n v 0) x y z = f x y z.
Proof.
  intros (V & N & Dg & M & F). destruct V as [Nd V]. destruct (max_degree_ok (keys (p_data p)) ltac:(now destruct (p_data p)) V) as (D' & M' & _ & Le & _).
  rewrite M in M'. injection M' as <-. destruct (todense_eval p N V) as (v & T & L & Ev).
  { intros i j k H. rewrite Dg. apply Le, H. }
  exists v. split; [exact T|]. split; [rewrite L; unfold shape, ncoef; rewrite Dg; nia|]. intros x y z Hs. rewrite <- F by exact Hs. rewrite <- Ev. rewrite Dg, Nat2Z.id. reflexivity.
Qed.
Lemma dotp_bigsum a b : length a = length b -> dotp a b = bigsum (length a) (fun n => nth n a 0 * nth n b 0).
Proof.
  revert b. induction a as [|x a IH]; intros b H; destruct b as [|y b]; try discriminate; [reflexivity|].
  unfold dotp in *. cbn [combine map Rsum fold_right fst snd length]. specialize (IH b ltac:(cbn in H; lia)). unfold Rsum in IH. rewrite IH.
  rewrite (bigsum_split_first (length a) (fun n => nth n (x :: a) 0 * nth n (y :: b) 0)). reflexivity.
Qed.
From Verif Require Import Spec.SurfaceSpec.
Lemma dot_vec_ok a b N : length a = N -> length b = N -> dot_vec a b = Ok (bigsum N (fun n => nth n a 0 * nth n b 0)).
Proof. intros A B. unfold dot_vec. rewrite A, B, Nat.eqb_refl. rewrite dotp_bigsum by congruence. rewrite A. reflexivity. Qed.

Lemma left_project_both as_euler : zyz_euler as_euler -> forall deg i o theta tz y, length y = ncoef deg ->
  exists r, left_project as_euler deg (Some i) (Some o) theta tz y = Ok r /\ length r = ncoef deg /\
    forall p, sphere3 p -> map_at deg r p = map_at deg y (map_point (Some i) (Some o) theta (rot_z (- angle0 tz) p)).
Proof. intros Hz deg i o theta tz y Hy. exact (left_project_ok as_euler Hz deg (Some i) (Some o) theta tz y Hy). Qed.

Lemma poly_basis_dot deg v x y z : length v = ncoef deg -> exists pT, poly_basis deg x y z = Ok pT /\ dot_vec pT v = Ok (dense_eval deg (fun n => nth n v 0) x y z).
Proof.
  intros L. destruct (poly_basis_ok deg x y z) as (pT & E & LT & HT). exists pT. split; [exact E|]. rewrite (dot_vec_ok pT v (ncoef deg) LT L). f_equal.
  unfold ncoef. rewrite bigsum_square. unfold dense_eval. apply bigsum_ext. intros l Hl. apply bigsum_ext. intros nu Hnu. rewrite HT by lia. ring.
Qed.
Lemma sphere_iff x y z : sphere3 (x, y, z) <-> on_sphere x y z.
Proof. unfold sphere3, dot3, on_sphere. split; intros H; [rewrite <- H|rewrite <- H]; ring. Qed.

Section Intensity.
Variable as_euler : R * R * R -> R * R * R.
Hypothesis Hz : zyz_euler as_euler.
Variable s : surface.
Hypothesis Hy : wf_ylm (s_y s).
Lemma surf_ydeg_nat : surf_ydeg s = deg_nat (s_y s). Proof. reflexivity. Qed.
Lemma dense_len : length (ylm_todense (s_y s)) = ncoef (surf_ydeg s).
Proof. rewrite surf_ydeg_nat. apply todense_length. apply Hy. Qed.
(** the polynomials p_y and p_u of a surface *)
Lemma surf_polys ry : length ry = ncoef (surf_ydeg s) -> exists p_y p_u p,
  from_dense (A1_mul (surf_ydeg s) ry) (Some (Z.of_nat (surf_ydeg s))) = Ok p_y /\
  from_dense (ld_row (s_u s)) (Some (Z.of_nat (surf_udeg s))) = Ok p_u /\ pijk_mul p_y p_u = Ok p /\
  repr p_y (surf_ydeg s) (fun x y' z => 2 / sqrt PI * map_at (surf_ydeg s) ry (x, y', z)) /\
  repr p_u (surf_udeg s) (fun x y z => ld_profile (s_u s) z) /\
  repr p (surf_deg s) (fun x y' z => 2 / sqrt PI * map_at (surf_ydeg s) ry (x, y', z) * ld_profile (s_u s) z).
Proof.
  intros L. destruct (A1_mul_repr (surf_ydeg s) ry _ L (or_intror eq_refl)) as (p_y & E1 & R1).
  destruct (ld_row_repr (s_u s) _ (or_intror eq_refl)) as (p_u & E2 & R2). destruct (repr_mul _ _ _ _ _ _ R1 R2) as (p & E3 & R3).
  exists p_y, p_u, p. split; [exact E1|split; [exact E2|split; [exact E3|split; [exact R1|split; [exact R2|exact R3]]]]].
Qed.
Lemma intensity_ok x y z theta : on_sphere x y z ->
  surf_intensity_xyz as_euler s x y z theta false =
  Ok (s_amplitude s * sky_intensity (y_data (s_y s)) (s_u s) (Some (surf_inc s)) (Some (surf_obl s)) theta (x, y, z)).
Proof using Hz Hy.
  intros Hs. unfold surf_intensity_xyz.
  destruct (left_project_both as_euler Hz (surf_ydeg s) (surf_inc s) (surf_obl s) theta (Some 0) _ dense_len) as (ry & Er & Lr & Vr).
  destruct (surf_polys ry Lr) as (p_y & p_u & p & E1 & E2 & E3 & _ & _ & R3). destruct (repr_todense _ _ _ R3) as (pd & E4 & L4 & V4).
  destruct (poly_basis_dot (surf_deg s) pd x y z L4) as (pT & E5 & E6). rewrite E5. cbn [rbind]. rewrite Er. cbn [rbind]. rewrite E1. cbn [rbind]. rewrite E2. cbn [rbind]. rewrite E3. cbn [rbind]. rewrite E4. cbn [rbind]. rewrite E6. cbn [rbind].
  f_equal. rewrite V4 by exact Hs. rewrite Vr by (apply sphere_iff, Hs).
  assert (E0 : rot_z (- angle0 (Some 0)) (x, y, z) = (x, y, z)). { unfold rot_z. cbn [angle0]. rewrite Ropp_0, cos_0, sin_0. apply triple_eq; ring. }
  rewrite E0. rewrite surf_ydeg_nat, todense_value by exact Hy. unfold sky_intensity. cbn [snd]. ring.
Qed.
End Intensity.

(** * The constructor *)
Lemma make_surface_raw y inc obl u period amp phase radius shear :
  make_surface (Some y) inc obl u period amp false phase radius shear =
  Ok {| s_y := y; s_inc := inc; s_obl := obl; s_u := u; s_period := period; s_amplitude := amp;
        s_normalize := false; s_phase := phase; s_radius := radius; s_shear := shear |}.
Proof. reflexivity. Qed.
Lemma getitem00 d v c : valid_coeffs d -> make_ylm d = Ok v -> In ((0, 0)%Z, c) d -> ylm_getitem v (0, 0)%Z = c.
Proof.
  intros V E H. destruct (todense_spec d V) as (v' & E' & Hd & _ & _ & G & _).
  { intros E0. rewrite E0 in H. destruct H. }
  rewrite E in E'. injection E' as <-. apply (G 0%nat 0%Z c); [|lia|now left]. apply (Hd 0%Z 0%Z). apply (in_map fst _ _ H).
Qed.
Lemma make_ylm_data v : y_data v <> [] -> exists v', make_ylm (y_data v) = Ok v' /\ y_data v' = y_data v.
Proof. intros H. destruct (make_ylm_ok _ H) as (v' & E & D & _). exists v'. split; assumption. Qed.
(** normalize=True: the amplitude is the (0,0) coefficient and the map is divided by it, whatever amplitude is given *)
Lemma make_surface_norm d v c inc obl u period amp phase radius shear : valid_coeffs d -> make_ylm d = Ok v -> In ((0, 0)%Z, c) d -> c <> 0 ->
  exists s, make_surface (Some v) inc obl u period amp true phase radius shear = Ok s /\ wf_ylm (s_y s) /\ s_amplitude s = c /\ y_data (s_y s) = map (fun kv => (fst kv, snd kv / c)) d /\ y_deg (s_y s) = y_deg v /\ s_inc s = inc /\ s_obl s = obl /\ s_u s = u /\ s_period s = period /\ s_phase s = phase /\ s_radius s = radius /\ s_shear s = shear.
Proof.
  intros V E H Hc. destruct (make_ylm_wf d v V E) as [W D]. unfold make_surface. cbn [rbind]. rewrite D, E. cbn [rbind].
  assert (H' : In ((0, 0)%Z, c) (y_data v)) by (rewrite D; exact H). destruct (normalize_ok v c W H' Hc) as (w & Ew & Ww & Dw & Gw). rewrite Ew. cbn [rbind].
  eexists. split; [reflexivity|]. cbn. rewrite (getitem00 d v c V E H). rewrite D in Dw. split; [exact Ww|split; [reflexivity|split; [exact Dw|split; [exact Gw|]]]].
  split; [reflexivity|split; [reflexivity|split; [reflexivity|split; [reflexivity|split; [reflexivity|split; reflexivity]]]]].
Qed.
Lemma value_div c d p : coeffs_value (map (fun kv => (fst kv, snd kv / c)) d) p = coeffs_value d p / c.
Proof. unfold Rdiv. rewrite (value_map (/ c) d p). ring. Qed.
Lemma sky_div c d u inc obl theta p : sky_intensity (map (fun kv => (fst kv, snd kv / c)) d) u inc obl theta p = sky_intensity d u inc obl theta p / c.
Proof. unfold sky_intensity. rewrite value_div. unfold Rdiv. ring. Qed.
