(** Green's theorem on the visible part of the disk, for the monomials of the Green's basis. *)
From Coq Require Import Reals Lra Lia List Bool Arith Psatz.
From Coquelicot Require Import Coquelicot.
From Verif Require Import Base.RealAux Base.Analysis Spec.BasisSpec Spec.DiskSpec Spec.LimbDarkSpec Spec.OccultSpec Spec.SkySpec
  Proof.LimbDarkProof Proof.LimbDarkGreen Proof.LimbDarkArea Proof.Ray Proof.Edge Proof.Occult Proof.DiskRot Proof.Monomial.
Import ListNotations.
Open Scope R_scope.

Definition p32 (u : R) : R := u * sqrt u.
Lemma p32_neg u : u <= 0 -> p32 u = 0.
Proof. intros H. unfold p32. rewrite sqrt_neg_0 by exact H. ring. Qed.
Lemma p32_derive (u : R) : is_derive p32 u (3 / 2 * sqrt u).
Proof.
  destruct (Rtotal_order u 0) as [N|[-> |P]].
  - rewrite sqrt_neg_0 by lra. rewrite Rmult_0_r. apply (is_derive_ext_loc (fun _ => 0)); [|apply (is_derive_const (V := R_NormedModule))].
    assert (H : 0 < - u) by lra. exists (mkposreal _ H). intros y Hy. unfold ball in Hy; cbn in Hy; unfold AbsRing_ball, abs, minus, plus, opp in Hy; cbn in Hy. apply Rabs_def2 in Hy. symmetry. apply p32_neg. lra.
  - rewrite sqrt_0, Rmult_0_r. apply is_derive_Reals. intros e He. assert (He2 : 0 < e * e) by nra. exists (mkposreal _ He2). intros h H0 Hh. cbn [pos] in Hh. rewrite Rplus_0_l, (p32_neg 0), Rminus_0_r, Rminus_0_r by lra.
    destruct (Rle_lt_dec h 0) as [L|L]; [rewrite p32_neg by exact L; unfold Rdiv; rewrite Rmult_0_l, Rabs_R0; exact He|].
    unfold p32. replace (h * sqrt h / h) with (sqrt h) by (field; exact H0). rewrite Rabs_right by (apply Rle_ge, sqrt_pos).
    rewrite Rabs_right in Hh by lra. apply Rlt_le_trans with (sqrt (e * e)); [apply sqrt_lt_1_alt; lra|rewrite sqrt_square; lra].
  - unfold p32. auto_derive; [exact P|]. assert (S := sqrt_lt_R0 u P). assert (Q : sqrt u * sqrt u = u) by (apply sqrt_sqrt; lra).
    transitivity (sqrt u + (sqrt u * sqrt u) * / (2 * sqrt u)); [rewrite Q; ring|field; lra].
Qed.
Lemma p32_cont u : continuous p32 u.
Proof. apply (ex_derive_continuous p32). eexists. apply p32_derive. Qed.
Lemma p32_cube u : p32 u = sqrt u ^ 3.
Proof.
  destruct (Rle_lt_dec u 0) as [L|L]; [rewrite p32_neg, sqrt_neg_0 by exact L; ring|]. unfold p32. rewrite <- (sqrt_sqrt u) at 1 by lra. ring.
Qed.
Definition Mint (n : nat) (s : R) : R := RInt (fun t => t ^ n * p32 (1 - t ^ 2 * s)) 0 1.
Lemma Mint_in n s t : continuous (fun t => t ^ n * p32 (1 - t ^ 2 * s)) t.
Proof.
  apply cont_mult; [apply (cont_pow (fun t => t)), cont_id|]. apply (cont_comp (fun t => 1 - t ^ 2 * s) p32); [|apply p32_cont].
  apply (ex_derive_continuous (fun t : R => 1 - t ^ 2 * s)). auto_derive. exact I.
Qed.
Lemma Mint_is n s : is_RInt (fun t => t ^ n * p32 (1 - t ^ 2 * s)) 0 1 (Mint n s).
Proof. apply rint_cont. intros. apply Mint_in. Qed.
Lemma Mint_N n s : Mint n s = Nint 1 n s - s * Nint 1 (n + 2) s.
Proof.
  apply is_RInt_unique. apply (rint_ext_v (fun t => t ^ n * sqrt (1 - t ^ 2 * s) ^ 1 - s * (t ^ (n + 2) * sqrt (1 - t ^ 2 * s) ^ 1))).
  - apply rint_minus; [apply Nint_is|]. apply (is_RInt_scal (V := R_NormedModule)), Nint_is.
  - intros t _. unfold p32. rewrite pow_add. ring.
Qed.
Lemma Mint_rec n s : INR (n + 1) * Mint n s = p32 (1 - s) + 3 * s * Nint 1 (n + 2) s.
Proof.
  assert (A : is_RInt (fun t => INR (n + 1) * (t ^ n * p32 (1 - t ^ 2 * s)) - 3 * s * (t ^ (n + 2) * sqrt (1 - t ^ 2 * s) ^ 1)) 0 1 (p32 (1 - s))).
  { apply (is_RInt_antider (fun t => t ^ (n + 1) * p32 (1 - t ^ 2 * s))).
    - assert (D : forall t : R, is_derive (fun t : R => t ^ (n + 1) * p32 (1 - t ^ 2 * s)) t (INR (n + 1) * (t ^ n * p32 (1 - t ^ 2 * s)) - 3 * s * (t ^ (n + 2) * sqrt (1 - t ^ 2 * s) ^ 1))); [|exact D].
      intros t. evar_last.
      + apply (is_derive_mult (fun t : R => t ^ (n + 1)) (fun t : R => p32 (1 - t ^ 2 * s)) t (INR (n + 1) * t ^ n) ((3 / 2 * sqrt (1 - t ^ 2 * s)) * (- 2 * t * s))).
        * auto_derive; [exact I|]. replace (Init.Nat.pred (n + 1)) with n by lia. ring.
        * assert (B := is_derive_comp p32 (fun t : R => 1 - t ^ 2 * s) t _ (-2 * t * s) (p32_derive (1 - t ^ 2 * s))). evar_last; [apply B; auto_derive; [exact I|ring]|]. unfold scal; cbn; unfold mult; cbn. ring.
        * intros; apply Rmult_comm.
      + unfold plus, mult; cbn. rewrite !pow_add. cbn [pow]. field.
    - intros t. apply cont_minus; [apply cont_scal, Mint_in|apply cont_scal, Nint_cont_in].
    - rewrite pow1, (pow_i (n + 1)) by lia. replace (1 - 1 ^ 2 * s) with (1 - s) by ring. ring. }
  assert (B : is_RInt (fun t => INR (n + 1) * (t ^ n * p32 (1 - t ^ 2 * s)) - 3 * s * (t ^ (n + 2) * sqrt (1 - t ^ 2 * s) ^ 1)) 0 1 (INR (n + 1) * Mint n s - 3 * s * Nint 1 (n + 2) s)).
  { apply rint_minus; [apply (is_RInt_scal (V := R_NormedModule)), Mint_is|apply (is_RInt_scal (V := R_NormedModule)), Nint_is]. }
  assert (E := rint_val _ _ 0 1 _ _ A B (fun x _ => eq_refl)). lra.
Qed.
Lemma Mint_derive n (s : R) : is_derive (Mint n) s (- (3 / 2) * Nint 1 (n + 2) s).
Proof.
  assert (D : forall t u : R, is_derive (fun s : R => t ^ n * p32 (1 - t ^ 2 * s)) u (- (3 / 2) * (t ^ (n + 2) * sqrt (1 - t ^ 2 * u) ^ 1))).
  { intros t u. evar_last; [apply (is_derive_scal (fun s : R => p32 (1 - t ^ 2 * s)) u (t ^ n) ((3 / 2 * sqrt (1 - t ^ 2 * u)) * (- t ^ 2)))|rewrite pow_add; field].
    assert (B := is_derive_comp p32 (fun s : R => 1 - t ^ 2 * s) u _ (- t ^ 2) (p32_derive (1 - t ^ 2 * u))). evar_last; [apply B; auto_derive; [exact I|ring]|]. unfold scal; cbn; unfold mult; cbn. ring. }
  assert (A := is_derive_RInt_param (fun s t => t ^ n * p32 (1 - t ^ 2 * s)) 0 1 s). evar_last.
  - apply A.
    + exists (mkposreal 1 Rlt_0_1). intros y _ t _. eexists. apply D.
    + intros t _. apply continuity_2d_pt_ext with (fun u v => - (3 / 2) * (v ^ (n + 2) * sqrt (1 - v ^ 2 * u))).
      { intros u v. symmetry. apply is_derive_unique. evar_last; [apply D|]. ring. }
      apply continuity_2d_pt_mult; [apply continuity_2d_pt_const|]. apply continuity_2d_pt_mult.
      * apply (continuity_1d_2d_pt_comp (fun v => v ^ (n + 2)) (fun _ v => v) s t); [|apply continuity_2d_pt_id2]. apply derivable_continuous_pt, derivable_pt_pow.
      * apply (continuity_1d_2d_pt_comp sqrt (fun u v => 1 - v ^ 2 * u) s t).
        -- apply continuity_pt_filterlim, continuous_sqrt.
        -- apply continuity_2d_pt_minus; [apply continuity_2d_pt_const|]. apply continuity_2d_pt_mult; [|apply continuity_2d_pt_id1].
           apply (continuity_1d_2d_pt_comp (fun v => v ^ 2) (fun _ v => v) s t); [|apply continuity_2d_pt_id2]. apply derivable_continuous_pt, derivable_pt_pow.
    + exists (mkposreal 1 Rlt_0_1). intros y _. eexists. apply Mint_is.
  - transitivity (RInt (fun t => - (3 / 2) * (t ^ (n + 2) * sqrt (1 - t ^ 2 * s) ^ 1)) 0 1); [apply RInt_ext; intros t _; apply is_derive_unique, D|].
    apply is_RInt_unique. apply (is_RInt_scal (V := R_NormedModule)), Nint_is.
Qed.
Lemma sqrt_holder a b : Rabs (sqrt a - sqrt b) <= sqrt (Rabs (a - b)).
Proof.
  assert (G : forall a b, b <= a -> sqrt a - sqrt b <= sqrt (a - b) /\ sqrt b <= sqrt a).
  { clear. intros a b H. split; [|apply sqrt_le_1_alt, H]. destruct (Rle_lt_dec b 0) as [L|L].
    - rewrite (sqrt_neg_0 b) by exact L. rewrite Rminus_0_r. apply sqrt_le_1_alt. lra.
    - assert (sqrt a <= sqrt (a - b) + sqrt b); [|lra]. pose proof (sqrt_pos (a - b)). pose proof (sqrt_pos b).
      rewrite <- (sqrt_square (sqrt (a - b) + sqrt b)) by lra. apply sqrt_le_1_alt.
      assert (sqrt (a - b) * sqrt (a - b) = a - b) by (apply sqrt_sqrt; lra). assert (sqrt b * sqrt b = b) by (apply sqrt_sqrt; lra). nra. }
  destruct (Rle_dec b a) as [L|L].
  - destruct (G a b L). rewrite !Rabs_right by lra. assumption.
  - destruct (G b a ltac:(lra)). rewrite (Rabs_left1 (sqrt a - sqrt b)), (Rabs_left1 (a - b)) by lra. replace (- (a - b)) with (b - a) by ring. lra.
Qed.
Lemma Nint1_holder n s s' : Rabs (Nint 1 n s - Nint 1 n s') <= sqrt (Rabs (s - s')).
Proof.
  assert (A := rint_minus _ _ _ _ _ _ (Nint_is 1 n s) (Nint_is 1 n s')). rewrite <- (is_RInt_unique _ _ _ _ A).
  replace (sqrt (Rabs (s - s'))) with ((1 - 0) * sqrt (Rabs (s - s'))) by ring. apply abs_RInt_le_const; [lra|eexists; exact A|].
  intros t Ht. rewrite !pow_1, <- Rmult_minus_distr_l, Rabs_mult. rewrite <- (Rmult_1_l (sqrt (Rabs (s - s')))). apply Rmult_le_compat; [apply Rabs_pos|apply Rabs_pos| |].
  - rewrite <- RPow_abs, Rabs_right by lra. rewrite <- (pow1 n). apply pow_incr. exact Ht.
  - apply Rle_trans with (1 := sqrt_holder _ _). apply sqrt_le_1_alt. replace (1 - t ^ 2 * s - (1 - t ^ 2 * s')) with (- (t ^ 2 * (s - s'))) by ring. rewrite Rabs_Ropp, Rabs_mult.
    assert (0 <= t ^ 2 <= 1) by (split; [apply pow2_ge_0|nra]). rewrite (Rabs_right (t ^ 2)) by lra. pose proof (Rabs_pos (s - s')). nra.
Qed.
Lemma Nint1_cont n s : continuous (Nint 1 n) s.
Proof.
  apply continuity_pt_filterlim. intros e He. assert (He2 : 0 < e * e) by nra. exists (e * e). split; [exact He2|]. intros x [_ Hx]. unfold dist in *; cbn in *; unfold R_dist in *.
  apply Rle_lt_trans with (1 := Nint1_holder n x s). apply Rlt_le_trans with (sqrt (e * e)); [apply sqrt_lt_1_alt; split; [apply Rabs_pos|exact Hx]|rewrite sqrt_square; lra].
Qed.
Lemma Nint_cont k n s : (k <= 1)%nat -> continuous (Nint k n) s.
Proof.
  intros Hk. destruct k as [|[|k]]; [|apply Nint1_cont|lia]. apply continuous_ext with (fun _ => / INR (S n)); [intros; symmetry; apply Nint_0|apply cont_const].
Qed.

(** lists of monomials c x^i y^j z^k *)
Definition mono := (R * nat * nat * nat)%type.
Definition mono_ok (m : mono) : Prop := let '(_, i, _, k) := m in Nat.even i = true /\ (k <= 1)%nat.
Definition mval (m : mono) (x y z : R) : R := let '(c, i, j, k) := m in c * (x ^ i * y ^ j * z ^ k).
Definition mbrk (m : mono) (x y : R) : R := let '(c, i, j, k) := m in c * (x ^ i * y ^ j * Nint k (i + j + 1) (x ^ 2 + y ^ 2)).
Definition psum (f : mono -> R) (l : list mono) : R := Rsum (map f l).
Lemma psum_cons f m l : psum f (m :: l) = f m + psum f l. Proof. reflexivity. Qed.
Definition is_curve (X Y dX dY : R -> R) : Prop := (forall t : R, is_derive X t (dX t)) /\ (forall t : R, is_derive Y t (dY t)) /\ (forall t : R, continuous dX t) /\ (forall t : R, continuous dY t).
Lemma curve_cont X Y dX dY : is_curve X Y dX dY -> (forall t : R, continuous X t) /\ (forall t : R, continuous Y t).
Proof. intros (D1 & D2 & _). split; intros t; [apply (ex_derive_continuous X)|apply (ex_derive_continuous Y)]; eexists; [apply D1|apply D2]. Qed.
Lemma limb_curve : is_curve sin cos cos (fun t => - sin t).
Proof.
  split; [|split; [|split]].
  - intros t. auto_derive; [exact I|ring].
  - intros t. auto_derive; [exact I|ring].
  - intros t. apply (cont_cos (fun x => x)), cont_id.
  - intros t. apply cont_opp, (cont_sin (fun x => x)), cont_id.
Qed.
Lemma edge_curve b r : is_curve (fun t => r * sin t) (fun t => b - r * cos t) (fun t => r * cos t) (fun t => r * sin t).
Proof.
  split; [|split; [|split]].
  - intros t. auto_derive; [exact I|ring].
  - intros t. auto_derive; [exact I|ring].
  - intros t. apply (cont_scal r cos), (cont_cos (fun x => x)), cont_id.
  - intros t. apply (cont_scal r sin), (cont_sin (fun x => x)), cont_id.
Qed.
Lemma mbrk_cont (X Y : R -> R) m : (forall t : R, continuous X t) -> (forall t : R, continuous Y t) -> mono_ok m -> forall t : R, continuous (fun t => mbrk m (X t) (Y t)) t.
Proof.
  intros CX CY. destruct m as [[[c i] j] k]. intros [_ Hk] t. unfold mbrk. apply cont_scal. apply cont_mult.
  - apply cont_mult; [apply (cont_pow X), CX|apply (cont_pow Y), CY].
  - apply (cont_comp (fun t => X t ^ 2 + Y t ^ 2) (Nint k (i + j + 1))); [|apply Nint_cont, Hk]. apply cont_plus; [apply (cont_pow X), CX|apply (cont_pow Y), CY].
Qed.
Lemma psum_cont (f : mono -> R -> R) l (t : R) : (forall m, In m l -> continuous (f m) t) -> continuous (fun t => psum (fun m => f m t) l) t.
Proof.
  induction l as [|m l IH]; intros H; [apply cont_const|]. apply continuous_ext with (fun t => f m t + psum (fun m => f m t) l); [reflexivity|].
  apply cont_plus; [apply H; now left|apply IH; intros; apply H; now right].
Qed.
Lemma edge_sq b r t : (r * sin t) ^ 2 + (b - r * cos t) ^ 2 = erho2 b r t.
Proof. unfold erho2. pose proof (sin2_cos2 t) as C. unfold Rsqr in C. transitivity (b ^ 2 - 2 * b * r * cos t + r ^ 2 * (sin t * sin t + cos t * cos t)); [ring|rewrite C; ring]. Qed.
Lemma limb_sq t : sin t ^ 2 + cos t ^ 2 = 1.
Proof. pose proof (sin2_cos2 t) as C. unfold Rsqr in C. rewrite <- C. ring. Qed.
Lemma edge_cross b r t : r * sin t * (r * sin t) - (b - r * cos t) * (r * cos t) = r ^ 2 - b * r * cos t.
Proof. pose proof (sin2_cos2 t) as C. unfold Rsqr in C. transitivity (r ^ 2 * (sin t * sin t + cos t * cos t) - b * r * cos t); [ring|rewrite C; ring]. Qed.
Lemma vis_val b r f v w : vis b r f v -> v = w -> vis b r f w. Proof. intros H <-. exact H. Qed.
(** the value of the visible integral, before Green *)
Lemma vis_monos b r k0 k1 l : 0 <= b -> 0 <= r -> contact b r k0 k1 -> (forall m, In m l -> mono_ok m) ->
  vis b r (fun x y => psum (fun m => mval m x y (zdisk x y)) l)
    (2 * (RInt (fun t => psum (fun m => mbrk m (sin t) (cos t)) l) k1 PI - RInt (fun t => psum (fun m => mbrk m (r * sin t) (b - r * cos t)) l * (r ^ 2 - b * r * cos t)) 0 k0)).
Proof.
  intros Hb Hr CT. induction l as [|m l IH]; intros Hl.
  - unfold psum; cbn [map Rsum]. replace (2 * _) with 0; [apply vis_zero|].
    rewrite (RInt_ext _ (fun _ => 0) 0 k0) by (intros; unfold Rsum; cbn; ring). rewrite !RInt_const. unfold scal; cbn; unfold mult; cbn. unfold Rsum; cbn. ring.
  - assert (Hm := Hl m (or_introl eq_refl)). specialize (IH (fun m' H => Hl m' (or_intror H))).
    destruct (curve_cont _ _ _ _ limb_curve) as [LX LY]. destruct (curve_cont _ _ _ _ (edge_curve b r)) as [EX EY].
    assert (CW : forall t, continuous (fun t => r ^ 2 - b * r * cos t) t) by (intros t; apply (ex_derive_continuous (fun t : R => r ^ 2 - b * r * cos t)); auto_derive; exact I).
    set (A1 := RInt (fun t => psum (fun m => mbrk m (sin t) (cos t)) l) k1 PI) in *.
    set (A2 := RInt (fun t => psum (fun m => mbrk m (r * sin t) (b - r * cos t)) l * (r ^ 2 - b * r * cos t)) 0 k0) in *.
    assert (I1 : is_RInt (fun t => psum (fun m => mbrk m (sin t) (cos t)) l) k1 PI A1).
    { apply rint_cont. intros t. apply (psum_cont (fun m t => mbrk m (sin t) (cos t))). intros m' Hm'. apply mbrk_cont; auto. apply Hl. now right. }
    assert (I2 : is_RInt (fun t => psum (fun m => mbrk m (r * sin t) (b - r * cos t)) l * (r ^ 2 - b * r * cos t)) 0 k0 A2).
    { apply rint_cont. intros t. apply cont_mult; [|apply CW]. apply (psum_cont (fun m t => mbrk m (r * sin t) (b - r * cos t))). intros m' Hm'. apply (mbrk_cont (fun t => r * sin t) (fun t => b - r * cos t)); auto. apply Hl. now right. }
    destruct m as [[[c i] j] k]. destruct (vis_mono b r k0 k1 i j k Hb Hr CT) as (E & E1 & E2).
    destruct Hm as [Hi Hk]. assert (P : (-1) ^ i = 1). { apply Nat.even_spec in Hi. destruct Hi as [h ->]. apply pow_1_even. }
    rewrite P in E2. apply (vis_scal b r _ _ c) in E2. assert (V := vis_plus _ _ _ _ _ _ E2 IH). cbv beta in V.
    assert (B1 : RInt (fun t => psum (fun m => mbrk m (sin t) (cos t)) ((c, i, j, k) :: l)) k1 PI = c * (Nint k (i + j + 1) 1 * RInt (cang i j) k1 PI) + A1).
    { apply is_RInt_unique. apply (rint_ext_v (fun t => c * (Nint k (i + j + 1) 1 * cang i j t) + psum (fun m => mbrk m (sin t) (cos t)) l)).
      - apply (is_RInt_plus (V := R_NormedModule)); [|exact I1]. apply (is_RInt_scal (V := R_NormedModule)), (is_RInt_scal (V := R_NormedModule)). apply rint_cont, cang_cont.
      - intros t _. rewrite psum_cons. change (mbrk (c, i, j, k) (sin t) (cos t)) with (c * (sin t ^ i * cos t ^ j * Nint k (i + j + 1) (sin t ^ 2 + cos t ^ 2))). rewrite limb_sq. unfold cang. ring. }
    assert (B2 : RInt (fun t => psum (fun m => mbrk m (r * sin t) (b - r * cos t)) ((c, i, j, k) :: l) * (r ^ 2 - b * r * cos t)) 0 k0 = c * E + A2).
    { apply is_RInt_unique. apply (rint_ext_v (fun t => c * edge_mono i j k b r t + psum (fun m => mbrk m (r * sin t) (b - r * cos t)) l * (r ^ 2 - b * r * cos t))).
      - apply (is_RInt_plus (V := R_NormedModule)); [|exact I2]. apply (is_RInt_scal (V := R_NormedModule)), E1.
      - intros t _. rewrite psum_cons. change (mbrk (c, i, j, k) (r * sin t) (b - r * cos t)) with (c * ((r * sin t) ^ i * (b - r * cos t) ^ j * Nint k (i + j + 1) ((r * sin t) ^ 2 + (b - r * cos t) ^ 2))). rewrite edge_sq. unfold edge_mono. ring. }
    apply (vis_val _ _ _ _ _ V). transitivity (2 * (c * (Nint k (i + j + 1) 1 * RInt (cang i j) k1 PI) + A1 - (c * E + A2))); [ring|]. f_equal. f_equal; symmetry; [exact B1|exact B2].
Qed.
(** a potential along every curve turns it into line integrals *)
Definition potential (l : list mono) (Sp : R -> R -> R) (L : R -> R -> R -> R -> R) : Prop :=
  (forall y, Sp 0 y = 0) /\ forall X Y dX dY, is_curve X Y dX dY ->
    (forall t : R, is_derive (fun t : R => Sp (X t) (Y t)) t (L (X t) (Y t) (dX t) (dY t) - psum (fun m => mbrk m (X t) (Y t)) l * (X t * dY t - Y t * dX t))) /\
    (forall t : R, continuous (fun t : R => L (X t) (Y t) (dX t) (dY t)) t).
Definition limb_line (L : R -> R -> R -> R -> R) (t : R) : R := L (sin t) (cos t) (cos t) (- sin t).
Definition edge_line (b r : R) (L : R -> R -> R -> R -> R) (t : R) : R := L (r * sin t) (b - r * cos t) (r * cos t) (r * sin t).
Lemma green_line b r k0 k1 l Sp L : 0 <= b -> 0 <= r -> contact b r k0 k1 -> (forall m, In m l -> mono_ok m) -> potential l Sp L ->
  vis b r (fun x y => psum (fun m => mval m x y (zdisk x y)) l) (2 * (- RInt (limb_line L) k1 PI - RInt (edge_line b r L) 0 k0)).
Proof.
  intros Hb Hr CT Hl [S0 HP]. assert (V := vis_monos b r k0 k1 l Hb Hr CT Hl).
  destruct (curve_cont _ _ _ _ limb_curve) as [LX LY]. destruct (curve_cont _ _ _ _ (edge_curve b r)) as [EX EY].
  destruct (HP _ _ _ _ limb_curve) as [D1 C1]. destruct (HP _ _ _ _ (edge_curve b r)) as [D2 C2].
  set (B1 := fun t => psum (fun m => mbrk m (sin t) (cos t)) l) in *. set (B2 := fun t => psum (fun m => mbrk m (r * sin t) (b - r * cos t)) l * (r ^ 2 - b * r * cos t)) in *.
  assert (CB1 : forall t, continuous B1 t). { intros t. apply (psum_cont (fun m t => mbrk m (sin t) (cos t))). intros m' Hm'. apply mbrk_cont; auto. }
  assert (CB2 : forall t, continuous B2 t).
  { intros t. apply cont_mult; [|apply (ex_derive_continuous (fun t : R => r ^ 2 - b * r * cos t)); auto_derive; exact I]. apply (psum_cont (fun m t => mbrk m (r * sin t) (b - r * cos t))). intros m' Hm'. apply (mbrk_cont (fun t => r * sin t) (fun t => b - r * cos t)); auto. }
  assert (E1 : RInt B1 k1 PI = Sp (sin PI) (cos PI) - Sp (sin k1) (cos k1) - RInt (limb_line L) k1 PI).
  { apply is_RInt_unique. apply (rint_ext_v (fun t => (limb_line L t + B1 t) - limb_line L t)); [|intros; ring]. apply rint_minus; [|apply rint_cont, C1].
    apply (is_RInt_antider (fun t => Sp (sin t) (cos t))); [| |reflexivity].
    - intros t. evar_last; [exact (D1 t)|]. unfold limb_line, B1. replace (sin t * - sin t - cos t * cos t) with (- (sin t ^ 2 + cos t ^ 2)) by ring. rewrite limb_sq. match goal with |- ?a = ?b => change (@eq R a b) end. ring.
    - intros t. apply (cont_plus _ _ t (C1 t) (CB1 t)). }
  assert (E2 : RInt B2 0 k0 = RInt (edge_line b r L) 0 k0 - (Sp (r * sin k0) (b - r * cos k0) - Sp (r * sin 0) (b - r * cos 0))).
  { apply is_RInt_unique. apply (rint_ext_v (fun t => edge_line b r L t - (edge_line b r L t - B2 t))); [|intros; ring]. apply rint_minus; [apply rint_cont, C2|].
    apply (is_RInt_antider (fun t => Sp (r * sin t) (b - r * cos t))); [| |reflexivity].
    - intros t. evar_last; [exact (D2 t)|]. unfold edge_line, B2. rewrite edge_cross. reflexivity.
    - intros t. apply (cont_minus _ _ t (C2 t) (CB2 t)). }
  assert (E3 : Sp (sin k1) (cos k1) = Sp (r * sin k0) (b - r * cos k0)).
  { destruct CT as (K0 & K1 & _ & _ & K). destruct K as [[-> ->]|(Pr & R1 & K)].
    - rewrite sin_PI, sin_0, Rmult_0_r, !S0. reflexivity.
    - rewrite <- K. f_equal. apply Rsqr_inj.
      + apply sin_ge_0; lra.
      + apply Rmult_le_pos; [lra|]. apply sin_ge_0; lra.
      + assert (Q := edge_sq b r k0). rewrite R1, <- K in Q. assert (Q' := limb_sq k1). unfold Rsqr. nra. }
  apply (vis_val _ _ _ _ _ V). rewrite E3, sin_PI, S0 in E1. rewrite sin_0, Rmult_0_r, S0 in E2.
  transitivity (2 * ((0 - Sp (r * sin k0) (b - r * cos k0) - RInt (limb_line L) k1 PI) - (RInt (edge_line b r L) 0 k0 - (Sp (r * sin k0) (b - r * cos k0) - 0)))); [|ring].
  f_equal. f_equal; [exact E1|exact E2].
Qed.
