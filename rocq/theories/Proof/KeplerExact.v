(** Existence, uniqueness and derivative of the exact solution of Kepler's equation. *)
From Coq Require Import Reals Lra Lia ZArith Psatz.
From Coquelicot Require Import Coquelicot.
From Verif.Base Require Import RealAux.
From Verif.Model Require Import Kepler.
From Verif.Spec Require Import KeplerSpec.
From Verif.Proof Require Import KeplerProof.
Open Scope R_scope.

Lemma one_minus_mul_pos e c : -1 < e < 1 -> -1 <= c <= 1 -> 0 < 1 - e * c.
Proof.
  intros He Hc. destruct (Rle_dec 0 c).
  - assert (e * c <= 1 * c) by (apply Rmult_le_compat_r; lra).
    destruct (Req_dec c 0) as [->|]; [lra|].
    assert (e * c < 1 * c) by (apply Rmult_lt_compat_r; lra). lra.
  - assert ((- e) * (- c) < 1 * (- c)) by (apply Rmult_lt_compat_r; lra). lra.
Qed.
Lemma sin_lip a b : Rabs (sin a - sin b) <= Rabs (a - b).
Proof.
  destruct (MVT_gen sin b a cos) as [c [_ Hc]].
  - intros x _. auto_derive; auto. ring.
  - intros x _. apply continuity_pt_filterlim, continuous_sin.
  - rewrite Hc, Rabs_mult. pose proof (COS_bound c).
    assert (Rabs (cos c) <= 1) by (apply Rabs_le; lra).
    pose proof (Rabs_pos (a - b)). nra.
Qed.

Lemma kepler_eq_unique M e E1 E2 :
  -1 < e < 1 -> kepler_eq M e E1 -> kepler_eq M e E2 -> E1 = E2.
Proof.
  unfold kepler_eq. intros He H1 H2.
  assert (H : E1 - E2 = e * (sin E1 - sin E2)) by lra.
  pose proof (sin_lip E1 E2) as HL.
  assert (Rabs (E1 - E2) = Rabs e * Rabs (sin E1 - sin E2)) by (rewrite H, Rabs_mult; reflexivity).
  assert (Rabs e < 1) by (apply Rabs_def1; lra).
  pose proof (Rabs_pos (sin E1 - sin E2)). pose proof (Rabs_pos e).
  assert (Rabs (E1 - E2) <= Rabs e * Rabs (E1 - E2)) by nra.
  pose proof (Rabs_pos (E1 - E2)).
  assert (Rabs (E1 - E2) = 0) by nra.
  destruct (Req_dec (E1 - E2) 0) as [|Hn]; [lra|]. apply Rabs_no_R0 in Hn. lra.
Qed.

Lemma kepler_eq_exists M e : -1 < e < 1 -> {E | kepler_eq M e E}.
Proof.
  intros He.
  destruct (IVT_cor (fun E => E - e * sin E - M) (M - 1) (M + 1)) as [E [_ HE]].
  - apply derivable_continuous. intros x.
    apply ex_derive_Reals_0. auto_derive. auto.
  - lra.
  - pose proof (SIN_bound (M - 1)). pose proof (SIN_bound (M + 1)).
    assert (M - 1 - e * sin (M - 1) - M <= 0) by nra.
    assert (0 <= M + 1 - e * sin (M + 1) - M) by nra. nra.
  - exists E. unfold kepler_eq. lra.
Qed.

(** The exact eccentric anomaly, and the exact Kepler solver. *)
Definition kepE (M e : R) : R :=
  match Rlt_dec (-1) e, Rlt_dec e 1 with
  | left h1, left h2 => proj1_sig (kepler_eq_exists M e (conj h1 h2))
  | _, _ => 0
  end.
Lemma kepE_spec M e : -1 < e < 1 -> kepler_eq M e (kepE M e).
Proof.
  intros [H1 H2]. unfold kepE. destruct (Rlt_dec (-1) e); [|lra]. destruct (Rlt_dec e 1); [|lra].
  apply proj2_sig.
Qed.
Definition exact_kepler (M e : R) : R * R := (sin_true (kepE M e) e, cos_true (kepE M e) e).
Lemma exact_kepler_exact : exact_solver exact_kepler.
Proof. intros M e He. exists (kepE M e). split; [apply kepE_spec; lra|reflexivity]. Qed.
Lemma exact_solver_kepE kep M e : exact_solver kep -> 0 <= e < 1 ->
  kep M e = (sin_true (kepE M e) e, cos_true (kepE M e) e).
Proof.
  intros Hk He. destruct (Hk M e He) as [E [HE ->]].
  assert (E = kepE M e) as ->.
  { apply (kepler_eq_unique M e); [lra|exact HE|apply kepE_spec; lra]. }
  reflexivity.
Qed.

(** When the code's eccentric anomaly is exact, so is its answer. *)
Lemma kepler_exact_when M e : 0 <= e < 1 -> cos (0.5 * ecc_anomaly M e) <> 0 ->
  kepler_eq (wrap_M M) e (ecc_anomaly M e) ->
  kepler M e = (sin_true (ecc_anomaly M e) e, cos_true (ecc_anomaly M e) e).
Proof. intros. unfold kepler. now apply true_anomaly_spec. Qed.

Lemma cos_true_circle E e : -1 < e < 1 -> (sin_true E e)² + (cos_true E e)² = 1.
Proof.
  intros He. unfold sin_true, cos_true, Rsqr.
  assert (Hd : 0 < 1 - e * cos E) by (apply one_minus_mul_pos; [auto|apply COS_bound]).
  replace (sqrt (1 - e ^ 2) * sin E / (1 - e * cos E) * (sqrt (1 - e ^ 2) * sin E / (1 - e * cos E)))
    with ((sqrt (1 - e ^ 2) * sqrt (1 - e ^ 2)) * (sin E * sin E) / ((1 - e * cos E) * (1 - e * cos E)))
    by (field; lra).
  rewrite sqrt_sqrt by nra.
  assert (sin E * sin E = 1 - cos E * cos E) as ->.
  { pose proof (sin2_cos2 E) as H. unfold Rsqr in H. lra. }
  field. lra.
Qed.

(** Differentiability of the exact solution along any differentiable path. *)
Lemma is_derive_mul0 (u g : R -> R) s l :
  is_derive u s l -> u s = 0 -> continuous g s -> is_derive (fun x => u x * g x) s (l * g s).
Proof.
  intros Hu Hu0 Hg.
  apply is_derive_Reals. apply is_derive_Reals in Hu.
  intros eps Heps.
  assert (Hgc : exists d, 0 < d /\ forall h, Rabs h < d -> Rabs (g (s + h) - g s) < Rmin 1 (eps / (2 * (Rabs l + 1)))).
  { assert (He2 : 0 < Rmin 1 (eps / (2 * (Rabs l + 1)))).
    { apply Rmin_pos; [lra|]. apply Rdiv_lt_0_compat; [lra|]. pose proof (Rabs_pos l). lra. }
    apply continuity_pt_filterlim in Hg.
    destruct (Hg _ He2) as [d [Hd Hd']]. exists d. split; [exact Hd|].
    intros h Hh. destruct (Req_dec h 0) as [->|Hn].
    - rewrite Rplus_0_r. rewrite Rminus_eq_0, Rabs_R0. exact He2.
    - apply (Hd' (s + h)). split; [split; [exact I|lra]|].
      simpl. unfold R_dist. replace (s + h - s) with h by ring. exact Hh. }
  destruct Hgc as [d1 [Hd1 Hd1']].
  assert (He3 : 0 < eps / (2 * (Rabs (g s) + 1))).
  { apply Rdiv_lt_0_compat; [lra|]. pose proof (Rabs_pos (g s)). lra. }
  destruct (Hu _ He3) as [d2 Hd2].
  assert (Hdm : 0 < Rmin d1 d2) by (apply Rmin_pos; [auto|apply cond_pos]).
  exists (mkposreal _ Hdm). simpl. intros h Hh0 Hh.
  assert (Hh1 : Rabs h < d1) by (eapply Rlt_le_trans; [exact Hh|apply Rmin_l]).
  assert (Hh2 : Rabs h < d2) by (eapply Rlt_le_trans; [exact Hh|apply Rmin_r]).
  specialize (Hd1' h Hh1). specialize (Hd2 h Hh0 Hh2).
  rewrite Hu0. rewrite Hu0 in Hd2.
  replace ((u (s + h) * g (s + h) - 0 * g s) / h - l * g s)
    with (((u (s+h) - 0) / h - l) * g (s+h) + l * (g (s+h) - g s)) by (field; auto).
  set (A := (u (s+h) - 0)/h - l) in *. set (B := g (s+h) - g s) in *.
  assert (Rabs (g (s+h)) <= Rabs (g s) + 1).
  { replace (g (s+h)) with (g s + B) by (unfold B; ring).
    eapply Rle_trans; [apply Rabs_triang|].
    assert (Rabs B < 1) by (eapply Rlt_le_trans; [exact Hd1'|apply Rmin_l]). lra. }
  assert (HB : Rabs B < eps / (2 * (Rabs l + 1))) by (eapply Rlt_le_trans; [exact Hd1'|apply Rmin_r]).
  eapply Rle_lt_trans; [apply Rabs_triang|]. rewrite !Rabs_mult.
  pose proof (Rabs_pos l). pose proof (Rabs_pos (g s)). pose proof (Rabs_pos A). pose proof (Rabs_pos B).
  pose proof (Rabs_pos (g (s+h))).
  assert (Rabs A * (Rabs (g s) + 1) < eps / 2).
  { apply Rmult_lt_compat_r with (r := Rabs (g s) + 1) in Hd2; [|lra].
    replace (eps / (2 * (Rabs (g s) + 1)) * (Rabs (g s) + 1)) with (eps/2) in Hd2 by (field; lra). exact Hd2. }
  assert ((Rabs l + 1) * Rabs B < eps / 2).
  { apply Rmult_lt_compat_l with (r := Rabs l + 1) in HB; [|lra].
    replace ((Rabs l + 1) * (eps / (2 * (Rabs l + 1)))) with (eps/2) in HB by (field; lra). exact HB. }
  nra.
Qed.

(** difference quotient of sin at E0, extended by continuity *)
Definition dq_sin (E0 E : R) : R := if Req_EM_T E E0 then cos E0 else (sin E - sin E0) / (E - E0).
Lemma dq_sin_eq E0 E : sin E - sin E0 = dq_sin E0 E * (E - E0).
Proof.
  unfold dq_sin. destruct (Req_EM_T E E0) as [->|]; [ring|]. field. lra.
Qed.
Lemma dq_sin_bound E0 E : Rabs (dq_sin E0 E) <= 1.
Proof.
  unfold dq_sin. destruct (Req_EM_T E E0) as [->|Hn].
  - pose proof (COS_bound E0). apply Rabs_le. lra.
  - unfold Rdiv. rewrite Rabs_mult, Rabs_inv. pose proof (sin_lip E E0).
    assert (0 < Rabs (E - E0)) by (apply Rabs_pos_lt; lra).
    apply Rmult_le_reg_r with (Rabs (E - E0)); auto.
    rewrite Rmult_assoc, Rinv_l by lra. lra.
Qed.
Lemma dq_sin_cont E0 : continuous (dq_sin E0) E0.
Proof.
  apply continuity_pt_filterlim. intros eps Heps.
  assert (Hd : derivable_pt_lim sin E0 (cos E0)) by apply derivable_pt_lim_sin.
  destruct (Hd eps Heps) as [d Hd']. exists d. split; [apply cond_pos|].
  intros x [[_ Hx] Hdist]. simpl in *. unfold R_dist in *.
  unfold dq_sin. destruct (Req_EM_T x E0) as [->|Hn]; [lra|].
  destruct (Req_EM_T E0 E0); [|lra].
  specialize (Hd' (x - E0)). replace (E0 + (x - E0)) with x in Hd' by ring.
  apply Hd'; [lra|auto].
Qed.

Lemma alg_cos e c sn w Md ed D : 0 < w -> 0 < D -> D = 1 - e*c -> w*w = 1 - e*e -> sn*sn = 1 - c*c ->
  ((- sn * ((Md + ed * sn) / D) - ed) * D - (c - e) * (- (ed * c - e * sn * ((Md + ed * sn) / D)))) / (D*D)
  = - (w * sn / D) * (Md * (1 + e * ((c - e)/D))^2 / (w*w*w) + ed * (2 + e * ((c-e)/D)) * (w * sn / D) / (w*w)).
Proof.
  intros Hw HD HDe Hww Hsn.
  assert (H1 : 1 + e * ((c-e)/D) = w*w/D) by (rewrite Hww; subst D; field; lra).
  assert (H2 : 2 + e * ((c-e)/D) = (D + w*w)/D) by (replace (2 + e*((c-e)/D)) with (1 + (1 + e*((c-e)/D))) by ring; rewrite H1; field; lra).
  rewrite H1, H2. apply Rminus_diag_uniq.
  field_simplify_eq; [|lra].
  clear H1 H2. subst D. 
  assert (S2 : sn^2 = 1 - c*c) by (simpl; lra).
  assert (W2 : w^2 = 1 - e*e) by (simpl; lra).
  assert (W3 : w^3 = w*(1 - e*e)) by (rewrite <- Hww; ring).
  assert (W4 : w^4 = (1 - e*e)*(1-e*e)) by (rewrite <- Hww; ring).
  rewrite ?W4, ?W3, ?W2, ?S2. ring.
Qed.
Lemma alg_sin e c sn w Md ed D : 0 < w -> 0 < D -> D = 1 - e*c -> w*w = 1 - e*e -> sn*sn = 1 - c*c ->
  (((- e * ed / w) * sn + w * (c * ((Md + ed * sn) / D))) * D - (w * sn) * (- (ed * c - e * sn * ((Md + ed * sn) / D)))) / (D*D)
  = ((c-e)/ D) * (Md * (1 + e * ((c - e)/D))^2 / (w*w*w) + ed * (2 + e * ((c-e)/D)) * (w * sn / D) / (w*w)).
Proof.
  intros Hw HD HDe Hww Hsn.
  assert (H1 : 1 + e * ((c-e)/D) = w*w/D) by (rewrite Hww; subst D; field; lra).
  assert (H2 : 2 + e * ((c-e)/D) = (D + w*w)/D) by (replace (2 + e*((c-e)/D)) with (1 + (1 + e*((c-e)/D))) by ring; rewrite H1; field; lra).
  rewrite H1, H2. apply Rminus_diag_uniq.
  field_simplify_eq; [|lra].
  clear H1 H2. subst D. 
  assert (S2 : sn^2 = 1 - c*c) by (simpl; lra).
  assert (W2 : w^2 = 1 - e*e) by (simpl; lra).
  assert (W3 : w^3 = w*(1 - e*e)) by (rewrite <- Hww; ring).
  assert (W4 : w^4 = (1 - e*e)*(1-e*e)) by (rewrite <- Hww; ring).
  assert (S3 : sn^3 = sn*(1 - c*c)) by (rewrite <- Hsn; ring).
  rewrite ?W4, ?W3, ?W2, ?S3, ?S2. ring.
Qed.

Section Path.
  Variables (M e E : R -> R) (s Md ed : R).
  Hypothesis HM : is_derive M s Md.
  Hypothesis He : is_derive e s ed.
  Hypothesis Hrng : locally s (fun x => -1 < e x < 1).
  Hypothesis HE : locally s (fun x => kepler_eq (M x) (e x) (E x)).

  Lemma path_cont : continuous E s.
  Proof.
    assert (He1 : -1 < e s < 1) by exact (locally_singleton s _ Hrng).
    assert (HEs : kepler_eq (M s) (e s) (E s)) by (apply (locally_singleton s _ HE)).
    assert (Hc : continuous (fun x => Rabs (M x - M s) + Rabs (e x - e s)) s).
    { assert (HcM : continuous (fun x => M x - M s) s).
      { apply (continuous_minus (V := R_NormedModule) M (fun _ => M s)); [|apply continuous_const].
        apply (ex_derive_continuous (K:=R_AbsRing) (V:=R_NormedModule)). eexists; eauto. }
      assert (Hce : continuous (fun x => e x - e s) s).
      { apply (continuous_minus (V := R_NormedModule) e (fun _ => e s)); [|apply continuous_const].
        apply (ex_derive_continuous (K:=R_AbsRing) (V:=R_NormedModule)). eexists; eauto. }
      apply (continuous_plus (V := R_NormedModule) (fun x => Rabs (M x - M s)) (fun x => Rabs (e x - e s))).
      - apply (continuous_comp (fun x => M x - M s) Rabs); auto. apply continuous_Rabs.
      - apply (continuous_comp (fun x => e x - e s) Rabs); auto. apply continuous_Rabs. }
    set (k := (1 - Rabs (e s)) / 2).
    assert (Hk : 0 < k) by (unfold k; assert (Rabs (e s) < 1) by (apply Rabs_def1; lra); lra).
    assert (Hce : continuous e s).
    { apply (ex_derive_continuous (K:=R_AbsRing) (V:=R_NormedModule)). eexists; eauto. }
    intros P [eps HP]. change (forall y, ball (E s) eps y -> P y) in HP.
    (* near s, |E x - E s| <= (|M x - M s| + |e x - e s|)/k *)
    assert (Hsmall : locally s (fun x => Rabs (e x - e s) < k)).
    { apply (Hce (fun y => Rabs (y - e s) < k)). exists (mkposreal k Hk). intros y Hy. exact Hy. }
    assert (Hsm2 : locally s (fun x => Rabs (M x - M s) + Rabs (e x - e s) < eps * k)).
    { assert (Hek : 0 < eps * k) by (apply Rmult_lt_0_compat; [apply cond_pos|auto]).
      generalize (Hc (fun y => y < eps * k)). intros Hloc.
      unfold filtermap in Hloc. apply Hloc.
      rewrite !Rminus_eq_0, Rabs_R0. exists (mkposreal _ Hek). intros y Hy.
      unfold ball in Hy; simpl in Hy; unfold AbsRing_ball, abs, minus, plus, opp in Hy; simpl in Hy.
      apply Rabs_def2 in Hy. lra. }
    unfold filtermap. generalize (filter_and _ _ Hsmall (filter_and _ _ Hsm2 HE)).
    apply filter_imp. intros x [H1 [H2 H3]]. apply HP.
    unfold ball; simpl; unfold AbsRing_ball, abs, minus, plus, opp; simpl.
    change (Rabs (E x - E s) < eps).
    unfold kepler_eq in *.
    assert (Heq : (E x - E s) - e x * (sin (E x) - sin (E s)) = (M x - M s) + (e x - e s) * sin (E s)) by nra.
    assert (Hex : Rabs (e x) <= 1 - k).
    { replace (e x) with (e s + (e x - e s)) by ring. eapply Rle_trans; [apply Rabs_triang|]. unfold k in *. lra. }
    pose proof (sin_lip (E x) (E s)) as HL.
    pose proof (Rabs_triang_inv (E x - E s) (e x * (sin (E x) - sin (E s)))) as HT.
    rewrite Heq in HT. rewrite Rabs_mult in HT.
    assert (Rabs (M x - M s + (e x - e s) * sin (E s)) <= Rabs (M x - M s) + Rabs (e x - e s)).
    { eapply Rle_trans; [apply Rabs_triang|]. rewrite Rabs_mult.
      assert (Rabs (sin (E s)) <= 1) by (pose proof (SIN_bound (E s)); apply Rabs_le; lra).
      pose proof (Rabs_pos (e x - e s)). nra. }
    pose proof (Rabs_pos (e x)). pose proof (Rabs_pos (E x - E s)). pose proof (Rabs_pos (sin (E x) - sin (E s))).
    assert (k * Rabs (E x - E s) < eps * k) by nra. nra.
  Qed.

  Lemma path_derive : is_derive E s ((Md + ed * sin (E s)) / (1 - e s * cos (E s))).
  Proof.
    assert (He1 : -1 < e s < 1) by exact (locally_singleton s _ Hrng).
    pose proof (locally_singleton s _ HE) as HEs. simpl in HEs.
    set (g := fun x => / (1 - e x * dq_sin (E s) (E x))).
    set (u := fun x => (M x - M s) + (e x - e s) * sin (E s)).
    assert (Hu : is_derive u s (Md + ed * sin (E s))).
    { unfold u. auto_derive.
      - split; [eexists; eauto|]. split; [eexists; eauto|auto].
      - replace (Derive (fun x : R => M x) s) with Md by (symmetry; apply is_derive_unique; exact HM).
        replace (Derive (fun x : R => e x) s) with ed by (symmetry; apply is_derive_unique; exact He). ring. }
    assert (Hu0 : u s = 0) by (unfold u; ring).
    assert (Hdq : forall x, -1 < e x < 1 -> 0 < 1 - e x * dq_sin (E s) (E x)).
    { intros x Hx. pose proof (dq_sin_bound (E s) (E x)) as Hb. apply Rabs_le_between in Hb. apply one_minus_mul_pos; lra. }
    assert (Hg : continuous g s).
    { unfold g. apply continuity_pt_filterlim. apply continuity_pt_inv.
      - apply continuity_pt_filterlim.
        apply (continuous_minus (V := R_NormedModule) (fun _ => 1) (fun x => e x * dq_sin (E s) (E x))).
        + apply continuous_const.
        + apply (continuous_mult (K := R_AbsRing) e (fun x => dq_sin (E s) (E x))).
          * apply (ex_derive_continuous (K:=R_AbsRing) (V:=R_NormedModule)). eexists; eauto.
          * apply (continuous_comp E (dq_sin (E s))); [apply path_cont|apply dq_sin_cont].
      - specialize (Hdq s He1). lra. }
    pose proof (is_derive_mul0 u g s _ Hu Hu0 Hg) as H.
    assert (Hgs : g s = / (1 - e s * cos (E s))).
    { unfold g, dq_sin. destruct (Req_EM_T (E s) (E s)); [reflexivity|lra]. }
    rewrite Hgs in H. fold (Rdiv (Md + ed * sin (E s)) (1 - e s * cos (E s))) in H.
    assert (H2 : is_derive (fun x => E s + u x * g x) s ((Md + ed * sin (E s)) / (1 - e s * cos (E s)))).
    { set (hh := fun x => u x * g x) in H. change (is_derive (fun x => E s + hh x) s ((Md + ed * sin (E s)) / (1 - e s * cos (E s)))).
      auto_derive; [eexists; exact H|].
      replace (Derive (fun x : R => hh x) s) with ((Md + ed * sin (E s)) / (1 - e s * cos (E s))); [ring|].
      symmetry. apply is_derive_unique. exact H. }
    eapply is_derive_ext_loc; [|exact H2].
    generalize (filter_and _ _ Hrng HE). apply filter_imp. intros x [Hx1 Hx2].
    unfold kepler_eq in *. pose proof (dq_sin_eq (E s) (E x)) as Hq.
    specialize (Hdq x Hx1). unfold g, u.
    assert (Hk : (E x - E s) * (1 - e x * dq_sin (E s) (E x)) = (M x - M s) + (e x - e s) * sin (E s)) by nra.
    assert (Hfin : E s + ((M x - M s) + (e x - e s) * sin (E s)) * / (1 - e x * dq_sin (E s) (E x)) = E x).
    { rewrite <- Hk. field. lra. }
    exact Hfin.
  Qed.

  (** derivative of the true anomaly's sine and cosine: the JVP rule *)
  Lemma path_jvp :
    let sf := sin_true (E s) (e s) in
    let cf := cos_true (E s) (e s) in
    let fdot := kepler_fdot (e s) sf cf Md ed in
    is_derive (fun x => sin_true (E x) (e x)) s (cf * fdot) /\
    is_derive (fun x => cos_true (E x) (e x)) s (- sf * fdot).
  Proof.
    assert (He1 : -1 < e s < 1) by exact (locally_singleton s _ Hrng).
    pose proof path_derive as HEd.
    assert (Hd : 0 < 1 - e s * cos (E s)) by (apply one_minus_mul_pos; [auto|apply COS_bound]).
    assert (H1 : 0 < 1 - e s ^ 2) by nra.
    assert (HP : Rpower (1 - e s ^ 2) 1.5 = (1 - e s ^ 2) * sqrt (1 - e s ^ 2)).
    { replace 1.5 with (1 + / 2) by lra. rewrite Rpower_plus, Rpower_1, Rpower_sqrt by auto. reflexivity. }
    assert (Hs : 0 < sqrt (1 - e s ^ 2)) by now apply sqrt_lt_R0.
    assert (Hss : sqrt (1 - e s ^ 2) * sqrt (1 - e s ^ 2) = 1 - e s ^ 2) by (apply sqrt_sqrt; lra).
    assert (Hsc : sin (E s) * sin (E s) = 1 - cos (E s) * cos (E s)).
    { pose proof (sin2_cos2 (E s)) as H. unfold Rsqr in H. lra. }
    assert (HDE : Derive (fun x : R => E x) s = (Md + ed * sin (E s)) / (1 - e s * cos (E s)))
      by (apply is_derive_unique; exact HEd).
    assert (HDe : Derive (fun x : R => e x) s = ed) by (apply is_derive_unique; exact He).
    assert (HexE : ex_derive (fun x : R => E x) s) by (eexists; exact HEd).
    assert (Hexe : ex_derive (fun x : R => e x) s) by (eexists; exact He).
    cbv zeta.
    set (w := sqrt (1 - e s ^ 2)) in *. set (c := cos (E s)) in *. set (sn := sin (E s)) in *.
    set (D := 1 - e s * c) in *.
    assert (Hww : w * w = 1 - e s * e s) by (rewrite Hss; ring).
    assert (HP3 : Rpower (1 - e s ^ 2) 1.5 = w * w * w) by (rewrite HP, <- Hss; ring).
    assert (Hw2 : 1 - e s ^ 2 = w * w) by (symmetry; exact Hss).
    split.
    - evar_last.
      { unfold sin_true.
        apply (is_derive_div (fun x => sqrt (1 - e x ^ 2) * sin (E x)) (fun x => 1 - e x * cos (E x)) s
                 (- e s * ed / w * sn + w * (c * ((Md + ed * sn) / D)))
                 (- (ed * c - e s * sn * ((Md + ed * sn) / D)))).
        - auto_derive; [repeat split; auto; lra|].
          rewrite HDE, HDe. replace (1 + - (e s * (e s * 1))) with (1 - e s ^ 2) by ring.
          fold w sn c. field. lra.
        - auto_derive; [auto|]. rewrite HDE, HDe. fold sn c. ring.
        - fold c D; lra. }
      cbv beta. unfold kepler_fdot, sin_true, cos_true. rewrite HP3. fold w c sn D. rewrite Hw2.
      rewrite <- (alg_sin (e s) c sn w Md ed D) by auto. field. split; lra.
    - evar_last.
      { unfold cos_true.
        apply (is_derive_div (fun x => cos (E x) - e x) (fun x => 1 - e x * cos (E x)) s
                 (- sn * ((Md + ed * sn) / D) - ed)
                 (- (ed * c - e s * sn * ((Md + ed * sn) / D)))).
        - auto_derive; [auto|]. rewrite HDE, HDe. fold sn. ring.
        - auto_derive; [auto|]. rewrite HDE, HDe. fold sn c. ring.
        - fold c D; lra. }
      cbv beta. unfold kepler_fdot, sin_true, cos_true. rewrite HP3. fold w c sn D. rewrite Hw2.
      rewrite <- (alg_cos (e s) c sn w Md ed D) by auto. field. lra.
  Qed.
End Path.
