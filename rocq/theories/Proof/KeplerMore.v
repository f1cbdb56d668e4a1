From Coq Require Import Reals Lra Lia ZArith Psatz.
From Coquelicot Require Import Coquelicot.
From Verif.Base Require Import RealAux.
From Verif.Model Require Import Kepler.
From Verif.Spec Require Import KeplerSpec.
From Verif.Proof Require Import KeplerProof KeplerExact.
Open Scope R_scope.

Lemma kepler_circle_pair M e : let '(sinf, cosf) := kepler M e in sinf ^ 2 + cosf ^ 2 = 1.
Proof.
  pose proof (kepler_circle M e) as H. destruct (kepler M e) as [s c]. simpl in *.
  unfold Rsqr in H. lra.
Qed.
Lemma wrap_ne_PI M : (forall k : Z, M <> PI + 2 * PI * IZR k) -> wrap_M M <> PI.
Proof.
  intros H Hw. destruct (Rmod_decomp M (2 * PI)) as [k Hk]. fold (wrap_M M) in Hk.
  apply (H k). lra.
Qed.
Lemma kepler_reversal M e : 0 <= e < 1 -> (forall k : Z, M <> PI + 2 * PI * IZR k) ->
  kepler (- M) e = (- fst (kepler M e), snd (kepler M e)).
Proof.
  intros He H. apply kepler_reflect; auto. now apply wrap_ne_PI. now rewrite kepler_0.
Qed.
Lemma zero_ne_PI k : 0 <> PI + 2 * PI * IZR k.
Proof.
  intros H. pose proof PI_RGT_0. assert (IZR (2 * k + 1) = 0).
  { rewrite plus_IZR, mult_IZR. nra. }
  apply eq_IZR in H1. lia.
Qed.
Lemma reversal_satisfiable : 0 <= 0.3 < 1 /\ (forall k : Z, 0 <> PI + 2 * PI * IZR k).
Proof. split; [lra|apply zero_ne_PI]. Qed.

Lemma cos_half_ne0 M : (forall k : Z, M <> PI + 2 * PI * IZR k) -> cos (0.5 * M) <> 0.
Proof.
  intros H Hc. apply cos_eq_0_0 in Hc. destruct Hc as [k Hk]. apply (H k). lra.
Qed.
Lemma kepler_circular M : (forall k : Z, M <> PI + 2 * PI * IZR k) -> kepler M 0 = (sin M, cos M).
Proof. intros H. now apply kepler_circ, cos_half_ne0. Qed.

Lemma starter_defined M e : 0 <= M <= PI -> 0 <= e < 1 ->
  0 < 1 + e /\ 0 < PI - 6 / PI /\ 0 < st_disc M e (1 - e) /\ 0 < st_den M e (1 - e) /\
  0 < st_d M e (1 - e) /\ 0 <= starter M e (1 - e).
Proof.
  intros HM He. repeat split.
  - lra.
  - pose proof PI_bounds. apply Rmult_lt_reg_r with PI; [lra|].
    replace ((PI - 6 / PI) * PI) with (PI * PI - 6) by (field; lra). nra.
  - now apply st_disc_pos.
  - now apply st_den_pos.
  - now apply st_d_pos.
  - now apply starter_nonneg.
Qed.

Lemma kepler_conversion M e : 0 <= e < 1 ->
  kepler_eq (Rmod M (2 * PI)) e (ecc_anomaly M e) -> cos (ecc_anomaly M e / 2) <> 0 ->
  kepler M e = (sin_true (ecc_anomaly M e) e, cos_true (ecc_anomaly M e) e).
Proof.
  intros He Hk Hc. apply kepler_exact_when; auto.
  replace (0.5 * ecc_anomaly M e) with (ecc_anomaly M e / 2) by lra. exact Hc.
Qed.
Lemma conversion_satisfiable :
  kepler_eq (Rmod 1 (2 * PI)) 0 (ecc_anomaly 1 0) /\ cos (ecc_anomaly 1 0 / 2) <> 0.
Proof.
  pose proof PI_bounds. rewrite ecc_anomaly_circ. unfold wrap_M, kepler_eq.
  rewrite Rmod_small by lra. split; [ring|].
  assert (0 < cos (1/2)); [|lra]. apply cos_gt_0; lra.
Qed.
Lemma refine_satisfiable : rf_den5 1 0 (1 - 0) 2 <> 0.
Proof.
  unfold rf_den5, rf_f3, rf_f2, rf_f1. set (d := rf_d4 1 0 (1-0) 2).
  match goal with |- ?a <> 0 => replace a with 1 by field end. lra.
Qed.
Lemma kepler_eq_exists_unique M e : 0 <= e < 1 -> exists! E, kepler_eq M e E.
Proof.
  intros He. destruct (kepler_eq_exists M e) as [E HE]; [lra|]. exists E. split; auto.
  intros E' HE'. apply (kepler_eq_unique M e); auto; lra.
Qed.

Lemma kepler_jvp_correct (kep : R -> R -> R * R) (M e : R -> R) (s0 Md ed : R) :
  exact_solver kep -> is_derive M s0 Md -> is_derive e s0 ed ->
  locally s0 (fun s => 0 <= e s < 1) ->
  let '(_, (dsin, dcos)) := kepler_jvp kep (M s0) (e s0) Md ed in
  is_derive (fun s => fst (kep (M s) (e s))) s0 dsin /\
  is_derive (fun s => snd (kep (M s) (e s))) s0 dcos.
Proof.
  intros Hk HM He Hr. unfold kepler_jvp.
  assert (He1 : 0 <= e s0 < 1) by exact (locally_singleton s0 _ Hr).
  rewrite (exact_solver_kepE kep (M s0) (e s0) Hk He1).
  assert (Hr' : locally s0 (fun s => -1 < e s < 1)).
  { revert Hr. apply filter_imp. intros; lra. }
  assert (HE : locally s0 (fun s => kepler_eq (M s) (e s) (kepE (M s) (e s)))).
  { revert Hr'. apply filter_imp. intros x Hx. now apply kepE_spec. }
  destruct (path_jvp M e (fun s => kepE (M s) (e s)) s0 Md ed HM He Hr' HE) as [H1 H2].
  split.
  - eapply is_derive_ext_loc; [|exact H1]. revert Hr. apply filter_imp. intros x Hx.
    now rewrite (exact_solver_kepE kep (M x) (e x) Hk Hx).
  - eapply is_derive_ext_loc; [|exact H2]. revert Hr. apply filter_imp. intros x Hx.
    now rewrite (exact_solver_kepE kep (M x) (e x) Hk Hx).
Qed.
Lemma jvp_satisfiable : exact_solver exact_kepler
  /\ is_derive (fun s => 2 * s) 0 2 /\ is_derive (fun s => 0.3 + s / 10) 0 (1/10)
  /\ locally 0 (fun s => 0 <= 0.3 + s / 10 < 1).
Proof.
  split; [apply exact_kepler_exact|]. split; [auto_derive; [auto|ring]|].
  split; [auto_derive; [auto|field]|].
  assert (H : 0 < 1) by lra. exists (mkposreal 1 H). intros y Hy.
  unfold ball in Hy; simpl in Hy; unfold AbsRing_ball, abs, minus, plus, opp in Hy; simpl in Hy.
  apply Rabs_def2 in Hy. lra.
Qed.
