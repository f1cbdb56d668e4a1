(** Gradients of Keplerian orbits. *)
From Coq Require Import Reals List Bool Arith ZArith Lia Lra Psatz.
From Coquelicot Require Import Hierarchy Derive Continuity Rbar Rcomplements ElemFct AutoDerive.
From Verif Require Import Base.RealAux Model.Kepler Model.Keplerian Model.LimbDark Model.TransitOrbit Model.LightCurves Model.AutoDiff Model.LightCurveGrad Model.TransitGrad Model.KeplerGrad.
From Verif Require Import Spec.LimbDarkSpec Spec.OccultSpec Spec.KeplerSpec Spec.OrbitSpec Spec.AutoDiffSpec Spec.TransitSpec Spec.TransitGradSpec Spec.KeplerGradSpec.
From Verif Require Proof.KeplerianMore Proof.KeplerianProof.
From Verif Require Import Proof.KeplerMore Proof.AutoDiff Proof.LightCurveGrad Proof.LightCurveDeriv Proof.LightCurveTangent Proof.LightCurveGradFacts Proof.TransitGrad.
Import ListNotations.
Local Open Scope R_scope.

Ltac kf1 := first [fin1 | apply fin_pow2].
Ltac kf := repeat kf1.
Ltac kt1 := first [trk1 | apply (fun f => tracks_pow2 f)].
Ltac kt := repeat kt1.
Ltac kext := eapply tracks_ext'; [intros w|].

(** ** the solver *)
Lemma solver_bounds kep M e : exact_solver kep -> 0 <= e < 1 -> 0 < 1 + e * snd (kep M e).
Proof.
  intros Hk He. destruct (Hk M e He) as (E & _ & ->). cbn [snd]. unfold cos_true.
  assert (H : 0 < 1 - e * cos E). { pose proof (COS_bound E). destruct (Rle_dec 0 (cos E)); [nra|]. assert (0 <= e * - cos E) by (apply Rmult_le_pos; lra). lra. }
  replace (1 + e * ((cos E - e) / (1 - e * cos E))) with ((1 - e ^ 2) / (1 - e * cos E)) by (field; lra). apply Rdiv_lt_0_compat; [nra|exact H].
Qed.
Lemma fin_kepler kep M e x y : 0 <= e < 1 -> fin x M -> fin y e -> fin (fst (kepler_d kep x y)) (fst (kep M e)) /\ fin (snd (kepler_d kep x y)) (snd (kep M e)).
Proof.
  intros He (t & ->) (u & ->). unfold kepler_d. cbn [AutoDiff.val]. replace (Rleb (1 - e ^ 2) 0) with false by (symmetry; apply Rleb_false; nra).
  unfold kepler_jvp. destruct (kep M e) as [sf cf]. cbn [fst snd]. split; eexists; reflexivity.
Qed.
Lemma tracks_kepler kep M e s x y : exact_solver kep -> locally s (fun z => 0 <= e z < 1) -> tracks M s x -> tracks e s y ->
  tracks (fun z => fst (kep (M z) (e z))) s (fst (kepler_d kep x y)) /\ tracks (fun z => snd (kep (M z) (e z))) s (snd (kepler_d kep x y)).
Proof.
  intros Hk He (t & -> & HM) (u & -> & Hu). pose proof (locally_singleton _ _ He) as He0. cbn beta in He0. unfold kepler_d. cbn [AutoDiff.val]. replace (Rleb (1 - e s ^ 2) 0) with false by (symmetry; apply Rleb_false; nra).
  pose proof (kepler_jvp_correct kep M e s t u Hk HM Hu He) as H. unfold kepler_jvp in *. destruct (kep (M s) (e s)) as [sf cf] eqn:E. cbn [fst snd]. destruct H as [H1 H2].
  split; eexists; (split; [rewrite E; reflexivity|assumption]).
Qed.

(** ** finiteness *)
Lemma fin_total_mass d o : fin_orbital d o -> fin (total_mass_d d) (total_mass o).
Proof.
  intros (Hm & _ & _ & _ & _ & _ & _ & _ & HM & _). unfold total_mass_d, total_mass, total_mass_of_d, total_mass_of.
  destruct (od_mass d), (ob_mass o); cbn [fin_opt] in HM; try contradiction; [kf|exact Hm].
Qed.
Lemma fin_anomaly kep d o td t : fin_orbital d o -> fin td t -> ob_period o <> 0 -> 0 <= ecc_val o < 1 ->
  fin (fst (true_anomaly_d kep d td)) (fst (true_anomaly_sc kep o t)) /\ fin (snd (true_anomaly_d kep d td)) (snd (true_anomaly_sc kep o t)).
Proof.
  intros (_ & _ & H1 & H2 & H3 & _ & _ & _ & _ & _ & He & _) Ht N Be. unfold ecc_val in Be.
  assert (HM : fin (mean_anomaly_d d td) (mean_anomaly o t)). { unfold mean_anomaly_d, mean_anomaly. apply fin_div; [kf|exact H3|exact N]. }
  unfold true_anomaly_d, true_anomaly_sc. destruct (od_ecc d) as [[[e sw] cw]|], (ob_ecc o) as [[[ve vs] vc]|]; try contradiction; cbn [fst snd].
  - destruct He as (He & _). now apply fin_kepler.
  - split; [now apply fin_sin|now apply fin_cos].
Qed.
Lemma fin_rotate d o x y vx vy i : fin_orbital d o -> fin x vx -> fin y vy -> fin_vec (rotate_vector_d d x y i) (rotate_vector o vx vy i).
Proof.
  intros (_ & _ & _ & _ & _ & _ & Hs & Hc & _ & _ & He & Hn & _) Hx Hy. unfold rotate_vector_d, rotate_vector, fin_vec.
  destruct (od_ecc d) as [[[e sw] cw]|], (ob_ecc o) as [[[ve vs] vc]|]; try contradiction; [destruct He as (_ & He1 & He2)|]; destruct i;
  (destruct (od_node d) as [[sn cn]|], (ob_node o) as [[wn wc]|]; try contradiction; [destruct Hn as (Hn1 & Hn2)|]); cbn [fst snd]; repeat apply conj; kf.
Qed.
Lemma fin_pv au kep d o td t sm vsm ms vms sa vsa px vpx : exact_solver kep -> fin_orbital d o -> fin td t -> ob_period o <> 0 -> total_mass o <> 0 -> 0 <= ecc_val o < 1 ->
  fin_opt sm vsm -> fin_opt ms vms -> fin_opt sa vsa -> fin_opt px vpx ->
  fin_vec (fst (position_and_velocity_d au kep d td sm ms sa px)) (fst (position_and_velocity au kep o t vsm vms vsa vpx)) /\
  fin_vec (snd (position_and_velocity_d au kep d td sm ms sa px)) (snd (position_and_velocity au kep o t vsm vms vsa vpx)).
Proof.
  intros Hk Ho Ht NP NM Be Hsm Hms Hsa Hpx. pose proof (fin_total_mass d o Ho) as HTM. pose proof (fin_anomaly kep d o td t Ho Ht NP Be) as HA.
  pose proof (fin_rotate d o) as HR.
  assert (H5 := Ho). destruct H5 as (_ & _ & _ & _ & HP & Ha & _ & _ & _ & _ & He & _ & Hsa0 & Hpx0).
  unfold position_and_velocity_d, position_and_velocity. cbv zeta.
  set (px' := match px with None => od_parallax d | Some _ => px end). set (vpx' := match vpx with None => ob_parallax o | Some _ => vpx end).
  assert (Hpx' : fin_opt px' vpx') by (unfold px', vpx'; destruct px, vpx; cbn in Hpx; try contradiction; [exact Hpx|exact Hpx0]).
  set (sa' := match sa with None => od_semiamplitude d | Some _ => sa end). set (vsa' := match vsa with None => ob_semiamplitude o | Some _ => vsa end).
  assert (Hsa' : fin_opt sa' vsa') by (unfold sa', vsa'; destruct sa, vsa; cbn in Hsa; try contradiction; [exact Hsa|exact Hsa0]).
  clearbody px' vpx' sa' vsa'. clear Hpx Hsa.
  set (m := match ms with None => cst 1 | Some m => m end). set (vm := match vms with None => 1 | Some m => m end).
  assert (Hm : fin m vm) by (unfold m, vm; destruct ms, vms; cbn in Hms; try contradiction; [exact Hms|apply fin_cst]). clearbody m vm.
  set (r0 := match sm with None => cst 1 | Some a => match px' with None => a | Some p => dmul (dmul a (cst au)) p end end).
  set (vr0 := match vsm with None => 1 | Some a => match vpx' with None => a | Some p => a * au * p end end).
  assert (Hr0 : fin r0 vr0). { unfold r0, vr0. destruct sm, vsm; cbn in Hsm; try contradiction; [|apply fin_cst]. destruct px', vpx'; cbn in Hpx'; try contradiction; [kf|exact Hsm]. } clearbody r0 vr0.
  set (k0 := match sa' with Some k => k | None => _ end). set (vk0 := match vsa' with Some k => k | None => _ end).
  assert (Hk0 : fin k0 vk0).
  { unfold k0, vk0. destruct sa', vsa'; cbn in Hsa'; try contradiction; [exact Hsa'|].
    assert (HB : fin (ddiv (dmul (dmul (cst (2 * PI)) (od_semimajor d)) m) (dmul (total_mass_d d) (od_period d))) (2 * PI * ob_semimajor o * vm / (total_mass o * ob_period o))).
    { apply fin_div; [kf|kf|]. now apply Rmult_integral_contrapositive_currified. }
    set (B := ddiv (dmul (dmul (cst (2 * PI)) (od_semimajor d)) m) _) in *. set (vB := 2 * PI * ob_semimajor o * vm / _) in *. clearbody B vB.
    set (K := match od_ecc d with None => B | Some (e, _, _) => ddiv B (dsqrt (dsub (cst 1) (dpow2 e))) end). set (vK := match ob_ecc o with None => vB | Some (e, _, _) => vB / sqrt (1 - e ^ 2) end).
    assert (HK : fin K vK).
    { unfold K, vK. unfold ecc_val in Be. destruct (od_ecc d) as [[[e sw] cw]|], (ob_ecc o) as [[[ve vs] vc]|]; try contradiction; [|exact HB]. destruct He as (He & _).
      assert (P : 0 < 1 - ve ^ 2) by nra. apply fin_div; [exact HB|apply fin_sqrt'; [kf|exact P]|]. apply Rgt_not_eq. now apply sqrt_lt_R0. }
    clearbody K vK. destruct px', vpx'; cbn in Hpx'; try contradiction; [kf|exact HK]. }
  clearbody k0 vk0.
  assert (HB : 0 < 1 + ecc_val o * snd (true_anomaly_sc kep o t)). { unfold true_anomaly_sc, ecc_val in *. destruct (ob_ecc o) as [[[ve vs] vc]|]; [now apply solver_bounds|lra]. }
  destruct (true_anomaly_d kep d td) as [sf cf]. destruct (true_anomaly_sc kep o t) as [vsf vcf]. cbn [fst snd] in HA, HB. destruct HA as [HA1 HA2].
  assert (Ei : (match sa' with None => true | Some _ => false end) = (match vsa' with None => true | Some _ => false end)) by (destruct sa', vsa'; cbn in Hsa'; try contradiction; reflexivity).
  rewrite Ei. unfold ecc_val in Be, HB. destruct (od_ecc d) as [[[e sw] cw]|], (ob_ecc o) as [[[ve vs] vc]|]; try contradiction; cbn [fst snd].
  - destruct He as (He & _). assert (Hq : fin (ddiv (dsub (cst 1) (dpow2 e)) (dadd (cst 1) (dmul e cf))) ((1 - ve ^ 2) / (1 + ve * vcf))) by (apply fin_div; [kf|kf|lra]).
    split; apply HR; try exact Ho; kf.
  - split; apply HR; try exact Ho; kf.
Qed.

(** ** derivatives *)
Lemma tv_ext p q s x : (forall z, p z = q z) -> tracks_vec p s x -> tracks_vec q s x.
Proof. intros E (H1 & H2 & H3). split; [|split]; (eapply tracks_ext'; [intros z; rewrite <- E; reflexivity|assumption]). Qed.
Lemma tracks_total_mass d o s : tracks_orbital o s d -> tracks (fun z => total_mass (o z)) s (total_mass_d d).
Proof.
  intros (Hm & _ & _ & _ & _ & _ & _ & _ & HM & _). unfold total_mass_d, total_mass, total_mass_of_d, total_mass_of.
  destruct (od_mass d); cbn [tracks_opt] in HM; [destruct HM as (g & E & HM)|]; (kext; [rewrite ?E, ?HM; reflexivity|]); [kt|exact Hm].
Qed.
Lemma tracks_mean d o s td tf : tracks_orbital o s d -> tracks tf s td -> ob_period (o s) <> 0 -> tracks (fun z => mean_anomaly (o z) (tf z)) s (mean_anomaly_d d td).
Proof.
  intros (_ & _ & H1 & H2 & H3 & _) Ht N. unfold mean_anomaly_d, mean_anomaly.
  apply (tracks_div (fun z => 2 * PI * (tf z - ob_time_transit (o z) - ob_time_ref (o z))) (fun z => ob_period (o z))); [|exact H3|exact N]. kt.
Qed.
Lemma tracks_anomaly kep d o s td tf : exact_solver kep -> tracks_orbital o s d -> tracks tf s td -> ob_period (o s) <> 0 -> locally s (fun z => 0 <= ecc_val (o z) < 1) ->
  tracks (fun z => fst (true_anomaly_sc kep (o z) (tf z))) s (fst (true_anomaly_d kep d td)) /\ tracks (fun z => snd (true_anomaly_sc kep (o z) (tf z))) s (snd (true_anomaly_d kep d td)).
Proof.
  intros Hk Ho Ht N Be. pose proof (tracks_mean d o s td tf Ho Ht N) as HM. destruct Ho as (_ & _ & _ & _ & _ & _ & _ & _ & _ & _ & He & _).
  unfold true_anomaly_d, true_anomaly_sc. destruct (od_ecc d) as [[[e sw] cw]|].
  - destruct He as (fe & fs & fc & E & He & _).
    assert (Be' : locally s (fun z => 0 <= fe z < 1)) by (revert Be; apply filter_imp; intros z; unfold ecc_val; now rewrite E).
    destruct (tracks_kepler kep _ _ _ _ _ Hk Be' HM He) as [T1 T2]. split; (kext; [rewrite E; reflexivity|]); assumption.
  - split; (kext; [rewrite He; reflexivity|]); cbn [fst snd]; [apply (tracks_sin (fun z => mean_anomaly (o z) (tf z)))|apply (tracks_cos (fun z => mean_anomaly (o z) (tf z)))]; exact HM.
Qed.
Lemma tracks_rotate d o s x y fx fy i : tracks_orbital o s d -> tracks fx s x -> tracks fy s y -> tracks_vec (fun z => rotate_vector (o z) (fx z) (fy z) i) s (rotate_vector_d d x y i).
Proof.
  intros (_ & _ & _ & _ & _ & _ & Hs & Hc & _ & _ & He & Hn & _) Hx Hy. unfold rotate_vector_d, rotate_vector.
  destruct (od_ecc d) as [[[e sw] cw]|]; [destruct He as (fe & fs & fc & Ee & _ & He1 & He2)|rename He into Ee];
  (destruct (od_node d) as [[sn cn]|]; [destruct Hn as (gs & gc & En & Hn1 & Hn2)|rename Hn into En]); destruct i;
  (eapply tv_ext; [intros w; rewrite Ee, En; reflexivity|]); unfold tracks_vec; cbn [fst snd]; repeat apply conj; kt.
Qed.
Lemma locally_ecc o s (fe : R -> R) : locally s (fun z => 0 <= ecc_val (o z) < 1) -> (forall z, ecc_val (o z) = fe z) -> 0 <= fe s < 1.
Proof. intros H E. apply locally_singleton in H. cbn beta in H. now rewrite E in H. Qed.
Lemma tracks_pv au kep d o s td tf sm fsm ms fms sa fsa px fpx : exact_solver kep -> tracks_orbital o s d -> tracks tf s td -> ob_period (o s) <> 0 -> total_mass (o s) <> 0 -> locally s (fun z => 0 <= ecc_val (o z) < 1) ->
  tracks_opt fsm s sm -> tracks_opt fms s ms -> tracks_opt fsa s sa -> tracks_opt fpx s px ->
  tracks_vec (fun z => fst (position_and_velocity au kep (o z) (tf z) (fsm z) (fms z) (fsa z) (fpx z))) s (fst (position_and_velocity_d au kep d td sm ms sa px)) /\
  tracks_vec (fun z => snd (position_and_velocity au kep (o z) (tf z) (fsm z) (fms z) (fsa z) (fpx z))) s (snd (position_and_velocity_d au kep d td sm ms sa px)).
Proof.
  intros Hk Ho Ht NP NM Be Hsm Hms Hsa Hpx. pose proof (tracks_total_mass d o s Ho) as HTM. pose proof (tracks_anomaly kep d o s td tf Hk Ho Ht NP Be) as HA.
  pose proof (tracks_rotate d o s) as HR.
  assert (H5 := Ho). destruct H5 as (_ & _ & _ & _ & HP & Ha & _ & _ & _ & _ & He & _ & Hsa0 & Hpx0).
  unfold position_and_velocity_d, position_and_velocity. cbv zeta.
  set (px' := match px with None => od_parallax d | Some _ => px end). set (fpx' := fun z => match fpx z with None => ob_parallax (o z) | Some v => Some v end).
  assert (Hpx' : tracks_opt fpx' s px').
  { unfold px', fpx'. destruct px; cbn [tracks_opt] in Hpx |- *; [destruct Hpx as (g & E & H); exists g; split; [intros z; now rewrite E|exact H]|].
    destruct (od_parallax d); cbn [tracks_opt] in Hpx0 |- *; [destruct Hpx0 as (g & E & H); exists g; split; [intros z; now rewrite Hpx|exact H]|]. intros z. now rewrite Hpx. }
  set (sa' := match sa with None => od_semiamplitude d | Some _ => sa end). set (fsa' := fun z => match fsa z with None => ob_semiamplitude (o z) | Some v => Some v end).
  assert (Hsa' : tracks_opt fsa' s sa').
  { unfold sa', fsa'. destruct sa; cbn [tracks_opt] in Hsa |- *; [destruct Hsa as (g & E & H); exists g; split; [intros z; now rewrite E|exact H]|].
    destruct (od_semiamplitude d); cbn [tracks_opt] in Hsa0 |- *; [destruct Hsa0 as (g & E & H); exists g; split; [intros z; now rewrite Hsa|exact H]|]. intros z. now rewrite Hsa. }
  set (m := match ms with None => cst 1 | Some m => m end). set (fm := fun z => match fms z with None => 1 | Some m => m end).
  assert (Hm : tracks fm s m). { unfold m, fm. destruct ms; cbn [tracks_opt] in Hms; [destruct Hms as (g & E & H); kext; [rewrite E; reflexivity|exact H]|]. kext; [rewrite Hms; reflexivity|apply tracks_cst]. }
  set (r0 := match sm with None => cst 1 | Some a => match px' with None => a | Some p => dmul (dmul a (cst au)) p end end).
  set (fr0 := fun z => match fsm z with None => 1 | Some a => match fpx' z with None => a | Some p => a * au * p end end).
  assert (Hr0 : tracks fr0 s r0).
  { unfold r0, fr0. destruct sm; cbn [tracks_opt] in Hsm; [destruct Hsm as (g & E & H)|kext; [rewrite Hsm; reflexivity|apply tracks_cst]].
    destruct px'; cbn [tracks_opt] in Hpx'; [destruct Hpx' as (h & E' & H'); kext; [rewrite E, E'; reflexivity|]; kt|kext; [rewrite E, Hpx'; reflexivity|exact H]]. }
  set (k0 := match sa' with Some k => k | None => _ end).
  set (fk0 := fun z => match fsa' z with Some k => k | None => match fpx' z with None => match ob_ecc (o z) with None => 2 * PI * ob_semimajor (o z) * fm z / (total_mass (o z) * ob_period (o z)) | Some (e, _, _) => 2 * PI * ob_semimajor (o z) * fm z / (total_mass (o z) * ob_period (o z)) / sqrt (1 - e ^ 2) end
    | Some p => match ob_ecc (o z) with None => 2 * PI * ob_semimajor (o z) * fm z / (total_mass (o z) * ob_period (o z)) | Some (e, _, _) => 2 * PI * ob_semimajor (o z) * fm z / (total_mass (o z) * ob_period (o z)) / sqrt (1 - e ^ 2) end * au * p end end).
  assert (Hk0 : tracks fk0 s k0).
  { unfold k0, fk0. destruct sa'; cbn [tracks_opt] in Hsa'; [destruct Hsa' as (g & E & H); kext; [rewrite E; reflexivity|exact H]|]. kext; [rewrite Hsa'; reflexivity|].
    assert (HB : tracks (fun z => 2 * PI * ob_semimajor (o z) * fm z / (total_mass (o z) * ob_period (o z))) s (ddiv (dmul (dmul (cst (2 * PI)) (od_semimajor d)) m) (dmul (total_mass_d d) (od_period d)))).
    { apply (tracks_div (fun z => 2 * PI * ob_semimajor (o z) * fm z) (fun z => total_mass (o z) * ob_period (o z))); [kt|kt|]. now apply Rmult_integral_contrapositive_currified. }
    set (B := ddiv (dmul (dmul (cst (2 * PI)) (od_semimajor d)) m) _) in *. set (fB := fun z => 2 * PI * ob_semimajor (o z) * fm z / _) in *. cbn beta in *.
    set (K := match od_ecc d with None => B | Some (e, _, _) => ddiv B (dsqrt (dsub (cst 1) (dpow2 e))) end). set (fK := fun z => match ob_ecc (o z) with None => fB z | Some (e, _, _) => fB z / sqrt (1 - e ^ 2) end).
    assert (HK : tracks fK s K).
    { unfold K, fK. destruct (od_ecc d) as [[[e sw] cw]|]; [destruct He as (fe & fs & fc & E & He & _)|kext; [rewrite He; reflexivity|exact HB]]. kext; [rewrite E; reflexivity|].
      assert (Be' : 0 <= fe s < 1) by (apply (locally_ecc o s fe Be); intros z; unfold ecc_val; now rewrite E). assert (P : 0 < 1 - fe s ^ 2) by nra.
      apply (tracks_div fB (fun w => sqrt (1 - fe w ^ 2))); [exact HB|apply (tracks_sqrt' (fun w => 1 - fe w ^ 2)); [kt|exact P]|]. apply Rgt_not_eq. now apply sqrt_lt_R0. }
    destruct px'; cbn [tracks_opt] in Hpx'; [destruct Hpx' as (h & E' & H'); apply (tracks_ext' (fun z => fK z * au * h z)); [intros z; now rewrite E'|]; kt|].
    apply (tracks_ext' fK); [intros z; now rewrite Hpx'|exact HK]. }
  assert (HB : 0 < 1 + ecc_val (o s) * snd (true_anomaly_sc kep (o s) (tf s))).
  { apply locally_singleton in Be. unfold true_anomaly_sc, ecc_val in *. destruct (ob_ecc (o s)) as [[[ve vs] vc]|]; [now apply solver_bounds|lra]. }
  destruct (true_anomaly_d kep d td) as [sf cf]. cbn [fst snd] in HA. destruct HA as [HA1 HA2].
  set (inc := match sa' with None => true | Some _ => false end). assert (Ei : forall z, (match fsa' z with None => true | Some _ => false end) = inc).
  { intros z. unfold inc. destruct sa'; cbn [tracks_opt] in Hsa'; [destruct Hsa' as (g & E & _); now rewrite E|now rewrite Hsa']. }
  set (S := fun z => fst (true_anomaly_sc kep (o z) (tf z))) in *. set (C := fun z => snd (true_anomaly_sc kep (o z) (tf z))) in *.
  change (0 < 1 + ecc_val (o s) * C s) in HB.
  unfold fr0 in Hr0. unfold fk0 in Hk0. fold fk0 in Hk0. unfold fpx' in Hr0.
  destruct (od_ecc d) as [[[e sw] cw]|].
  - destruct He as (fe & fs & fc & E & He & _). unfold ecc_val in HB. rewrite E in HB.
    match type of Hr0 with tracks ?f _ _ => set (RR := f) in * end.
    assert (Hq : tracks (fun z => (1 - fe z ^ 2) / (1 + fe z * C z)) s (ddiv (dsub (cst 1) (dpow2 e)) (dadd (cst 1) (dmul e cf)))) by (apply (tracks_div (fun z => 1 - fe z ^ 2) (fun z => 1 + fe z * C z)); [kt|kt|lra]).
    split.
    + apply (tv_ext (fun z => rotate_vector (o z) (RR z * ((1 - fe z ^ 2) / (1 + fe z * C z)) * C z) (RR z * ((1 - fe z ^ 2) / (1 + fe z * C z)) * S z) true)).
      * intros z. unfold RR, C, S. rewrite !E. destruct (true_anomaly_sc kep (o z) (tf z)). cbn [fst snd]. destruct (fpx z); reflexivity.
      * cbn [fst]. apply HR; [exact Ho|kt|kt].
    + apply (tv_ext (fun z => rotate_vector (o z) (- fk0 z * S z) (fk0 z * (C z + fe z)) inc)).
      * intros z. rewrite <- (Ei z). unfold C, S, fk0. rewrite !E. destruct (true_anomaly_sc kep (o z) (tf z)). unfold fsa', fpx', fm. cbn [fst snd]. destruct (fsa z); [reflexivity|]. destruct (ob_semiamplitude (o z)); [reflexivity|]. destruct (fpx z), (fms z); reflexivity.
      * cbn [snd]. apply HR; [exact Ho|kt|kt].
  - match type of Hr0 with tracks ?f _ _ => set (RR := f) in * end. split.
    + apply (tv_ext (fun z => rotate_vector (o z) (RR z * C z) (RR z * S z) true)).
      * intros z. unfold RR, C, S. rewrite !He. destruct (true_anomaly_sc kep (o z) (tf z)). cbn [fst snd]. destruct (fpx z); reflexivity.
      * cbn [fst]. apply HR; [exact Ho|kt|kt].
    + apply (tv_ext (fun z => rotate_vector (o z) (- fk0 z * S z) (fk0 z * C z) inc)).
      * intros z. rewrite <- (Ei z). unfold C, S, fk0. rewrite !He. destruct (true_anomaly_sc kep (o z) (tf z)). unfold fsa', fpx', fm. cbn [fst snd]. destruct (fsa z); [reflexivity|]. destruct (ob_semiamplitude (o z)); [reflexivity|]. destruct (fpx z), (fms z); reflexivity.
      * cbn [snd]. apply HR; [exact Ho|kt|kt].
Qed.
Lemma fin_relative_position au kep d o td t px vpx : exact_solver kep -> fin_orbital d o -> fin td t -> ob_period o <> 0 -> total_mass o <> 0 -> 0 <= ecc_val o < 1 -> fin_opt px vpx ->
  fin_vec (relative_position_d au kep d td px) (relative_position au kep o t vpx).
Proof.
  intros Hk Ho Ht NP NM Be Hp. pose proof Ho as (_ & _ & _ & _ & _ & Ha & _). unfold relative_position_d, relative_position.
  apply (fin_pv au kep d o td t (Some (dneg (od_semimajor d))) (Some (- ob_semimajor o)) None None None None px vpx); try assumption; try exact I. cbn [fin_opt]. kf.
Qed.
Lemma fin_position au kep d o td t px vpx : exact_solver kep -> fin_orbital d o -> fin td t -> ob_period o <> 0 -> total_mass o <> 0 -> 0 <= ecc_val o < 1 -> fin_opt px vpx ->
  fin_vec (position_d au kep d td px) (position au kep o t vpx).
Proof.
  intros Hk Ho Ht NP NM Be Hp. pose proof (fin_total_mass d o Ho) as HT. pose proof Ho as (Hm & _ & _ & _ & _ & Ha & _). unfold position_d, position.
  apply (fin_pv au kep d o td t (Some _) (Some _) None None None None px vpx); try assumption; try exact I. cbn [fin_opt]. apply fin_div; [kf|exact HT|exact NM].
Qed.
Lemma fin_radial_velocity au kep d o td t sa vsa : exact_solver kep -> fin_orbital d o -> fin td t -> ob_period o <> 0 -> total_mass o <> 0 -> 0 <= ecc_val o < 1 -> fin_opt sa vsa ->
  fin (radial_velocity_d au kep d td sa) (radial_velocity au kep o t vsa).
Proof.
  intros Hk Ho Ht NP NM Be Hs. pose proof Ho as (_ & _ & _ & _ & _ & _ & _ & _ & HM & _). unfold radial_velocity_d, radial_velocity, central_velocity_d, central_velocity.
  assert (H : fin_vec (snd (position_and_velocity_d au kep d td None (match sa with None => od_mass d | Some _ => None end) sa None)) (snd (position_and_velocity au kep o t None (match vsa with None => ob_mass o | Some _ => None end) vsa None))).
  { apply (fin_pv au kep d o td t None None (match sa with None => od_mass d | Some _ => None end) (match vsa with None => ob_mass o | Some _ => None end) sa vsa None None); try assumption; try exact I.
    destruct sa, vsa; cbn in Hs; try contradiction; [exact I|exact HM]. }
  destruct sa, vsa; cbn in Hs; try contradiction.
  - destruct (snd (position_and_velocity_d au kep d td None None (Some d0) None)) as [[x y] z]. destruct (snd (position_and_velocity au kep o t None None (Some r) None)) as [[x' y'] z']. destruct H as (_ & _ & H). now apply fin_neg.
  - destruct (snd (position_and_velocity_d au kep d td None (od_mass d) None None)) as [[x y] z]. destruct (snd (position_and_velocity au kep o t None (ob_mass o) None None)) as [[x' y'] z']. destruct H as (_ & _ & H). now apply fin_neg.
Qed.
Lemma tracks_relative_position au kep d o s td tf px fpx : exact_solver kep -> tracks_orbital o s d -> tracks tf s td -> ob_period (o s) <> 0 -> total_mass (o s) <> 0 -> locally s (fun z => 0 <= ecc_val (o z) < 1) -> tracks_opt fpx s px ->
  tracks_vec (fun z => relative_position au kep (o z) (tf z) (fpx z)) s (relative_position_d au kep d td px).
Proof.
  intros Hk Ho Ht NP NM Be Hp. pose proof Ho as (_ & _ & _ & _ & _ & Ha & _). unfold relative_position_d, relative_position.
  apply (tracks_pv au kep d o s td tf (Some (dneg (od_semimajor d))) (fun z => Some (- ob_semimajor (o z))) None (fun _ => None) None (fun _ => None) px fpx); try assumption; try (intros z; reflexivity).
  exists (fun z => - ob_semimajor (o z)). split; [reflexivity|kt].
Qed.
Lemma tracks_position au kep d o s td tf px fpx : exact_solver kep -> tracks_orbital o s d -> tracks tf s td -> ob_period (o s) <> 0 -> total_mass (o s) <> 0 -> locally s (fun z => 0 <= ecc_val (o z) < 1) -> tracks_opt fpx s px ->
  tracks_vec (fun z => position au kep (o z) (tf z) (fpx z)) s (position_d au kep d td px).
Proof.
  intros Hk Ho Ht NP NM Be Hp. pose proof (tracks_total_mass d o s Ho) as HT. pose proof Ho as (Hm & _ & _ & _ & _ & Ha & _). unfold position_d, position.
  apply (tracks_pv au kep d o s td tf (Some _) (fun z => Some (- ob_semimajor (o z) * c_mass (ob_central (o z)) / total_mass (o z))) None (fun _ => None) None (fun _ => None) px fpx); try assumption; try (intros z; reflexivity).
  eexists. split; [reflexivity|]. apply (tracks_div (fun z => - ob_semimajor (o z) * c_mass (ob_central (o z))) (fun z => total_mass (o z))); [kt|exact HT|exact NM].
Qed.
Lemma tracks_radial_velocity au kep d o s td tf sa fsa : exact_solver kep -> tracks_orbital o s d -> tracks tf s td -> ob_period (o s) <> 0 -> total_mass (o s) <> 0 -> locally s (fun z => 0 <= ecc_val (o z) < 1) -> tracks_opt fsa s sa ->
  tracks (fun z => radial_velocity au kep (o z) (tf z) (fsa z)) s (radial_velocity_d au kep d td sa).
Proof.
  intros Hk Ho Ht NP NM Be Hs. pose proof Ho as (_ & _ & _ & _ & _ & _ & _ & _ & HM & _). unfold radial_velocity_d, radial_velocity, central_velocity_d, central_velocity.
  destruct sa as [k|]; cbn [tracks_opt] in Hs.
  - destruct Hs as (g & E & Hg).
    assert (H : tracks_vec (fun z => snd (position_and_velocity au kep (o z) (tf z) None None (Some (g z)) None)) s (snd (position_and_velocity_d au kep d td None None (Some k) None))).
    { apply (tracks_pv au kep d o s td tf None (fun _ => None) None (fun _ => None) (Some k) (fun z => Some (g z)) None (fun _ => None)); try assumption; try (intros z; reflexivity). exists g. split; [reflexivity|exact Hg]. }
    destruct (snd (position_and_velocity_d au kep d td None None (Some k) None)) as [[x y] zz]. destruct H as (_ & _ & H). cbn [snd] in H.
    apply (tracks_ext' (fun z => - snd (snd (position_and_velocity au kep (o z) (tf z) None None (Some (g z)) None)))); [|exact (tracks_neg _ _ _ H)].
    intros z. rewrite E. destruct (snd (position_and_velocity au kep (o z) (tf z) None None (Some (g z)) None)) as [[? ?] ?]. reflexivity.
  - assert (H : tracks_vec (fun z => snd (position_and_velocity au kep (o z) (tf z) None (ob_mass (o z)) None None)) s (snd (position_and_velocity_d au kep d td None (od_mass d) None None))).
    { apply (tracks_pv au kep d o s td tf None (fun _ => None) (od_mass d) (fun z => ob_mass (o z)) None (fun _ => None) None (fun _ => None)); try assumption; try (intros z; reflexivity). }
    destruct (snd (position_and_velocity_d au kep d td None (od_mass d) None None)) as [[x y] zz]. destruct H as (_ & _ & H). cbn [snd] in H.
    apply (tracks_ext' (fun z => - snd (snd (position_and_velocity au kep (o z) (tf z) None (ob_mass (o z)) None None)))); [|exact (tracks_neg _ _ _ H)].
    intros z. rewrite Hs. destruct (snd (position_and_velocity au kep (o z) (tf z) None (ob_mass (o z)) None None)) as [[? ?] ?]. reflexivity.
Qed.
Lemma const_fin_orbital o : fin_orbital (const_orbital_d o) o.
Proof.
  assert (Ho : forall v, fin_opt (option_map cst v) v) by (intros [v|]; cbn; [apply fin_cst|exact I]).
  unfold fin_orbital, const_orbital_d. cbn [od_central_mass od_central_radius od_time_ref od_time_transit od_period od_semimajor od_sin_incl od_cos_incl od_mass od_radius od_ecc od_node od_semiamplitude od_parallax].
  repeat apply conj; try apply fin_cst; try apply Ho.
  - destruct (ob_ecc o) as [[[e sw] cw]|]; cbn; [repeat apply conj; apply fin_cst|exact I].
  - destruct (ob_node o) as [[e sw]|]; cbn; [split; apply fin_cst|exact I].
Qed.
Lemma const_tracks_orbital o s : tracks_orbital (fun _ => o) s (const_orbital_d o).
Proof.
  assert (Ho : forall v, tracks_opt (fun _ => v) s (option_map cst v)) by (intros [v|]; cbn; [exists (fun _ => v); split; [reflexivity|apply tracks_cst]|reflexivity]).
  unfold tracks_orbital, const_orbital_d. cbn [od_central_mass od_central_radius od_time_ref od_time_transit od_period od_semimajor od_sin_incl od_cos_incl od_mass od_radius od_ecc od_node od_semiamplitude od_parallax].
  repeat apply conj; try apply tracks_cst; try apply Ho.
  - destruct (ob_ecc o) as [[[e sw] cw]|]; cbn; [exists (fun _ => e), (fun _ => sw), (fun _ => cw); repeat apply conj; [reflexivity|apply tracks_cst..]|reflexivity].
  - destruct (ob_node o) as [[e sw]|]; cbn; [exists (fun _ => e), (fun _ => sw); repeat apply conj; [reflexivity|apply tracks_cst..]|reflexivity].
Qed.
(** forward-mode differentiation in the time gives the velocity that the code computes *)
Lemma jvp_is_velocity au kep o t : exact_solver kep -> orbit_ok o -> ob_semiamplitude o = None ->
  exists v, relative_velocity au kep o t None = Ok v /\ position_jvp au kep o t = (Some (vx v), Some (vy v), Some (along v)).
Proof.
  intros Hk Hok Hs. destruct (KeplerianMore.relvel_derive au kep o t Hk Hok Hs) as (v & E & D1 & D2 & D3). exists v. split; [exact E|].
  destruct Hok as (_ & HP & HM & _ & He & _).
  assert (Be : 0 <= ecc_val o < 1) by (unfold ecc_val; destruct (ob_ecc o) as [[[e sw] cw]|]; [exact (proj1 (He e sw cw eq_refl))|lra]).
  pose proof (tracks_relative_position au kep (const_orbital_d o) (fun _ => o) t (Some (t, 1)) (fun w => w) None (fun _ => None) Hk (const_tracks_orbital o t) (tracks_seed t)) as H.
  cbn beta in H. specialize (H ltac:(lra) ltac:(lra) (filter_forall (F := locally t) _ (fun _ => Be)) (fun _ => eq_refl)). destruct H as ((x & Ex & Hx) & (y & Ey & Hy) & (z & Ez & Hz)).
  unfold position_jvp. destruct (relative_position_d au kep (const_orbital_d o) (Some (t, 1)) None) as [[X Y] Z]. cbn [fst snd] in Ex, Ey, Ez. rewrite Ex, Ey, Ez. cbn [tangent option_map snd].
  assert (U : forall f l l', is_derive f t l -> is_derive f t l' -> l = l') by (intros f l l' A B; rewrite <- (is_derive_unique f t l A); exact (is_derive_unique f t l' B)).
  f_equal; [f_equal|]; f_equal.
  - apply (U _ _ _ Hx). revert D1. apply is_derive_ext. intros w. destruct (relative_position au kep o w None) as [[? ?] ?]. reflexivity.
  - apply (U _ _ _ Hy). revert D2. apply is_derive_ext. intros w. destruct (relative_position au kep o w None) as [[? ?] ?]. reflexivity.
  - apply (U _ _ _ Hz). revert D3. apply is_derive_ext. intros w. destruct (relative_position au kep o w None) as [[? ?] ?]. reflexivity.
Qed.

(** ** transits of a Keplerian body *)
Lemma kep_light_curve_finite au kep eps quad d o us u td t rd r : exact_solver kep -> 0 < eps -> List.Forall2 fin us u -> disk_flux u <> 0 ->
  fin_orbital d o -> fin td t -> fin rd r -> ob_period o <> 0 -> total_mass o <> 0 -> 0 <= ecc_val o < 1 -> c_radius (ob_central o) <> 0 -> r <> 0 ->
  sky_sep (relative_position au kep o t None) <> 0 ->
  fin (transit_light_curve_d eps quad (kep_lc_orbit_d au kep d rd) us td) (transit_light_curve eps quad (kep_lc_orbit au kep (ob_central o) o r) u t).
Proof.
  intros Hk He Hu HF Ho Ht Hr NP NM Be NR Nr NS. pose proof (fin_relative_position au kep d o td t None None Hk Ho Ht NP NM Be I) as HP.
  pose proof Ho as (_ & HR & _). destruct (relative_position au kep o t None) as [[x y] z] eqn:E.
  apply (fin_transit eps quad (kep_lc_orbit_d au kep d rd) (kep_lc_orbit au kep (ob_central o) o r) us u td t x y z); try assumption.
  - cbn [kep_lc_orbit_d ld_relative_position]. destruct (relative_position_d au kep d td None) as [[X Y] Z]. exact HP.
  - intros [-> ->]. apply NS. cbn. replace (0 * (0 * 1) + 0 * (0 * 1)) with 0 by ring. apply sqrt_0.
  - intros [_ E2]. exact (Nr E2).
Qed.
Lemma kep_light_curve_undefined au kep eps quad d o us td t rd : exact_solver kep -> fin_orbital d o -> fin td t -> ob_period o <> 0 -> total_mass o <> 0 -> 0 <= ecc_val o < 1 ->
  sky_sep (relative_position au kep o t None) = 0 ->
  transit_light_curve_d eps quad (kep_lc_orbit_d au kep d rd) us td = None.
Proof.
  intros Hk Ho Ht NP NM Be NS. pose proof (fin_relative_position au kep d o td t None None Hk Ho Ht NP NM Be I) as HP.
  destruct (relative_position au kep o t None) as [[x y] z]. cbn [sky_sep] in NS.
  assert (P1 : 0 <= x ^ 2) by apply pow2_ge_0. assert (P2 : 0 <= y ^ 2) by apply pow2_ge_0. apply sqrt_eq_0 in NS; [|lra].
  assert (x = 0) by (apply Rsqr_0_uniq; unfold Rsqr; nra). assert (y = 0) by (apply Rsqr_0_uniq; unfold Rsqr; nra). subst x y.
  pose proof (transit_undefined eps quad (kep_lc_orbit_d au kep d rd) us td) as HU. cbn [kep_lc_orbit_d ld_relative_position] in HU.
  destruct (relative_position_d au kep d td None) as [[X Y] Z]. destruct HP as (Hx & Hy & _). apply (HU X Y); [split; reflexivity|exact Hx|exact Hy].
Qed.
Lemma kep_mid_transit_undefined G au kep eps quad c b d o us td rd : exact_solver kep -> make_orbital G c b = Ok o -> orbit_ok o -> ob_parallax o = None -> 0 < c_radius c ->
  (forall e sw cw, ob_ecc o = Some (e, sw, cw) -> sw <> -1) -> 0 < ob_sin_incl o -> ob_impact o = 0 ->
  fin_orbital d o -> fin td (ob_time_transit o) -> transit_light_curve_d eps quad (kep_lc_orbit_d au kep d rd) us td = None.
Proof.
  intros Hk E Hok Hp HR Hsw Hsi E0 Ho Ht. destruct (KeplerianMore.at_transit G au kep c b o Hk Hok E Hp HR Hsw Hsi) as [HS _]. rewrite E0, Rabs_R0, Rmult_0_l in HS.
  destruct Hok as (_ & HP & HM & _ & He & _).
  apply (kep_light_curve_undefined au kep eps quad d o us td (ob_time_transit o) rd Hk Ho Ht); [lra|lra| |exact HS].
  unfold ecc_val; destruct (ob_ecc o) as [[[e sw] cw]|]; [exact (proj1 (He e sw cw eq_refl))|lra].
Qed.
Lemma kep_light_curve_tracks au kep eps quad us xs o tf r s d td rd : exact_solver kep -> 0 < eps -> List.Forall2 (fun f x => tracks f s x) us xs -> disk_flux (map (fun f => f s) us) <> 0 ->
  tracks_orbital o s d -> tracks tf s td -> tracks r s rd -> ob_period (o s) <> 0 -> total_mass (o s) <> 0 -> locally s (fun z => 0 <= ecc_val (o z) < 1) -> c_radius (ob_central (o s)) <> 0 ->
  0 < sky_sep (relative_position au kep (o s) (tf s) None) -> along (relative_position au kep (o s) (tf s) None) <> 0 ->
  (0 < along (relative_position au kep (o s) (tf s) None) -> regular_point eps quad (sky_sep (relative_position au kep (o s) (tf s) None) / c_radius (ob_central (o s))) (r s / c_radius (ob_central (o s)))) ->
  (along (relative_position au kep (o s) (tf s) None) < 0 -> r s <> 0) ->
  tracks (fun z => transit_light_curve eps quad (kep_lc_orbit au kep (ob_central (o z)) (o z) (r z)) (map (fun f => f z) us) (tf z)) s (transit_light_curve_d eps quad (kep_lc_orbit_d au kep d rd) xs td).
Proof.
  intros Hk He Hu HF Ho Ht Hr NP NM Be NR P Nz H1 H2.
  pose proof (tracks_relative_position au kep d o s td tf None (fun _ => None) Hk Ho Ht NP NM Be (fun _ => eq_refl)) as HP. pose proof Ho as (_ & HR & _).
  set (X := fun z => fst (fst (relative_position au kep (o z) (tf z) None))). set (Y := fun z => snd (fst (relative_position au kep (o z) (tf z) None))). set (Z := fun z => snd (relative_position au kep (o z) (tf z) None)).
  assert (E : forall z, relative_position au kep (o z) (tf z) None = (X z, Y z, Z z)) by (intros z; unfold X, Y, Z; destruct (relative_position au kep (o z) (tf z) None) as [[? ?] ?]; reflexivity).
  destruct HP as (HX & HY & HZ). change (tracks X s (fst (fst (relative_position_d au kep d td None)))) in HX. change (tracks Y s (snd (fst (relative_position_d au kep d td None)))) in HY. change (tracks Z s (snd (relative_position_d au kep d td None))) in HZ.
  rewrite (E s) in P, Nz, H1, H2. cbn [sky_sep along] in P, Nz, H1, H2. clearbody X Y Z.
  apply (tracks_transit eps quad (kep_lc_orbit_d au kep d rd) (fun z => kep_lc_orbit au kep (ob_central (o z)) (o z) (r z)) us xs tf s td X Y Z); try assumption.
  - cbn [kep_lc_orbit_d ld_relative_position]. destruct (relative_position_d au kep d td None) as [[x y] z]. split; [exact HX|]. split; [exact HY|]. exact (tracks_fin _ _ _ HZ).
  - exact (tracks_cont _ _ _ HZ).
  - destruct (Rlt_dec 0 (X s ^ 2 + Y s ^ 2)) as [L|L]; [exact L|]. rewrite sqrt_neg_0 in P by lra. lra.
  - cbn [kep_lc_orbit lo_central_radius lo_radius]. cbv zeta. destruct (Rlt_dec 0 (Z s)) as [L|L]; [left|right].
    + split; [exact L|]. now apply H1.
    + split; [lra|]. intros [_ E2]. unfold Rdiv in E2. apply Rmult_integral in E2. destruct E2 as [E2|E2]; [apply H2; [lra|exact E2]|]. apply Rinv_neq_0_compat in E2; [exact E2|exact NR].
Qed.

(** ** the constructor *)
Definition odef {A} (x : A) (o : option A) : A := match o with Some v => v | None => x end.
Definition ecc3 {A} (e : option A) (p : option A * option A) : option (A * A * A) := match e, fst p, snd p with Some e, Some s, Some k => Some (e, s, k) | _, _, _ => None end.
Definition node2 {A} (p : option A * option A) : option (A * A) := match fst p, snd p with Some s, Some k => Some (s, k) | _, _ => None end.
Definition M0_of (e : option (R * R * R)) : R := match e with Some (e, s, k) => transit_M0 e s k | None => 0.5 * PI end.
Definition F_of (e : option (R * R * R)) : R := match e with Some (e, s, _) => (1 + e * s) / (1 - e ^ 2) | None => 1 end.
Definition M0_of_d (e : option (D * D * D)) : D := match e with Some (e, s, k) => transit_M0_d e s k | None => cst (0.5 * PI) end.
Definition F_of_d (e : option (D * D * D)) : D := match e with Some (e, s, _) => ddiv (dadd (cst 1) (dmul e s)) (dsub (cst 1) (dpow2 e)) | None => cst 1 end.
Definition shape_ok {A} (b : body_of A) (sw cw : option A) : Prop :=
  (match b_semimajor b, b_period b with Some _, None | None, Some _ => True | _, _ => False end) /\ (match b_eccentricity b with Some _ => sw <> None /\ cw <> None | None => True end).
Lemma mk_fields G c b o : make_orbital G c b = Ok o ->
  let mf := G * total_mass_of c (b_mass b) in let ap := angle_pair (b_omega_peri b) (b_sin_omega_peri b) (b_cos_omega_peri b) in
  shape_ok b (fst ap) (snd ap) /\
  ob_central o = c /\ ob_mass o = b_mass b /\ ob_radius o = b_radius b /\ ob_semiamplitude o = b_semiamplitude b /\ ob_parallax o = b_parallax b /\
  ob_semimajor o = match b_semimajor b with Some a => a | None => cbrt (mf * odef 0 (b_period b) ^ 2 / (4 * PI ^ 2)) end /\
  ob_period o = match b_semimajor b with Some a => 2 * PI * a * sqrt (a / mf) | None => odef 0 (b_period b) end /\
  ob_ecc o = ecc3 (b_eccentricity b) ap /\ ob_node o = node2 (angle_pair (b_asc_node b) (b_sin_asc_node b) (b_cos_asc_node b)) /\
  ob_time_ref o = - M0_of (ob_ecc o) * ob_period o / (2 * PI) /\
  ob_cos_incl o = match b_impact_param b with Some ip => F_of (ob_ecc o) * c_radius c / ob_semimajor o * ip | None => match b_inclination b with Some i => cos i | None => 0 end end /\
  ob_sin_incl o = match b_impact_param b with Some ip => sqrt (1 - ob_cos_incl o ^ 2) | None => match b_inclination b with Some i => sin i | None => 1 end end /\
  ob_time_transit o = match b_time_transit b with Some t => t | None => match b_time_peri b with Some tp => tp - ob_time_ref o | None => 0 end end.
Proof.
  unfold make_orbital. cbv zeta. intros H. unfold shape_ok.
  destruct (angle_pair (b_omega_peri b) (b_sin_omega_peri b) (b_cos_omega_peri b)) as [sw cw].
  destruct (angle_pair (b_asc_node b) (b_sin_asc_node b) (b_cos_asc_node b)) as [sn cn].
  destruct (match b_semimajor b with Some _ => _ | None => _ end) as [[a p]|] eqn:Eap; [|discriminate].
  destruct (match b_eccentricity b with Some _ => _ | None => _ end) as [[[M0 f] ecc]|] eqn:Ee; [|discriminate].
  destruct (match b_impact_param b with Some _ => _ | None => _ end) as [[b' ci] si] eqn:Ei.
  injection H as <-. cbn [ob_central ob_mass ob_radius ob_semiamplitude ob_parallax ob_semimajor ob_period ob_ecc ob_time_ref ob_impact ob_cos_incl ob_sin_incl ob_time_transit ob_node fst snd].
  assert (He : ecc = ecc3 (b_eccentricity b) (sw, cw) /\ M0 = M0_of ecc /\ f = F_of ecc /\ (match b_eccentricity b with Some _ => sw <> None /\ cw <> None | None => True end)).
  { destruct (b_eccentricity b) as [e|]; [destruct sw, cw; try discriminate|]; injection Ee as <- <- <-; (split; [reflexivity|split; [reflexivity|split; [reflexivity|]]]); [split; discriminate|exact I]. }
  destruct He as (-> & -> & -> & Hs).
  split; [split; [destruct (b_semimajor b), (b_period b); (discriminate Eap || exact I)|exact Hs]|].
  do 5 (split; [reflexivity|]).
  split; [destruct (b_semimajor b), (b_period b); (discriminate Eap || (injection Eap as <- <-; reflexivity))|].
  split; [destruct (b_semimajor b), (b_period b); (discriminate Eap || (injection Eap as <- <-; reflexivity))|].
  split; [reflexivity|]. split; [reflexivity|]. split; [reflexivity|].
  destruct (b_impact_param b); [|destruct (b_inclination b)]; injection Ei as <- <- <-; (split; [reflexivity|split; [reflexivity|reflexivity]]).
Qed.
Lemma mk_fields_d G mc rc b o : make_orbital_d G mc rc b = Ok o ->
  let mf := dmul (cst G) (total_mass_of_d mc (b_mass b)) in let ap := angle_pair_d (b_omega_peri b) (b_sin_omega_peri b) (b_cos_omega_peri b) in
  od_central_mass o = mc /\ od_central_radius o = rc /\ od_mass o = b_mass b /\ od_radius o = b_radius b /\ od_semiamplitude o = b_semiamplitude b /\ od_parallax o = b_parallax b /\
  od_semimajor o = match b_semimajor b with Some a => a | None => dcbrt (ddiv (dmul mf (dpow2 (odef (cst 0) (b_period b)))) (cst (4 * PI ^ 2))) end /\
  od_period o = match b_semimajor b with Some a => dmul (dmul (cst (2 * PI)) a) (dsqrt (ddiv a mf)) | None => odef (cst 0) (b_period b) end /\
  od_ecc o = ecc3 (b_eccentricity b) ap /\ od_node o = node2 (angle_pair_d (b_asc_node b) (b_sin_asc_node b) (b_cos_asc_node b)) /\
  od_time_ref o = ddiv (dmul (dneg (M0_of_d (od_ecc o))) (od_period o)) (cst (2 * PI)) /\
  od_cos_incl o = match b_impact_param b with Some ip => dmul (ddiv (dmul (F_of_d (od_ecc o)) rc) (od_semimajor o)) ip | None => match b_inclination b with Some i => dcos i | None => cst 0 end end /\
  od_sin_incl o = match b_impact_param b with Some ip => dsqrt (dsub (cst 1) (dpow2 (od_cos_incl o))) | None => match b_inclination b with Some i => dsin i | None => cst 1 end end /\
  od_time_transit o = match b_time_transit b with Some t => t | None => match b_time_peri b with Some tp => dsub tp (od_time_ref o) | None => cst 0 end end.
Proof.
  unfold make_orbital_d. cbv zeta. intros H.
  destruct (angle_pair_d (b_omega_peri b) (b_sin_omega_peri b) (b_cos_omega_peri b)) as [sw cw].
  destruct (angle_pair_d (b_asc_node b) (b_sin_asc_node b) (b_cos_asc_node b)) as [sn cn].
  destruct (match b_semimajor b with Some _ => _ | None => _ end) as [[a p]|] eqn:Eap; [|discriminate].
  destruct (match b_eccentricity b with Some _ => _ | None => _ end) as [[[M0 f] ecc]|] eqn:Ee; [|discriminate].
  destruct (match b_impact_param b with Some _ => _ | None => _ end) as [ci si] eqn:Ei.
  injection H as <-. cbn [od_central_mass od_central_radius od_mass od_radius od_semiamplitude od_parallax od_semimajor od_period od_ecc od_time_ref od_cos_incl od_sin_incl od_time_transit od_node fst snd].
  assert (He : ecc = ecc3 (b_eccentricity b) (sw, cw) /\ M0 = M0_of_d ecc /\ f = F_of_d ecc).
  { destruct (b_eccentricity b) as [e|]; [destruct sw, cw; try discriminate|]; injection Ee as <- <- <-; (split; [reflexivity|split; reflexivity]). }
  destruct He as (-> & -> & ->).
  do 6 (split; [reflexivity|]).
  split; [destruct (b_semimajor b), (b_period b); (discriminate Eap || (injection Eap as <- <-; reflexivity))|].
  split; [destruct (b_semimajor b), (b_period b); (discriminate Eap || (injection Eap as <- <-; reflexivity))|].
  split; [reflexivity|]. split; [reflexivity|]. split; [reflexivity|].
  destruct (b_impact_param b); [|destruct (b_inclination b)]; injection Ei as <- <-; (split; [reflexivity|split; [reflexivity|reflexivity]]).
Qed.
Lemma mk_ok_d G mc rc b : shape_ok b (fst (angle_pair_d (b_omega_peri b) (b_sin_omega_peri b) (b_cos_omega_peri b))) (snd (angle_pair_d (b_omega_peri b) (b_sin_omega_peri b) (b_cos_omega_peri b))) ->
  exists o, make_orbital_d G mc rc b = Ok o.
Proof.
  unfold shape_ok, make_orbital_d. cbv zeta.
  destruct (angle_pair_d (b_omega_peri b) (b_sin_omega_peri b) (b_cos_omega_peri b)) as [sw cw].
  destruct (angle_pair_d (b_asc_node b) (b_sin_asc_node b) (b_cos_asc_node b)) as [sn cn]. cbn [fst snd].
  destruct (b_semimajor b), (b_period b); intros [H1 H2]; try contradiction; (destruct (b_eccentricity b); [destruct H2 as [H2 H3]; destruct sw, cw; try contradiction|]);
  (destruct (b_impact_param b); [|destruct (b_inclination b)]); eexists; reflexivity.
Qed.
Lemma fin_cbrt x v : fin x v -> v <> 0 -> fin (dcbrt x) (cbrt v).
Proof. intros H Hv. unfold dcbrt. rewrite (fin_val _ _ H). destruct (Req_EM_T v 0); [contradiction|]. now apply (fin_lift1 cbrt). Qed.
Lemma tracks_cbrt f s x : tracks f s x -> 0 < f s -> tracks (fun z => cbrt (f z)) s (dcbrt x).
Proof.
  intros (t & -> & H) P. unfold dcbrt. cbn [AutoDiff.val]. destruct (Req_EM_T (f s) 0); [lra|]. pose proof (cbrt_pos (f s) P) as Q.
  eexists. split; [reflexivity|].
  assert (Hd : is_derive cbrt (f s) (/ 3 * / cbrt (f s) ^ 2)).
  { apply (is_derive_ext_loc (fun v => exp (/ 3 * ln v))).
    - assert (Hl := locally_lt (fun _ => 0) (fun v : R => v) (f s) (continuous_const 0 (f s)) (continuous_id (f s)) P). revert Hl. apply filter_imp. intros v Hv. unfold cbrt, Rpower. destruct (Rlt_dec 0 v); [reflexivity|lra].
    - assert (E : exp (/ 3 * ln (f s)) = cbrt (f s)) by (unfold cbrt, Rpower; destruct (Rlt_dec 0 (f s)); [reflexivity|lra]).
      auto_derive; [exact P|]. rewrite E. pose proof (cbrt_cube (f s)) as C3.
      transitivity (/ 3 * (cbrt (f s) / f s)); [field; lra|]. rewrite <- C3 at 2. field. lra. }
  assert (Hc := is_derive_comp (V := R_NormedModule) cbrt f s _ _ Hd H). exact Hc.
Qed.
Lemma tracks_atan2_x f g s y x : tracks f s y -> tracks g s x -> 0 < g s -> tracks (fun z => atan2 (f z) (g z)) s (datan2 y x).
Proof.
  intros (t & -> & H) (u & -> & K) Hp. unfold datan2. cbn [AutoDiff.val].
  assert (0 < g s ^ 2 + f s ^ 2) by (assert (0 <= f s ^ 2) by apply pow2_ge_0; assert (0 < g s ^ 2) by (apply pow_lt; lra); lra).
  destruct (Req_EM_T (g s ^ 2 + f s ^ 2) 0); [lra|]. eexists. split; [reflexivity|].
  apply (is_derive_ext_loc (fun z => atan (f z / g z))).
  - assert (Hl := locally_lt (fun _ => 0) g s (continuous_const 0 s) (cont_of g s u K) Hp). revert Hl. apply filter_imp. intros z Hz. unfold atan2. destruct (Rlt_dec 0 (g z)); [reflexivity|lra].
  - assert (Hq : is_derive (fun z => f z / g z) s ((t * g s - f s * u) / g s ^ 2)) by (apply is_derive_div; [exact H|exact K|lra]).
    assert (Ha : is_derive atan (f s / g s) (/ (1 + (f s / g s)²))) by (apply is_derive_atan).
    assert (Hc := is_derive_comp (V := R_NormedModule) atan (fun z => f z / g z) s _ _ Ha Hq).
    match type of Hc with is_derive _ _ ?v => replace (t * (g s / (g s ^ 2 + f s ^ 2)) + u * (- f s / (g s ^ 2 + f s ^ 2))) with v end; [exact Hc|].
    unfold scal, mult; cbn. unfold mult, Rsqr; cbn. field. split; lra.
Qed.
Lemma node_abs sw cw : unit_pair sw cw -> sw <> -1 -> 0 < 1 + sw.
Proof. unfold unit_pair. intros H N. destruct (Rlt_dec 0 (1 + sw)); [assumption|]. exfalso. assert (0 <= cw ^ 2) by apply pow2_ge_0. nra. Qed.
Lemma fin_M0 x y z e sw cw : fin x e -> fin y sw -> fin z cw -> 0 <= e < 1 -> 0 < 1 + sw -> fin (transit_M0_d x y z) (transit_M0 e sw cw).
Proof.
  intros He Hs Hc Be P. assert (HE : fin (transit_E0_d x y z) (transit_E0 e sw cw)).
  { unfold transit_E0_d, transit_E0. assert (H1 : 0 < sqrt (1 + e)) by (apply sqrt_lt_R0; lra). apply fin_mul; [apply fin_cst|]. apply fin_atan2; [| |left; apply Rgt_not_eq; now apply Rmult_lt_0_compat]; (apply fin_mul; [apply fin_sqrt'; [kf|lra]|kf]). }
  unfold transit_M0_d, transit_M0. cbv zeta. kf.
Qed.
Lemma tracks_M0 x y z e sw cw s : tracks e s x -> tracks sw s y -> tracks cw s z -> 0 <= e s < 1 -> 0 < 1 + sw s -> tracks (fun w => transit_M0 (e w) (sw w) (cw w)) s (transit_M0_d x y z).
Proof.
  intros He Hs Hc Be P. assert (HE : tracks (fun w => transit_E0 (e w) (sw w) (cw w)) s (transit_E0_d x y z)).
  { unfold transit_E0_d, transit_E0. assert (H1 : 0 < sqrt (1 + e s)) by (apply sqrt_lt_R0; lra). apply tracks_mul; [apply tracks_cst|].
    apply (tracks_atan2_x (fun w => sqrt (1 - e w) * cw w) (fun w => sqrt (1 + e w) * (1 + sw w))); [| |now apply Rmult_lt_0_compat].
    - apply (tracks_mul (fun w => sqrt (1 - e w)) cw); [apply (tracks_sqrt' (fun w => 1 - e w)); [kt|lra]|exact Hc].
    - apply (tracks_mul (fun w => sqrt (1 + e w)) (fun w => 1 + sw w)); [apply (tracks_sqrt' (fun w => 1 + e w)); [kt|lra]|kt]. }
  unfold transit_M0_d, transit_M0. cbv zeta. kt.
Qed.
Lemma topt f s x : tracks_opt f s x -> (match x with Some _ => f s <> None | None => f s = None end).
Proof. destruct x; cbn; [intros (g & E & _); rewrite E; discriminate|intros E; apply E]. Qed.
Lemma fopt x v : fin_opt x v -> (match x with Some _ => v <> None | None => v = None end).
Proof. destruct x, v; cbn; try contradiction; [discriminate|reflexivity]. Qed.
Lemma tracks_angle_pair (a b c : R -> option R) s x y z : tracks_opt a s x -> tracks_opt b s y -> tracks_opt c s z ->
  tracks_opt (fun w => fst (angle_pair (a w) (b w) (c w))) s (fst (angle_pair_d x y z)) /\ tracks_opt (fun w => snd (angle_pair (a w) (b w) (c w))) s (snd (angle_pair_d x y z)).
Proof.
  intros Ha Hb Hc. unfold angle_pair, angle_pair_d. destruct x as [x|]; cbn [tracks_opt] in Ha.
  - destruct Ha as (g & E & Hg). cbn [fst snd tracks_opt]. split; [exists (fun w => sin (g w))|exists (fun w => cos (g w))]; (split; [intros w; cbn beta; rewrite E; reflexivity|first [now apply tracks_sin | now apply tracks_cos]]).
  - cbn [fst snd]. split; [destruct y; cbn [tracks_opt] in Hb |- *|destruct z; cbn [tracks_opt] in Hc |- *].
    + destruct Hb as (g & E & Hg). exists g. split; [intros w; cbn beta; rewrite Ha; cbn; apply E|exact Hg].
    + intros w. cbn beta. rewrite Ha. cbn. apply Hb.
    + destruct Hc as (g & E & Hg). exists g. split; [intros w; cbn beta; rewrite Ha; cbn; apply E|exact Hg].
    + intros w. cbn beta. rewrite Ha. cbn. apply Hc.
Qed.
Lemma fin_angle_pair a b c x y z : fin_opt x a -> fin_opt y b -> fin_opt z c ->
  fin_opt (fst (angle_pair_d x y z)) (fst (angle_pair a b c)) /\ fin_opt (snd (angle_pair_d x y z)) (snd (angle_pair a b c)).
Proof. intros Ha Hb Hc. unfold angle_pair, angle_pair_d. destruct x, a; cbn in Ha; try contradiction; [split; [now apply fin_sin|now apply fin_cos]|now split]. Qed.
Lemma tracks_ecc3 e a b (p : option D * option D) s x : tracks_opt e s x -> tracks_opt a s (fst p) -> tracks_opt b s (snd p) ->
  match ecc3 x p with
  | Some (u, v, w) => exists fe fs fc, (forall z, ecc3 (e z) (a z, b z) = Some (fe z, fs z, fc z)) /\ tracks fe s u /\ tracks fs s v /\ tracks fc s w
  | None => forall z, ecc3 (e z) (a z, b z) = None
  end.
Proof.
  destruct p as [p q]. unfold ecc3. cbn [fst snd]. intros He Ha Hb. destruct x; cbn [tracks_opt] in He; [|intros z; now rewrite He]. destruct He as (fe & Ee & He).
  destruct p; cbn [tracks_opt] in Ha; [|intros z; now rewrite Ee, Ha]. destruct Ha as (fa & Ea & Ha).
  destruct q; cbn [tracks_opt] in Hb; [|intros z; now rewrite Ee, Ea, Hb]. destruct Hb as (fb & Eb & Hb).
  exists fe, fa, fb. split; [intros z; now rewrite Ee, Ea, Eb|]. now repeat apply conj.
Qed.
Lemma tracks_node2 a b (p : option D * option D) s : tracks_opt a s (fst p) -> tracks_opt b s (snd p) ->
  match node2 p with
  | Some (v, w) => exists fs fc, (forall z, node2 (a z, b z) = Some (fs z, fc z)) /\ tracks fs s v /\ tracks fc s w
  | None => forall z, node2 (a z, b z) = None
  end.
Proof.
  destruct p as [p q]. unfold node2. cbn [fst snd]. intros Ha Hb.
  destruct p; cbn [tracks_opt] in Ha; [|intros z; now rewrite Ha]. destruct Ha as (fa & Ea & Ha).
  destruct q; cbn [tracks_opt] in Hb; [|intros z; now rewrite Ea, Hb]. destruct Hb as (fb & Eb & Hb).
  exists fa, fb. split; [intros z; now rewrite Ea, Eb|]. now split.
Qed.
Lemma phys_ecc G c b o e sw cw : body_physical c b -> make_orbital G c b = Ok o -> ob_ecc o = Some (e, sw, cw) -> 0 <= e < 1 /\ unit_pair sw cw.
Proof.
  intros (_ & _ & _ & _ & He & Hu & _) H E. destruct (mk_fields G c b o H) as (_ & _ & _ & _ & _ & _ & _ & _ & Ee & _). rewrite Ee in E. unfold ecc3 in E.
  destruct (b_eccentricity b) as [e'|]; [|discriminate E]. destruct (angle_pair _ _ _) as [s k] eqn:Ea. cbn [fst snd] in E. destruct s as [s|]; [|discriminate E]. destruct k as [k|]; [|discriminate E]. injection E as <- <- <-.
  split; [now apply He|]. exact (KeplerianProof.angle_pair_unit _ _ _ _ _ Hu Ea).
Qed.
Lemma tracks_make G (c : R -> central) (b : R -> body) (o : R -> orbital) s mc rc d : 0 < G -> tracks (fun z => c_mass (c z)) s mc -> tracks (fun z => c_radius (c z)) s rc -> tracks_body b s d ->
  (forall z, make_orbital G (c z) (b z) = Ok (o z)) -> body_physical (c s) (b s) -> (forall e sw cw, ob_ecc (o s) = Some (e, sw, cw) -> sw <> -1) -> (b_impact_param (b s) <> None -> Rabs (ob_cos_incl (o s)) < 1) ->
  exists od, make_orbital_d G mc rc d = Ok od /\ tracks_orbital o s od.
Proof.
  intros HG Hm Hr (Btt & Btp & Bp & Ba & Bi & Bb & Be & Bw & Bsw & Bcw & Bn & Bsn & Bcn & Bm & Brad & BK & Bpx) Ho Ph Hsw Hci.
  pose proof (fun z => mk_fields G (c z) (b z) (o z) (Ho z)) as F. cbv zeta in F.
  destruct (tracks_angle_pair _ _ _ s _ _ _ Bw Bsw Bcw) as [Aw1 Aw2]. destruct (tracks_angle_pair _ _ _ s _ _ _ Bn Bsn Bcn) as [An1 An2].
  assert (Shp : shape_ok d (fst (angle_pair_d (b_omega_peri d) (b_sin_omega_peri d) (b_cos_omega_peri d))) (snd (angle_pair_d (b_omega_peri d) (b_sin_omega_peri d) (b_cos_omega_peri d)))).
  { destruct (F s) as ((S1 & S2) & _). pose proof (topt _ _ _ Ba) as Ta. pose proof (topt _ _ _ Bp) as Tp. pose proof (topt _ _ _ Be) as Te. pose proof (topt _ _ _ Aw1) as T1. pose proof (topt _ _ _ Aw2) as T2. cbn beta in *. split.
    - destruct (b_semimajor (b s)), (b_period (b s)), (b_semimajor d), (b_period d); try contradiction; try discriminate; try (exfalso; now apply Ta); try (exfalso; now apply Tp); exact I.
    - destruct (b_eccentricity d); [|exact I]. destruct (b_eccentricity (b s)); [|exfalso; now apply Te]. destruct S2 as [S2 S3]. split; intros E; rewrite E in *; [now apply S2|now apply S3]. }
  destruct (mk_ok_d G mc rc d Shp) as [od Eod]. exists od. split; [exact Eod|].
  destruct (mk_fields_d G mc rc d od Eod) as (E1 & E2 & E3 & E4 & E5 & E6 & E7 & E8 & E9 & E10 & E11 & E12 & E13 & E14).
  assert (TM : tracks (fun z => total_mass_of (c z) (b_mass (b z))) s (total_mass_of_d mc (b_mass d))).
  { unfold total_mass_of, total_mass_of_d. destruct (b_mass d); cbn [tracks_opt] in Bm; [destruct Bm as (g & E & H); kext; [rewrite E; reflexivity|]; kt|kext; [rewrite Bm; reflexivity|exact Hm]]. }
  pose proof (KeplerianProof.total_mass_pos (c s) (b s) Ph) as PM. pose proof Ph as (_ & _ & Pp & Pa & _). pose proof PI_RGT_0 as PIp.
  set (mf := fun z => G * total_mass_of (c z) (b_mass (b z))). assert (Tmf : tracks mf s (dmul (cst G) (total_mass_of_d mc (b_mass d)))) by (unfold mf; kt). assert (Pmf : 0 < mf s) by (unfold mf; now apply Rmult_lt_0_compat).
  destruct (F s) as ((S1 & _) & _).
  assert (Tap : tracks (fun z => ob_semimajor (o z)) s (od_semimajor od) /\ tracks (fun z => ob_period (o z)) s (od_period od) /\ 0 < ob_semimajor (o s)).
  { rewrite E7, E8. destruct (F s) as (_ & _ & _ & _ & _ & _ & Fa & _).
    destruct (b_semimajor d) as [a|] eqn:Da; cbn [tracks_opt] in Ba.
    - destruct Ba as (fa & Ea & Ba). assert (Pa' : 0 < fa s) by (apply Pa, Ea). split; [|split].
      + kext; [destruct (F w) as (_ & _ & _ & _ & _ & _ & F7 & _); rewrite F7, Ea; reflexivity|]. exact Ba.
      + apply (tracks_ext' (fun z => 2 * PI * fa z * sqrt (fa z / mf z))); [intros w; destruct (F w) as (_ & _ & _ & _ & _ & _ & _ & F8 & _); rewrite F8, Ea; reflexivity|].
        apply (tracks_mul (fun z => 2 * PI * fa z) (fun z => sqrt (fa z / mf z))); [kt|]. apply (tracks_sqrt' (fun z => fa z / mf z)); [apply tracks_div; [exact Ba|exact Tmf|lra]|now apply Rdiv_lt_0_compat].
      + rewrite Fa, Ea. exact Pa'.
    - rewrite Ba in Fa. destruct (b_period d) as [p|] eqn:Dp; cbn [tracks_opt] in Bp; [|exfalso; rewrite Ba, Bp in S1; exact S1]. destruct Bp as (fp & Ep & Bp). assert (Pp' : 0 < fp s) by (apply Pp, Ep). cbn [odef].
      assert (Pq : 0 < mf s * fp s ^ 2 / (4 * PI ^ 2)) by (apply Rdiv_lt_0_compat; [apply Rmult_lt_0_compat; [exact Pmf|now apply pow_lt]|apply Rmult_lt_0_compat; [lra|now apply pow_lt]]). split; [|split].
      + apply (tracks_ext' (fun z => cbrt (mf z * fp z ^ 2 / (4 * PI ^ 2)))); [intros w; destruct (F w) as (_ & _ & _ & _ & _ & _ & F7 & _); rewrite F7, Ba, Ep; reflexivity|].
        apply (tracks_cbrt (fun z => mf z * fp z ^ 2 / (4 * PI ^ 2))); [|exact Pq]. apply (tracks_div (fun z => mf z * fp z ^ 2) (fun _ => 4 * PI ^ 2)); [kt|kt|]. apply Rgt_not_eq. apply Rmult_lt_0_compat; [lra|now apply pow_lt].
      + kext; [destruct (F w) as (_ & _ & _ & _ & _ & _ & _ & F8 & _); rewrite F8, Ba, Ep; reflexivity|]. exact Bp.
      + rewrite Fa, Ep. cbn [odef]. exact (cbrt_pos _ Pq). }
  destruct Tap as (Ta & Tp & Psm).
  assert (Tecc : match od_ecc od with Some (u, v, w) => exists fe fs fc, (forall z, ob_ecc (o z) = Some (fe z, fs z, fc z)) /\ tracks fe s u /\ tracks fs s v /\ tracks fc s w | None => forall z, ob_ecc (o z) = None end).
  { rewrite E9. pose proof (tracks_ecc3 _ _ _ _ s _ Be Aw1 Aw2) as T. cbn beta in T.
    assert (Ez : forall z, ob_ecc (o z) = ecc3 (b_eccentricity (b z)) (fst (angle_pair (b_omega_peri (b z)) (b_sin_omega_peri (b z)) (b_cos_omega_peri (b z))), snd (angle_pair (b_omega_peri (b z)) (b_sin_omega_peri (b z)) (b_cos_omega_peri (b z))))).
    { intros z. destruct (F z) as (_ & _ & _ & _ & _ & _ & _ & _ & F9 & _). rewrite F9. now destruct (angle_pair _ _ _). }
    destruct (ecc3 (b_eccentricity d) _) as [[[u v] w]|]; [|intros z; rewrite Ez; apply T]. destruct T as (fe & fs & fc & T1 & T2). exists fe, fs, fc. split; [intros z; rewrite Ez; apply T1|exact T2]. }
  assert (Tnode : match od_node od with Some (v, w) => exists fs fc, (forall z, ob_node (o z) = Some (fs z, fc z)) /\ tracks fs s v /\ tracks fc s w | None => forall z, ob_node (o z) = None end).
  { rewrite E10. pose proof (tracks_node2 _ _ _ s An1 An2) as T. cbn beta in T.
    assert (Ez : forall z, ob_node (o z) = node2 (fst (angle_pair (b_asc_node (b z)) (b_sin_asc_node (b z)) (b_cos_asc_node (b z))), snd (angle_pair (b_asc_node (b z)) (b_sin_asc_node (b z)) (b_cos_asc_node (b z))))).
    { intros z. destruct (F z) as (_ & _ & _ & _ & _ & _ & _ & _ & _ & F10 & _). rewrite F10. now destruct (angle_pair _ _ _). }
    destruct (node2 _) as [[v w]|]; [|intros z; rewrite Ez; apply T]. destruct T as (fs & fc & T1 & T2). exists fs, fc. split; [intros z; rewrite Ez; apply T1|exact T2]. }
  assert (TMF : tracks (fun z => M0_of (ob_ecc (o z))) s (M0_of_d (od_ecc od)) /\ tracks (fun z => F_of (ob_ecc (o z))) s (F_of_d (od_ecc od))).
  { destruct (od_ecc od) as [[[u v] q]|].
    - destruct Tecc as (fe & fs & fc & Ez & Te & Ts & Tc). destruct (phys_ecc _ _ _ _ _ _ _ Ph (Ho s) (Ez s)) as [Be' Hu]. pose proof (node_abs _ _ Hu (Hsw _ _ _ (Ez s))) as P1. split; (kext; [rewrite Ez; reflexivity|]); cbn [M0_of F_of M0_of_d F_of_d].
      + now apply tracks_M0.
      + apply (tracks_div (fun z => 1 + fe z * fs z) (fun z => 1 - fe z ^ 2)); [kt|kt|]. nra.
    - split; (kext; [rewrite Tecc; reflexivity|]); apply tracks_cst. }
  destruct TMF as [TM0 TF].
  assert (Tref : tracks (fun z => ob_time_ref (o z)) s (od_time_ref od)).
  { rewrite E11. apply (tracks_ext' (fun z => - M0_of (ob_ecc (o z)) * ob_period (o z) / (2 * PI))); [intros z; destruct (F z) as (_ & _ & _ & _ & _ & _ & _ & _ & _ & _ & F11 & _); now rewrite F11|].
    apply (tracks_div (fun z => - M0_of (ob_ecc (o z)) * ob_period (o z)) (fun _ => 2 * PI)); [kt|kt|lra]. }
  assert (Tcos : tracks (fun z => ob_cos_incl (o z)) s (od_cos_incl od)).
  { rewrite E12. destruct (b_impact_param d); cbn [tracks_opt] in Bb.
    - destruct Bb as (fb & Eb & Bb). apply (tracks_ext' (fun z => F_of (ob_ecc (o z)) * c_radius (c z) / ob_semimajor (o z) * fb z)); [intros z; destruct (F z) as (_ & _ & _ & _ & _ & _ & _ & _ & _ & _ & _ & F12 & _); now rewrite F12, Eb|].
      apply (tracks_mul (fun z => F_of (ob_ecc (o z)) * c_radius (c z) / ob_semimajor (o z)) fb); [|exact Bb]. apply (tracks_div (fun z => F_of (ob_ecc (o z)) * c_radius (c z)) (fun z => ob_semimajor (o z))); [kt|exact Ta|lra].
    - destruct (b_inclination d); cbn [tracks_opt] in Bi.
      + destruct Bi as (fi & Ei & Bi). apply (tracks_ext' (fun z => cos (fi z))); [intros z; destruct (F z) as (_ & _ & _ & _ & _ & _ & _ & _ & _ & _ & _ & F12 & _); now rewrite F12, Bb, Ei|]. now apply tracks_cos.
      + apply (tracks_ext' (fun _ => 0)); [intros z; destruct (F z) as (_ & _ & _ & _ & _ & _ & _ & _ & _ & _ & _ & F12 & _); now rewrite F12, Bb, Bi|]. apply tracks_cst. }
  assert (Tsin : tracks (fun z => ob_sin_incl (o z)) s (od_sin_incl od)).
  { rewrite E13. destruct (b_impact_param d); cbn [tracks_opt] in Bb.
    - destruct Bb as (fb & Eb & Bb). apply (tracks_ext' (fun z => sqrt (1 - ob_cos_incl (o z) ^ 2))); [intros z; destruct (F z) as (_ & _ & _ & _ & _ & _ & _ & _ & _ & _ & _ & _ & F13 & _); now rewrite F13, Eb|].
      apply (tracks_sqrt' (fun z => 1 - ob_cos_incl (o z) ^ 2)); [kt|]. assert (Hc : Rabs (ob_cos_incl (o s)) < 1) by (apply Hci; rewrite Eb; discriminate). apply Rabs_def2 in Hc. nra.
    - destruct (b_inclination d); cbn [tracks_opt] in Bi.
      + destruct Bi as (fi & Ei & Bi). apply (tracks_ext' (fun z => sin (fi z))); [intros z; destruct (F z) as (_ & _ & _ & _ & _ & _ & _ & _ & _ & _ & _ & _ & F13 & _); now rewrite F13, Bb, Ei|]. now apply tracks_sin.
      + apply (tracks_ext' (fun _ => 1)); [intros z; destruct (F z) as (_ & _ & _ & _ & _ & _ & _ & _ & _ & _ & _ & _ & F13 & _); now rewrite F13, Bb, Bi|]. apply tracks_cst. }
  assert (Ttt : tracks (fun z => ob_time_transit (o z)) s (od_time_transit od)).
  { rewrite E14. destruct (b_time_transit d); cbn [tracks_opt] in Btt.
    - destruct Btt as (g & Eg & Hg). apply (tracks_ext' g); [intros z; destruct (F z) as (_ & _ & _ & _ & _ & _ & _ & _ & _ & _ & _ & _ & _ & F14); now rewrite F14, Eg|exact Hg].
    - destruct (b_time_peri d); cbn [tracks_opt] in Btp.
      + destruct Btp as (g & Eg & Hg). apply (tracks_ext' (fun z => g z - ob_time_ref (o z))); [intros z; destruct (F z) as (_ & _ & _ & _ & _ & _ & _ & _ & _ & _ & _ & _ & _ & F14); now rewrite F14, Btt, Eg|kt].
      + apply (tracks_ext' (fun _ => 0)); [intros z; destruct (F z) as (_ & _ & _ & _ & _ & _ & _ & _ & _ & _ & _ & _ & _ & F14); now rewrite F14, Btt, Btp|]. apply tracks_cst. }
  assert (TO : forall (g h : R -> option R) x, (forall z, h z = g z) -> tracks_opt g s x -> tracks_opt h s x).
  { intros g h x Eq. destruct x; cbn [tracks_opt]; [intros (k & Ek & Hk); exists k; split; [intros z; now rewrite Eq|exact Hk]|intros E z; now rewrite Eq]. }
  unfold tracks_orbital. rewrite E1, E2, E3, E4, E5, E6.
  split; [kext; [destruct (F w) as (_ & F1 & _); rewrite F1; reflexivity|exact Hm]|].
  split; [kext; [destruct (F w) as (_ & F1 & _); rewrite F1; reflexivity|exact Hr]|].
  split; [exact Tref|]. split; [exact Ttt|]. split; [exact Tp|]. split; [exact Ta|]. split; [exact Tsin|]. split; [exact Tcos|].
  split; [apply (TO (fun z => b_mass (b z))); [intros z; destruct (F z) as (_ & _ & F2 & _); exact F2|exact Bm]|].
  split; [apply (TO (fun z => b_radius (b z))); [intros z; destruct (F z) as (_ & _ & _ & F2 & _); exact F2|exact Brad]|].
  split; [exact Tecc|]. split; [exact Tnode|].
  split; [apply (TO (fun z => b_semiamplitude (b z))); [intros z; destruct (F z) as (_ & _ & _ & _ & F2 & _); exact F2|exact BK]|].
  apply (TO (fun z => b_parallax (b z))); [intros z; destruct (F z) as (_ & _ & _ & _ & _ & F2 & _); exact F2|exact Bpx].
Qed.
Lemma fin_ecc3 e a b (x : option D) (p : option D * option D) : fin_opt x e -> fin_opt (fst p) a -> fin_opt (snd p) b ->
  match ecc3 x p, ecc3 e (a, b) with Some (u, v, w), Some (u', v', w') => fin u u' /\ fin v v' /\ fin w w' | None, None => True | _, _ => False end.
Proof. destruct p as [p q]. unfold ecc3. cbn [fst snd]. destruct x, e, p, a, q, b; cbn; try contradiction; intuition. Qed.
Lemma fin_node2 a b (p : option D * option D) : fin_opt (fst p) a -> fin_opt (snd p) b ->
  match node2 p, node2 (a, b) with Some (v, w), Some (v', w') => fin v v' /\ fin w w' | None, None => True | _, _ => False end.
Proof. destruct p as [p q]. unfold node2. cbn [fst snd]. destruct p, a, q, b; cbn; try contradiction; intuition. Qed.
Lemma fin_make_upto G c b o mc rc d : 0 < G -> fin mc (c_mass c) -> fin rc (c_radius c) -> fin_body d b ->
  make_orbital G c b = Ok o -> body_physical c b -> (forall e sw cw, ob_ecc o = Some (e, sw, cw) -> sw <> -1) ->
  exists od, make_orbital_d G mc rc d = Ok od /\ fin (od_cos_incl od) (ob_cos_incl o) /\ ((b_impact_param b <> None -> Rabs (ob_cos_incl o) < 1) -> fin_orbital od o).
Proof.
  intros HG Hm Hr (Btt & Btp & Bp & Ba & Bi & Bb & Be & Bw & Bsw & Bcw & Bn & Bsn & Bcn & Bm & Brad & BK & Bpx) Ho Ph Hsw.
  pose proof (mk_fields G c b o Ho) as F. cbv zeta in F. destruct F as ((S1 & S2) & F1 & F2 & F3 & F4 & F5 & F7 & F8 & F9 & F10 & F11 & F12 & F13 & F14).
  destruct (fin_angle_pair _ _ _ _ _ _ Bw Bsw Bcw) as [Aw1 Aw2]. destruct (fin_angle_pair _ _ _ _ _ _ Bn Bsn Bcn) as [An1 An2].
  assert (Shp : shape_ok d (fst (angle_pair_d (b_omega_peri d) (b_sin_omega_peri d) (b_cos_omega_peri d))) (snd (angle_pair_d (b_omega_peri d) (b_sin_omega_peri d) (b_cos_omega_peri d)))).
  { pose proof (fopt _ _ Ba) as Ta. pose proof (fopt _ _ Bp) as Tp. pose proof (fopt _ _ Be) as Te. pose proof (fopt _ _ Aw1) as T1. pose proof (fopt _ _ Aw2) as T2. split.
    - destruct (b_semimajor b), (b_period b), (b_semimajor d), (b_period d); try contradiction; try discriminate; try (exfalso; now apply Ta); try (exfalso; now apply Tp); exact I.
    - destruct (b_eccentricity d); [|exact I]. destruct (b_eccentricity b); [|exfalso; now apply Te]. destruct S2 as [S2 S3]. split; intros E; rewrite E in *; [now apply S2|now apply S3]. }
  destruct (mk_ok_d G mc rc d Shp) as [od Eod]. exists od. split; [exact Eod|].
  destruct (mk_fields_d G mc rc d od Eod) as (E1 & E2 & E3 & E4 & E5 & E6 & E7 & E8 & E9 & E10 & E11 & E12 & E13 & E14).
  assert (TM : fin (total_mass_of_d mc (b_mass d)) (total_mass_of c (b_mass b))) by (unfold total_mass_of, total_mass_of_d; destruct (b_mass d), (b_mass b); cbn in Bm; try contradiction; kf).
  pose proof (KeplerianProof.total_mass_pos c b Ph) as PM. pose proof Ph as (_ & _ & Pp & Pa & _). pose proof PI_RGT_0 as PIp.
  set (mf := G * total_mass_of c (b_mass b)) in *. assert (Tmf : fin (dmul (cst G) (total_mass_of_d mc (b_mass d))) mf) by (unfold mf; kf). assert (Pmf : 0 < mf) by (unfold mf; now apply Rmult_lt_0_compat).
  assert (Tap : fin (od_semimajor od) (ob_semimajor o) /\ fin (od_period od) (ob_period o) /\ 0 < ob_semimajor o).
  { rewrite E7, E8, F7, F8. destruct (b_semimajor d) as [a|], (b_semimajor b) as [va|]; cbn in Ba; try contradiction.
    - assert (Pa' : 0 < va) by (now apply Pa). split; [exact Ba|]. split; [|exact Pa']. apply fin_mul; [kf|]. apply fin_sqrt'; [|now apply Rdiv_lt_0_compat]. apply fin_div; [exact Ba|exact Tmf|lra].
    - destruct (b_period d) as [p|], (b_period b) as [vp|]; cbn in Bp; try contradiction. cbn [odef]. assert (Pp' : 0 < vp) by (now apply Pp).
      assert (Pq : 0 < mf * vp ^ 2 / (4 * PI ^ 2)) by (apply Rdiv_lt_0_compat; [apply Rmult_lt_0_compat; [exact Pmf|now apply pow_lt]|apply Rmult_lt_0_compat; [lra|now apply pow_lt]]).
      split; [|split; [exact Bp|exact (cbrt_pos _ Pq)]]. apply fin_cbrt; [|lra]. apply fin_div; [kf|kf|]. apply Rgt_not_eq. apply Rmult_lt_0_compat; [lra|now apply pow_lt]. }
  destruct Tap as (Ta & Tp & Psm).
  assert (Tecc : match od_ecc od, ob_ecc o with Some (u, v, w), Some (u', v', w') => fin u u' /\ fin v v' /\ fin w w' | None, None => True | _, _ => False end).
  { rewrite E9, F9. pose proof (fin_ecc3 _ _ _ _ _ Be Aw1 Aw2) as T. now destruct (angle_pair (b_omega_peri b) (b_sin_omega_peri b) (b_cos_omega_peri b)). }
  assert (Tnode : match od_node od, ob_node o with Some (v, w), Some (v', w') => fin v v' /\ fin w w' | None, None => True | _, _ => False end).
  { rewrite E10, F10. pose proof (fin_node2 _ _ _ An1 An2) as T. now destruct (angle_pair (b_asc_node b) (b_sin_asc_node b) (b_cos_asc_node b)). }
  assert (TMF : fin (M0_of_d (od_ecc od)) (M0_of (ob_ecc o)) /\ fin (F_of_d (od_ecc od)) (F_of (ob_ecc o))).
  { destruct (od_ecc od) as [[[u v] q]|], (ob_ecc o) as [[[e sw] cw]|] eqn:Eo; try contradiction; cbn [M0_of F_of M0_of_d F_of_d]; [|split; apply fin_cst].
    destruct Tecc as (Te & Ts & Tc). destruct (phys_ecc _ _ _ _ _ _ _ Ph Ho Eo) as [Be' Hu]. pose proof (node_abs _ _ Hu (Hsw _ _ _ eq_refl)) as P1. split; [now apply fin_M0|].
    apply fin_div; [kf|kf|]. nra. }
  destruct TMF as [TM0 TF].
  assert (Tref : fin (od_time_ref od) (ob_time_ref o)) by (rewrite E11, F11; apply fin_div; [kf|kf|lra]).
  assert (Tcos : fin (od_cos_incl od) (ob_cos_incl o)).
  { rewrite E12, F12. destruct (b_impact_param d), (b_impact_param b); cbn in Bb; try contradiction; [apply fin_mul; [|exact Bb]; apply fin_div; [kf|exact Ta|lra]|].
    destruct (b_inclination d), (b_inclination b); cbn in Bi; try contradiction; kf. }
  split; [exact Tcos|]. intros Hci.
  assert (Tsin : fin (od_sin_incl od) (ob_sin_incl o)).
  { rewrite E13, F13. destruct (b_impact_param d), (b_impact_param b); cbn in Bb; try contradiction; [|destruct (b_inclination d), (b_inclination b); cbn in Bi; try contradiction; kf].
    apply fin_sqrt'; [kf|]. assert (Hc : Rabs (ob_cos_incl o) < 1) by (apply Hci; discriminate). apply Rabs_def2 in Hc. nra. }
  assert (Ttt : fin (od_time_transit od) (ob_time_transit o)).
  { rewrite E14, F14. destruct (b_time_transit d), (b_time_transit b); cbn in Btt; try contradiction; [exact Btt|]. destruct (b_time_peri d), (b_time_peri b); cbn in Btp; try contradiction; kf. }
  unfold fin_orbital. rewrite E1, E2, E3, E4, E5, E6, F1, F2, F3, F4, F5. now repeat apply conj.
Qed.
Lemma fin_make G c b o mc rc d : 0 < G -> fin mc (c_mass c) -> fin rc (c_radius c) -> fin_body d b ->
  make_orbital G c b = Ok o -> body_physical c b -> (forall e sw cw, ob_ecc o = Some (e, sw, cw) -> sw <> -1) -> (b_impact_param b <> None -> Rabs (ob_cos_incl o) < 1) ->
  exists od, make_orbital_d G mc rc d = Ok od /\ fin_orbital od o.
Proof. intros HG Hm Hr Hb Ho Ph Hsw Hci. destruct (fin_make_upto G c b o mc rc d HG Hm Hr Hb Ho Ph Hsw) as (od & E & _ & H). exists od. split; [exact E|now apply H]. Qed.
Lemma fin_cos_incl G c b o mc rc d od : 0 < G -> fin mc (c_mass c) -> fin rc (c_radius c) -> fin_body d b ->
  make_orbital G c b = Ok o -> make_orbital_d G mc rc d = Ok od -> body_physical c b -> (forall e sw cw, ob_ecc o = Some (e, sw, cw) -> sw <> -1) -> fin (od_cos_incl od) (ob_cos_incl o).
Proof. intros HG Hm Hr Hb Ho E Ph Hsw. destruct (fin_make_upto G c b o mc rc d HG Hm Hr Hb Ho Ph Hsw) as (od' & E' & H & _). rewrite E in E'. injection E' as <-. exact H. Qed.
(** ** where it is not differentiable *)
Lemma none_atan2 y x : fin y 0 -> fin x 0 -> datan2 y x = None.
Proof. intros (t & ->) (u & ->). unfold datan2. cbn [AutoDiff.val]. destruct (Req_EM_T (0 ^ 2 + 0 ^ 2) 0); [reflexivity|lra]. Qed.
Lemma lift2_none_l f g y : lift2 f g None y = None.
Proof. reflexivity. Qed.
Lemma M0_none x y z e : fin x e -> fin y (-1) -> fin z 0 -> 0 <= e < 1 -> transit_M0_d x y z = None.
Proof.
  intros He Hs Hc Be. unfold transit_M0_d. cbv zeta. assert (E : transit_E0_d x y z = None); [|rewrite E; reflexivity].
  unfold transit_E0_d. rewrite none_atan2; [reflexivity| |].
  - replace 0 with (sqrt (1 - e) * 0) by ring. apply fin_mul; [apply fin_sqrt'; [kf|lra]|exact Hc].
  - replace 0 with (sqrt (1 + e) * (1 + -1)) by ring. apply fin_mul; [apply fin_sqrt'; [kf|lra]|kf].
Qed.
Lemma kepler_none kep y : kepler_d kep None y = (None, None).
Proof. unfold kepler_d. now destruct (Rleb _ _). Qed.
Lemma dmul_none_r x : dmul x None = None.
Proof. unfold dmul. apply lift2_none_r. Qed.
Lemma ref_none au kep od td px : od_time_ref od = None -> exists y, relative_position_d au kep od td px = (None, y, None).
Proof.
  intros E. unfold relative_position_d, position_and_velocity_d. set (q := true_anomaly_d kep od td).
  assert (Hq : q = (None, None)).
  { unfold q, true_anomaly_d, mean_anomaly_d. rewrite E. unfold dsub. rewrite lift2_none_r, dmul_none_r.
    assert (Ed : forall x, ddiv None x = None) by (intros x; unfold ddiv; now destruct (Req_EM_T _ _)). rewrite Ed. destruct (od_ecc od) as [[[u v] w]|]; [apply kepler_none|reflexivity]. }
  rewrite Hq. cbv zeta.
  assert (HR : exists y, rotate_vector_d od None None true = (None, y, None)).
  { unfold rotate_vector_d. destruct (od_ecc od) as [[[u v] w]|]; rewrite ?dmul_none_r; cbn [dsub lift2]; destruct (od_node od) as [[sn cn]|]; eexists; (apply f_equal2; [apply f_equal2|]); try reflexivity; try apply dmul_none_r; rewrite ?dmul_none_r; reflexivity. }
  destruct (od_ecc od) as [[[u v] w]|]; cbn [fst]; rewrite dmul_none_r; exact HR.
Qed.
Lemma incl_none au kep od td px : od_sin_incl od = None -> snd (relative_position_d au kep od td px) = None.
Proof.
  intros E. unfold relative_position_d, position_and_velocity_d. set (q := true_anomaly_d kep od td). destruct q as [sf cf]. cbv zeta.
  assert (HR : forall x y, snd (rotate_vector_d od x y true) = None).
  { intros x y. unfold rotate_vector_d. rewrite E. destruct (od_ecc od) as [[[u v] w]|]; destruct (od_node od) as [[sn cn]|]; reflexivity. }
  destruct (od_ecc od) as [[[u v] w]|]; cbn [fst]; apply HR.
Qed.
Lemma peri_undefined G mc rc d od e ve sw cw : make_orbital_d G mc rc d = Ok od -> b_eccentricity d = Some e -> b_omega_peri d = None -> b_sin_omega_peri d = Some sw -> b_cos_omega_peri d = Some cw ->
  fin e ve -> 0 <= ve < 1 -> fin sw (-1) -> fin cw 0 ->
  (forall au kep td px, exists y, relative_position_d au kep od td px = (None, y, None)) /\
  (forall au kep eps quad us td rd, transit_light_curve_d eps quad (kep_lc_orbit_d au kep od rd) us td = None).
Proof.
  intros H E1 E2 E3 E4 He Be Hs Hc. destruct (mk_fields_d G mc rc d od H) as (_ & _ & _ & _ & _ & _ & _ & _ & E9 & _ & E11 & _).
  rewrite E1, E2, E3, E4 in E9. cbn in E9. rewrite E9 in E11. cbn [M0_of_d] in E11. rewrite (M0_none e sw cw ve He Hs Hc Be) in E11.
  assert (ER : od_time_ref od = None) by (rewrite E11; cbn; unfold ddiv; now destruct (Req_EM_T _ _)).
  split; [intros; now apply ref_none|]. intros. destruct (ref_none au kep od td None ER) as (y & Ey). now apply (transit_none eps quad (kep_lc_orbit_d au kep od rd) us td y None).
Qed.
Lemma polar_undefined G c b o mc rc d od : 0 < G -> fin mc (c_mass c) -> fin rc (c_radius c) -> fin_body d b -> make_orbital G c b = Ok o -> make_orbital_d G mc rc d = Ok od -> body_physical c b ->
  (forall e sw cw, ob_ecc o = Some (e, sw, cw) -> sw <> -1) -> b_impact_param b <> None -> 1 <= Rabs (ob_cos_incl o) -> forall au kep td px, snd (relative_position_d au kep od td px) = None.
Proof.
  intros HG Hm Hr Hb Ho Hod Ph Hsw NI L au kep td px. apply incl_none.
  pose proof Hb as (_ & _ & _ & _ & _ & Bb & _). destruct (mk_fields_d G mc rc d od Hod) as (_ & _ & _ & _ & _ & _ & _ & _ & _ & _ & _ & _ & E13 & _).
  rewrite E13. destruct (b_impact_param d) as [ip|] eqn:Ed; [|destruct (b_impact_param b); [contradiction|now contradiction NI]].
  assert (Hn : forall x, 1 <= Rabs (AutoDiff.val x) \/ x = None -> dsqrt (dsub (cst 1) (dpow2 x)) = None).
  { intros [[v t]|] Hx; unfold dsqrt; cbn; [|now destruct (Rleb _ _)]. destruct Hx as [Hx|Hx]; [|discriminate]. cbn in Hx.
    replace (Rleb (1 - v * (v * 1)) 0) with true; [reflexivity|]. symmetry. apply Rleb_true. assert (1 <= v²) by (rewrite <- (Rsqr_1); apply Rsqr_le_abs_1; rewrite Rabs_R1; exact Hx). unfold Rsqr in *. lra. }
  apply Hn. destruct (od_cos_incl od) as [[v t]|] eqn:Ec; [left|now right]. cbn [AutoDiff.val].
  (* the value of the cosine *)
  replace v with (ob_cos_incl o); [exact L|].
  assert (Hc : forall w, fin (od_cos_incl od) w -> v = w) by (rewrite Ec; intros w (u & Eu); now injection Eu).
  symmetry. apply Hc. eapply fin_cos_incl; eassumption.
Qed.
(** ** from the arguments to the observables *)
Lemma make_wf G c b o : 0 < G -> make_orbital G c b = Ok o -> body_physical c b -> (b_impact_param b <> None -> Rabs (ob_cos_incl o) < 1) -> orbit_ok o.
Proof.
  intros HG E Ph Hci. apply (KeplerianProof.orbit_wf G HG c b o Ph E). destruct (mk_fields G c b o E) as (_ & _ & _ & _ & _ & _ & _ & _ & _ & _ & _ & F12 & _).
  destruct (b_impact_param b); [left; apply Hci; discriminate|]. rewrite F12. apply Rabs_le. destruct (b_inclination b) as [i|]; [apply COS_bound|lra].
Qed.
Lemma args_tracks G (c : R -> central) (b : R -> body) (o : R -> orbital) s mc rc d : 0 < G -> tracks (fun z => c_mass (c z)) s mc -> tracks (fun z => c_radius (c z)) s rc -> tracks_body b s d ->
  (forall z, make_orbital G (c z) (b z) = Ok (o z)) -> body_physical (c s) (b s) -> (forall e sw cw, ob_ecc (o s) = Some (e, sw, cw) -> sw <> -1) -> (b_impact_param (b s) <> None -> Rabs (ob_cos_incl (o s)) < 1) ->
  locally s (fun z => 0 <= ecc_val (o z) < 1) ->
  exists od, make_orbital_d G mc rc d = Ok od /\ forall au kep td tf, exact_solver kep -> tracks tf s td ->
    tracks_vec (fun z => relative_position au kep (o z) (tf z) None) s (relative_position_d au kep od td None) /\
    tracks_vec (fun z => position au kep (o z) (tf z) None) s (position_d au kep od td None) /\
    tracks (fun z => radial_velocity au kep (o z) (tf z) None) s (radial_velocity_d au kep od td None).
Proof.
  intros HG Hm Hr Hb Ho Ph Hsw Hci He. destruct (tracks_make G c b o s mc rc d HG Hm Hr Hb Ho Ph Hsw Hci) as (od & E & T). exists od. split; [exact E|].
  destruct (make_wf G _ _ _ HG (Ho s) Ph Hci) as (_ & HP & HM & _). intros au kep td tf Hk Ht. assert (NP : ob_period (o s) <> 0) by lra. assert (NM : total_mass (o s) <> 0) by lra. assert (TN : tracks_opt (fun _ => None) s None) by (intros z; reflexivity). split; [|split].
  - now apply (tracks_relative_position au kep od o s td tf None (fun _ => None)).
  - now apply (tracks_position au kep od o s td tf None (fun _ => None)).
  - now apply (tracks_radial_velocity au kep od o s td tf None (fun _ => None)).
Qed.
