(** Gradients of systems when nothing of the central is hidden. *)
From Coq Require Import Reals List Bool Arith ZArith Lia Lra.
From Verif Require Import Base.RealAux Model.LimbDark Model.Keplerian Model.Poly Model.Ylm Model.RvMap Model.Surface Model.StarryLightCurve Model.SurfaceSystem Model.AutoDiff Model.TransitGrad Model.KeplerGrad Model.StarryGrad Model.StarryRvGrad Model.SystemGrad.
From Verif Require Import Spec.OccultSpec Spec.KeplerSpec Spec.OrbitSpec Spec.RotationSpec Spec.YlmSpec Spec.SurfaceSpec Spec.AutoDiffSpec Spec.KeplerGradSpec Spec.StarryGradSpec Spec.StarryRvGradSpec Spec.SystemGradSpec.
From Verif Require Import Proof.AutoDiff Proof.TransitGrad Proof.KeplerGrad Proof.StarryGrad Proof.StarryGradFlux Proof.StarryGradDesign Proof.StarryGradPoly Proof.StarryGradCurve Proof.StarryGradFree Proof.StarryRvGrad Proof.StarryRvFree Proof.SystemGrad Proof.SystemGradMore.
From Verif Require Model.Stack Properties.StarryRvGradProps.
Import ListNotations.
Local Open Scope R_scope.

Lemma dsum_repeat v t n : dsum (repeat (Some (v, t)) n) = Some (INR n * v, INR n * t).
Proof.
  unfold dsum. induction n as [|n IH]; [cbn; unfold cst; do 2 f_equal; ring|]. cbn [repeat fold_right]. rewrite IH, S_INR. unfold dadd, lift2. do 2 f_equal; ring.
Qed.
Lemma mapM_const {A} (f : A -> result D) c l ws : Stack.mapM f l = Ok ws -> (forall a w, In a l -> f a = Ok w -> w = c) -> ws = repeat c (length l).
Proof.
  revert ws. induction l as [|a l IH]; intros ws E H; cbn [Stack.mapM] in E; [injection E as <-; reflexivity|].
  destruct (f a) as [w|] eqn:Ea; cbn [rbind] in E; [|discriminate]. destruct (Stack.mapM f l) as [ws'|]; cbn [rbind] in E; [|discriminate]. injection E as <-.
  cbn [length repeat]. f_equal; [apply (H a); [now left|exact Ea]|]. apply IH; [reflexivity|]. intros a' w' K. apply H. now right.
Qed.
Section Free.
Variables (au : R) (kep : R -> R -> R * R).
Hypothesis Hk : exact_solver kep.
Variable bare : rsurface_d -> option D -> result D.
Variable occ : rsurface_d -> D -> D -> D -> D -> option D -> result D.
Variables (sys : ssystem) (d : ssystem_d) (t : R) (td : D).
Hypotheses (Hd : fin_system d sys) (Ht : fin td t) (Hp : proper_system sys) (Hn : nothing_hidden au kep sys t).
Hypothesis Hocc : forall R' X Y Z r x y z, fin R' r -> fin X x -> fin Y y -> fin Z z -> ~ (x = 0 /\ y = 0) -> 1 + r <= sqrt (x ^ 2 + y ^ 2) \/ z <= 0 ->
  occ (sy_surface d) R' X Y Z (rotational_phase_d (sy_surface d) td) = bare (sy_surface d) (rotational_phase_d (sy_surface d) td).
Lemma free_first ds v t0 : system_observable_d au kep bare occ d td = Ok ds -> bare (sy_surface d) (rotational_phase_d (sy_surface d) td) = Ok (Some (v, t0)) -> exists bs, ds = Some (v, t0) :: bs.
Proof using Hk Hd Ht Hp Hn Hocc.
  intros E E0. unfold system_observable_d in E. cbv zeta in E. rewrite E0 in E. cbn [rbind] in E. destruct Hd as (Hrc & Hsf & HL & HB). destruct Hp as (Nc & _ & Ho & _).
  assert (HC : forall q w, In q (sy_bodies d) -> central_obs_d au kep occ d (rotational_phase_d (sy_surface d) td) td q = Ok w -> w = Some (v, t0)).
  { intros q w Hin. assert (Hex : exists p, In p (combine (ss_bodies sys) (ss_surfaces sys)) /\ fin_bodies q p) by (clear - HB Hin; induction HB as [|q' p lq lp H _ IH]; [destruct Hin|destruct Hin as [<-|Hin]; [exists p; split; [now left|exact H]|destruct (IH Hin) as (p' & H1 & H2); exists p'; split; [now right|exact H2]]]).
    destruct Hex as ([o own] & Hp' & Hq & _). apply in_combine_l in Hp'. cbn [fst] in Hq. destruct (Ho o Hp') as (N1 & N2 & N3 & _). pose proof (fin_relative_position au kep (fst q) o td t None None Hk Hq Ht N1 N2 N3 I) as HP. pose proof (fun r => Hn o r Hp') as Hh. cbv zeta in Hh.
    unfold central_obs_d. cbv zeta. destruct (relative_position_d au kep (fst q) td None) as [[X Y] Z]. destruct (relative_position au kep o t None) as [[x y] z]. destruct HP as (HX & HY & HZ). cbn [fst snd] in HX, HY, HZ.
    pose proof Hq as (_ & _ & _ & _ & _ & _ & _ & _ & _ & Hr & _). unfold body_radius_d. destruct (od_radius (fst q)) as [r|], (ob_radius o) as [r0|]; try contradiction; cbn [rbind]; [|discriminate]. destruct (Hh r0 eq_refl) as (Na & Hf).
    rewrite (Hocc _ _ _ _ (r0 / c_radius (ss_central sys)) (x / c_radius (ss_central sys)) (y / c_radius (ss_central sys)) (z / c_radius (ss_central sys))); try (now apply fin_div).
    - rewrite E0. intros K. now injection K as <-.
    - rewrite !scaled by exact Nc. exact Na.
    - exact Hf. }
  destruct (sy_bodies d) as [|q lq] eqn:Eq; [injection E as <-; now eexists|].
  destruct (Stack.mapM (central_obs_d au kep occ d _ td) (q :: lq)) as [cs|] eqn:Ec; cbn [rbind] in E; [|discriminate].
  destruct (Stack.mapM (body_obs_d au kep occ d td) (q :: lq)) as [bs|]; cbn [rbind] in E; [|discriminate]. injection E as <-.
  pose proof (mapM_const _ (Some (v, t0)) _ _ Ec HC) as ->. destruct lq as [|q' lq]; [now eexists|].
  change (1 <? length (q :: q' :: lq))%nat with true. cbv iota. rewrite dsum_repeat. unfold cst, dmul, dsub, lift2.
  assert (K : forall a b l, a = v -> b = t0 -> exists bs, [Some (a, b)] ++ l = Some (v, t0) :: bs) by (intros a b l -> ->; now eexists).
  change (length (q :: q' :: lq)) with (S (S (length lq))). change (1 <? S (length (q' :: lq)))%nat with true. cbv iota. change (length (q' :: lq) - 0)%nat with (S (length lq)). rewrite (S_INR (S (length lq))). apply K; ring.
Qed.
End Free.
Lemma flux_free as_euler eps low high A2 au kep : zyz_euler as_euler -> 0 < eps -> exact_solver kep -> forall sys d t td ds, fin_system d sys -> fin td t -> proper_system sys -> wf_ylm (s_y (ss_surface sys)) -> surf_ydeg (ss_surface sys) <> 0%nat ->
  nothing_hidden au kep sys t -> starry_light_curve_d as_euler eps low high A2 au kep d td = Ok ds ->
  exists c bs, ds = c :: bs /\ bare_light_curve_d as_euler (rs_map (sy_surface d)) (rotational_phase_d (sy_surface d) td) = Ok c.
Proof.
  intros Hz He Hk sys d t td ds Hd Ht Hp Hw H0 Hn E. pose proof Hd as (_ & Hsf & _). pose proof Hp as (_ & (Nf & Np) & _). pose proof (phase_fin (sy_surface d) (ss_surface sys) td t Hsf Np Ht) as Hth.
  pose proof (bare_fin as_euler eps low high A2 (ss_surface sys) (rs_map (sy_surface d)) _ _ (proj1 Hsf) Hth Nf) as F0. unfold fin_result in F0.
  destruct (surface_light_curve as_euler eps low high A2 (ss_surface sys) None None None None _) as [f0|e].
  - destruct F0 as (t0 & F0). destruct (free_first au kep Hk (fun s => bare_light_curve_d as_euler (rs_map s)) (fun s => occulted_light_curve_d as_euler eps low high A2 (rs_map s)) sys d t td Hd Ht Hp Hn) with (ds := ds) (v := f0) (t0 := t0) as (bs & ->); [|exact E|exact F0|exists (Some (f0, t0)), bs; split; [reflexivity|exact F0]].
    intros R' X Y Z r x y z HR HX HY HZ Na Hf. apply (occulted_free as_euler Hz eps low high A2 He (ss_surface sys)) with (theta := rotational_phase (ss_surface sys) t) (r := r) (x := x) (y := y) (z := z); try assumption; [apply Hsf|]. rewrite <- (proj1 (proj1 Hsf)). exact H0.
  - exfalso. unfold starry_light_curve_d, system_observable_d in E. cbv zeta in E. rewrite F0 in E. discriminate.
Qed.
Lemma rv_free as_euler eps low high A2 au kep : zyz_euler as_euler -> 0 < eps -> exact_solver kep -> forall sys d ts tds drows, fin_system d sys -> List.Forall2 fin tds ts -> proper_system sys -> rigid (ss_surface sys) -> wf_ylm (s_y (ss_surface sys)) ->
  (forall t, In t ts -> nothing_hidden au kep sys t /\
    visible_flux (seen_intensity (y_data (s_y (ss_surface sys))) (s_u (ss_surface sys)) (s_inc (ss_surface sys)) (s_obl (ss_surface sys)) (rotational_phase (ss_surface sys) t)) <> 0) ->
  starry_radial_velocity_d as_euler eps low high A2 au kep d tds = Ok drows ->
  List.Forall2 (fun td row => exists q c bs, hd_error (sy_bodies d) = Some q /\ row = dadd c (radial_velocity_d au kep (fst q) td None) :: bs /\
    bare_rv_d as_euler (rs_map (sy_surface d)) (rs_period (sy_surface d)) (rs_radius (sy_surface d)) (rotational_phase_d (sy_surface d) td) = Ok c) tds drows.
Proof.
  intros Hz He Hk sys d ts tds drows Hd Ht Hp Hq Hw Hall E. unfold starry_radial_velocity_d in E. fold (bare_rv_s as_euler) in E. change (fun s => occulted_rv_d as_euler eps low high A2 (rs_map s) (rs_period s) (rs_radius s)) with (occ_rv_s as_euler eps low high A2) in E.
  destruct (Stack.mapM _ tds) as [rows|] eqn:E1; cbn [rbind] in E; [|discriminate]. destruct (sy_bodies d) as [|q lq] eqn:Eq; [discriminate|]. injection E as <-. cbn [hd_error].
  clear Eq lq. revert rows E1. induction Ht as [|td t tds ts H Ht IH]; intros rows E1; cbn [Stack.mapM] in E1; [injection E1 as <-; constructor|].
  destruct (system_observable_d au kep _ _ d td) as [row|] eqn:Er; cbn [rbind] in E1; [|discriminate]. destruct (Stack.mapM _ tds) as [rows'|]; cbn [rbind] in E1; [|discriminate]. injection E1 as <-.
  cbn [combine map fst snd]. constructor; [|apply IH; [intros t' K; apply Hall; now right|reflexivity]]. destruct (Hall t (or_introl eq_refl)) as (Hn & Hvis).
  pose proof Hd as (_ & Hsf & _). pose proof Hp as (_ & (Nf & Np) & _). pose proof (phase_fin (sy_surface d) (ss_surface sys) td t Hsf Np H) as Hth. assert (Hrot := rotation_fin (sy_surface d) (ss_surface sys) Hsf Hq).
  pose proof (bare_rv_fin as_euler eps low high A2 (ss_surface sys) (rs_map (sy_surface d)) (rs_period (sy_surface d)) (rs_radius (sy_surface d)) _ _ (proj1 Hsf) Hrot Hth Nf) as F0.
  assert (Hdiv : divides_by_nonzero (dividing_flux as_euler eps low high A2 (ss_surface sys) None (rotational_phase (ss_surface sys) t))) by (eexists; split; [apply (StarryRvGradProps.C97_dividing_flux as_euler Hz); [exact Hw|exact I]|exact Hvis]).
  specialize (F0 Hdiv). unfold fin_result in F0. destruct (surface_radial_velocity as_euler eps low high A2 (ss_surface sys) None None None None _) as [f0|e].
  - destruct F0 as (t0 & F0). destruct (free_first au kep Hk (bare_rv_s as_euler) (occ_rv_s as_euler eps low high A2) sys d t td Hd H Hp Hn) with (ds := row) (v := f0) (t0 := t0) as (bs & ->); [|exact Er|exact F0|].
    + intros R' X Y Z r x y z HR HX HY HZ Na Hf. unfold occ_rv_s, bare_rv_s. apply (StarryRvGradProps.C97_unhidden as_euler Hz eps low high A2 He (ss_surface sys)) with (theta := rotational_phase (ss_surface sys) t) (r := r) (x := x) (y := y) (z := z); try assumption; apply Hsf.
    + exists q, (Some (f0, t0)), bs. split; [reflexivity|]. split; [reflexivity|exact F0].
  - exfalso. unfold system_observable_d in Er. cbv zeta in Er. change (bare_rv_s as_euler (sy_surface d) (rotational_phase_d (sy_surface d) td)) with (bare_rv_d as_euler (rs_map (sy_surface d)) (rs_period (sy_surface d)) (rs_radius (sy_surface d)) (rotational_phase_d (sy_surface d) td)) in Er. rewrite F0 in Er. discriminate.
Qed.
