(** Gradients of radial velocities of systems at an alignment. *)
From Coq Require Import Reals List Bool Arith ZArith Lia Lra.
From Verif Require Import Base.RealAux Model.Keplerian Model.Poly Model.Ylm Model.RvMap Model.Surface Model.StarryLightCurve Model.SurfaceSystem Model.AutoDiff Model.TransitGrad Model.KeplerGrad Model.StarryGrad Model.StarryRvGrad Model.SystemGrad.
From Verif Require Import Spec.LimbDarkSpec Spec.OccultSpec Spec.KeplerSpec Spec.OrbitSpec Spec.RotationSpec Spec.YlmSpec Spec.SurfaceSpec Spec.AutoDiffSpec Spec.KeplerGradSpec Spec.StarryGradSpec Spec.StarryRvGradSpec Spec.SystemGradSpec.
From Verif Require Import Proof.AutoDiff Proof.TransitGrad Proof.KeplerGrad Proof.StarryGrad Proof.StarryRvGrad Proof.StarryRvFree Proof.SystemGrad Proof.SystemGradMore.
From Verif Require Properties.StarryRvGradProps Model.Stack.
From Verif Require Proof.SystemRv Proof.SurfaceFacts.
Import ListNotations.
Local Open Scope R_scope.

Lemma surf_veq_ok s : rigid s -> s_period s <> None -> exists v, surf_veq s = Ok v.
Proof.
  intros (_ & N) P. unfold surf_veq. destruct (s_period s) as [p|]; [|contradiction]. destruct (Reqb p 0) eqn:E; [|now eexists]. exfalso. apply N. f_equal. unfold Reqb in E. destruct (Req_EM_T p 0); [assumption|discriminate].
Qed.
Lemma rv_system_aligned as_euler eps low high A2 au kep sys d t td o : zyz_euler as_euler -> exact_solver kep -> fin_system d sys -> fin td t -> proper_system sys -> surfaces_all rigid sys -> s_period (ss_surface sys) <> None ->
  wf_ylm (s_y (ss_surface sys)) -> divides_by_nonzero (dividing_flux as_euler eps low high A2 (ss_surface sys) None (rotational_phase (ss_surface sys) t)) ->
  ss_bodies sys = [o] -> ss_surfaces sys = [None] -> ob_radius o <> None -> sky_sep (relative_position au kep o t None) = 0 ->
  starry_radial_velocity_d as_euler eps low high A2 au kep d [td] = Ok [[None; cst 0]].
Proof.
  intros Hz Hk (Hrc & Hsf & _ & HB) Ht (Nc & (Nf & Np) & Ho & _) (Hq0 & _) HP0 Hw Hdiv Eb Es Nr Hal. rewrite Eb, Es in HB. cbn [combine] in HB. inversion HB as [|q p lq lp (Hq & Hqs) Hn E1 E2]; subst. inversion Hn; subst. cbn [fst snd] in *.
  destruct (snd q) as [?|] eqn:Es2; [contradiction|]. destruct (Ho o) as (N1 & N2 & N3 & _); [rewrite Eb; now left|]. pose proof (fin_relative_position au kep (fst q) o td t None None Hk Hq Ht N1 N2 N3 I) as HP.
  assert (Hrot := rotation_fin (sy_surface d) (ss_surface sys) Hsf Hq0). assert (Hph := phase_fin (sy_surface d) (ss_surface sys) td t Hsf Np Ht).
  pose proof (bare_rv_fin as_euler eps low high A2 (ss_surface sys) (rs_map (sy_surface d)) (rs_period (sy_surface d)) (rs_radius (sy_surface d)) _ _ (proj1 Hsf) Hrot Hph Nf Hdiv) as F0. unfold fin_result in F0.
  destruct (surf_veq_ok _ Hq0 HP0) as (veq & Ev). assert (Hvis : visible_flux (seen_intensity (y_data (s_y (ss_surface sys))) (s_u (ss_surface sys)) (s_inc (ss_surface sys)) (s_obl (ss_surface sys)) (rotational_phase (ss_surface sys) t)) <> 0).
  { destruct Hdiv as (v & Ed & Nv). rewrite (StarryRvGradProps.C97_dividing_flux as_euler Hz) in Ed by (exact Hw || exact I). injection Ed as <-. exact Nv. }
  rewrite (SystemRv.rv_alone as_euler Hz eps low high A2 (ss_surface sys) veq _ Hw Ev (proj1 Hq0) Nf Hvis None None None None (or_introl eq_refl)) in F0. destruct F0 as (t0 & F0).
  unfold starry_radial_velocity_d, system_observable_d. cbn [Stack.mapM]. cbv zeta. rewrite F0. cbn [rbind]. rewrite <- E1.
  set (occ := fun s => occulted_rv_d as_euler eps low high A2 (rs_map s) (rs_period s) (rs_radius s)).
  assert (E3 : central_obs_d au kep occ d (rotational_phase_d (sy_surface d) td) td q = Ok None /\ body_obs_d au kep occ d td q = Ok (cst 0)).
  { unfold central_obs_d, body_obs_d. cbv zeta. rewrite Es2. pose proof Hq as (_ & _ & _ & _ & _ & _ & _ & _ & _ & Hr & _). unfold body_radius_d.
    destruct (relative_position_d au kep (fst q) td None) as [[X Y] Z]. destruct (relative_position au kep o t None) as [[x y] z]. destruct HP as (HX & HY & _). cbn [fst snd] in HX, HY. cbn [sky_sep] in Hal.
    destruct (od_radius (fst q)) as [r|], (ob_radius o) as [r0|]; try contradiction; cbn [rbind]. split; [|reflexivity].
    assert (A : x ^ 2 + y ^ 2 = 0) by (apply sqrt_eq_0; [nra|exact Hal]). assert (x = 0 /\ y = 0) as [-> ->] by nra.
    apply (aligned_rv_none as_euler eps low high A2 (ss_surface sys)); [exact Hw|apply Hsf|exact Hrot|exact HP0| |]; replace 0 with (0 / c_radius (ss_central sys)) by (field; exact Nc); now apply fin_div. }
  destruct E3 as (E3 & E4). cbn [Stack.mapM length Nat.ltb Nat.leb]. rewrite E3, E4. reflexivity.
Qed.
Section Iff.
Variables (as_euler : R * R * R -> R * R * R) (eps : R) (low high : list (R * R)) (A2 : nat -> matrix) (au : R) (kep : R -> R -> R * R).
Hypothesis He : 0 < eps.
Hypothesis Hk : exact_solver kep.
Lemma rv_row sys d t td v : fin_system d sys -> fin td t -> proper_system sys -> surfaces_all (fun s => rigid s /\ wf_ylm (s_y s)) sys ->
  system_meets (rv_bare_ok as_euler eps low high A2) (rv_divides as_euler eps low high A2) au kep sys t -> ss_bodies sys <> [] ->
  system_observable au kep (surface_radial_velocity as_euler eps low high A2) sys t = Ok v ->
  exists row, system_observable_d au kep (bare_rv_s as_euler) (occ_rv_s as_euler eps low high A2) d td = Ok row /\ row_gradients au kep sys t row.
Proof using He Hk.
  intros Hd Ht Hp HQ Hm Nb E.
  destruct (observable_iff au kep Hk (surface_radial_velocity as_euler eps low high A2) (bare_rv_s as_euler) (occ_rv_s as_euler eps low high A2) (fun s => rigid s /\ wf_ylm (s_y s)) (rv_bare_ok as_euler eps low high A2) (rv_divides as_euler eps low high A2)) with (sys := sys) (d := d) (t := t) (td := td) (v := v) as (c & bs & E1 & H1 & H2); try assumption.
  - intros sf sd theta td' H (Nf & _) (Hq & _) Hth Hb. apply bare_rv_fin; [apply H|now apply rotation_fin|exact Hth|exact Nf|exact Hb].
  - intros sf sd theta td' R' X Y Z r x y z w H (Nf & _) (Hq & Hw) Hth HR HX HY HZ Hdiv E'. destruct (Req_EM_T x 0) as [Ex|Ex]; [destruct (Req_EM_T y 0) as [Ey|Ey]|].
    + subst. exists None. split; [|split; [intros _; split; reflexivity|reflexivity]]. apply (aligned_rv_none as_euler eps low high A2 sf); try assumption; [apply H|now apply rotation_fin|]. intros Ep. revert E'. apply SurfaceFacts.rv_needs_period. left. exact Ep.
    + destruct Hdiv as [[_ Hdiv]|Hdiv]; [contradiction|]. pose proof (occulted_rv_fin as_euler eps low high A2 He sf (rs_map sd) (rs_period sd) (rs_radius sd) theta td' (proj1 H) (rotation_fin _ _ H Hq) Hth Nf R' X Y Z r x y z HR HX HY HZ ltac:(intros [_ K]; contradiction) Hdiv) as F.
      rewrite E' in F. destruct F as (t' & F). eexists. split; [exact F|]. split; [discriminate|intros [_ K]; contradiction].
    + destruct Hdiv as [[Hdiv _]|Hdiv]; [contradiction|]. pose proof (occulted_rv_fin as_euler eps low high A2 He sf (rs_map sd) (rs_period sd) (rs_radius sd) theta td' (proj1 H) (rotation_fin _ _ H Hq) Hth Nf R' X Y Z r x y z HR HX HY HZ ltac:(intros [K _]; contradiction) Hdiv) as F.
      rewrite E' in F. destruct F as (t' & F). eexists. split; [exact F|]. split; [discriminate|intros [K _]; contradiction].
  - eexists. split; [exact E1|]. exists c, bs. split; [reflexivity|]. split; assumption.
Qed.
Lemma rv_iff sys d ts tds rows : fin_system d sys -> List.Forall2 fin tds ts -> proper_system sys -> surfaces_all (fun s => rigid s /\ wf_ylm (s_y s)) sys ->
  (forall t, In t ts -> system_meets (rv_bare_ok as_euler eps low high A2) (rv_divides as_euler eps low high A2) au kep sys t) ->
  starry_radial_velocity as_euler eps low high A2 au kep sys ts = Ok rows ->
  exists drows, starry_radial_velocity_d as_euler eps low high A2 au kep d tds = Ok drows /\ List.Forall2 (row_gradients au kep sys) ts drows.
Proof using He Hk.
  intros Hd Ht Hp HQ Hm E. unfold starry_radial_velocity, system_radial_velocity, system_observable_times in E. unfold starry_radial_velocity_d. fold (bare_rv_s as_euler). change (fun s => occulted_rv_d as_euler eps low high A2 (rs_map s) (rs_period s) (rs_radius s)) with (occ_rv_s as_euler eps low high A2).
  destruct (Stack.mapM _ ts) as [vs|] eqn:E1; cbn [rbind] in E; [|discriminate]. assert (Nb : ss_bodies sys <> []) by (intros K; rewrite K in E; discriminate). clear E.
  assert (G : exists drows, Stack.mapM (system_observable_d au kep (bare_rv_s as_euler) (occ_rv_s as_euler eps low high A2) d) tds = Ok drows /\ List.Forall2 (row_gradients au kep sys) ts drows).
  { clear - He Hk Hd Ht Hp HQ Hm Nb E1. revert vs E1. induction Ht as [|td t tds ts H Ht' IH]; intros vs E1; [exists []; split; [reflexivity|constructor]|]. cbn [Stack.mapM] in *.
    destruct (system_observable _ _ _ _ t) as [v|] eqn:E; cbn [rbind] in E1; [|discriminate]. destruct (Stack.mapM _ ts) as [vs'|]; cbn [rbind] in E1; [|discriminate].
    destruct (rv_row sys d t td v Hd H Hp HQ (Hm t (or_introl eq_refl)) Nb E) as (row & -> & Hr). destruct (IH (fun t' K => Hm t' (or_intror K)) vs' eq_refl) as (drows & -> & HD). cbn [rbind]. exists (row :: drows). split; [reflexivity|]. now constructor. }
  destruct G as (drows & -> & HG). cbn [rbind]. destruct Hd as (_ & _ & HL & HB). destruct Hp as (_ & _ & Ho & _).
  destruct (ss_bodies sys) as [|o lo] eqn:Eb; [contradiction|]. destruct (ss_surfaces sys) as [|w lw] eqn:Ew; [discriminate|]. cbn [combine] in HB. inversion HB as [|q p lq lp (Hq & _) Hn E3 E4]; subst.
  destruct (Ho o (or_introl eq_refl)) as (N1 & N2 & N3 & _). cbn [fst] in Hq. eexists. split; [reflexivity|].
  clear - Ht HG Hk Hq N1 N2 N3. revert drows HG. induction Ht as [|td t tds ts H Ht' IH]; intros drows HG; inversion HG as [|? row ? rows' Hrow HG' E5 E6]; subst; [constructor|]. cbn [combine map snd fst]. constructor; [|now apply IH].
  destruct Hrow as (c & bs & -> & Hc & Hbs). eexists _, bs. split; [reflexivity|]. split; [|exact Hbs]. rewrite <- Hc.
  destruct (fin_radial_velocity au kep (fst q) o td t None None Hk Hq H N1 N2 N3 I) as (t' & ->). destruct c as [[? ?]|]; cbn; split; intros K; try discriminate; reflexivity.
Qed.
End Iff.
