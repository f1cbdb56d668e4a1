(** Gradients of light curves of systems of surfaces. *)
From Coq Require Import Reals List Bool Arith ZArith Lia Lra.
From Coquelicot Require Import Hierarchy Derive Continuity Rbar Rcomplements ElemFct AutoDerive.
From Verif Require Import Base.RealAux Base.Dict Model.LimbDark Model.Kepler Model.Keplerian Model.Poly Model.Basis Model.S2fft Model.Rotation Model.Solution Model.SolutionVector Model.Ylm Model.RvMap Model.Surface Model.StarryLightCurve Model.SurfaceSystem Model.AutoDiff Model.LightCurveGrad Model.TransitGrad Model.KeplerGrad Model.StarryGrad Model.StarryRvGrad Model.SystemGrad.
From Verif Require Import Spec.LimbDarkSpec Spec.OccultSpec Spec.KeplerSpec Spec.OrbitSpec Spec.RotationSpec Spec.YlmSpec Spec.AutoDiffSpec Spec.KeplerGradSpec Spec.StarryGradSpec Spec.StarryRvGradSpec Spec.SystemGradSpec.
From Verif Require Import Proof.AutoDiff Proof.TransitGrad Proof.KeplerGrad Proof.StarryGrad Proof.StarryGradFlux Proof.StarryGradDesign Proof.StarryGradPoly Proof.StarryGradCurve Proof.StarryGradFree Proof.StarryGradShape Proof.StarryRvGrad Proof.StarryRvFree.
From Verif Require Proof.Shadows Model.Stack.
Import ListNotations.
Local Open Scope R_scope.

Section Obs.
Variables (as_euler : R * R * R -> R * R * R) (eps : R) (low high : list (R * R)) (A2 : nat -> matrix).
Hypothesis He : 0 < eps.
(** an occulted surface of any degree *)
Lemma any_fin sf sd theta td R' X Y Z r x y z : fin_surface sd sf -> fin_opt td theta -> ld_flux (s_u sf) <> 0 -> fin R' r -> fin X x -> fin Y y -> fin Z z -> ~ (x = 0 /\ y = 0) ->
  fin_result (occulted_light_curve_d as_euler eps low high A2 sd R' X Y Z td) (surface_light_curve as_euler eps low high A2 sf (Some r) (Some x) (Some y) (Some z) theta).
Proof using He.
  intros Hs Ht Hf HR HX HY HZ N. destruct (Nat.eq_dec (sd_ydeg sd) 0) as [E|E]; [|now apply occulted_fin].
  unfold occulted_light_curve_d, surface_light_curve. cbv zeta. rewrite (proj1 Hs), E. cbn [Nat.eqb fin_result].
  destruct (uniform_fin eps high He (sd_u sd) (s_u sf) R' X Y Z r x y z) as (t & Et); try assumption; [apply Hs|now rewrite <- Shadows.ld_flux_disk|]. exists t. f_equal. exact Et.
Qed.
Lemma any_tracks s sf sd theta td r x y z R' X Y Z : tracks_surface sf s sd -> tracks_opt theta s td -> ld_flux (s_u (sf s)) <> 0 -> tracks r s R' -> tracks x s X -> tracks y s Y -> tracks z s Z -> ~ (x s = 0 /\ y s = 0) ->
  regular_sight eps high (surf_ydeg (sf s)) (r s) (x s) (y s) (z s) ->
  tracks_result (fun w => surface_light_curve as_euler eps low high A2 (sf w) (Some (r w)) (Some (x w)) (Some (y w)) (Some (z w)) (theta w)) s
    (occulted_light_curve_d as_euler eps low high A2 sd R' X Y Z td).
Proof using He.
  intros Hs Ht Hf HR HX HY HZ N (Nb & Nz & Hreg). rewrite (proj1 (proj1 Hs s)) in Hreg. destruct (Nat.eq_dec (sd_ydeg sd) 0) as [E|E].
  - pose proof Hs as (Ed & _ & (us & Hu & Eu) & _). unfold occulted_light_curve_d. cbv zeta. rewrite E in *. cbn [Nat.eqb tracks_result].
    assert (Hdf : disk_flux (map (fun f => f s) us) <> 0) by (rewrite <- Eu, <- Shadows.ld_flux_disk; exact Hf).
    eexists. split; [|exact (uniform_tracks eps high He us (sd_u sd) r x y z s R' X Y Z Hu Hdf HR HX HY HZ N Nb Nz Hreg)].
    intros w. unfold surface_light_curve. rewrite (proj1 (Ed w)). cbn [Nat.eqb]. rewrite Eu. reflexivity.
  - apply occulted_tracks; try assumption. destruct (sd_ydeg sd); [contradiction|exact Hreg].
Qed.
End Obs.

(** ** lists *)
Lemma mapM_fin {A B} (f : A -> result D) (g : B -> result R) la lb : List.Forall2 (fun a b => fin_result (f a) (g b)) la lb -> fin_results (Stack.mapM f la) (Stack.mapM g lb).
Proof.
  intros H. induction H as [|a b la lb H _ IH]; [exists []; split; [reflexivity|constructor]|]. cbn [Stack.mapM]. unfold fin_result in H. destruct (g b) as [v|e]; cbn [rbind]; [|rewrite H; reflexivity].
  destruct H as (t & ->). cbn [rbind]. unfold fin_results in IH. destruct (Stack.mapM g lb) as [vs|e]; cbn [rbind fin_results]; [|now rewrite IH]. destruct IH as (ds & -> & IH). cbn [rbind].
  exists (Some (v, t) :: ds). split; [reflexivity|]. constructor; [now exists t|exact IH].
Qed.
Lemma mapM_tracks {A B} (f : R -> A -> result R) (g : B -> result D) s la lb : List.Forall2 (fun a b => tracks_result (fun z => f z a) s (g b)) la lb ->
  tracks_results (fun z => Stack.mapM (f z) la) s (Stack.mapM g lb).
Proof.
  intros H. induction H as [|a b la lb H _ IH]; [exists (fun _ => []); split; [reflexivity|exists []; split; [constructor|reflexivity]]|].
  cbn [Stack.mapM]. destruct (g b) as [x|e]; cbn [rbind]; [|intros z; now rewrite (H z)]. destruct H as (h & Eh & Hh).
  destruct (Stack.mapM g lb) as [xs|e]; cbn [rbind tracks_results]; [|intros z; rewrite Eh; cbn [rbind]; now rewrite (IH z)]. destruct IH as (k & Ek & (fs & Hf & Ef)).
  exists (fun z => h z :: k z). split; [intros z; rewrite Eh; cbn [rbind]; now rewrite Ek|]. exists (h :: fs). split; [now constructor|]. intros z. cbn [map]. now rewrite <- Ef.
Qed.
Lemma fin_Rsum ds vs : List.Forall2 fin ds vs -> fin (dsum ds) (Rsum vs).
Proof. intros H. induction H as [|d v ds vs H _ IH]; [exact (fin_cst 0)|]. exact (fin_add d (dsum ds) v (Rsum vs) H IH). Qed.
Lemma TL_Rsum g s ds : tracks_list g s ds -> tracks (fun z => Rsum (g z)) s (dsum ds).
Proof.
  intros (fs & H & E). apply (tracks_ext' (fun z => Rsum (map (fun f => f z) fs))); [intros z; now rewrite E|]. clear E.
  induction H as [|f d fs ds H _ IH]; [exact (tracks_cst 0 s)|]. exact (tracks_add f (fun z => Rsum (map (fun f => f z) fs)) s d (dsum ds) H IH).
Qed.

(** ** one point *)
Section Point.
Variables (au : R) (kep : R -> R -> R * R).
Hypothesis Hk : exact_solver kep.
Lemma phase_fin d sf td t : fin_rsurface d sf -> s_period sf <> Some 0 -> fin td t -> fin_opt (rotational_phase_d d td) (rotational_phase sf t).
Proof.
  intros (_ & Hp & Hph & _) N Ht. unfold rotational_phase_d, rotational_phase. destruct (rs_period d) as [p|], (s_period sf) as [p0|]; try contradiction; [|exact I]. cbn [option_map fin_opt].
  apply fin_add; [|exact Hph]. apply fin_div; [apply fin_mul; [apply fin_cst|exact Ht]|exact Hp|congruence].
Qed.
Variable obs : surface -> option R -> option R -> option R -> option R -> option R -> result R.
Variable bare : rsurface_d -> option D -> result D.
Variable occ : rsurface_d -> D -> D -> D -> D -> option D -> result D.
Variables (Q : surface -> Prop) (Pb : surface -> option R -> Prop) (Po : surface -> R -> R -> R -> R -> option R -> Prop).
Hypothesis Hbare : forall sf sd theta td, fin_rsurface sd sf -> proper_surface sf -> Q sf -> fin_opt td theta -> Pb sf theta -> fin_result (bare sd td) (obs sf None None None None theta).
Hypothesis Hocc : forall sf sd theta td R' X Y Z r x y z, fin_rsurface sd sf -> proper_surface sf -> Q sf -> fin_opt td theta -> fin R' r -> fin X x -> fin Y y -> fin Z z -> Po sf r x y z theta ->
  fin_result (occ sd R' X Y Z td) (obs sf (Some r) (Some x) (Some y) (Some z) theta).
Variables (sys : ssystem) (d : ssystem_d) (t : R) (td : D).
Hypotheses (Hd : fin_system d sys) (Ht : fin td t) (Hp : proper_system sys) (HQ : surfaces_all Q sys) (Hm : system_meets Pb Po au kep sys t).
Lemma observable_fin : fin_results (system_observable_d au kep bare occ d td) (system_observable au kep obs sys t).
Proof using Hk Hd Ht Hp HQ Hm Hbare Hocc.
  destruct Hd as (Hrc & Hsf & HL & HB). destruct Hp as (Nc & Hps0 & Ho & Hs). pose proof (proj2 Hps0) as Np. destruct HQ as (HQ0 & HQs). destruct Hm as (Hm0 & Hms). unfold system_observable_d, system_observable. cbv zeta.
  pose proof (phase_fin _ _ td t Hsf Np Ht) as Hth. pose proof (Hbare (ss_surface sys) (sy_surface d) _ _ Hsf Hps0 HQ0 Hth Hm0) as F0.
  unfold fin_result in F0. destruct (obs (ss_surface sys) None None None None _) as [f0|e] eqn:E0; [|rewrite F0; reflexivity]. destruct F0 as (t0 & ->). cbn [rbind].
  assert (HC : forall p, In p (combine (ss_bodies sys) (ss_surfaces sys)) -> proper_orbit (fst p) /\ (forall s, snd p = Some s -> proper_surface s /\ Q s) /\
    forall r, ob_radius (fst p) = Some r -> let rc := c_radius (ss_central sys) in let '(x, y, z) := relative_position au kep (fst p) t None in
    Po (ss_surface sys) (r / rc) (x / rc) (y / rc) (z / rc) (rotational_phase (ss_surface sys) t) /\ (forall s, snd p = Some s -> Po s (rc / r) (- x / r) (- y / r) (- z / r) (rotational_phase s t))).
  { intros [o s] H. pose proof (in_combine_l _ _ _ _ H) as H1. pose proof (in_combine_r _ _ _ _ H) as H2. split; [now apply Ho|]. split; [intros s' E; cbn in E; subst; split; [now apply Hs|now apply HQs]|]. exact (Hms o s H). }
  clear Ho Hs Hms HQs.
  assert (G1 : fin_results (Stack.mapM (central_obs_d au kep occ d (rotational_phase_d (sy_surface d) td) td) (sy_bodies d))
                 (Stack.mapM (central_obs au kep obs sys (rotational_phase (ss_surface sys) t) t) (ss_bodies sys))).
  { replace (ss_bodies sys) with (map fst (combine (ss_bodies sys) (ss_surfaces sys))) by (clear - HL; revert HL; generalize (ss_surfaces sys); induction (ss_bodies sys) as [|o l IH]; intros [|s l'] H; try discriminate; [reflexivity|cbn [combine map fst]; f_equal; apply IH; now injection H]).
    assert (EM : forall {A B C} (f : B -> result C) (g : A -> B) l, Stack.mapM f (map g l) = Stack.mapM (fun a => f (g a)) l) by (intros A B C f g l; induction l as [|a l IH]; [reflexivity|cbn [map Stack.mapM]; now rewrite IH]).
    rewrite EM. apply mapM_fin. clear - HB HC Hk Hrc Hsf Nc Hps0 HQ0 Hth Ht Hocc. revert HC. induction HB as [|q p lq lp (Hq & _) _ IH]; intros HC; constructor; [|apply IH; intros; apply HC; now right].
    destruct (HC p (or_introl eq_refl)) as ((N1 & N2 & N3 & N4) & _ & Hpo). pose proof (fin_relative_position au kep (fst q) (fst p) td t None None Hk Hq Ht N1 N2 N3 I) as HP.
    unfold central_obs_d, central_obs. cbv zeta. destruct (relative_position_d au kep (fst q) td None) as [[X Y] Z]. cbv zeta in Hpo. destruct (relative_position au kep (fst p) t None) as [[x y] z]. destruct HP as (HX & HY & HZ). cbn [fst snd] in HX, HY, HZ.
    pose proof Hq as (_ & _ & _ & _ & _ & _ & _ & _ & _ & Hr & _). unfold body_radius_d, body_radius. destruct (od_radius (fst q)) as [r|], (ob_radius (fst p)) as [r0|]; try contradiction; [|reflexivity]. cbn [rbind].
    apply Hocc; try assumption; try (apply fin_div; assumption). now apply (Hpo r0). }
  assert (G2 : fin_results (Stack.mapM (body_obs_d au kep occ d td) (sy_bodies d))
                 (Stack.mapM (body_obs au kep obs sys t) (combine (ss_bodies sys) (ss_surfaces sys)))).
  { apply mapM_fin. clear - HB HC Hk Hrc Nc Ht Hocc. revert HC. induction HB as [|q p lq lp (Hq & Hqs) _ IH]; intros HC; constructor; [|apply IH; intros; apply HC; now right].
    destruct (HC p (or_introl eq_refl)) as ((N1 & N2 & N3 & N4) & Hps & Hpo). pose proof (fin_relative_position au kep (fst q) (fst p) td t None None Hk Hq Ht N1 N2 N3 I) as HP.
    unfold body_obs_d, body_obs. cbv zeta. destruct p as [o sf]. cbn [fst snd] in *. destruct (relative_position_d au kep (fst q) td None) as [[X Y] Z]. cbv zeta in Hpo. destruct (relative_position au kep o t None) as [[x y] z]. destruct HP as (HX & HY & HZ). cbn [fst snd] in HX, HY, HZ.
    pose proof Hq as (_ & _ & _ & _ & _ & _ & _ & _ & _ & Hr & _). unfold body_radius_d, body_radius. destruct (od_radius (fst q)) as [r|], (ob_radius o) as [r0|]; try contradiction; [|reflexivity]. cbn [rbind].
    assert (Nr : r0 <> 0) by congruence. destruct (snd q) as [sd|], sf as [sf|]; try contradiction; [|now exists 0]. destruct (Hps sf eq_refl) as (Nf & Np).
    apply Hocc; try assumption; try (apply fin_div; try assumption; now apply fin_neg); [apply phase_fin; [exact Hqs|apply Nf|exact Ht]|now apply (Hpo r0)]. }
  assert (EL : length (sy_bodies d) = length (ss_bodies sys)).
  { transitivity (length (combine (ss_bodies sys) (ss_surfaces sys))); [clear - HB; induction HB; cbn; congruence|rewrite combine_length, HL; lia]. }
  destruct (sy_bodies d) as [|q lq] eqn:Eq, (ss_bodies sys) as [|o lo] eqn:Eo; try discriminate.
  - exists [Some (f0, t0)]. split; [reflexivity|]. constructor; [now exists t0|constructor].
  - unfold fin_results in G1, G2. destruct (Stack.mapM (central_obs au kep _ sys _ t) (o :: lo)) as [fs|e]; cbn [rbind]; [|now rewrite G1]. destruct G1 as (dfs & -> & H1). cbn [rbind].
    destruct (Stack.mapM (body_obs au kep _ sys t) _) as [bs|e]; cbn [rbind]; [|now rewrite G2]. destruct G2 as (dbs & -> & H2). cbn [rbind]. rewrite EL.
    eexists. split; [reflexivity|]. apply Forall2_app; [|exact H2]. destruct (1 <? length (o :: lo))%nat; [|exact H1]. constructor; [|constructor].
    apply fin_sub; [now apply fin_Rsum|apply fin_mul; [now exists t0|apply fin_cst]].
Qed.
End Point.

(** ** paths *)
Section Path.
Variables (au : R) (kep : R -> R -> R * R).
Hypothesis Hk : exact_solver kep.
Variable s : R.
Lemma phase_tracks d sf td t : tracks_rsurface sf s d -> s_period (sf s) <> Some 0 -> tracks t s td -> tracks_opt (fun z => rotational_phase (sf z) (t z)) s (rotational_phase_d d td).
Proof.
  intros (_ & Hp & Hph & _) N Ht. unfold rotational_phase_d, rotational_phase. destruct (rs_period d) as [p|]; [|intros z; now rewrite (Hp z)]. destruct Hp as (g & Eg & Hg). cbn [option_map tracks_opt].
  exists (fun z => 2 * PI * t z / g z + s_phase (sf z)). split; [intros z; now rewrite Eg|].
  apply (tracks_add (fun z => 2 * PI * t z / g z)); [|exact Hph]. apply (tracks_div (fun z => 2 * PI * t z)); [apply (tracks_mul (fun _ => 2 * PI)); [apply tracks_cst|exact Ht]|exact Hg|]. rewrite Eg in N. congruence.
Qed.
Variable obs : surface -> option R -> option R -> option R -> option R -> option R -> result R.
Variable bare : rsurface_d -> option D -> result D.
Variable occ : rsurface_d -> D -> D -> D -> D -> option D -> result D.
Variables (Q : surface -> Prop) (Pb : surface -> option R -> Prop) (Po : surface -> R -> R -> R -> R -> option R -> Prop).
Hypothesis Hbare : forall sf sd theta td, tracks_rsurface sf s sd -> proper_surface (sf s) -> (forall z, Q (sf z)) -> tracks_opt theta s td -> Pb (sf s) (theta s) ->
  tracks_result (fun z => obs (sf z) None None None None (theta z)) s (bare sd td).
Hypothesis Hocc : forall sf sd theta td r x y z R' X Y Z, tracks_rsurface sf s sd -> proper_surface (sf s) -> (forall z, Q (sf z)) -> tracks_opt theta s td -> tracks r s R' -> tracks x s X -> tracks y s Y -> tracks z s Z ->
  Po (sf s) (r s) (x s) (y s) (z s) (theta s) -> tracks_result (fun w => obs (sf w) (Some (r w)) (Some (x w)) (Some (y w)) (Some (z w)) (theta w)) s (occ sd R' X Y Z td).
Variables (sys : R -> ssystem) (d : ssystem_d) (t : R -> R) (td : D).
Hypotheses (Hd : tracks_system sys s d) (Ht : tracks t s td) (Hp : proper_system (sys s)) (HQ : forall z, surfaces_all Q (sys z)) (Hm : system_meets Pb Po au kep (sys s) (t s)).
Lemma observable_tracks : tracks_results (fun z => system_observable au kep obs (sys z) (t z)) s (system_observable_d au kep bare occ d td).
Proof using Hk Hd Ht Hp HQ Hm Hbare Hocc.
  destruct Hd as (Hrc & Hsf & ps & Eps & HB). destruct Hp as (Nc & Hps0 & Ho & Hs). pose proof (proj2 Hps0) as Np. assert (HQ0 : forall z, Q (ss_surface (sys z))) by (intros z; apply HQ). destruct Hm as (Hm0 & Hms). unfold system_observable_d, system_observable. cbv zeta.
  pose proof (phase_tracks _ _ td t Hsf Np Ht) as Hth. pose proof (Hbare (fun z => ss_surface (sys z)) (sy_surface d) _ _ Hsf Hps0 HQ0 Hth Hm0) as F0. cbv beta in F0.
  destruct (bare (sy_surface d) (rotational_phase_d (sy_surface d) td)) as [f0|e]; cbn [rbind tracks_results]; [|intros z; now rewrite (F0 z)]. destruct F0 as (g0 & E0 & H0).
  assert (EC : forall z, combine (ss_bodies (sys z)) (ss_surfaces (sys z)) = map (fun p => (fst p z, option_map (fun f => f z) (snd p))) ps).
  { intros z. destruct (Eps z) as (-> & ->). clear. induction ps as [|p ps IH]; [reflexivity|cbn [map combine]; now rewrite IH]. }
  assert (HC : forall p, In p ps -> proper_orbit (fst p s) /\ (forall f, snd p = Some f -> proper_surface (f s) /\ forall z, Q (f z)) /\
     forall r, ob_radius (fst p s) = Some r -> let rc := c_radius (ss_central (sys s)) in let '(x, y, z) := relative_position au kep (fst p s) (t s) None in
       Po (ss_surface (sys s)) (r / rc) (x / rc) (y / rc) (z / rc) (rotational_phase (ss_surface (sys s)) (t s)) /\ (forall f, snd p = Some f -> Po (f s) (rc / r) (- x / r) (- y / r) (- z / r) (rotational_phase (f s) (t s)))).
  { intros p H. assert (I1 : In (fst p s) (ss_bodies (sys s))) by (rewrite (proj1 (Eps s)); now apply (in_map (fun p => fst p s))).
    assert (I2 : forall z, In (option_map (fun f => f z) (snd p)) (ss_surfaces (sys z))) by (intros z; rewrite (proj2 (Eps z)); now apply (in_map (fun p : body_path => option_map (fun f => f z) (snd p)))).
    assert (I3 : In (fst p s, option_map (fun f => f s) (snd p)) (combine (ss_bodies (sys s)) (ss_surfaces (sys s)))) by (rewrite EC; now apply (in_map (fun p : body_path => (fst p s, option_map (fun f => f s) (snd p))))).
    split; [now apply Ho|]. split; [intros f E; rewrite E in I2; split; [exact (Hs _ (I2 s))|intros z; exact (proj2 (HQ z) _ (I2 z))]|]. intros r Er. cbv zeta. pose proof (Hms _ _ I3 r Er) as Hr1. cbv zeta in Hr1.
    destruct (relative_position au kep (fst p s) (t s) None) as [[x y] z]. split; [apply Hr1|]. intros f E. apply (proj2 Hr1). rewrite E. reflexivity. }
  clear Ho Hs Hms.
  assert (EM : forall {A B C} (f : B -> result C) (g : A -> B) l, Stack.mapM f (map g l) = Stack.mapM (fun a => f (g a)) l) by (intros A B C f g l; induction l as [|a l IH]; [reflexivity|cbn [map Stack.mapM]; now rewrite IH]).
  assert (G1 : tracks_results (fun z => Stack.mapM (central_obs au kep obs (sys z) (rotational_phase (ss_surface (sys z)) (t z)) (t z)) (ss_bodies (sys z))) s
                 (Stack.mapM (central_obs_d au kep occ d (rotational_phase_d (sy_surface d) td) td) (sy_bodies d))).
  { apply (rel_ext (fun f d => tracks_list f s d) (fun z => Stack.mapM (fun p => central_obs au kep obs (sys z) (rotational_phase (ss_surface (sys z)) (t z)) (t z) (fst p z)) ps)); [intros z; now rewrite (proj1 (Eps z)), EM|].
    apply (mapM_tracks (fun z (p : body_path) => central_obs au kep obs (sys z) (rotational_phase (ss_surface (sys z)) (t z)) (t z) (fst p z))).
    clear - HB HC Hk Hrc Hsf Nc Hps0 HQ0 Hth Ht Hocc. revert HC. induction HB as [|p q lp lq (Hq & Hec & _) _ IH]; intros HC; constructor; [|apply IH; intros; apply HC; now right].
    destruct (HC p (or_introl eq_refl)) as ((N1 & N2 & N3 & N4) & _ & Hreg). destruct (tracks_relative_position au kep (fst q) (fst p) s td t None (fun _ => None) Hk Hq Ht N1 N2 Hec (fun z => eq_refl)) as (HX & HY & HZ).
    unfold central_obs_d, central_obs. cbv zeta in *. destruct (relative_position_d au kep (fst q) td None) as [[X Y] Z]. cbn [fst snd] in HX, HY, HZ.
    pose proof Hq as (_ & _ & _ & _ & _ & _ & _ & _ & _ & Hrad & _). unfold body_radius_d, body_radius. destruct (od_radius (fst q)) as [r|]; cbn [rbind].
    - destruct Hrad as (g & Eg & Hg). specialize (Hreg (g s) (Eg s)).
      apply (rel_ext (fun f d => tracks f s d) (fun z => obs (ss_surface (sys z)) (Some (g z / c_radius (ss_central (sys z)))) (Some (fst (fst (relative_position au kep (fst p z) (t z) None)) / c_radius (ss_central (sys z))))
        (Some (snd (fst (relative_position au kep (fst p z) (t z) None)) / c_radius (ss_central (sys z)))) (Some (snd (relative_position au kep (fst p z) (t z) None) / c_radius (ss_central (sys z)))) (rotational_phase (ss_surface (sys z)) (t z)))).
      { intros z. rewrite Eg. destruct (relative_position au kep (fst p z) (t z) None) as [[x y] z']. reflexivity. }
      pose proof (tracks_div g _ s _ _ Hg Hrc Nc) as T1. pose proof (tracks_div _ _ s _ _ HX Hrc Nc) as T2. pose proof (tracks_div _ _ s _ _ HY Hrc Nc) as T3. pose proof (tracks_div _ _ s _ _ HZ Hrc Nc) as T4.
      refine (Hocc (fun z => ss_surface (sys z)) (sy_surface d) _ _ _ _ _ _ _ _ _ _ Hsf Hps0 HQ0 Hth T1 T2 T3 T4 _).
      cbv beta. destruct (relative_position au kep (fst p s) (t s) None) as [[x y] z']. cbn [fst snd]. apply Hreg.
    - intros z. rewrite (Hrad z). destruct (relative_position au kep (fst p z) (t z) None) as [[x y] z']. reflexivity. }
  assert (G2 : tracks_results (fun z => Stack.mapM (body_obs au kep obs (sys z) (t z)) (combine (ss_bodies (sys z)) (ss_surfaces (sys z)))) s
                 (Stack.mapM (body_obs_d au kep occ d td) (sy_bodies d))).
  { apply (rel_ext (fun f d => tracks_list f s d) (fun z => Stack.mapM (fun p => body_obs au kep obs (sys z) (t z) (fst p z, option_map (fun f => f z) (snd p))) ps)); [intros z; now rewrite EC, EM|].
    apply (mapM_tracks (fun z (p : body_path) => body_obs au kep obs (sys z) (t z) (fst p z, option_map (fun f => f z) (snd p)))).
    clear - HB HC Hk Hrc Nc Ht Hocc. revert HC. induction HB as [|p q lp lq (Hq & Hec & Hqs) _ IH]; intros HC; constructor; [|apply IH; intros; apply HC; now right].
    destruct (HC p (or_introl eq_refl)) as ((N1 & N2 & N3 & N4) & Hps & Hreg). destruct (tracks_relative_position au kep (fst q) (fst p) s td t None (fun _ => None) Hk Hq Ht N1 N2 Hec (fun z => eq_refl)) as (HX & HY & HZ).
    unfold body_obs_d, body_obs. cbv zeta in *. destruct (relative_position_d au kep (fst q) td None) as [[X Y] Z]. cbn [fst snd] in HX, HY, HZ.
    pose proof Hq as (_ & _ & _ & _ & _ & _ & _ & _ & _ & Hrad & _). unfold body_radius_d, body_radius. destruct (od_radius (fst q)) as [r|]; cbn [rbind].
    - destruct Hrad as (g & Eg & Hg). specialize (Hreg (g s) (Eg s)). assert (Ng : g s <> 0) by (specialize (Eg s); congruence).
      destruct (snd q) as [sd|], (snd p) as [f|]; try contradiction; cbn [option_map].
      + destruct (Hps f eq_refl) as (Nf & Np).
        apply (rel_ext (fun f d => tracks f s d) (fun z => obs (f z) (Some (c_radius (ss_central (sys z)) / g z)) (Some (- fst (fst (relative_position au kep (fst p z) (t z) None)) / g z))
          (Some (- snd (fst (relative_position au kep (fst p z) (t z) None)) / g z)) (Some (- snd (relative_position au kep (fst p z) (t z) None) / g z)) (rotational_phase (f z) (t z)))).
        { intros z. rewrite Eg. destruct (relative_position au kep (fst p z) (t z) None) as [[x y] z']. reflexivity. }
        pose proof (tracks_div _ g s _ _ Hrc Hg Ng) as T1. pose proof (tracks_div _ g s _ _ (tracks_neg _ _ _ HX) Hg Ng) as T2. pose proof (tracks_div _ g s _ _ (tracks_neg _ _ _ HY) Hg Ng) as T3. pose proof (tracks_div _ g s _ _ (tracks_neg _ _ _ HZ) Hg Ng) as T4.
        pose proof (phase_tracks sd f td t Hqs (proj2 Nf) Ht) as Hth.
        refine (Hocc f sd _ _ _ _ _ _ _ _ _ _ Hqs Nf Np Hth T1 T2 T3 T4 _).
        cbv beta. destruct (relative_position au kep (fst p s) (t s) None) as [[x y] z']. cbn [fst snd]. now apply (proj2 Hreg).
      + exists (fun _ => 0). split; [|apply tracks_cst]. intros z. rewrite Eg. destruct (relative_position au kep (fst p z) (t z) None) as [[x y] z']. reflexivity.
    - intros z. rewrite (Hrad z). destruct (relative_position au kep (fst p z) (t z) None) as [[x y] z']. reflexivity. }
  assert (EL : length (sy_bodies d) = length ps) by (clear - HB; induction HB; cbn; congruence).
  assert (EB : forall z, length (ss_bodies (sys z)) = length ps) by (intros z; rewrite (proj1 (Eps z)); apply map_length).
  destruct (sy_bodies d) as [|q lq] eqn:Eq.
  - exists (fun z => [g0 z]). split; [|exists [g0]; split; [constructor; [exact H0|constructor]|reflexivity]].
    intros z. rewrite E0. cbn [rbind]. specialize (EB z). rewrite <- EL in EB. destruct (ss_bodies (sys z)); [reflexivity|discriminate].
  - assert (EX : forall z (k : result (list R)), match ss_bodies (sys z) with [] => Ok [g0 z] | _ => k end = k) by (intros z k; specialize (EB z); rewrite <- EL in EB; destruct (ss_bodies (sys z)); [discriminate|reflexivity]).
    unfold tracks_results in G1, G2. destruct (Stack.mapM (central_obs_d au kep _ d _ td) (q :: lq)) as [fs|e]; cbn [rbind]; [|intros z; rewrite E0; cbn [rbind]; rewrite EX, (G1 z); reflexivity]. destruct G1 as (h & Eh & Hh).
    destruct (Stack.mapM (body_obs_d au kep _ d td) (q :: lq)) as [bs|e]; cbn [rbind]; [|intros z; rewrite E0; cbn [rbind]; rewrite EX, (Eh z); cbn [rbind]; rewrite (G2 z); reflexivity]. destruct G2 as (k & Ek & Hk2).
    exists (fun z => (if (1 <? length (q :: lq))%nat then [Rsum (h z) - g0 z * INR (length (q :: lq) - 1)] else h z) ++ k z). split.
    + intros z. rewrite E0. cbn [rbind]. rewrite EX, (Eh z). cbn [rbind]. rewrite (Ek z). cbn [rbind]. rewrite (EB z), EL. reflexivity.
    + destruct Hk2 as (ks & Hks & Eks). destruct (1 <? length (q :: lq))%nat.
      * exists ((fun z => Rsum (h z) - g0 z * INR (length (q :: lq) - 1)) :: ks). split; [|intros z; cbn [map app]; now rewrite Eks].
        constructor; [|exact Hks]. apply (tracks_sub (fun z => Rsum (h z))); [now apply TL_Rsum|]. apply tracks_mul; [exact H0|apply tracks_cst].
      * destruct Hh as (hs & Hhs & Ehs). exists (hs ++ ks). split; [now apply Forall2_app|]. intros z. now rewrite map_app, <- Ehs, <- Eks.
Qed.
End Path.

(** ** light curves *)
Lemma system_fin as_euler eps low high A2 au kep : 0 < eps -> exact_solver kep -> forall sys d t td, fin_system d sys -> fin td t -> proper_system sys -> no_alignment au kep sys t ->
  fin_results (starry_light_curve_d as_euler eps low high A2 au kep d td) (starry_light_curve as_euler eps low high A2 au kep sys t).
Proof.
  intros He Hk sys d t td Hd Ht Hp Ha. unfold starry_light_curve_d, starry_light_curve. apply (observable_fin au kep Hk _ _ _ (fun _ => True) any_surface not_aligned); try assumption.
  - intros sf sd theta td' (H & _) (Nf & _) _ Hth _. now apply bare_fin.
  - intros sf sd theta td' R' X Y Z r x y z (H & _) (Nf & _) _ Hth HR HX HY HZ N. now apply any_fin.
  - split; [exact I|intros; exact I].
Qed.
Lemma system_tracks as_euler eps low high A2 au kep : 0 < eps -> exact_solver kep -> forall s sys d t td, tracks_system sys s d -> tracks t s td -> proper_system (sys s) ->
  regular_system au eps high kep (sys s) (t s) ->
  tracks_results (fun z => starry_light_curve as_euler eps low high A2 au kep (sys z) (t z)) s (starry_light_curve_d as_euler eps low high A2 au kep d td).
Proof.
  intros He Hk s sys d t td Hd Ht Hp Hr. unfold starry_light_curve_d, starry_light_curve. refine (observable_tracks au kep Hk s _ _ _ (fun _ => True) any_surface _ _ _ sys d t td Hd Ht Hp _ Hr).
  - intros sf sd theta td' (H & _) (Nf & _) _ Hth _. now apply bare_tracks.
  - intros sf sd theta td' r x y z R' X Y Z (H & _) (Nf & _) _ Hth HR HX HY HZ (N & Hreg). now apply any_tracks.
  - intros z. split; [exact I|intros; exact I].
Qed.

(** ** alignment *)
Lemma aligned_any as_euler eps low high A2 sf sd R' X Y Z td : wf_ylm (s_y sf) -> fin_surface sd sf -> fin X 0 -> fin Y 0 -> occulted_light_curve_d as_euler eps low high A2 sd R' X Y Z td = Ok None.
Proof.
  intros Hw Hs HX HY. destruct (Nat.eq_dec (sd_ydeg sd) 0) as [E|E]; [|now apply (aligned_none as_euler eps low high A2 sf)].
  unfold occulted_light_curve_d. cbv zeta. rewrite E. cbn [Nat.eqb]. now rewrite uniform_none.
Qed.
Lemma system_aligned as_euler eps low high A2 au kep sys d t td o : zyz_euler as_euler -> exact_solver kep -> fin_system d sys -> fin td t -> proper_system sys -> wf_ylm (s_y (ss_surface sys)) ->
  ss_bodies sys = [o] -> ss_surfaces sys = [None] -> ob_radius o <> None -> sky_sep (relative_position au kep o t None) = 0 ->
  starry_light_curve_d as_euler eps low high A2 au kep d td = Ok [None; cst 0].
Proof.
  intros Hz Hk (Hrc & Hsf & _ & HB) Ht (Nc & (Nf & Np) & Ho & _) Hw Eb Es Nr Hal. rewrite Eb, Es in HB. cbn [combine] in HB. inversion HB as [|q p lq lp (Hq & Hqs) Hn E1 E2]; subst. inversion Hn; subst. cbn [fst snd] in *.
  destruct (snd q) as [?|] eqn:Es2; [contradiction|]. destruct (Ho o) as (N1 & N2 & N3 & _); [rewrite Eb; now left|]. pose proof (fin_relative_position au kep (fst q) o td t None None Hk Hq Ht N1 N2 N3 I) as HP.
  unfold starry_light_curve_d, system_observable_d. cbv zeta.
  pose proof (bare_fin as_euler eps low high A2 (ss_surface sys) (rs_map (sy_surface d)) _ _ (proj1 Hsf) (phase_fin (sy_surface d) (ss_surface sys) td t Hsf Np Ht) Nf) as F0. unfold fin_result in F0.
  rewrite (Shadows.alone_flux as_euler Hz (ss_surface sys) Hw A2 eps low high _ None None None) in F0. destruct F0 as (t0 & ->). cbn [rbind]. rewrite <- E1.
  assert (E3 : central_obs_d au kep (fun s => occulted_light_curve_d as_euler eps low high A2 (rs_map s)) d (rotational_phase_d (sy_surface d) td) td q = Ok None /\ body_obs_d au kep (fun s => occulted_light_curve_d as_euler eps low high A2 (rs_map s)) d td q = Ok (cst 0)).
  { unfold central_obs_d, body_obs_d. cbv zeta. rewrite Es2. pose proof Hq as (_ & _ & _ & _ & _ & _ & _ & _ & _ & Hr & _). unfold body_radius_d.
    destruct (relative_position_d au kep (fst q) td None) as [[X Y] Z]. destruct (relative_position au kep o t None) as [[x y] z]. destruct HP as (HX & HY & _). cbn [fst snd] in HX, HY. cbn [sky_sep] in Hal.
    destruct (od_radius (fst q)) as [r|], (ob_radius o) as [r0|]; try contradiction; cbn [rbind]. split; [|reflexivity].
    assert (A : x ^ 2 + y ^ 2 = 0) by (apply sqrt_eq_0; [nra|exact Hal]). assert (x = 0 /\ y = 0) as [-> ->] by nra.
    apply (aligned_any as_euler eps low high A2 (ss_surface sys)); [exact Hw|apply Hsf| |]; replace 0 with (0 / c_radius (ss_central sys)) by (field; exact Nc); now apply fin_div. }
  destruct E3 as (E3 & E4). cbn [Stack.mapM length Nat.ltb Nat.leb]. rewrite E3, E4. reflexivity.
Qed.

(** ** radial velocities *)
Section RvObs.
Variables (as_euler : R * R * R -> R * R * R) (eps : R) (low high : list (R * R)) (A2 : nat -> matrix) (au : R) (kep : R -> R -> R * R).
Hypothesis He : 0 < eps.
Hypothesis Hk : exact_solver kep.
Definition bare_rv_s (s : rsurface_d) := bare_rv_d as_euler (rs_map s) (rs_period s) (rs_radius s).
Definition occ_rv_s (s : rsurface_d) := occulted_rv_d as_euler eps low high A2 (rs_map s) (rs_period s) (rs_radius s).
Lemma rotation_fin d sf : fin_rsurface d sf -> rigid sf -> fin_rotation sf (rs_period d) (rs_radius d).
Proof. intros (_ & Hp & _ & Hr) (Hs & N). split; [exact Hs|]. split; [exact N|]. split; [exact Hp|exact Hr]. Qed.
Lemma rotation_tracks d sf s : tracks_rsurface sf s d -> (forall z, rigid (sf z)) -> tracks_rotation sf s (rs_period d) (rs_radius d).
Proof. intros (_ & Hp & _ & Hr) Hs. split; [intros z; exact (Hs z)|]. split; [exact Hp|exact Hr]. Qed.
Lemma rv_system_fin sys d t td : fin_system d sys -> fin td t -> proper_system sys -> surfaces_all rigid sys -> system_meets (rv_bare_ok as_euler eps low high A2) (rv_occulted_ok as_euler eps low high A2) au kep sys t ->
  fin_results (system_observable_d au kep bare_rv_s occ_rv_s d td) (system_observable au kep (surface_radial_velocity as_euler eps low high A2) sys t).
Proof using He Hk.
  intros Hd Ht Hp HQ Hm. refine (observable_fin au kep Hk _ _ _ rigid _ _ _ _ sys d t td Hd Ht Hp HQ Hm).
  - intros sf sd theta td' H (Nf & _) Hq Hth Hb. apply bare_rv_fin; [apply H|now apply rotation_fin|exact Hth|exact Nf|exact Hb].
  - intros sf sd theta td' R' X Y Z r x y z H (Nf & _) Hq Hth HR HX HY HZ (N & Hb). apply occulted_rv_fin; try assumption; [apply H|now apply rotation_fin].
Qed.
Lemma rv_system_tracks s sys d t td : tracks_system sys s d -> tracks t s td -> proper_system (sys s) -> (forall z, surfaces_all rigid (sys z)) ->
  system_meets (rv_bare_ok as_euler eps low high A2) (rv_occulted_regular as_euler eps low high A2) au kep (sys s) (t s) ->
  tracks_results (fun z => system_observable au kep (surface_radial_velocity as_euler eps low high A2) (sys z) (t z)) s (system_observable_d au kep bare_rv_s occ_rv_s d td).
Proof using He Hk.
  intros Hd Ht Hp HQ Hm. refine (observable_tracks au kep Hk s _ _ _ rigid _ _ _ _ sys d t td Hd Ht Hp HQ Hm).
  - intros sf sd theta td' H (Nf & _) Hq Hth Hb. apply bare_rv_tracks; [apply H|now apply rotation_tracks|exact Hth|exact Nf|exact Hb].
  - intros sf sd theta td' r x y z R' X Y Z H (Nf & _) Hq Hth HR HX HY HZ ((N & Hb) & Nb & Nz & Hreg). apply occulted_rv_tracks; try assumption; [apply H|now apply rotation_tracks].
Qed.
Lemma mapM_fin_table {A B} (f : A -> result (list D)) (g : B -> result (list R)) la lb : List.Forall2 (fun a b => fin_results (f a) (g b)) la lb -> fin_table (Stack.mapM f la) (Stack.mapM g lb).
Proof.
  intros H. induction H as [|a b la lb H _ IH]; [exists []; split; [reflexivity|constructor]|]. cbn [Stack.mapM]. unfold fin_results in H. destruct (g b) as [v|e]; cbn [rbind]; [|rewrite H; reflexivity].
  destruct H as (t & -> & Hv). cbn [rbind]. unfold fin_table in IH. destruct (Stack.mapM g lb) as [vs|e]; cbn [rbind fin_table]; [|now rewrite IH]. destruct IH as (ds & -> & IH). cbn [rbind].
  exists (t :: ds). split; [reflexivity|]. now constructor.
Qed.
Lemma mapM_tracks_table {A B} (f : R -> A -> result (list R)) (g : B -> result (list D)) s la lb : List.Forall2 (fun a b => tracks_results (fun z => f z a) s (g b)) la lb ->
  tracks_table (fun z => Stack.mapM (f z) la) s (Stack.mapM g lb).
Proof.
  intros H. induction H as [|a b la lb H _ IH]; [exists []; split; [reflexivity|constructor]|].
  cbn [Stack.mapM]. destruct (g b) as [x|e]; cbn [rbind]; [|intros z; now rewrite (H z)]. destruct H as (h & Eh & Hh).
  destruct (Stack.mapM g lb) as [xs|e]; cbn [rbind tracks_table]; [|intros z; rewrite Eh; cbn [rbind]; now rewrite (IH z)]. destruct IH as (k & Ek & Hk2).
  exists (h :: k). split; [intros z; rewrite Eh; cbn [rbind]; now rewrite Ek|]. now constructor.
Qed.
Lemma rv_fin sys d ts tds : fin_system d sys -> List.Forall2 fin tds ts -> proper_system sys -> surfaces_all rigid sys ->
  (forall t, In t ts -> system_meets (rv_bare_ok as_euler eps low high A2) (rv_occulted_ok as_euler eps low high A2) au kep sys t) ->
  fin_table (starry_radial_velocity_d as_euler eps low high A2 au kep d tds) (starry_radial_velocity as_euler eps low high A2 au kep sys ts).
Proof using He Hk.
  intros Hd Ht Hp HQ Hm. unfold starry_radial_velocity_d, starry_radial_velocity, system_radial_velocity, system_observable_times. fold bare_rv_s. change (fun s => occulted_rv_d as_euler eps low high A2 (rs_map s) (rs_period s) (rs_radius s)) with occ_rv_s.
  assert (G : fin_table (Stack.mapM (system_observable_d au kep bare_rv_s occ_rv_s d) tds) (Stack.mapM (system_observable au kep (surface_radial_velocity as_euler eps low high A2) sys) ts)).
  { apply mapM_fin_table. clear - Hd Ht Hp HQ Hm He Hk. induction Ht as [|td t tds ts H Ht' IH]; constructor; [apply rv_system_fin; try assumption; apply Hm; now left|apply IH; intros; apply Hm; now right]. }
  unfold fin_table in G. destruct (Stack.mapM (system_observable _ _ _ _) ts) as [rows|e]; cbn [rbind]; [|now rewrite G]. destruct G as (drows & -> & HG). cbn [rbind].
  destruct Hd as (_ & _ & HL & HB). destruct Hp as (_ & _ & Ho & _).
  destruct (ss_bodies sys) as [|o lo], (ss_surfaces sys) as [|w lw]; try discriminate; cbn [combine] in HB; inversion HB as [|q p lq lp (Hq & _) Hn E1 E2]; subst; [reflexivity|].
  destruct (Ho o (or_introl eq_refl)) as (N1 & N2 & N3 & _). cbn [fst] in Hq. eexists. split; [reflexivity|].
  clear - Ht HG Hk Hq N1 N2 N3. revert rows drows HG. induction Ht as [|td t tds ts H Ht' IH]; intros rows drows HG; [constructor|].
  destruct HG as [|dr r drs rs Hr HG]; [constructor|]. cbn [combine map snd fst]. constructor; [|now apply IH]. destruct Hr as [|dc c dr r Hc Hr]; [constructor|]. constructor; [|exact Hr].
  apply fin_add; [exact Hc|]. now apply fin_radial_velocity.
Qed.
Lemma rv_tracks s sys d fts tds : tracks_system sys s d -> List.Forall2 (fun f td => tracks f s td) fts tds -> proper_system (sys s) -> (forall z, surfaces_all rigid (sys z)) ->
  (forall f, In f fts -> system_meets (rv_bare_ok as_euler eps low high A2) (rv_occulted_regular as_euler eps low high A2) au kep (sys s) (f s)) ->
  tracks_table (fun z => starry_radial_velocity as_euler eps low high A2 au kep (sys z) (map (fun f => f z) fts)) s (starry_radial_velocity_d as_euler eps low high A2 au kep d tds).
Proof using He Hk.
  intros Hd Ht Hp HQ Hm. unfold starry_radial_velocity_d, starry_radial_velocity, system_radial_velocity, system_observable_times. fold bare_rv_s. change (fun s => occulted_rv_d as_euler eps low high A2 (rs_map s) (rs_period s) (rs_radius s)) with occ_rv_s.
  assert (EM : forall {A B C} (f : B -> result C) (g : A -> B) l, Stack.mapM f (map g l) = Stack.mapM (fun a => f (g a)) l) by (intros A B C f g l; induction l as [|a l IH]; [reflexivity|cbn [map Stack.mapM]; now rewrite IH]).
  assert (G : tracks_table (fun z => Stack.mapM (fun f => system_observable au kep (surface_radial_velocity as_euler eps low high A2) (sys z) (f z)) fts) s (Stack.mapM (system_observable_d au kep bare_rv_s occ_rv_s d) tds)).
  { apply (mapM_tracks_table (fun z (f : R -> R) => system_observable au kep (surface_radial_velocity as_euler eps low high A2) (sys z) (f z))). clear - Hd Ht Hp HQ Hm He Hk. induction Ht as [|f td fts tds H Ht' IH]; constructor; [apply rv_system_tracks; try assumption; apply Hm; now left|apply IH; intros; apply Hm; now right]. }
  destruct (Stack.mapM _ tds) as [drows|e]; cbn [rbind]; [|intros z; rewrite EM, (G z); reflexivity]. destruct G as (rows & Er & HG).
  destruct Hd as (_ & _ & ps & Eps & HB). destruct Hp as (_ & _ & Ho & _).
  inversion HB as [|p q lp lq (Hq & Hec & _) Hn E1 E2].
  - subst ps. cbn [tracks_table]. intros z. rewrite EM, (Er z). cbn [rbind]. rewrite (proj1 (Eps z)). reflexivity.
  - destruct (Ho (fst p s)) as (N1 & N2 & N3 & _); [rewrite (proj1 (Eps s)), <- E1; now left|].
    set (row := fun (f : R -> R) (r : R -> list R) (z : R) => match r z with [] => [] | c :: l => (c + radial_velocity au kep (fst p z) (f z) None) :: l end).
    exists (map (fun fr => row (fst fr) (snd fr)) (combine fts rows)). split.
    + intros z. rewrite EM, (Er z). cbn [rbind]. rewrite (proj1 (Eps z)), <- E1. cbn [map]. f_equal. clear. revert rows. induction fts as [|f fts IH]; intros [|r rows]; try reflexivity. cbn [map combine fst snd]. f_equal. apply IH.
    + clear - Ht HG Hk Hq Hec N1 N2 row. revert rows drows HG. induction Ht as [|f td fts tds H Ht' IH]; intros rows drows HG; [constructor|].
      destruct HG as [|r dr rs drs Hr HG]; [constructor|]. cbn [combine map snd fst]. constructor; [|now apply IH]. destruct Hr as (fs & Hfs & Ef). destruct Hfs as [|g dc gs dcs Hg Hgs].
      * exists []. split; [constructor|]. intros z. unfold row. now rewrite Ef.
      * exists ((fun z => g z + radial_velocity au kep (fst p z) (f z) None) :: gs). split; [|intros z; unfold row; now rewrite Ef].
        constructor; [|exact Hgs]. apply tracks_add; [exact Hg|]. now apply (tracks_radial_velocity au kep (fst q) (fst p) s td f None (fun _ => None)).
Qed.
End RvObs.
