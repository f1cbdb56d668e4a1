(** Which entries of the light curve of a system have gradients. *)
From Coq Require Import Reals List Bool Arith ZArith Lia Lra.
From Verif Require Import Base.RealAux Model.LimbDark Model.Keplerian Model.Poly Model.Ylm Model.RvMap Model.Surface Model.StarryLightCurve Model.SurfaceSystem Model.AutoDiff Model.TransitGrad Model.KeplerGrad Model.StarryGrad Model.StarryRvGrad Model.SystemGrad.
From Verif Require Import Spec.OccultSpec Spec.KeplerSpec Spec.OrbitSpec Spec.RotationSpec Spec.YlmSpec Spec.AutoDiffSpec Spec.KeplerGradSpec Spec.StarryGradSpec Spec.StarryRvGradSpec Spec.SystemGradSpec.
From Verif Require Import Proof.AutoDiff Proof.TransitGrad Proof.KeplerGrad Proof.StarryGrad Proof.SystemGrad.
From Verif Require Import Proof.StarryGradFlux Proof.StarryGradDesign Proof.StarryGradPoly Proof.StarryGradCurve Proof.StarryGradFree.
From Verif Require Proof.Shadows Model.Stack.
Import ListNotations.
Local Open Scope R_scope.

Lemma dsum_none l : dsum l = None <-> In None l.
Proof.
  unfold dsum. induction l as [|a l IH]; [split; [discriminate|intros []]|]. cbn [fold_right In]. destruct a as [[v t]|].
  - destruct (fold_right dadd (cst 0) l) as [[v' t']|]; unfold dadd, lift2; cbn; split; intros H; try discriminate.
    + exfalso. destruct H as [H|H]; [discriminate|]. apply IH in H. discriminate.
    + right. now apply IH.
    + reflexivity.
  - split; [now left|]. intros _. reflexivity.
Qed.
Lemma dsub_none a v t : dsub a (Some (v, t)) = None <-> a = None.
Proof. destruct a as [[w s]|]; cbn; split; intros H; try discriminate; reflexivity. Qed.
Lemma mapM_points {A B} (f : A -> result D) (g : B -> result R) (P : D -> B -> Prop) la lb ws : Stack.mapM g lb = Ok ws ->
  List.Forall2 (fun a b => forall w, g b = Ok w -> exists c, f a = Ok c /\ P c b) la lb -> exists cs, Stack.mapM f la = Ok cs /\ List.Forall2 P cs lb.
Proof.
  intros E H. revert ws E. induction H as [|a b la lb H _ IH]; intros ws E; [exists []; split; [reflexivity|constructor]|]. cbn [Stack.mapM] in *.
  destruct (g b) as [w|]; cbn [rbind] in E; [|discriminate]. destruct (Stack.mapM g lb) as [ws'|]; cbn [rbind] in E; [|discriminate].
  destruct (H w eq_refl) as (c & -> & Hc). destruct (IH ws' eq_refl) as (cs & -> & Hcs). cbn [rbind]. exists (c :: cs). split; [reflexivity|]. now constructor.
Qed.
Lemma sep_zero x y : sqrt (x ^ 2 + y ^ 2) = 0 <-> x = 0 /\ y = 0.
Proof.
  split; [|intros [-> ->]; replace (0 ^ 2 + 0 ^ 2) with 0 by ring; apply sqrt_0]. intros H. assert (A : x ^ 2 + y ^ 2 = 0) by (apply sqrt_eq_0; [nra|exact H]). split; nra.
Qed.
Lemma scaled a r : r <> 0 -> (a / r = 0 <-> a = 0).
Proof. intros N. split; [intros H; replace a with (a / r * r) by (field; exact N); rewrite H; ring|intros ->; field; exact N]. Qed.
Section Generic.
Variables (au : R) (kep : R -> R -> R * R).
Hypothesis Hk : exact_solver kep.
Variable obs : surface -> option R -> option R -> option R -> option R -> option R -> result R.
Variable bare : rsurface_d -> option D -> result D.
Variable occ : rsurface_d -> D -> D -> D -> D -> option D -> result D.
Variables (Q : surface -> Prop) (Pb : surface -> option R -> Prop) (Po : surface -> R -> R -> R -> R -> option R -> Prop).
Hypothesis Hbare : forall sf sd theta td, fin_rsurface sd sf -> proper_surface sf -> Q sf -> fin_opt td theta -> Pb sf theta -> fin_result (bare sd td) (obs sf None None None None theta).
Hypothesis Hocc : forall sf sd theta td R' X Y Z r x y z w, fin_rsurface sd sf -> proper_surface sf -> Q sf -> fin_opt td theta -> fin R' r -> fin X x -> fin Y y -> fin Z z -> Po sf r x y z theta ->
  obs sf (Some r) (Some x) (Some y) (Some z) theta = Ok w -> exists c, occ sd R' X Y Z td = Ok c /\ (c = None <-> x = 0 /\ y = 0).
Variables (sys : ssystem) (d : ssystem_d) (t : R) (td : D).
Hypotheses (Hd : fin_system d sys) (Ht : fin td t) (Hp : proper_system sys) (HQ : surfaces_all Q sys) (Hm : system_meets Pb Po au kep sys t).
Notation in_line := (in_line au kep t).
Lemma observable_iff v : ss_bodies sys <> [] -> system_observable au kep obs sys t = Ok v ->
  exists c bs, system_observable_d au kep bare occ d td = Ok (c :: bs) /\ (c = None <-> exists o, In o (ss_bodies sys) /\ in_line o) /\
    List.Forall2 (fun b p => b = None <-> snd p <> None /\ in_line (fst p)) bs (combine (ss_bodies sys) (ss_surfaces sys)).
Proof using Hk Hbare Hocc Hd Ht Hp HQ Hm.
  intros Nb E. destruct Hd as (Hrc & Hsf & HL & HB). destruct Hp as (Nc & Hps0 & Ho & Hs). pose proof (proj2 Hps0) as Np. destruct HQ as (HQ0 & HQs). destruct Hm as (Hm0 & Hms). unfold system_observable in E. unfold system_observable_d. cbv zeta in *.
  pose proof (phase_fin (sy_surface d) (ss_surface sys) td t Hsf Np Ht) as Hth. pose proof (Hbare (ss_surface sys) (sy_surface d) _ _ Hsf Hps0 HQ0 Hth Hm0) as F0. unfold fin_result in F0.
  destruct (obs (ss_surface sys) None None None None _) as [f0|] eqn:E0; cbn [rbind] in E; [|discriminate]. destruct F0 as (t0 & ->). cbn [rbind].
  assert (HC : forall p, In p (combine (ss_bodies sys) (ss_surfaces sys)) -> proper_orbit (fst p) /\ (forall s, snd p = Some s -> proper_surface s /\ Q s) /\
    forall r, ob_radius (fst p) = Some r -> let rc := c_radius (ss_central sys) in let '(x, y, z) := relative_position au kep (fst p) t None in
    Po (ss_surface sys) (r / rc) (x / rc) (y / rc) (z / rc) (rotational_phase (ss_surface sys) t) /\ (forall s, snd p = Some s -> Po s (rc / r) (- x / r) (- y / r) (- z / r) (rotational_phase s t))).
  { intros [o s] H. pose proof (in_combine_l _ _ _ _ H) as H1. pose proof (in_combine_r _ _ _ _ H) as H2. split; [now apply Ho|]. split; [intros s' E'; cbn in E'; subst; split; [now apply Hs|now apply HQs]|]. exact (Hms o s H). }
  clear Ho Hs HQs Hms.
  assert (EB : map fst (combine (ss_bodies sys) (ss_surfaces sys)) = ss_bodies sys) by (clear - HL; revert HL; generalize (ss_surfaces sys); induction (ss_bodies sys) as [|o l IH]; intros [|s l'] H; try discriminate; [reflexivity|cbn [combine map fst]; f_equal; apply IH; now injection H]).
  assert (EL : length (sy_bodies d) = length (ss_bodies sys)).
  { transitivity (length (combine (ss_bodies sys) (ss_surfaces sys))); [clear - HB; induction HB; cbn; congruence|rewrite combine_length, HL; lia]. }
  assert (E' : rbind (Stack.mapM (central_obs au kep obs sys (rotational_phase (ss_surface sys) t) t) (ss_bodies sys)) (fun fs =>
    rbind (Stack.mapM (body_obs au kep obs sys t) (combine (ss_bodies sys) (ss_surfaces sys))) (fun bs => Ok ((if (1 <? length (ss_bodies sys))%nat then [Rsum fs - f0 * INR (length (ss_bodies sys) - 1)] else fs) ++ bs))) = Ok v) by (destruct (ss_bodies sys); [contradiction|exact E]). clear E.
  destruct (Stack.mapM (central_obs _ _ _ _ _ _) _) as [fs|] eqn:E1; cbn [rbind] in E'; [|discriminate].
  destruct (Stack.mapM (body_obs _ _ _ _ _) _) as [bs|] eqn:E2; cbn [rbind] in E'; [|discriminate]. clear E'.
  rewrite <- EB in E1.
  assert (EM : forall {A B C} (f : B -> result C) (g : A -> B) l, Stack.mapM f (map g l) = Stack.mapM (fun a => f (g a)) l) by (intros A B C f g l; induction l as [|a l IH]; [reflexivity|cbn [map Stack.mapM]; now rewrite IH]).
  rewrite EM in E1.
  destruct (mapM_points (central_obs_d au kep occ d (rotational_phase_d (sy_surface d) td) td) _ (fun c p => c = None <-> in_line (fst p)) (sy_bodies d) _ fs E1) as (cs & Ec & Hcs).
  { clear - HB HC Hk Hrc Hsf Nc Hps0 HQ0 Hth Ht Hocc. revert HC. induction HB as [|q p lq lp (Hq & _) _ IH]; intros HC; constructor; [|apply IH; intros; apply HC; now right]. intros w.
    destruct (HC p (or_introl eq_refl)) as ((N1 & N2 & N3 & N4) & _ & Hpo). pose proof (fin_relative_position au kep (fst q) (fst p) td t None None Hk Hq Ht N1 N2 N3 I) as HP.
    unfold central_obs_d, central_obs, SystemGradSpec.in_line. cbv zeta. destruct (relative_position_d au kep (fst q) td None) as [[X Y] Z]. cbv zeta in Hpo. destruct (relative_position au kep (fst p) t None) as [[x y] z]. destruct HP as (HX & HY & HZ). cbn [fst snd] in HX, HY, HZ.
    pose proof Hq as (_ & _ & _ & _ & _ & _ & _ & _ & _ & Hr & _). unfold body_radius_d, body_radius. destruct (od_radius (fst q)) as [r|], (ob_radius (fst p)) as [r0|]; try contradiction; cbn [rbind]; [|discriminate]. intros E.
    destruct (Hocc (ss_surface sys) (sy_surface d) _ _ (ddiv r (sy_radius d)) (ddiv X (sy_radius d)) (ddiv Y (sy_radius d)) (ddiv Z (sy_radius d)) _ _ _ _ w Hsf Hps0 HQ0 Hth (fin_div _ _ _ _ Hr Hrc Nc) (fin_div _ _ _ _ HX Hrc Nc) (fin_div _ _ _ _ HY Hrc Nc) (fin_div _ _ _ _ HZ Hrc Nc) (proj1 (Hpo r0 eq_refl)) E) as (c & Hc & Hi).
    exists c. split; [exact Hc|]. cbn [sky_sep]. rewrite sep_zero, Hi, !scaled by exact Nc. reflexivity. }
  destruct (mapM_points (body_obs_d au kep occ d td) _ (fun b p => b = None <-> snd p <> None /\ in_line (fst p)) (sy_bodies d) _ bs E2) as (ds & Ed & Hds).
  { clear - HB HC Hk Hrc Nc Ht Hocc. revert HC. induction HB as [|q p lq lp (Hq & Hqs) _ IH]; intros HC; constructor; [|apply IH; intros; apply HC; now right]. intros w.
    destruct (HC p (or_introl eq_refl)) as ((N1 & N2 & N3 & N4) & Hps & Hpo). pose proof (fin_relative_position au kep (fst q) (fst p) td t None None Hk Hq Ht N1 N2 N3 I) as HP.
    unfold body_obs_d, body_obs, SystemGradSpec.in_line. cbv zeta. destruct p as [o sf]. cbn [fst snd] in *. destruct (relative_position_d au kep (fst q) td None) as [[X Y] Z]. cbv zeta in Hpo. destruct (relative_position au kep o t None) as [[x y] z]. destruct HP as (HX & HY & HZ). cbn [fst snd] in HX, HY, HZ.
    pose proof Hq as (_ & _ & _ & _ & _ & _ & _ & _ & _ & Hr & _). unfold body_radius_d, body_radius. destruct (od_radius (fst q)) as [r|], (ob_radius o) as [r0|]; try contradiction; cbn [rbind]; [|discriminate].
    assert (Nr : r0 <> 0) by congruence. destruct (snd q) as [sd|], sf as [sf|]; try contradiction; [|intros _; exists (cst 0); split; [reflexivity|]; split; [discriminate|intros [H _]; contradiction]]. destruct (Hps sf eq_refl) as (Hps' & HQ'). intros E.
    destruct (Hocc sf sd _ _ (ddiv (sy_radius d) r) (ddiv (dneg X) r) (ddiv (dneg Y) r) (ddiv (dneg Z) r) _ _ _ _ w Hqs Hps' HQ' (phase_fin sd sf td t Hqs (proj2 Hps') Ht) (fin_div _ _ _ _ Hrc Hr Nr) (fin_div _ _ _ _ (fin_neg _ _ HX) Hr Nr) (fin_div _ _ _ _ (fin_neg _ _ HY) Hr Nr) (fin_div _ _ _ _ (fin_neg _ _ HZ) Hr Nr) (proj2 (Hpo r0 eq_refl) sf eq_refl) E) as (c & Hc & Hi).
    exists c. split; [exact Hc|]. cbn [sky_sep]. rewrite sep_zero, Hi, !scaled by exact Nr. split; [intros [H1 H2]; split; [discriminate|split; lra]|intros [_ [H1 H2]]; split; lra]. }
  assert (G : exists c, (if (1 <? length (sy_bodies d))%nat then [dsub (dsum cs) (dmul (Some (f0, t0)) (cst (INR (length (sy_bodies d) - 1))))] else cs) = [c] /\ (c = None <-> exists o, In o (ss_bodies sys) /\ in_line o)).
  { assert (Hex : In None cs <-> exists o, In o (ss_bodies sys) /\ in_line o).
    { rewrite <- EB. clear - Hcs. induction Hcs as [|c p cs ps H _ IH]; [split; [intros []|intros (o & [] & _)]|]. cbn [In map]. split.
      - intros [E|E]; [exists (fst p); split; [now left|now apply H]|]. apply IH in E. destruct E as (o & Ho & Ha). exists o. split; [now right|exact Ha].
      - intros (o & [<-|Ho] & Ha); [left; now apply H|right; apply IH; now exists o]. }
    assert (LC : length cs = length (ss_bodies sys)) by (rewrite <- EB, map_length; clear - Hcs; induction Hcs; cbn; congruence).
    destruct (1 <? length (sy_bodies d))%nat eqn:EN.
    - eexists. split; [reflexivity|]. rewrite <- Hex, <- dsum_none. apply dsub_none.
    - apply Nat.ltb_ge in EN. destruct cs as [|c [|c' cs']]; [destruct (ss_bodies sys); [contradiction|discriminate]| |cbn [length] in LC; lia]. exists c. split; [reflexivity|]. rewrite <- Hex. cbn [In]. split; [now left|intros [H|[]]; exact H]. }
  destruct G as (c & Gc & Hc). exists c, ds. split; [|split; [exact Hc|exact Hds]].
  destruct (sy_bodies d) as [|q lq] eqn:Eq; [destruct (ss_bodies sys); [contradiction|discriminate]|]. rewrite Ec. cbn [rbind]. rewrite Ed. cbn [rbind]. rewrite Gc. reflexivity.
Qed.
End Generic.
Section More.
Variables (as_euler : R * R * R -> R * R * R) (eps : R) (low high : list (R * R)) (A2 : nat -> matrix) (au : R) (kep : R -> R -> R * R).
Hypothesis He : 0 < eps.
Hypothesis Hk : exact_solver kep.
Notation obs := (surface_light_curve as_euler eps low high A2).
Notation occ := (fun s : rsurface_d => occulted_light_curve_d as_euler eps low high A2 (rs_map s)).
(** an occulted surface *)
Lemma occ_iff sf sd theta td R' X Y Z r x y z w : wf_ylm (s_y sf) -> fin_rsurface sd sf -> fin_opt td theta -> ld_flux (s_u sf) <> 0 -> fin R' r -> fin X x -> fin Y y -> fin Z z ->
  obs sf (Some r) (Some x) (Some y) (Some z) theta = Ok w -> exists c, occ sd R' X Y Z td = Ok c /\ (c = None <-> x = 0 /\ y = 0).
Proof using He.
  intros Hw Hs Hth Hf HR HX HY HZ E. destruct (Req_EM_T x 0) as [Ex|Ex]; [destruct (Req_EM_T y 0) as [Ey|Ey]|].
  - subst. exists None. split; [apply (aligned_any as_euler eps low high A2 sf); try assumption; apply Hs|]. split; [intros _; split; reflexivity|reflexivity].
  - pose proof (any_fin as_euler eps low high A2 He sf (rs_map sd) theta td R' X Y Z r x y z (proj1 Hs) Hth Hf HR HX HY HZ ltac:(intros [_ H]; contradiction)) as F. rewrite E in F. destruct F as (t & F). eexists. split; [exact F|]. split; [discriminate|intros [_ H]; contradiction].
  - pose proof (any_fin as_euler eps low high A2 He sf (rs_map sd) theta td R' X Y Z r x y z (proj1 Hs) Hth Hf HR HX HY HZ ltac:(intros [H _]; contradiction)) as F. rewrite E in F. destruct F as (t & F). eexists. split; [exact F|]. split; [discriminate|intros [H _]; contradiction].
Qed.
Lemma system_iff sys d t td : fin_system d sys -> fin td t -> proper_system sys -> surfaces_all (fun s => wf_ylm (s_y s)) sys -> forall v, ss_bodies sys <> [] -> starry_light_curve as_euler eps low high A2 au kep sys t = Ok v ->
  exists c bs, starry_light_curve_d as_euler eps low high A2 au kep d td = Ok (c :: bs) /\ (c = None <-> exists o, In o (ss_bodies sys) /\ in_line au kep t o) /\
    List.Forall2 (fun b p => b = None <-> snd p <> None /\ in_line au kep t (fst p)) bs (combine (ss_bodies sys) (ss_surfaces sys)).
Proof using He Hk.
  intros Hd Ht Hp HQ v Nb E. refine (observable_iff au kep Hk obs (fun s => bare_light_curve_d as_euler (rs_map s)) occ (fun s => wf_ylm (s_y s)) any_surface (fun s r x y z _ => True) _ _ sys d t td Hd Ht Hp HQ _ v Nb E).
  - intros sf sd theta td' Hs (Hf & _) _ Hth _. apply bare_fin; [apply Hs|exact Hth|exact Hf].
  - intros sf sd theta td' R' X Y Z r x y z w Hs (Hf & _) Hw Hth HR HX HY HZ _ E'. exact (occ_iff sf sd theta td' R' X Y Z r x y z w Hw Hs Hth Hf HR HX HY HZ E').
  - split; [exact I|]. intros o own _ r _. cbv zeta. destruct (relative_position au kep o t None) as [[x y] z]. split; intros; exact I.
Qed.
Lemma times_fin sys d ts tds : fin_system d sys -> List.Forall2 fin tds ts -> proper_system sys -> (forall t, In t ts -> no_alignment au kep sys t) ->
  fin_table (starry_light_curve_times_d as_euler eps low high A2 au kep d tds) (system_observable_times au kep obs sys ts).
Proof using He Hk.
  intros Hd Ht Hp Hn. unfold starry_light_curve_times_d, system_observable_times. apply mapM_fin_table. induction Ht as [|td t tds ts H Ht IH]; constructor; [|apply IH; intros t' K; apply Hn; now right].
  apply system_fin; try assumption. apply Hn. now left.
Qed.
Lemma times_tracks s sys d fts tds : tracks_system sys s d -> List.Forall2 (fun f td => tracks f s td) fts tds -> proper_system (sys s) -> (forall f, In f fts -> regular_system au eps high kep (sys s) (f s)) ->
  tracks_table (fun z => system_observable_times au kep obs (sys z) (map (fun f => f z) fts)) s (starry_light_curve_times_d as_euler eps low high A2 au kep d tds).
Proof using He Hk.
  intros Hd Ht Hp Hn. unfold starry_light_curve_times_d, system_observable_times.
  assert (EM : forall {A B C} (f : B -> result C) (g : A -> B) l, Stack.mapM f (map g l) = Stack.mapM (fun a => f (g a)) l) by (intros A B C f g l; induction l as [|a l IH]; [reflexivity|cbn [map Stack.mapM]; now rewrite IH]).
  assert (G : tracks_table (fun z => Stack.mapM (fun f : R -> R => system_observable au kep obs (sys z) (f z)) fts) s (Stack.mapM (starry_light_curve_d as_euler eps low high A2 au kep d) tds)).
  { apply (mapM_tracks_table (fun z (f : R -> R) => system_observable au kep obs (sys z) (f z))). induction Ht as [|f td fts tds H Ht IH]; constructor; [|apply IH; intros f' K; apply Hn; now right].
    apply (system_tracks as_euler eps low high A2 au kep He Hk s sys d f td); try assumption. apply Hn. now left. }
  unfold tracks_table in *. destruct (Stack.mapM _ tds); [destruct G as (g & Eg & Hg); exists g; split; [|exact Hg]|]; intros z; rewrite EM; [apply Eg|apply G].
Qed.
End More.
