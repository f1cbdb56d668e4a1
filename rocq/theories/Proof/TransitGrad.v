(** Gradients of transit light curves. *)
From Coq Require Import Reals List Bool Arith ZArith Lia Lra Psatz.
From Coquelicot Require Import Hierarchy Derive Continuity Rbar Rcomplements ElemFct AutoDerive.
From Verif Require Import Base.RealAux Model.LimbDark Model.TransitOrbit Model.LightCurves Model.AutoDiff Model.LightCurveGrad Model.TransitGrad.
From Verif Require Import Spec.LimbDarkSpec Spec.OccultSpec Spec.AutoDiffSpec Spec.TransitSpec Spec.TransitGradSpec.
From Verif Require Proof.TransitProof.
From Verif Require Import Proof.AutoDiff Proof.LightCurveGrad Proof.LightCurveDeriv Proof.LightCurveTangent Proof.LightCurveGradFacts.
Import ListNotations.
Local Open Scope R_scope.

Lemma fin_sqrt' x v : fin x v -> 0 < v -> fin (dsqrt x) (sqrt v).
Proof. intros H Hv. unfold dsqrt. rewrite (fin_val _ _ H). replace (Rleb v 0) with false by (symmetry; apply Rleb_false; lra). now apply (fin_lift1 sqrt). Qed.
Lemma fin_pow2 x v : fin x v -> fin (dpow2 x) (v ^ 2). Proof. apply (fin_lift1 (fun v => v ^ 2)). Qed.
Lemma fin_mod x y v w : fin x v -> fin y w -> w <> 0 -> fin (dmod x y) (Rmod v w).
Proof. intros H H' Hw. unfold dmod. rewrite (fin_val _ _ H'). destruct (Req_EM_T w 0); [contradiction|]. now apply fin_lift2. Qed.
Lemma tracks_sqrt' f s x : tracks f s x -> 0 < f s -> tracks (fun z => sqrt (f z)) s (dsqrt x).
Proof.
  intros (t & -> & H) Hp. unfold dsqrt. cbn [val]. replace (Rleb (f s) 0) with false by (symmetry; apply Rleb_false; lra). eexists. split; [reflexivity|].
  assert (Hs : 0 < sqrt (f s)) by now apply sqrt_lt_R0. replace (t * (0.5 / sqrt (f s))) with (t / (2 * sqrt (f s))); [now apply is_derive_sqrt|].
  replace 0.5 with (/ 2) by lra. field. lra.
Qed.
Lemma tracks_pow2 f s x : tracks f s x -> tracks (fun z => f z ^ 2) s (dpow2 x).
Proof. intros H. destruct H as (t & -> & H). apply (tracks_chain (fun v => v ^ 2) (2 * f s)); [exact H|auto_derive; [exact I|ring]|reflexivity]. Qed.
Lemma floor_local q : (forall k, q <> IZR k) -> locally q (fun y => Rfloor y = Rfloor q).
Proof.
  intros Hk. destruct (Rfloor_spec q) as [H1 H2]. specialize (Hk (Rfloor q)).
  apply (locally_interval _ _ (IZR (Rfloor q)) (IZR (Rfloor q) + 1)); cbn; [lra|lra|]. intros y Hy1 Hy2.
  destruct (Rfloor_spec y) as [H3 H4]. apply Z.le_antisymm; apply Z.lt_succ_r, lt_IZR; rewrite succ_IZR; lra.
Qed.
Lemma tracks_mod f g s x y : tracks f s x -> tracks g s y -> g s <> 0 -> (forall k, f s / g s <> IZR k) -> tracks (fun z => Rmod (f z) (g z)) s (dmod x y).
Proof.
  intros Hf Hg Hn Hk.
  assert (Hq : continuous (fun z => f z / g z) s). { exact (tracks_cont _ _ _ (tracks_div f g s x y Hf Hg Hn)). }
  destruct Hf as (t & -> & H), Hg as (u & -> & K). unfold dmod. cbn [val]. destruct (Req_EM_T (g s) 0); [contradiction|]. eexists. split; [reflexivity|].
  apply (is_derive_ext_loc (fun z => f z - g z * IZR (Rfloor (f s / g s)))).
  - apply (filter_imp (fun z => Rfloor (f z / g z) = Rfloor (f s / g s))); [intros z Hz; unfold Rmod; now rewrite Hz|]. exact (Hq _ (floor_local _ Hk)).
  - replace (t + u * - IZR (Rfloor (f s / g s))) with (minus t (u * IZR (Rfloor (f s / g s)))) by (unfold minus, plus, opp; cbn; ring).
    apply (is_derive_minus (V := R_NormedModule) f (fun z => g z * IZR (Rfloor (f s / g s)))); [exact H|].
    apply (is_derive_ext (fun z => IZR (Rfloor (f s / g s)) * g z)); [intros; apply Rmult_comm|]. rewrite Rmult_comm. now apply is_derive_scal.
Qed.

(** ** any orbit *)
Lemma fin_transit eps quad d o us u td t x y z : 0 < eps -> List.Forall2 fin us u -> disk_flux u <> 0 ->
  fin (ld_central_radius d) (lo_central_radius o) -> fin (ld_radius d) (lo_radius o) -> lo_central_radius o <> 0 ->
  lo_relative_position o t = (x, y, z) -> (let '(xd, yd, zd) := ld_relative_position d td in fin xd x /\ fin yd y /\ fin zd z) ->
  ~ (x = 0 /\ y = 0) -> ~ (sqrt (x ^ 2 + y ^ 2) = Rabs (lo_central_radius o) /\ lo_radius o = 0) ->
  fin (transit_light_curve_d eps quad d us td) (transit_light_curve eps quad o u t).
Proof.
  intros He Hu HF Hc Hr Nc Ep Hp N0 N1. unfold transit_light_curve_d, transit_light_curve. rewrite Ep. destruct (ld_relative_position d td) as [[xd yd] zd]. destruct Hp as (Hx & Hy & Hz).
  assert (P : 0 < x ^ 2 + y ^ 2).
  { destruct (Req_EM_T x 0) as [E|E]; [destruct (Req_EM_T y 0) as [E'|E']; [now contradiction N0|]|].
    - assert (0 < y ^ 2) by (apply pow2_gt_0; exact E'). assert (0 <= x ^ 2) by apply pow2_ge_0. lra.
    - assert (0 < x ^ 2) by (apply pow2_gt_0; exact E). assert (0 <= y ^ 2) by apply pow2_ge_0. lra. }
  assert (PS : 0 < sqrt (x ^ 2 + y ^ 2)) by now apply sqrt_lt_R0. assert (PA : 0 < Rabs (lo_central_radius o)) by now apply Rabs_pos_lt.
  rewrite (fin_val _ _ Hz). apply fin_where; [|apply fin_cst]. apply fin_light_curve; try assumption.
  - apply fin_div; [|exact Hc|exact Nc]. apply fin_sqrt'; [|exact P]. apply fin_add; now apply fin_pow2.
  - now apply fin_div.
  - intros [E _]. unfold Rdiv in E. rewrite Rabs_mult, Rabs_inv, (Rabs_pos_eq (sqrt _)) in E by lra. apply Rmult_integral in E. destruct E as [E|E]; [lra|]. apply Rinv_neq_0_compat in E; [exact E|lra].
  - intros [E E2]. apply N1. unfold Rdiv in E, E2. rewrite Rabs_mult, Rabs_inv in E, E2 by lra. rewrite (Rabs_pos_eq (sqrt _)) in E by lra. split.
    + apply (Rmult_eq_reg_r (/ Rabs (lo_central_radius o))); [|apply Rinv_neq_0_compat; lra]. rewrite E, Rinv_r; lra.
    + apply Rmult_integral in E2. destruct E2 as [E2|E2]; [|exfalso; apply Rinv_neq_0_compat in E2; [exact E2|lra]]. destruct (Req_EM_T (lo_radius o) 0) as [E3|E3]; [exact E3|]. apply Rabs_no_R0 in E3. contradiction.
Qed.
Lemma light_curve_none eps quad us y : light_curve_d eps quad us None y = None.
Proof.
  apply undefined_first. unfold solution_d. cbn [dabs lift1].
    set (Y := dabs y). assert (EK : snd (fst (kappas_d eps None Y)) = None).
    { unfold kappas_d. cbn [fst snd dsq lift1]. set (q := dadd None _). assert (Eq : q = None) by reflexivity. rewrite Eq. unfold datan2. destruct (Req_EM_T _ _); [reflexivity|]. apply lift2_none_r. }
    destruct (kappas_d eps None Y) as [[a u] v]. cbn [fst snd] in EK. subst u.
    set (b_ := dwhere _ (cst 1) None). assert (Eb : b_ = None) by apply where_none. rewrite Eb.
    assert (ES : forall p q, fst (s0s2_d None Y p q a None v) = None). { intros p q. unfold s0s2_d. cbn [fst]. set (w := dsub (cst PI) _). assert (Ew : w = None). { unfold w, dsub, dadd, dmul. rewrite !lift2_none_r; rewrite ?lift2_none_r; reflexivity || apply lift2_none_r. } rewrite Ew. apply where_none. }
    specialize (ES (dsq None) (dsq Y)). destruct (s0s2_d _ _ _ _ _ _ _) as [s0 s2]. cbn [fst] in ES. subst s0. rewrite !where_none. reflexivity.
Qed.
(** a body exactly in front of (or behind) the centre of the star *)
Lemma transit_undefined eps quad d us td x y : (let '(xd, yd, _) := ld_relative_position d td in xd = x /\ yd = y) -> fin x 0 -> fin y 0 -> transit_light_curve_d eps quad d us td = None.
Proof.
  intros Hp Hx Hy. unfold transit_light_curve_d. destruct (ld_relative_position d td) as [[xd yd] zd]. destruct Hp as [-> ->].
  assert (Fs : fin (dadd (dpow2 x) (dpow2 y)) 0). { replace 0 with (0 ^ 2 + 0 ^ 2) by ring. apply fin_add; now apply fin_pow2. }
  unfold dsqrt. rewrite (fin_val _ _ Fs). replace (Rleb 0 0) with true by (symmetry; apply Rleb_true; lra).
  assert (E : ddiv None (ld_central_radius d) = None) by (unfold ddiv; destruct (Req_EM_T _ _); reflexivity). rewrite E, light_curve_none. reflexivity.
Qed.
Lemma tracks_transit eps quad d (o : R -> lc_orbit) us xs (tf : R -> R) s td (x y z : R -> R) : 0 < eps -> trackl us s xs -> disk_flux (map (fun f => f s) us) <> 0 ->
  tracks (fun w => lo_central_radius (o w)) s (ld_central_radius d) -> tracks (fun w => lo_radius (o w)) s (ld_radius d) -> lo_central_radius (o s) <> 0 ->
  (forall w, lo_relative_position (o w) (tf w) = (x w, y w, z w)) -> (let '(xd, yd, zd) := ld_relative_position d td in tracks x s xd /\ tracks y s yd /\ fin zd (z s)) ->
  continuous z s -> z s <> 0 -> 0 < x s ^ 2 + y s ^ 2 ->
  (let b := sqrt (x s ^ 2 + y s ^ 2) / lo_central_radius (o s) in let r := lo_radius (o s) / lo_central_radius (o s) in 0 < z s /\ regular_point eps quad b r \/ z s < 0 /\ ~ (Rabs b = 1 /\ r = 0)) ->
  tracks (fun w => transit_light_curve eps quad (o w) (map (fun f => f w) us) (tf w)) s (transit_light_curve_d eps quad d xs td).
Proof.
  intros He Hu HF Hc Hr Nc Ep Hp Cz Nz P HR. unfold transit_light_curve_d.
  apply (tracks_ext' (fun w => if Rgtb (z w) 0 then light_curve eps quad (map (fun f => f w) us) (sqrt (x w ^ 2 + y w ^ 2) / lo_central_radius (o w)) (lo_radius (o w) / lo_central_radius (o w)) else 0)).
  { intros w. unfold transit_light_curve. now rewrite Ep. }
  destruct (ld_relative_position d td) as [[xd yd] zd]. destruct Hp as (Hx & Hy & Hz). rewrite (fin_val _ _ Hz).
  assert (Tb : tracks (fun w => sqrt (x w ^ 2 + y w ^ 2) / lo_central_radius (o w)) s (ddiv (dsqrt (dadd (dpow2 xd) (dpow2 yd))) (ld_central_radius d))).
  { apply tracks_div; [|exact Hc|exact Nc]. apply (tracks_sqrt' (fun w => x w ^ 2 + y w ^ 2)); [|exact P]. apply tracks_add; now apply tracks_pow2. }
  assert (Tr : tracks (fun w => lo_radius (o w) / lo_central_radius (o w)) s (ddiv (ld_radius d) (ld_central_radius d))) by now apply tracks_div.
  set (B := fun w => sqrt (x w ^ 2 + y w ^ 2) / lo_central_radius (o w)) in *. set (T := fun w => lo_radius (o w) / lo_central_radius (o w)) in *.
  set (bd := ddiv (dsqrt _) _) in *. set (rd := ddiv (ld_radius d) _) in *.
  assert (NB : B s <> 0). { unfold B, Rdiv. apply Rmult_integral_contrapositive_currified; [|now apply Rinv_neq_0_compat]. apply Rgt_not_eq. now apply sqrt_lt_R0. }
  assert (Hs : stable (fun w => Rgtb (z w) 0) s) by (apply stable_gtb; [exact Cz|apply continuous_const|exact Nz]).
  assert (FL : ~ (Rabs (B s) = 1 /\ Rabs (T s) = 0) -> fin (light_curve_d eps quad xs bd rd) (light_curve eps quad (map (fun f => f s) us) (B s) (T s))).
  { intros N. apply fin_light_curve; [exact He|exact (trackl_fin _ _ _ Hu)|exact (tracks_fin _ _ _ Tb)|exact (tracks_fin _ _ _ Tr)|exact HF| |exact N]. intros [E _]. apply Rabs_no_R0 in NB. contradiction. }
  assert (ZT : forall v, Rabs v = 0 -> v = 0). { intros v E. destruct (Req_EM_T v 0) as [E'|E']; [exact E'|]. apply Rabs_no_R0 in E'. contradiction. }
  assert (FF : fin (light_curve_d eps quad xs bd rd) (light_curve eps quad (map (fun f => f s) us) (B s) (T s))).
  { apply FL. intros [E1 E2]. destruct HR as [[_ (_ & N & _)]|[_ N]]; [apply N, ZT, E2|]. apply N. split; [exact E1|now apply ZT]. }
  apply (tracks_where (fun w => Rgtb (z w) 0) (fun w => light_curve eps quad (map (fun f => f w) us) (B w) (T w)) (fun _ => 0) s _ (cst 0) _ 0 Hs FF (fin_cst 0)); [|intros _; apply tracks_cst].
  intros E. unfold Rgtb in E. apply Rltb_true in E. destruct HR as [[_ (_ & N2 & Ho & Ht)]|[L _]]; [|lra].
  apply (tracks_light_curve eps quad us B T s xs bd rd); assumption.
Qed.

(** ** TransitOrbit *)
Lemma fin_dt d o td t : fin_orbit d o -> fin td t -> to_period o <> 0 -> fin (to_dt_d d td) (to_dt o t).
Proof.
  intros (Hp & _ & _ & Ht & _) H N. unfold to_dt_d, to_dt. apply fin_sub; [|fin]. apply fin_mod; [|exact Hp|exact N]. fin.
Qed.
Lemma fin_to_position d o td t : fin_orbit d o -> fin td t -> to_period o <> 0 ->
  let '(xd, yd, zd) := to_relative_position_d d td in let '(x, y, z) := to_relative_position o t in fin xd x /\ fin yd y /\ fin zd z.
Proof.
  intros Ho H N. pose proof (fin_dt d o td t Ho H N) as Fd. destruct Ho as (Hp & Hs & Hd & Ht & Hi & Hr). unfold to_relative_position_d, to_relative_position.
  split; [fin|]. split; [fin|]. rewrite (fin_val _ _ Fd), (fin_val _ _ Hd). apply fin_cst.
Qed.
Lemma to_finite eps quad d o us u td t : 0 < eps -> List.Forall2 fin us u -> disk_flux u <> 0 -> fin_orbit d o -> fin td t -> to_period o <> 0 ->
  ~ (to_speed o * to_dt o t = 0 /\ to_impact o = 0) -> to_ror o <> 0 ->
  fin (transit_light_curve_d eps quad (to_lc_orbit_d d) us td) (transit_light_curve eps quad (to_lc_orbit o) u t).
Proof.
  intros He Hu HF Ho Ht N N0 N1. pose proof (fin_to_position d o td t Ho Ht N) as HP. destruct Ho as (Hp & Hs & Hd & Hti & Hi & Hr).
  destruct (to_relative_position o t) as [[x y] z] eqn:E.
  apply (fin_transit eps quad (to_lc_orbit_d d) (to_lc_orbit o) us u td t x y z); try assumption.
  - apply fin_cst.
  - cbn. unfold to_central_radius. lra.
  - unfold to_relative_position in E. injection E as <- <- _. intros [E1 E2]. apply N0. split; assumption.
  - intros [_ E2]. exact (N1 E2).
Qed.
Lemma to_undefined eps quad d o us td t : fin_orbit d o -> fin td t -> to_period o <> 0 -> to_dt o t = 0 -> to_impact o = 0 ->
  transit_light_curve_d eps quad (to_lc_orbit_d d) us td = None.
Proof.
  intros Ho Ht N E0 E1. pose proof (fin_to_position d o td t Ho Ht N) as HP. unfold to_relative_position in HP. rewrite E0, E1 in HP.
  pose proof (transit_undefined eps quad (to_lc_orbit_d d) us td) as HU. cbn [ld_relative_position to_lc_orbit_d] in HU.
  destruct (to_relative_position_d d td) as [[xd yd] zd]. destruct HP as (Hx & Hy & _). rewrite Rmult_0_r in Hx. apply (HU xd yd); [split; reflexivity|exact Hx|exact Hy].
Qed.
(** [__init__] *)
Lemma orbit_from_duration_fin p du ti im ro per dur tt imp ror o : fin p per -> fin du dur -> fin ti tt -> fin im imp -> fin ro ror -> dur <> 0 -> Rabs imp < Rabs (1 + ror) ->
  make_transit_orbit per (Some dur) None (Some tt) (Some imp) (Some ror) = Ok o -> fin_orbit (orbit_from_duration_d p du ti im ro) o.
Proof.
  intros Hp Hd Ht Hi Hr Nd L E. cbn in E. injection E as <-. unfold fin_orbit, orbit_from_duration_d, orbit_from_speed_d. cbn [td_period td_speed td_duration td_time_transit td_impact td_ror to_period to_speed to_duration to_time_transit to_impact to_ror odflt].
  assert (P : 0 < (1 + ror)² - imp²) by (apply Rsqr_lt_abs_1 in L; lra).
  split; [exact Hp|]. split; [|repeat split; assumption]. apply fin_div; [|exact Hd|exact Nd]. apply fin_mul; [apply fin_cst|]. apply fin_sqrt'.
  - unfold transit_x2_d. fin.
  - rewrite Rmax_right by lra. exact P.
Qed.
Lemma orbit_from_speed_fin p sp ti im ro per spd tt imp ror o : fin p per -> fin sp spd -> fin ti tt -> fin im imp -> fin ro ror -> spd <> 0 -> Rabs imp < Rabs (1 + ror) ->
  make_transit_orbit per None (Some spd) (Some tt) (Some imp) (Some ror) = Ok o -> fin_orbit (orbit_from_speed_d p sp ti im ro) o.
Proof.
  intros Hp Hd Ht Hi Hr Nd L E. cbn in E. injection E as <-. unfold fin_orbit, orbit_from_duration_d, orbit_from_speed_d. cbn [td_period td_speed td_duration td_time_transit td_impact td_ror to_period to_speed to_duration to_time_transit to_impact to_ror odflt].
  assert (P : 0 < (1 + ror)² - imp²) by (apply Rsqr_lt_abs_1 in L; lra).
  split; [exact Hp|]. split; [exact Hd|]. split; [|repeat split; assumption]. apply fin_div; [|exact Hd|exact Nd]. apply fin_mul; [apply fin_cst|]. apply fin_sqrt'.
  - unfold transit_x2_d. fin.
  - rewrite Rmax_right by lra. exact P.
Qed.
Lemma transit_none eps quad d us td y z : ld_relative_position d td = (None, y, z) -> transit_light_curve_d eps quad d us td = None.
Proof.
  intros E. unfold transit_light_curve_d. rewrite E.
  assert (ES : dsqrt (dadd (dpow2 None) (dpow2 y)) = None). { unfold dsqrt. cbn [dpow2 lift1 dadd lift2 val]. destruct (Rleb 0 0); reflexivity. }
  rewrite ES. assert (E' : ddiv None (ld_central_radius d) = None) by (unfold ddiv; destruct (Req_EM_T _ _); reflexivity). rewrite E', light_curve_none. reflexivity.
Qed.
Lemma from_duration_undefined eps quad us td p du ti im ro imp ror : fin im imp -> fin ro ror -> Rabs (1 + ror) <= Rabs imp ->
  transit_light_curve_d eps quad (to_lc_orbit_d (orbit_from_duration_d p du ti im ro)) us td = None.
Proof.
  intros Hi Hr L. set (d := orbit_from_duration_d p du ti im ro).
  assert (ES : td_speed d = None).
  { unfold d, orbit_from_duration_d. cbn [td_speed]. assert (F : fin (dmax (cst 0) (transit_x2_d im ro)) 0).
    { assert (P : (1 + ror)² - imp² <= 0) by (apply Rsqr_le_abs_1 in L; lra). assert (F' : fin (dmax (cst 0) (transit_x2_d im ro)) (Rmax 0 ((1 + ror)² - imp²))) by (unfold transit_x2_d; fin). rewrite (Rmax_left 0 _ P) in F'. exact F'. }
    unfold dsqrt. rewrite (fin_val _ _ F). replace (Rleb 0 0) with true by (symmetry; apply Rleb_true; lra). unfold dmul. rewrite lift2_none_r. unfold ddiv. destruct (Req_EM_T _ _); reflexivity. }
  apply (transit_none eps quad (to_lc_orbit_d d) us td (td_impact d) (snd (to_relative_position_d d td))). cbn [to_lc_orbit_d ld_relative_position]. unfold to_relative_position_d. cbv zeta. rewrite ES. reflexivity.
Qed.
(** ** derivatives *)
Section TRACKS.
Variables (o : R -> transit_orbit) (tf : R -> R) (s : R) (d : transit_orbit_d) (td : D).
Hypotheses (Ho : tracks_orbit o s d) (Ht : tracks tf s td) (Np : to_period (o s) <> 0).
Hypothesis Nk : forall k, tf s <> to_time_transit (o s) + (IZR k - 0.5) * to_period (o s).
Lemma tracks_dt : tracks (fun w => to_dt (o w) (tf w)) s (to_dt_d d td).
Proof.
  destruct Ho as (Hp & Hs & Hd & Hti & Hi & Hr). unfold to_dt, to_dt_d. cbv zeta.
  apply tracks_sub; [|trk]. apply (tracks_mod (fun w => tf w - (to_time_transit (o w) - 0.5 * to_period (o w))) (fun w => to_period (o w))); [trk|exact Hp|exact Np|].
  intros k E. apply (Nk k). apply (f_equal (fun v => v * to_period (o s))) in E. unfold Rdiv in E. rewrite Rmult_assoc, Rinv_l, Rmult_1_r in E by exact Np. lra.
Qed.
Lemma stable_near : Rabs (to_dt (o s) (tf s)) <> 0.5 * to_duration (o s) -> stable (fun w => Rltb (Rabs (to_dt (o w) (tf w))) (0.5 * to_duration (o w))) s.
Proof.
  intros N. destruct Ho as (Hp & Hs & Hd & Hti & Hi & Hr). apply stable_ltb; [| |exact N].
  - apply (continuous_comp (fun w => to_dt (o w) (tf w)) Rabs); [exact (tracks_cont _ _ _ tracks_dt)|apply continuous_Rabs].
  - apply (tracks_cont _ _ (dmul (cst 0.5) (td_duration d))). trk.
Qed.
End TRACKS.
Lemma to_tracks eps quad us xs o tf s d td : 0 < eps -> trackl us s xs -> disk_flux (map (fun f => f s) us) <> 0 -> tracks_orbit o s d -> tracks tf s td ->
  to_period (o s) <> 0 -> (forall k, tf s <> to_time_transit (o s) + (IZR k - 0.5) * to_period (o s)) ->
  Rabs (to_dt (o s) (tf s)) <> 0.5 * to_duration (o s) -> 0 < separation (to_relative_position (o s) (tf s)) ->
  (Rabs (to_dt (o s) (tf s)) < 0.5 * to_duration (o s) -> regular_point eps quad (separation (to_relative_position (o s) (tf s))) (to_ror (o s))) ->
  (0.5 * to_duration (o s) < Rabs (to_dt (o s) (tf s)) -> ~ (separation (to_relative_position (o s) (tf s)) = 1 /\ to_ror (o s) = 0)) ->
  tracks (fun w => transit_light_curve eps quad (to_lc_orbit (o w)) (map (fun f => f w) us) (tf w)) s (transit_light_curve_d eps quad (to_lc_orbit_d d) xs td).
Proof.
  intros He Hu HF Ho Ht Np Nk Nm P H1 H2. pose proof (tracks_dt o tf s d td Ho Ht Np Nk) as Td. pose proof (stable_near o tf s d td Ho Ht Np Nk Nm) as Sn.
  destruct Ho as (Hp & Hs & Hd & Hti & Hi & Hr).
  set (zf := fun w => (if Rltb (Rabs (to_dt (o w) (tf w))) (0.5 * to_duration (o w)) then 1 else 0) * 1 - (if Rltb (Rabs (to_dt (o w) (tf w))) (0.5 * to_duration (o w)) then 0 else 1) * 1).
  assert (Zs : forall w, zf w = if Rltb (Rabs (to_dt (o w) (tf w))) (0.5 * to_duration (o w)) then 1 else - 1) by (intros w; unfold zf; destruct (Rltb _ _); lra).
  unfold separation, to_relative_position in P, H1, H2. cbv zeta in P, H1, H2.
  assert (P2 : 0 < (to_speed (o s) * to_dt (o s) (tf s)) ^ 2 + to_impact (o s) ^ 2). { destruct (Rlt_dec 0 ((to_speed (o s) * to_dt (o s) (tf s)) ^ 2 + to_impact (o s) ^ 2)) as [L|L]; [exact L|]. rewrite sqrt_neg_0 in P by lra. lra. }
  apply (tracks_transit eps quad (to_lc_orbit_d d) (fun w => to_lc_orbit (o w)) us xs tf s td (fun w => to_speed (o w) * to_dt (o w) (tf w)) (fun w => to_impact (o w)) zf); try assumption.
  - apply tracks_cst.
  - cbn. unfold to_central_radius. lra.
  - reflexivity.
  - cbn [to_lc_orbit_d ld_relative_position]. unfold to_relative_position_d. cbv zeta. split; [trk|]. split; [exact Hi|].
    rewrite (fin_val _ _ (tracks_fin _ _ _ Td)), (fin_val _ _ (tracks_fin _ _ _ Hd)). apply fin_cst.
  - apply (continuous_ext_loc _ (fun _ => zf s)); [|apply continuous_const]. revert Sn. unfold stable. apply filter_imp. intros w Hw. rewrite !Zs. now rewrite Hw.
  - rewrite Zs. destruct (Rltb _ _); lra.
  - cbn [to_lc_orbit lo_central_radius lo_radius]. unfold to_central_radius, to_radius. assert (D1 : forall v, v / 1 = v) by (intros; field). rewrite !D1.
    rewrite Zs. destruct (Rltb (Rabs (to_dt (o s) (tf s))) (0.5 * to_duration (o s))) eqn:E; [left; apply Rltb_true in E|right; apply Rltb_false in E]; (split; [lra|]).
    + now apply H1.
    + intros [E1 E2]. apply H2; [lra|]. rewrite Rabs_pos_eq in E1 by apply sqrt_pos. now split.
Qed.
(** [__init__] *)
Lemma tracks_half_chord imp ror s im ro : tracks imp s im -> tracks ror s ro -> Rabs (imp s) < Rabs (1 + ror s) ->
  tracks (fun w => sqrt (Rmax 0 ((1 + ror w)² - (imp w)²))) s (dsqrt (dmax (cst 0) (transit_x2_d im ro))).
Proof.
  intros Hi Hr L. assert (P : 0 < (1 + ror s)² - (imp s)²) by (apply Rsqr_lt_abs_1 in L; lra).
  apply (tracks_sqrt' (fun w => Rmax 0 ((1 + ror w)² - (imp w)²))); [|rewrite Rmax_right; lra].
  apply (tracks_max0 (fun w => (1 + ror w)² - (imp w)²)); [|exact P]. unfold transit_x2_d.
  apply (tracks_sub (fun w => (1 + ror w)²) (fun w => (imp w)²)); [apply (tracks_sq (fun w => 1 + ror w)); trk|now apply (tracks_sq imp)].
Qed.
Lemma from_duration_tracks per dur tt imp ror s p du ti im ro o : tracks per s p -> tracks dur s du -> tracks tt s ti -> tracks imp s im -> tracks ror s ro ->
  dur s <> 0 -> Rabs (imp s) < Rabs (1 + ror s) ->
  (forall w, make_transit_orbit (per w) (Some (dur w)) None (Some (tt w)) (Some (imp w)) (Some (ror w)) = Ok (o w)) -> tracks_orbit o s (orbit_from_duration_d p du ti im ro).
Proof.
  intros Hp Hd Ht Hi Hr N L E. assert (E' : forall w, o w = {| to_period := per w; to_speed := 2 * sqrt (Rmax 0 ((1 + ror w)² - (imp w)²)) / dur w; to_duration := dur w; to_time_transit := tt w; to_impact := imp w; to_ror := ror w |}).
  { intros w. specialize (E w). cbn in E. injection E as <-. reflexivity. }
  unfold tracks_orbit, orbit_from_duration_d. cbn [td_period td_speed td_duration td_time_transit td_impact td_ror].
  repeat apply conj; (eapply tracks_ext'; [intros w; rewrite E'; reflexivity|]); cbn [to_period to_speed to_duration to_time_transit to_impact to_ror]; try assumption.
  apply (tracks_div (fun w => 2 * sqrt (Rmax 0 ((1 + ror w)² - (imp w)²))) dur); [|exact Hd|exact N]. apply tracks_mul; [apply tracks_cst|]. now apply tracks_half_chord.
Qed.
Lemma from_speed_tracks per spd tt imp ror s p sp ti im ro o : tracks per s p -> tracks spd s sp -> tracks tt s ti -> tracks imp s im -> tracks ror s ro ->
  spd s <> 0 -> Rabs (imp s) < Rabs (1 + ror s) ->
  (forall w, make_transit_orbit (per w) None (Some (spd w)) (Some (tt w)) (Some (imp w)) (Some (ror w)) = Ok (o w)) -> tracks_orbit o s (orbit_from_speed_d p sp ti im ro).
Proof.
  intros Hp Hd Ht Hi Hr N L E. assert (E' : forall w, o w = {| to_period := per w; to_speed := spd w; to_duration := 2 * sqrt (Rmax 0 ((1 + ror w)² - (imp w)²)) / spd w; to_time_transit := tt w; to_impact := imp w; to_ror := ror w |}).
  { intros w. specialize (E w). cbn in E. injection E as <-. reflexivity. }
  unfold tracks_orbit, orbit_from_speed_d. cbn [td_period td_speed td_duration td_time_transit td_impact td_ror].
  repeat apply conj; (eapply tracks_ext'; [intros w; rewrite E'; reflexivity|]); cbn [to_period to_speed to_duration to_time_transit to_impact to_ror]; try assumption.
  apply (tracks_div (fun w => 2 * sqrt (Rmax 0 ((1 + ror w)² - (imp w)²))) spd); [|exact Hd|exact N]. apply tracks_mul; [apply tracks_cst|]. now apply tracks_half_chord.
Qed.
Lemma const_fin o : fin_orbit (const_orbit_d o) o.
Proof. unfold fin_orbit, const_orbit_d. cbn. repeat apply conj; apply fin_cst. Qed.
Lemma const_tracks o s : tracks_orbit (fun _ => o) s (const_orbit_d o).
Proof. unfold tracks_orbit, const_orbit_d. cbn. repeat apply conj; apply tracks_cst. Qed.
Lemma tracks_seed s : tracks (fun w => w) s (Some (s, 1)).
Proof. exists 1. split; [reflexivity|]. apply (is_derive_id (K := R_AbsRing)). Qed.
Lemma time_gradient eps quad u o t : 0 < eps -> disk_flux u <> 0 -> to_period o <> 0 -> (forall k, t <> to_time_transit o + (IZR k - 0.5) * to_period o) ->
  Rabs (to_dt o t) <> 0.5 * to_duration o -> 0 < separation (to_relative_position o t) ->
  (Rabs (to_dt o t) < 0.5 * to_duration o -> regular_point eps quad (separation (to_relative_position o t)) (to_ror o)) ->
  (0.5 * to_duration o < Rabs (to_dt o t) -> ~ (separation (to_relative_position o t) = 1 /\ to_ror o = 0)) ->
  exists g, grad_time eps quad o u t = Some g /\ is_derive (fun w => transit_light_curve eps quad (to_lc_orbit o) u w) t g.
Proof.
  intros He HF Np Nk Nm P H1 H2.
  assert (Eu : forall w : R, map (fun f : R -> R => f w) (map (fun v _ => v) u) = u) by (intros w; rewrite map_map; apply map_id).
  assert (Hu : trackl (map (fun v _ => v) u) t (map cst u)). { clear. unfold trackl. induction u as [|v l IH]; cbn; constructor; [apply tracks_cst|exact IH]. }
  assert (HF' : disk_flux (map (fun f : R -> R => f t) (map (fun v _ => v) u)) <> 0) by now rewrite Eu.
  destruct (to_tracks eps quad _ _ (fun _ => o) (fun w => w) t _ _ He Hu HF' (const_tracks o t) (tracks_seed t) Np Nk Nm P H1 H2) as (g & E & G).
  exists g. unfold grad_time. rewrite E. split; [reflexivity|]. eapply is_derive_ext; [|exact G]. intros w. cbn beta. now rewrite Eu.
Qed.
Lemma to_zero eps quad d o us u td t : 0 < eps -> List.Forall2 fin us u -> disk_flux u <> 0 -> fin_orbit d o -> fin td t -> to_period o <> 0 ->
  ~ (to_speed o * to_dt o t = 0 /\ to_impact o = 0) -> to_ror o <> 0 -> 0.5 * to_duration o <= Rabs (to_dt o t) ->
  transit_light_curve_d eps quad (to_lc_orbit_d d) us td = Some (0, 0).
Proof.
  intros He Hu HF Ho Ht N N0 N1 L. destruct (to_finite eps quad d o us u td t He Hu HF Ho Ht N N0 N1) as [g E].
  pose proof (fin_dt d o td t Ho Ht N) as Fd. destruct Ho as (Hp & Hs & Hd & Hti & Hi & Hr).
  unfold transit_light_curve_d in *. cbn [to_lc_orbit_d ld_relative_position] in *. unfold to_relative_position_d in *. cbv zeta in *.
  rewrite (fin_val _ _ Fd), (fin_val _ _ Hd) in *. replace (Rltb (Rabs (to_dt o t)) (0.5 * to_duration o)) with false in * by (symmetry; apply Rltb_false; lra).
  cbn [val cst] in *. replace (Rgtb (0 * 1 - 1 * 1) 0) with false in * by (symmetry; unfold Rgtb; apply Rltb_false; lra).
  unfold dwhere in *. destruct (light_curve_d _ _ _ _ _); [reflexivity|discriminate E].
Qed.
Lemma dt_mid o k : 0 < to_period o -> to_dt o (to_time_transit o + IZR k * to_period o) = 0.
Proof. intros H. apply (TransitProof.to_dt_unique o _ k 0 H); lra. Qed.
Lemma mid_undefined eps quad d o us td k : fin_orbit d o -> fin td (to_time_transit o + IZR k * to_period o) -> 0 < to_period o -> to_impact o = 0 ->
  transit_light_curve_d eps quad (to_lc_orbit_d d) us td = None.
Proof. intros Ho Ht P E. apply (to_undefined eps quad d o us td _ Ho Ht); [lra|now apply dt_mid|exact E]. Qed.
(** examples *)
Definition ex_orbit : transit_orbit := {| to_period := 10; to_speed := 2 * sqrt (Rmax 0 ((1 + 0.1)² - 0.3²)) / 0.4; to_duration := 0.4; to_time_transit := 1; to_impact := 0.3; to_ror := 0.1 |}.
Lemma ex_make : make_transit_orbit 10 (Some 0.4) None (Some 1) (Some 0.3) (Some 0.1) = Ok ex_orbit.
Proof. reflexivity. Qed.
Lemma ex_dt : to_dt ex_orbit 1 = 0.
Proof. replace 1 with (to_time_transit ex_orbit + IZR 0 * to_period ex_orbit) by (cbn; lra). apply dt_mid. cbn. lra. Qed.
Lemma ex_sep : separation (to_relative_position ex_orbit 1) = 0.3.
Proof.
  unfold separation, to_relative_position. rewrite ex_dt. cbn [to_impact ex_orbit to_speed]. rewrite Rmult_0_r. replace (0 ^ 2 + 0.3 ^ 2) with (Rsqr 0.3) by (unfold Rsqr; ring). apply sqrt_Rsqr. lra.
Qed.
Lemma ex_regular : 0 < to_period ex_orbit /\ (forall k, 1 <> to_time_transit ex_orbit + (IZR k - 0.5) * to_period ex_orbit) /\ Rabs (to_dt ex_orbit 1) < 0.5 * to_duration ex_orbit /\
  0 < separation (to_relative_position ex_orbit 1) /\ regular_point (/ 1000000) [(0, 2)] (separation (to_relative_position ex_orbit 1)) (to_ror ex_orbit).
Proof.
  rewrite ex_dt, ex_sep, Rabs_R0. cbn [to_period to_time_transit to_duration to_ror ex_orbit]. split; [lra|]. split; [|split; [lra|split; [lra|exact regular_point_sat]]].
  intros k E. assert (E2 : IZR (2 * k) = IZR 1) by (rewrite mult_IZR; lra). apply eq_IZR in E2. lia.
Qed.
