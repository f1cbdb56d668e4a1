(** Gradients of radial velocities of surfaces when nothing is hidden, and at exact alignment. *)
From Coq Require Import Reals List Bool Arith ZArith Lia Lra Psatz.
From Coquelicot Require Import Hierarchy Derive Continuity Rbar Rcomplements ElemFct AutoDerive.
From Verif Require Import Base.RealAux Base.Dict Model.LimbDark Model.Poly Model.Basis Model.S2fft Model.Rotation Model.Solution Model.SolutionVector Model.Ylm Model.RvMap Model.Surface Model.StarryLightCurve Model.AutoDiff Model.LightCurveGrad Model.TransitGrad Model.StarryGrad Model.StarryRvGrad.
From Verif Require Import Spec.LimbDarkSpec Spec.OccultSpec Spec.PolySpec Spec.BasisSpec Spec.HarmonicSpec Spec.RotationSpec Spec.DiskSpec Spec.SurfaceSpec Spec.YlmSpec Spec.AutoDiffSpec Spec.StarryGradSpec Spec.StarryRvGradSpec.
From Verif Require Import Proof.RotationProof Proof.RotationMap Proof.RotationMore Proof.SurfaceProof Proof.DiskRot Proof.DopplerProof.
From Verif Require Import Proof.AutoDiff Proof.LightCurveGrad Proof.LightCurveDeriv Proof.LightCurveTangent Proof.LightCurveGradFacts Proof.TransitGrad Proof.StarryGrad Proof.StarryGradFlux Proof.StarryGradDesign Proof.StarryGradPoly Proof.StarryGradCurve Proof.StarryGradFree Proof.StarryGradShape Proof.StarryRvGrad.
From Verif Require Proof.StarryProof Proof.YlmProof Proof.GreenProof Proof.YlmMore Proof.YlmFacts.
Import ListNotations.
Local Open Scope R_scope.

Section Free.
Variable as_euler : R * R * R -> R * R * R.
Hypothesis Hz : zyz_euler as_euler.
Definition map_profile (ydeg : nat) (u ry : list R) : vec3 -> R := fun p => 2 / sqrt PI * map_at ydeg ry p * ld_profile u (snd p).
Definition rv_profile (ydeg : nat) (u ry rr : list R) : vec3 -> R := fun p => 2 / sqrt PI * map_at ydeg ry p * (2 / sqrt PI * map_at 1 rr p) * ld_profile u (snd p).
Lemma map_profile_poly ydeg u ry : length ry = ncoef ydeg -> exists D d, forall x y z, on_sphere x y z -> map_profile ydeg u ry (x, y, z) = dense_eval D d x y z.
Proof using.
  intros L. destruct (ldp_repr u) as (p_u & _ & R2). destruct (A1_mul_repr ydeg ry _ L (or_intror eq_refl)) as (p_y & _ & R1). destruct (repr_mul _ _ _ _ _ _ R1 R2) as (p & _ & R3).
  destruct (repr_todense _ _ _ R3) as (v & _ & _ & V). eexists _, (fun n => nth n v 0). intros x y z H. rewrite V by exact H. reflexivity.
Qed.
Lemma rv_profile_poly ydeg u ry rr : length ry = ncoef ydeg -> length rr = ncoef 1 -> exists D d, forall x y z, on_sphere x y z -> rv_profile ydeg u ry rr (x, y, z) = dense_eval D d x y z.
Proof using.
  intros L L'. destruct (ldp_repr u) as (p_u & _ & R2). destruct (A1_mul_repr ydeg ry _ L (or_intror eq_refl)) as (p_y & _ & R1). destruct (A1_mul_repr 1 rr None L' (or_introl eq_refl)) as (p_r & _ & R0).
  destruct (repr_mul _ _ _ _ _ _ R1 R0) as (p & _ & R3). destruct (repr_mul _ _ _ _ _ _ R3 R2) as (q & _ & R4).
  destruct (repr_todense _ _ _ R4) as (v & _ & _ & V). eexists _, (fun n => nth n v 0). intros x y z H. rewrite V by exact H. reflexivity.
Qed.
(** the two fluxes of the code, with the weights of the whole disk *)
Lemma div_core_rT ydeg u ry n : length ry = ncoef ydeg -> (ydeg + length u <= n)%nat -> div_core ydeg u (rT n) ry = Ok (visible_flux (map_profile ydeg u ry)).
Proof using.
  intros L Hn. unfold div_core. destruct (ldp_repr u) as (p_u & E2 & R2). rewrite E2. cbn [rbind].
  destruct (A1_mul_repr ydeg ry _ L (or_intror eq_refl)) as (p_y & E1 & R1). rewrite E1. cbn [rbind]. destruct (repr_mul _ _ _ _ _ _ R1 R2) as (p & E3 & R3). rewrite E3. cbn [rbind].
  fold (ncoef (ydeg + length u)). rewrite rT_firstn by exact Hn. rewrite (StarryProof.repr_dot_rT _ _ _ R3). reflexivity.
Qed.
Lemma rv_core_rT ydeg inc obl u amp veq tz ry : length ry = ncoef ydeg -> exists rr, dot_rz 1 (- tz) (rv_map_expansion (Some veq) inc obl None) = Ok rr /\ length rr = ncoef 1 /\
  rv_core ydeg inc obl u amp (Ok veq) tz (rT (ydeg + length u + 1)) ry = Ok (amp * visible_flux (rv_profile ydeg u ry rr) * (PI / ld_flux u) / (visible_flux (map_profile ydeg u ry) * (PI / ld_flux u))).
Proof using.
  intros L. destruct (dot_rz_ok 1 (- tz) _ (rv_length veq inc obl)) as (rr & E & Lr & _). exists rr. split; [exact E|]. split; [exact Lr|]. unfold rv_core. destruct (ldp_repr u) as (p_u & E2 & R2). rewrite E2. cbn [rbind].
  destruct (A1_mul_repr ydeg ry _ L (or_intror eq_refl)) as (p_y & E1 & R1). rewrite E1. cbn [rbind]. rewrite (StarryProof.repr_dot_rT _ _ _ R2). cbn [rbind]. rewrite E. cbn [rbind].
  destruct (A1_mul_repr 1 rr None Lr (or_introl eq_refl)) as (p_r & E3 & R3). rewrite E3. cbn [rbind]. destruct (repr_mul _ _ _ _ _ _ R1 R3) as (p & E4 & R4). rewrite E4. cbn [rbind].
  destruct (repr_mul _ _ _ _ _ _ R4 R2) as (q & E5 & R5). rewrite E5. cbn [rbind]. replace (ydeg + length u + 1)%nat with (ydeg + 1 + length u)%nat at 1 by lia. rewrite (StarryProof.repr_dot_rT _ _ _ R5). cbn [rbind].
  destruct (repr_mul _ _ _ _ _ _ R1 R2) as (p' & E6 & R6). rewrite E6. cbn [rbind]. fold (ncoef (ydeg + length u)). rewrite rT_firstn by lia. rewrite (StarryProof.repr_dot_rT _ _ _ R6). reflexivity.
Qed.
Lemma rot_core_tz ydeg inc obl theta tz y : length y = ncoef ydeg -> exists r0 r1, rot_core as_euler ydeg inc obl theta 0 y = Ok r0 /\ rot_core as_euler ydeg inc obl theta tz y = Ok r1 /\ length r0 = ncoef ydeg /\ length r1 = ncoef ydeg /\
  forall p, sphere3 p -> map_at ydeg r1 p = map_at ydeg r0 (rot_z (- tz) p).
Proof using Hz.
  intros L. unfold rot_core. destruct (ydeg =? 0)%nat eqn:E.
  - apply Nat.eqb_eq in E. subst ydeg. exists y, y. split; [reflexivity|]. split; [reflexivity|]. split; [exact L|]. split; [exact L|]. intros [[a b] c] Hp. destruct (rot_z (- tz) (a, b, c)) as [[a' b'] c'].
    unfold map_at, harmonic_eval. cbn [bigsum Nat.mul Nat.add]. change (Z.of_nat 0 - Z.of_nat 0)%Z with 0%Z. rewrite !YlmFacts.Y00. reflexivity.
  - destruct (left_project_ok as_euler Hz ydeg inc obl theta (Some tz) y L) as (r1 & E1 & L1 & V1). destruct (left_project_ok as_euler Hz ydeg inc obl theta (Some 0) y L) as (r0 & E0 & L0 & V0).
    exists r0, r1. split; [exact E0|]. split; [exact E1|]. split; [exact L0|]. split; [exact L1|]. intros p Hp. rewrite V1 by exact Hp. rewrite V0 by (apply StarryProof.sphere_rot_z, Hp). cbn [angle0]. rewrite Ropp_0, !StarryProof.rot_z_0. reflexivity.
Qed.
Lemma snd_rot_z a p : snd (rot_z a p) = snd p.
Proof using. destruct p as [[x y] z]. reflexivity. Qed.
Lemma map_profile_rot ydeg u r0 r1 a : length r0 = ncoef ydeg -> (forall p, sphere3 p -> map_at ydeg r1 p = map_at ydeg r0 (rot_z a p)) -> visible_flux (map_profile ydeg u r1) = visible_flux (map_profile ydeg u r0).
Proof using.
  intros L V. rewrite <- (flux_rot_gen (map_profile ydeg u r0) a (map_profile_poly ydeg u r0 L)). unfold visible_flux. apply YlmMore.disk_ext_in. intros x y Hd. unfold map_profile. rewrite snd_rot_z. rewrite V by (apply StarryProof.zdisk_sphere3, Hd). reflexivity.
Qed.
Lemma rv_profile_rot ydeg u r0 r1 q0 q1 a : length r0 = ncoef ydeg -> length q0 = ncoef 1 -> (forall p, sphere3 p -> map_at ydeg r1 p = map_at ydeg r0 (rot_z a p)) -> (forall p, map_at 1 q1 p = map_at 1 q0 (rot_z a p)) ->
  visible_flux (rv_profile ydeg u r1 q1) = visible_flux (rv_profile ydeg u r0 q0).
Proof using.
  intros L L' V V'. rewrite <- (flux_rot_gen (rv_profile ydeg u r0 q0) a (rv_profile_poly ydeg u r0 q0 L L')). unfold visible_flux. apply YlmMore.disk_ext_in. intros x y Hd. unfold rv_profile. rewrite snd_rot_z, V'. rewrite V by (apply StarryProof.zdisk_sphere3, Hd). reflexivity.
Qed.
Definition free_rv ydeg inc obl theta tz y u amp rveq : result R := rbind (rot_core as_euler ydeg inc obl theta tz y) (fun ry => rv_core ydeg inc obl u amp rveq tz (rT (ydeg + length u + 1)) ry).
Lemma free_rv_tz ydeg inc obl theta tz y u amp rveq : length y = ncoef ydeg -> free_rv ydeg inc obl theta tz y u amp rveq = free_rv ydeg inc obl theta 0 y u amp rveq.
Proof using Hz.
  intros L. unfold free_rv. destruct (rot_core_tz ydeg inc obl theta tz y L) as (r0 & r1 & -> & -> & L0 & L1 & V). cbn [rbind]. destruct rveq as [veq|e].
  - destruct (rv_core_rT ydeg inc obl u amp veq tz r1 L1) as (q1 & E1 & Lq1 & ->). destruct (rv_core_rT ydeg inc obl u amp veq 0 r0 L0) as (q0 & E0 & Lq0 & ->).
    rewrite (map_profile_rot ydeg u r0 r1 (- tz) L0 V). rewrite (rv_profile_rot ydeg u r0 r1 q0 q1 (- tz) L0 Lq0 V); [reflexivity|].
    intros p. rewrite (dot_rz_map 1 _ _ q1 _ (rv_length veq inc obl) E1), (dot_rz_map 1 _ _ q0 _ (rv_length veq inc obl) E0). rewrite Ropp_0, StarryProof.rot_z_0. reflexivity.
  - unfold rv_core. destruct (ldp_repr u) as (p_u & -> & R2). cbn [rbind].
    destruct (A1_mul_repr ydeg r1 _ L1 (or_intror eq_refl)) as (p_1 & -> & _). destruct (A1_mul_repr ydeg r0 _ L0 (or_intror eq_refl)) as (p_0 & -> & _). cbn [rbind]. rewrite (StarryProof.repr_dot_rT _ _ _ R2). reflexivity.
Qed.

(** the flux by which the code divides is that of the whole disk when nothing is hidden *)
Variables (eps : R) (low high : list (R * R)) (A2 : nat -> matrix).
Lemma dividing_free s theta g : wf_ylm (s_y s) -> (match g with None => True | Some g => og_occ g = false end) ->
  dividing_flux as_euler eps low high A2 s g theta = Ok (visible_flux (seen_intensity (y_data (s_y s)) (s_u s) (s_inc s) (s_obl s) theta)).
Proof using Hz.
  intros Hy Hg. unfold dividing_flux. assert (E : design_matrix eps low high A2 (surf_deg s + 1) g = Ok (rT (surf_deg s + 1))) by (destruct g as [g|]; [apply StarryProof.design_not_occ; [lia|exact Hg]|reflexivity]). rewrite E. cbn [rbind].
  destruct (StarryProof.rotated_y_ok as_euler Hz s Hy theta (theta_z_of g)) as (ry & -> & L & V). cbn [rbind].
  change (div_core (surf_ydeg s) (s_u s) (rT (surf_deg s + 1)) ry = Ok (visible_flux (seen_intensity (y_data (s_y s)) (s_u s) (s_inc s) (s_obl s) theta))).
  rewrite div_core_rT by (exact L || (unfold surf_deg, surf_udeg; lia)). f_equal. transitivity (visible_flux (fun p => StarryProof.seen s theta (rot_z (- theta_z_of g) p))); [|exact (StarryProof.visible_flux_rot as_euler Hz s Hy theta (- theta_z_of g))].
  unfold visible_flux. apply YlmMore.disk_ext_in. intros x y Hd. unfold map_profile. rewrite V by (apply StarryProof.zdisk_sphere3, Hd). unfold StarryProof.seen, seen_intensity. rewrite snd_rot_z. cbn [snd]. ring.
Qed.
Hypothesis He : 0 < eps.
Variables (sf : surface) (sd : surface_d) (pd : option D) (rd : D) (theta : option R) (td : option D).
Hypotheses (Hy : wf_ylm (s_y sf)) (Hs : fin_surface sd sf) (Hv : fin_rotation sf pd rd) (Ht : fin_opt td theta) (Hf : ld_flux (s_u sf) <> 0).
Hypothesis Hvis : visible_flux (seen_intensity (y_data (s_y sf)) (s_u sf) (s_inc sf) (s_obl sf) theta) <> 0.
Lemma occulted_rv_free R' X Y Z r x y z : fin R' r -> fin X x -> fin Y y -> fin Z z -> ~ (x = 0 /\ y = 0) -> 1 + r <= sqrt (x ^ 2 + y ^ 2) \/ z <= 0 ->
  occulted_rv_d as_euler eps low high A2 sd pd rd R' X Y Z td = bare_rv_d as_euler sd pd rd td.
Proof using Hz He Hy Hs Hv Ht Hf Hvis.
  intros HR HX HY HZ N Ho. pose proof Hs as (Ey & Ei & Eo & Fy & Fu & Fa). destruct (opt_through td theta Ht) as (th & Tth & Eth). destruct (lines_through _ _ Fy) as (yy & Ty & Yy). destruct (lines_through _ _ Fu) as (u & Tu & Uu).
  destruct (line_through _ _ Fa) as (amp & Ta & Aa). destruct (line_through _ _ HX) as (fx & Tx & Ex). destruct (line_through _ _ HY) as (fy & Tfy & Efy). destruct (veq_point sf pd rd Hv) as (vq & Tv & Vv).
  assert (Og : og_occ (geometry r (Some x) (Some y) (Some z)) = false) by (destruct (og_occ _) eqn:E; [|reflexivity]; apply StarryProof.geometry_occ in E; cbn [none0] in E; lra).
  unfold occulted_rv_d, bare_rv_d. cbv zeta. rewrite (design_free eps low high He A2 (sd_ydeg sd + length (sd_u sd) + 1) R' X Y Z r x y z) by (assumption || lia). cbn [rbind].
  assert (Tz : angle (fun w => atan2 (fx w) (fy w)) 0 (gd_theta_z (geometry_d R' X Y Z))) by (apply angle_atan2; try assumption; rewrite Ex, Efy; exact N).
  assert (T0 : angle (fun _ => 0) 0 (cst 0)) by (apply (angle_tracks (fun _ => 0)), tracks_cst).
  assert (Lu : length (sd_u sd) = length (u 0)) by (symmetry; exact (TL_length 0 u _ 0 Tu)).
  assert (G : forall tz xz, angle tz 0 xz -> RR 0 (fun w => free_rv (sd_ydeg sd) (sd_inc sd) (sd_obl sd) (th w) (tz w) (yy w) (u w) (amp w) (vq w))
    (rbind (rotated_y_d as_euler sd td xz) (fun ry => rv_of_d sd (surf_veq_d pd rd) xz (map cst (rT (sd_ydeg sd + length (sd_u sd) + 1))) ry))).
  { intros tz xz Ta'. apply (rel_ext _ (fun w => rbind (rot_core as_euler (sd_ydeg sd) (sd_inc sd) (sd_obl sd) (th w) (tz w) (yy w)) (fun ry => rv_core (sd_ydeg sd) (sd_inc sd) (sd_obl sd) (u w) (amp w) (vq w) (tz w) (rT (sd_ydeg sd + length (sd_u sd) + 1)) ry))).
    { intros w. unfold free_rv. now rewrite (TL_length 0 u _ w Tu). }
    refine (rel_bind (fun f d => tracks_list f 0 d) (fun f d => tracks f 0 d) (fun w => rot_core as_euler (sd_ydeg sd) (sd_inc sd) (sd_obl sd) (th w) (tz w) (yy w)) _ (fun w ry => _) _ _ _).
    - apply RL_core; [exact Ty|now apply tracks_angle_opt|exact Ta'].
    - intros ry ryd Ery Hr. apply (RR_rv 0 sd u amp vq _ tz xz (fun _ => rT (sd_ydeg sd + length (sd_u sd) + 1)) ry); try assumption; [apply TL_cst|rewrite Uu; now apply ld_ok_surface|].
      exists (visible_flux (seen_intensity (y_data (s_y sf)) (s_u sf) (s_inc sf) (s_obl sf) theta)). split; [|exact Hvis].
      destruct (StarryProof.rotated_y_ok as_euler Hz sf Hy theta (tz 0)) as (r1 & E1 & L1 & V1). rewrite rotated_core, Ey, Ei, Eo in E1. specialize (Ery 0). rewrite Eth, Yy, E1 in Ery. injection Ery as <-. rewrite Ey in L1, V1.
      rewrite Lu, div_core_rT by (exact L1 || lia). f_equal. transitivity (visible_flux (fun p => StarryProof.seen sf theta (rot_z (- tz 0) p))); [|exact (StarryProof.visible_flux_rot as_euler Hz sf Hy theta (- tz 0))].
      unfold visible_flux. apply YlmMore.disk_ext_in. intros a b Hd. unfold map_profile. rewrite V1 by (apply StarryProof.zdisk_sphere3, Hd). unfold StarryProof.seen, seen_intensity. rewrite Uu, snd_rot_z. cbn [snd]. rewrite Ei, Eo. ring. }
  apply (rr_unique (fun w => free_rv (sd_ydeg sd) (sd_inc sd) (sd_obl sd) (th w) 0 (yy w) (u w) (amp w) (vq w)) 0); [|now apply (G (fun _ => 0))].
  apply (rel_ext _ (fun w => free_rv (sd_ydeg sd) (sd_inc sd) (sd_obl sd) (th w) (atan2 (fx w) (fy w)) (yy w) (u w) (amp w) (vq w))); [|now apply (G (fun w => atan2 (fx w) (fy w)))].
  intros w. apply free_rv_tz. rewrite (TL_length 0 yy _ w Ty), <- (TL_length 0 yy _ 0 Ty), Yy. rewrite (dense_len sf Hy). now rewrite Ey.
Qed.
End Free.

(** ** Centres exactly aligned: a result without gradient *)
Lemma rz_shape deg xz M : length M = (deg ^ 2 + 2 * deg + 1)%nat -> exists r, dot_rz_d deg xz M = Ok r /\ length r = (deg ^ 2 + 2 * deg + 1)%nat.
Proof. intros L. unfold dot_rz_d. cbv zeta. rewrite L, Nat.eqb_refl. eexists. split; [reflexivity|apply rz_length]. Qed.
Lemma rv_shape sd u amp veq ved tz xz design dd ry rd v : length (sd_u sd) = length u -> length dd = length design -> length rd = length ry ->
  rv_core (sd_ydeg sd) (sd_inc sd) (sd_obl sd) u amp (Ok veq) tz design ry = Ok v -> exists x, rv_of_d sd (Ok ved) xz dd rd = Ok x.
Proof.
  intros Lu Ld Lr. unfold rv_core, rv_of_d. destruct (ldp u) as [pu|er] eqn:E1; cbn [rbind]; [|discriminate].
  assert (S1 : exists q, ld_poly_d (sd_u sd) = Ok q /\ same_terms q pu).
  { unfold ldp in E1. unfold ld_poly_d. rewrite Lu. destruct (length u =? 0)%nat; [exact (dense_shape [cst 1] [1] None pu eq_refl E1)|].
    refine (dense_shape _ _ _ pu _ E1). unfold ld_row_d, ld_row. now rewrite !map_length, !seq_length, Lu. }
  destruct S1 as (qu & -> & S1). cbn [rbind]. destruct (from_dense (A1_mul _ ry) _) as [py|er] eqn:E2; cbn [rbind]; [|discriminate].
  assert (LA : length (A1_mul_d (sd_ydeg sd) rd) = length (A1_mul (sd_ydeg sd) ry)) by (unfold A1_mul_d, A1_mul; rewrite !map_length; reflexivity).
  destruct (dense_shape _ _ _ py LA E2) as (qy & -> & S2). cbn [rbind]. clear LA.
  destruct (pijk_dot pu _) as [f|er] eqn:E4; cbn [rbind]; [|discriminate].
  assert (LB : length (map cst (rT (length (sd_u sd)))) = length (rT (length u))) by (rewrite map_length, Lu; reflexivity).
  unfold ld_norm_d. destruct (dot_shape qu pu _ _ f S1 LB E4) as (x & ->). cbn [rbind].
  destruct (dot_rz 1 _ _) as [rr|er]; cbn [rbind]; [|discriminate]. destruct (rz_shape 1 (dneg xz) (rv_map_expansion_d ved (sd_inc sd) (sd_obl sd)) eq_refl) as (rrd & -> & _). cbn [rbind].
  destruct (from_dense (A1_mul 1 rr) None) as [pr|er] eqn:E6; cbn [rbind]; [|discriminate].
  assert (LC : length (A1_mul_d 1 rrd) = length (A1_mul 1 rr)) by (unfold A1_mul_d, A1_mul; rewrite !map_length; reflexivity).
  destruct (dense_shape _ _ _ pr LC E6) as (qr & -> & S6). cbn [rbind]. clear LC.
  destruct (pijk_mul py pr) as [p1|er] eqn:E7; cbn [rbind]; [|discriminate]. destruct (mul_shape _ _ _ _ _ S2 S6 E7) as (q1 & -> & S7). cbn [rbind].
  destruct (pijk_mul p1 pu) as [p2|er] eqn:E8; cbn [rbind]; [|discriminate]. destruct (mul_shape _ _ _ _ _ S7 S1 E8) as (q2 & -> & S8). cbn [rbind].
  destruct (pijk_dot p2 design) as [g|er] eqn:E9; cbn [rbind]; [|discriminate]. destruct (dot_shape q2 p2 dd design g S8 Ld E9) as (w & ->). cbn [rbind].
  destruct (pijk_mul py pu) as [pyu|er] eqn:E3; cbn [rbind]; [|discriminate]. destruct (mul_shape _ _ _ _ _ S2 S1 E3) as (qyu & -> & S3). cbn [rbind]. rewrite Lu.
  set (n := ((sd_ydeg sd + length u + 1) * (sd_ydeg sd + length u + 1))%nat).
  destruct (pijk_dot pyu (firstn n design)) as [h|er] eqn:E10; cbn [rbind]; [|discriminate]. assert (LD : length (firstn n dd) = length (firstn n design)) by (rewrite !firstn_length, Ld; reflexivity).
  destruct (dot_shape qyu pyu _ _ h S3 LD E10) as (k & ->). cbn [rbind]. intros _. now eexists.
Qed.
Lemma pdot_none p ds : ds <> [] -> (forall n, (n < length ds)%nat -> nth n ds (cst 0) = None) -> forall d, pijk_dot_d p ds = Ok d -> d = None.
Proof.
  intros N H d. unfold pijk_dot_d. destruct (todense_d p) as [pd|e]; cbn [rbind]; [|discriminate]. unfold dot_vec_d. destruct (Nat.eqb (length pd) (length ds)) eqn:E; [|discriminate]. apply Nat.eqb_eq in E.
  intros Hd. injection Hd as <-. now apply ddot_none.
Qed.
Lemma aligned_rv_none as_euler eps low high A2 sf sd pd rd R' X Y Z td : wf_ylm (s_y sf) -> fin_surface sd sf -> fin_rotation sf pd rd -> s_period sf <> None -> fin X 0 -> fin Y 0 ->
  occulted_rv_d as_euler eps low high A2 sd pd rd R' X Y Z td = Ok None.
Proof.
  intros Hy (Ey & Ei & Eo & Fy & Fu & Fa) (_ & Np & Fp & _) Ns HX HY.
  assert (LF : forall d v, List.Forall2 fin d v -> length d = length v) by (intros d v H; induction H; cbn; congruence).
  pose proof (LF _ _ Fy) as Ly. pose proof (LF _ _ Fu) as Lu. rewrite (dense_len sf Hy), Ey in Ly.
  assert (Ev : exists v, surf_veq_d pd rd = Ok v).
  { unfold surf_veq_d. destruct pd as [p|], (s_period sf) as [p0|]; try contradiction. destruct Fp as (t & ->). cbn [val]. unfold Reqb. destruct (Req_EM_T p0 0) as [->|_]; [now destruct Np|now eexists]. }
  destruct Ev as (ved & Ev). unfold occulted_rv_d. cbv zeta.
  destruct (design_none eps low high A2 (sd_ydeg sd + length (sd_u sd) + 1) R' X Y Z HX HY ltac:(lia)) as (ds & -> & L & HN). cbn [rbind]. rewrite Ev.
  assert (Er : exists r, rotated_y_d as_euler sd td (gd_theta_z (geometry_d R' X Y Z)) = Ok r /\ length r = ncoef (sd_ydeg sd)).
  { unfold rotated_y_d. destruct (sd_ydeg sd =? 0)%nat; [now exists (sd_y sd)|].
    destruct (left_shape as_euler (sd_ydeg sd) (sd_inc sd) (sd_obl sd) td (Some (gd_theta_z (geometry_d R' X Y Z))) (sd_y sd) ltac:(rewrite Ly; unfold ncoef; cbn [Nat.pow]; lia)) as (r & E & Lr).
    exists r. split; [exact E|rewrite Lr; unfold ncoef; cbn [Nat.pow]; lia]. }
  destruct Er as (ry & -> & Lr). cbn [rbind].
  destruct (rv_core_rT (sd_ydeg sd) (sd_inc sd) (sd_obl sd) (s_u sf) 1 1 0 (repeat 0 (length ry)) ltac:(now rewrite repeat_length)) as (rr0 & _ & _ & Ec).
  destruct (rv_shape sd (s_u sf) 1 1 ved 0 (gd_theta_z (geometry_d R' X Y Z)) (rT (sd_ydeg sd + length (s_u sf) + 1)) ds (repeat 0 (length ry)) ry _ Lu ltac:(rewrite L, Lu, RTProof.rT_length; reflexivity) ltac:(now rewrite repeat_length) Ec) as (d & Ed).
  rewrite Ed. f_equal. revert Ed. unfold rv_of_d.
  destruct (ld_poly_d _) as [pu|e]; cbn [rbind]; [|discriminate]. destruct (from_dense_d _ _) as [py|e]; cbn [rbind]; [|discriminate].
  destruct (ld_norm_d _ _) as [nm|e]; cbn [rbind]; [|discriminate]. destruct (dot_rz_d _ _ _) as [rr|e]; cbn [rbind]; [|discriminate]. destruct (from_dense_d _ _) as [pr|e]; cbn [rbind]; [|discriminate].
  destruct (pijk_mul_d py pr) as [p1|e]; cbn [rbind]; [|discriminate]. destruct (pijk_mul_d p1 pu) as [p2|e]; cbn [rbind]; [|discriminate].
  destruct (pijk_dot_d p2 ds) as [rv|e] eqn:E; cbn [rbind]; [|discriminate]. destruct (pijk_mul_d py pu) as [pyu|e]; cbn [rbind]; [|discriminate].
  destruct (pijk_dot_d pyu _) as [f|e]; cbn [rbind]; [|discriminate]. intros H. injection H as <-.
  rewrite (pdot_none p2 ds) with (d := rv); [|intros ->; cbn in L; nia|intros n Hn; apply HN; now rewrite <- L|exact E].
  replace (dmul (sd_amplitude sd) None) with (@None (R * R)) by (destruct (sd_amplitude sd) as [[]|]; reflexivity). unfold ddiv, dmul. cbn [lift2]. destruct (Req_EM_T _ 0); reflexivity.
Qed.
