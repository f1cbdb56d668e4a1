(** Gradients of light curves of spherical-harmonic maps when nothing is hidden, and at exact alignment. *)
From Coq Require Import Reals List Bool Arith ZArith Lia Lra Psatz.
From Coquelicot Require Import Hierarchy Derive Continuity Rbar Rcomplements ElemFct AutoDerive.
From Verif Require Import Base.RealAux Base.Dict Model.LimbDark Model.Poly Model.Basis Model.S2fft Model.Rotation Model.Solution Model.SolutionVector Model.Ylm Model.RvMap Model.Surface Model.StarryLightCurve Model.AutoDiff Model.LightCurveGrad Model.TransitGrad Model.StarryGrad.
From Verif Require Import Spec.LimbDarkSpec Spec.OccultSpec Spec.PolySpec Spec.BasisSpec Spec.HarmonicSpec Spec.RotationSpec Spec.DiskSpec Spec.SurfaceSpec Spec.YlmSpec Spec.AutoDiffSpec Spec.StarryGradSpec.
From Verif Require Import Proof.RotationMap Proof.RotationMore Proof.AxisAngle Proof.SurfaceProof Proof.DiskRot.
From Verif Require Import Proof.AutoDiff Proof.LightCurveGrad Proof.LightCurveDeriv Proof.LightCurveTangent Proof.LightCurveGradFacts Proof.TransitGrad Proof.StarryGrad Proof.StarryGradFlux Proof.StarryGradDesign Proof.StarryGradPoly Proof.StarryGradCurve.
From Verif Require Proof.StarryProof Proof.YlmProof Proof.GreenProof Proof.YlmMore.
Import ListNotations.
Local Open Scope R_scope.

(** ** The total flux does not depend on the position angle of the occultor *)
Lemma ldp_repr u : exists p, ldp u = Ok p /\ repr p (length u) (fun x y z => ld_profile u z).
Proof.
  set (s := {| s_y := {| y_data := []; y_deg := 0%Z; y_diagonal := false |}; s_inc := None; s_obl := None; s_u := u; s_period := None; s_amplitude := 0; s_normalize := false; s_phase := 0; s_radius := 0; s_shear := None |}).
  exact (StarryProof.ld_poly_ok s).
Qed.
Section Free.
Variable as_euler : R * R * R -> R * R * R.
Hypothesis Hz : zyz_euler as_euler.
Definition profile_flux (ydeg : nat) (u ry : list R) : R := disk_integral (fun x y => 2 / sqrt PI * map_at ydeg ry (x, y, zdisk x y) * ld_profile u (zdisk x y)).
Lemma flux_core_rT ydeg u amp ry : length ry = ncoef ydeg -> flux_core ydeg u amp (rT (ydeg + length u)) ry = Ok (amp * profile_flux ydeg u ry * (PI / ld_flux u)).
Proof using.
  intros L. unfold flux_core. destruct (ldp_repr u) as (p_u & E2 & R2). rewrite E2. cbn [rbind].
  destruct (A1_mul_repr ydeg ry _ L (or_intror eq_refl)) as (p_y & E1 & R1). rewrite E1. cbn [rbind].
  destruct (repr_mul _ _ _ _ _ _ R1 R2) as (p & E3 & R3). rewrite E3. cbn [rbind]. rewrite (StarryProof.repr_dot_rT _ _ _ R2). cbn [rbind].
  rewrite (StarryProof.repr_dot_rT _ _ _ R3). reflexivity.
Qed.
Lemma profile_flux_rot ydeg u r0 r1 a : length r0 = ncoef ydeg -> (forall p, sphere3 p -> map_at ydeg r1 p = map_at ydeg r0 (rot_z a p)) -> profile_flux ydeg u r1 = profile_flux ydeg u r0.
Proof using.
  intros L V. unfold profile_flux. destruct (ldp_repr u) as (p_u & E2 & R2). destruct (A1_mul_repr ydeg r0 _ L (or_intror eq_refl)) as (p_y & E1 & R1).
  destruct (repr_mul _ _ _ _ _ _ R1 R2) as (p & E3 & R3). destruct (repr_todense _ _ _ R3) as (v & E4 & L4 & V4). cbv beta in V4.
  transitivity (disk_integral (fun x y => dense_eval (ydeg + length u) (fun n => nth n v 0) x y (zdisk x y))).
  - rewrite <- (disk_rot _ a (disk_cont_dense _ (fun n => nth n v 0))). apply YlmMore.disk_ext_in. intros x y Hd. rewrite V4 by (apply GreenProof.zdisk_sphere, StarryProof.in_disk_rot, Hd).
    rewrite V by (apply StarryProof.zdisk_sphere3, Hd). unfold rot_z. rewrite StarryProof.zdisk_rot. reflexivity.
  - apply YlmMore.disk_ext_in. intros x y Hd. apply V4, GreenProof.zdisk_sphere, Hd.
Qed.
Definition free_flux ydeg inc obl theta tz y u amp : result R := rbind (rot_core as_euler ydeg inc obl theta tz y) (fun ry => flux_core ydeg u amp (rT (ydeg + length u)) ry).
Lemma free_flux_tz ydeg inc obl theta tz y u amp : length y = ncoef ydeg -> free_flux ydeg inc obl theta tz y u amp = free_flux ydeg inc obl theta 0 y u amp.
Proof using Hz.
  intros L. unfold free_flux, rot_core. destruct (ydeg =? 0)%nat; [reflexivity|].
  destruct (left_project_ok as_euler Hz ydeg inc obl theta (Some tz) y L) as (r1 & E1 & L1 & V1). destruct (left_project_ok as_euler Hz ydeg inc obl theta (Some 0) y L) as (r0 & E0 & L0 & V0).
  rewrite E1, E0. cbn [rbind]. rewrite !flux_core_rT by assumption. do 3 f_equal. apply (profile_flux_rot ydeg u r0 r1 (- tz) L0).
  intros p Hp. rewrite V1 by exact Hp. rewrite V0 by (apply StarryProof.sphere_rot_z, Hp). cbn [angle0]. rewrite Ropp_0, !StarryProof.rot_z_0. reflexivity.
Qed.
(** two traced results that track the same function are the same *)
Lemma tracks_unique f s d e : tracks f s d -> tracks f s e -> d = e.
Proof using.
  intros (t & -> & H) (t' & -> & H'). do 2 f_equal. rewrite <- (is_derive_unique f s t H). exact (is_derive_unique f s t' H').
Qed.
Lemma rr_unique f s d e : RR s f d -> RR s f e -> d = e.
Proof using.
  destruct d as [d|d], e as [e|e]; intros H H'.
  - destruct H as (g & E & H), H' as (g' & E' & H'). f_equal. apply (tracks_unique g s); [exact H|]. revert H'. apply tracks_ext'. intros z. specialize (E z). specialize (E' z). rewrite E in E'. now injection E'.
  - destruct H as (g & E & H). cbn in H'. specialize (E s). rewrite (H' s) in E. discriminate.
  - destruct H' as (g & E & H'). cbn in H. specialize (E s). rewrite (H s) in E. discriminate.
  - cbn in H, H'. specialize (H s). rewrite (H' s) in H. now injection H as ->.
Qed.
Variables (eps : R) (low high : list (R * R)) (A2 : nat -> matrix).
Hypothesis He : 0 < eps.
Variables (sf : surface) (sd : surface_d) (theta : option R) (td : option D).
Hypotheses (Hy : wf_ylm (s_y sf)) (Hs : fin_surface sd sf) (Ht : fin_opt td theta) (Hf : ld_flux (s_u sf) <> 0).
Lemma RR_free th y u amp tz xz : TL y 0 (sd_y sd) -> TL u 0 (sd_u sd) -> tracks amp 0 (sd_amplitude sd) -> tracks_opt th 0 td -> u 0 = s_u sf -> angle tz 0 xz ->
  RR 0 (fun w => free_flux (sd_ydeg sd) (sd_inc sd) (sd_obl sd) (th w) (tz w) (y w) (u w) (amp w)) (rbind (rotated_y_d as_euler sd td xz) (fun ry => flux_of_d sd (map cst (rT (sd_ydeg sd + length (sd_u sd)))) ry)).
Proof using Hf.
  intros Ty Tu Ta Tt Eu Tz. apply (rel_ext _ (fun w => rbind (rot_core as_euler (sd_ydeg sd) (sd_inc sd) (sd_obl sd) (th w) (tz w) (y w)) (fun ry => flux_core (sd_ydeg sd) (u w) (amp w) (rT (sd_ydeg sd + length (sd_u sd))) ry))).
  { intros w. unfold free_flux. now rewrite (TL_length 0 u _ w Tu). }
  apply (rel_bind (fun f d => tracks_list f 0 d) (fun f d => tracks f 0 d) (fun w => rot_core as_euler (sd_ydeg sd) (sd_inc sd) (sd_obl sd) (th w) (tz w) (y w)) _ (fun w ry => flux_core (sd_ydeg sd) (u w) (amp w) (rT (sd_ydeg sd + length (sd_u sd))) ry)).
  - apply RL_core; [exact Ty|now apply tracks_angle_opt|exact Tz].
  - intros ry rd _ Hr. apply (RR_flux 0 sd u amp (fun _ => rT (sd_ydeg sd + length (sd_u sd))) ry); try assumption; [apply TL_cst|]. rewrite Eu. now apply ld_ok_surface.
Qed.
Lemma occulted_free R' X Y Z r x y z : sd_ydeg sd <> 0%nat -> fin R' r -> fin X x -> fin Y y -> fin Z z -> ~ (x = 0 /\ y = 0) -> 1 + r <= sqrt (x ^ 2 + y ^ 2) \/ z <= 0 ->
  occulted_light_curve_d as_euler eps low high A2 sd R' X Y Z td = bare_light_curve_d as_euler sd td.
Proof using Hz He Hy Hs Ht Hf.
  intros H0 HR HX HY HZ N Ho. pose proof Hs as (Ey & Ei & Eo & Fy & Fu & Fa). destruct (opt_through td theta Ht) as (th & Tth & Eth). destruct (lines_through _ _ Fy) as (yy & Ty & Yy). destruct (lines_through _ _ Fu) as (u & Tu & Uu).
  destruct (line_through _ _ Fa) as (amp & Ta & Aa). destruct (line_through _ _ HX) as (fx & Tx & Ex). destruct (line_through _ _ HY) as (fy & Tfy & Efy).
  unfold occulted_light_curve_d, bare_light_curve_d. cbv zeta. destruct (sd_ydeg sd =? 0)%nat eqn:E0; [apply Nat.eqb_eq in E0; contradiction|].
  rewrite (design_free eps low high He A2 (sd_ydeg sd + length (sd_u sd)) R' X Y Z r x y z); try assumption; [|lia|destruct (og_occ _) eqn:E; [|reflexivity]; apply StarryProof.geometry_occ in E; cbn [none0] in E; lra]. cbn [rbind].
  assert (Tz : angle (fun w => atan2 (fx w) (fy w)) 0 (gd_theta_z (geometry_d R' X Y Z))) by (apply angle_atan2; try assumption; rewrite Ex, Efy; exact N).
  assert (T0 : angle (fun _ => 0) 0 (cst 0)) by (apply (angle_tracks (fun _ => 0)), tracks_cst).
  apply (rr_unique (fun w => free_flux (sd_ydeg sd) (sd_inc sd) (sd_obl sd) (th w) 0 (yy w) (u w) (amp w)) 0); [|now apply (RR_free th yy u amp (fun _ => 0))].
  apply (rel_ext _ (fun w => free_flux (sd_ydeg sd) (sd_inc sd) (sd_obl sd) (th w) (atan2 (fx w) (fy w)) (yy w) (u w) (amp w))); [|now apply (RR_free th yy u amp (fun w => atan2 (fx w) (fy w)))].
  intros w. apply free_flux_tz. rewrite (TL_length 0 yy _ w Ty), <- (TL_length 0 yy _ 0 Ty), Yy. rewrite (dense_len sf Hy). now rewrite Ey.
Qed.
End Free.

(** ** Centres exactly aligned: no gradient *)
Lemma dsum_none l : In None l -> dsum l = None.
Proof. induction l as [|a l IH]; intros H; [destruct H|]. cbn [dsum fold_right] in *. destruct H as [-> |H]; [reflexivity|]. change (dadd a (dsum l) = None). rewrite (IH H). apply lift2_none_r. Qed.
Lemma ddot_none a b : b <> [] -> length a = length b -> (forall n, (n < length b)%nat -> nth n b (cst 0) = None) -> ddot a b = None.
Proof.
  intros Nb L H. destruct b as [|d b]; [contradiction|]. destruct a as [|c a]; [discriminate|]. unfold ddot. apply dsum_none. left. cbn [fst snd].
  specialize (H 0%nat ltac:(cbn; lia)). cbn in H. rewrite H. apply lift2_none_r.
Qed.
Lemma occulted_none as_euler eps low high A2 sd R' X Y Z td d : sd_ydeg sd <> 0%nat -> fin X 0 -> fin Y 0 ->
  occulted_light_curve_d as_euler eps low high A2 sd R' X Y Z td = Ok d -> d = None.
Proof.
  intros H0 HX HY. unfold occulted_light_curve_d. cbv zeta. destruct (sd_ydeg sd =? 0)%nat eqn:E0; [apply Nat.eqb_eq in E0; contradiction|].
  destruct (design_none eps low high A2 (sd_ydeg sd + length (sd_u sd)) R' X Y Z HX HY ltac:(lia)) as (ds & -> & L & HN). cbn [rbind].
  destruct (rotated_y_d _ _ _ _) as [ry|e]; cbn [rbind]; [|discriminate]. unfold flux_of_d.
  destruct (ld_poly_d _) as [pu|e]; cbn [rbind]; [|discriminate]. destruct (from_dense_d _ _) as [py|e]; cbn [rbind]; [|discriminate]. destruct (pijk_mul_d _ _) as [pyu|e]; cbn [rbind]; [|discriminate].
  destruct (ld_norm_d _ _) as [nm|e]; cbn [rbind]; [|discriminate]. unfold pijk_dot_d. destruct (todense_d pyu) as [pd|e]; cbn [rbind]; [|discriminate].
  unfold dot_vec_d. destruct (Nat.eqb (length pd) (length ds)) eqn:E; cbn [rbind]; [|discriminate]. apply Nat.eqb_eq in E. intros H. injection H as <-.
  rewrite (ddot_none pd ds); [|intros ->; cbn in L; nia|exact E|intros n Hn; apply HN; now rewrite <- L].
  unfold dmul at 2. rewrite lift2_none_r. apply lift2_none_l.
Qed.
