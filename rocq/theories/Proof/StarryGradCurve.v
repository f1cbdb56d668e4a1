(** Gradients of light curves of spherical-harmonic maps. *)
From Coq Require Import Reals List Bool Arith ZArith Lia Lra Psatz.
From Coquelicot Require Import Hierarchy Derive Continuity Rbar Rcomplements ElemFct AutoDerive.
From Verif Require Import Base.RealAux Base.Dict Model.LimbDark Model.Poly Model.Basis Model.S2fft Model.Rotation Model.Solution Model.SolutionVector Model.Ylm Model.RvMap Model.Surface Model.StarryLightCurve Model.AutoDiff Model.LightCurveGrad Model.TransitGrad Model.StarryGrad.
From Verif Require Import Spec.LimbDarkSpec Spec.OccultSpec Spec.RotationSpec Spec.SurfaceSpec Spec.YlmSpec Spec.AutoDiffSpec Spec.StarryGradSpec.
From Verif Require Import Proof.AutoDiff Proof.LightCurveGrad Proof.LightCurveDeriv Proof.LightCurveTangent Proof.LightCurveGradFacts Proof.TransitGrad Proof.StarryGrad Proof.StarryGradFlux Proof.StarryGradDesign Proof.StarryGradPoly.
From Verif Require Proof.StarryProof.
Import ListNotations.
Local Open Scope R_scope.

(** flux_of in terms of what it uses of a surface *)
Definition ldp (u : list R) : result pijk := if (length u =? 0)%nat then from_dense [1] None else from_dense (ld_row u) (Some (Z.of_nat (length u))).
Definition flux_core (ydeg : nat) (u : list R) (amp : R) (design ry : list R) : result R :=
  rbind (ldp u) (fun p_u =>
  rbind (from_dense (A1_mul ydeg ry) (Some (Z.of_nat ydeg))) (fun p_y =>
  rbind (pijk_mul p_y p_u) (fun p_yu =>
  rbind (rbind (pijk_dot p_u (rT (length u))) (fun f => Ok (PI / f))) (fun norm =>
  rbind (pijk_dot p_yu design) (fun f => Ok (amp * f * norm)))))).
Lemma flux_of_core s design ry : flux_of s design ry = flux_core (surf_ydeg s) (s_u s) (s_amplitude s) design ry.
Proof. reflexivity. Qed.
Definition ld_ok (u : list R) : Prop := exists f, f <> 0 /\ rbind (ldp u) (fun p => pijk_dot p (rT (length u))) = Ok f.
Lemma ld_ok_surface s : ld_flux (s_u s) <> 0 -> ld_ok (s_u s).
Proof.
  intros H. exists (ld_flux (s_u s)). split; [exact H|]. destruct (StarryProof.ld_poly_ok s) as (p & E & Rp). change (ldp (s_u s)) with (ld_poly s). rewrite E. cbn [rbind].
  exact (StarryProof.repr_dot_rT _ _ _ Rp).
Qed.
Section Core.
Variable s : R.
Lemma TL_ld_row f d : TL f s d -> TL (fun z => ld_row (f z)) s (ld_row_d d).
Proof.
  intros H. unfold ld_row, ld_row_d, limb_dark_vector.
  apply (TL_ext s (fun z => map (fun n => bigsum (length d + 1) (fun i => nth i (1 :: f z) 0 * U_matrix (length d) (Z.of_nat i) (Z.of_nat n))) (seq 0 ((length d + 1) * (length d + 1))))); [intros z; now rewrite (TL_length s f d z H)|].
  assert (H1 : TL (fun z => 1 :: f z) s (cst 1 :: d)) by (apply (TL_cons s (fun _ => 1)); [apply tracks_cst|exact H]).
  apply (TL_map s (seq 0 ((length d + 1) * (length d + 1))) (fun n z => bigsum (length d + 1) (fun i => nth i (1 :: f z) 0 * U_matrix (length d) (Z.of_nat i) (Z.of_nat n)))). intros n.
  apply (tracks_bigsum (fun i z => nth i (1 :: f z) 0 * U_matrix (length d) (Z.of_nat i) (Z.of_nat n))). intros i _.
  apply (tracks_mul (fun z => nth i (1 :: f z) 0) (fun _ => U_matrix (length d) (Z.of_nat i) (Z.of_nat n))); [exact (TL_nth s (fun z => 1 :: f z) _ i H1)|apply tracks_cst].
Qed.
Lemma RP_ldp f d : TL f s d -> RP s (fun z => ldp (f z)) (ld_poly_d d).
Proof.
  intros H. unfold ldp, ld_poly_d.
  apply (rel_ext _ (fun z => if (length d =? 0)%nat then from_dense [1] None else from_dense (ld_row (f z)) (Some (Z.of_nat (length d))))); [intros z; now rewrite (TL_length s f d z H)|].
  destruct (length d =? 0)%nat.
  - apply (RP_dense s (fun _ => [1]) [cst 1]). exact (TL_cst s [1]).
  - apply (RP_dense s (fun z => ld_row (f z))). now apply TL_ld_row.
Qed.
Lemma RR_flux sd u amp design ry dd rd : TL u s (sd_u sd) -> tracks amp s (sd_amplitude sd) -> TL design s dd -> TL ry s rd -> ld_ok (u s) ->
  RR s (fun z => flux_core (sd_ydeg sd) (u z) (amp z) (design z) (ry z)) (flux_of_d sd dd rd).
Proof.
  intros Hu Ha Hd Hr (f0 & Nf & Ef). unfold flux_core, flux_of_d.
  apply (rel_bind (tracks_pijk s) (fun f d => tracks f s d) (fun z => ldp (u z)) _ (fun z p_u => rbind (from_dense (A1_mul (sd_ydeg sd) (ry z)) (Some (Z.of_nat (sd_ydeg sd)))) (fun p_y =>
    rbind (pijk_mul p_y p_u) (fun p_yu => rbind (rbind (pijk_dot p_u (rT (length (u z)))) (fun f => Ok (PI / f))) (fun norm => rbind (pijk_dot p_yu (design z)) (fun f => Ok (amp z * f * norm))))))); [now apply RP_ldp|].
  intros pu pud Epu Hpu.
  apply (rel_bind (tracks_pijk s) (fun f d => tracks f s d) (fun z => from_dense (A1_mul (sd_ydeg sd) (ry z)) (Some (Z.of_nat (sd_ydeg sd)))) _ (fun z p_y =>
    rbind (pijk_mul p_y (pu z)) (fun p_yu => rbind (rbind (pijk_dot (pu z) (rT (length (u z)))) (fun f => Ok (PI / f))) (fun norm => rbind (pijk_dot p_yu (design z)) (fun f => Ok (amp z * f * norm)))))); [apply (RP_dense s (fun z => A1_mul (sd_ydeg sd) (ry z))); now apply TL_A1|].
  intros py pyd _ Hpy.
  apply (rel_bind (tracks_pijk s) (fun f d => tracks f s d) (fun z => pijk_mul (py z) (pu z)) _ (fun z p_yu =>
    rbind (rbind (pijk_dot (pu z) (rT (length (u z)))) (fun f => Ok (PI / f))) (fun norm => rbind (pijk_dot p_yu (design z)) (fun f => Ok (amp z * f * norm))))); [now apply RP_mul|].
  intros pyu pyud _ Hpyu.
  apply (rel_bind (fun f d => tracks f s d) (fun f d => tracks f s d) (fun z => rbind (pijk_dot (pu z) (rT (length (u z)))) (fun f => Ok (PI / f))) _ (fun z norm => rbind (pijk_dot (pyu z) (design z)) (fun f => Ok (amp z * f * norm)))).
  { unfold ld_norm_d. apply (rel_bind (fun f d => tracks f s d) (fun f d => tracks f s d) (fun z => pijk_dot (pu z) (rT (length (u z)))) _ (fun z f => Ok (PI / f))).
    - apply (rel_ext _ (fun z => pijk_dot (pu z) (rT (length (sd_u sd))))); [intros z; now rewrite (TL_length s u _ z Hu)|]. apply (RR_pdot s pu pud (fun _ => rT (length (sd_u sd)))); [exact Hpu|apply TL_cst].
    - intros g x Eg Hg. apply (rel_ok (fun f d => tracks f s d) (fun z => PI / g z)). apply (tracks_div (fun _ => PI)); [apply tracks_cst|exact Hg|].
      assert (E : g s = f0) by (specialize (Epu s); specialize (Eg s); rewrite Epu in Ef; cbn [rbind] in Ef; rewrite Eg in Ef; now injection Ef). rewrite E. exact Nf. }
  intros nm nmd _ Hn.
  apply (rel_bind (fun f d => tracks f s d) (fun f d => tracks f s d) (fun z => pijk_dot (pyu z) (design z)) _ (fun z f => Ok (amp z * f * nm z))); [now apply RR_pdot|].
  intros g x _ Hg. apply (rel_ok (fun f d => tracks f s d) (fun z => amp z * g z * nm z)). apply (tracks_mul (fun z => amp z * g z)); [now apply tracks_mul|exact Hn].
Qed.
End Core.

(** the rotated map *)
Definition rot_core as_euler (ydeg : nat) (inc obl theta : option R) (tz : R) (y : list R) : result (list R) :=
  if (ydeg =? 0)%nat then Ok y else left_project as_euler ydeg inc obl theta (Some tz) y.
Lemma rotated_core as_euler s theta tz : rotated_y as_euler s theta tz = rot_core as_euler (surf_ydeg s) (s_inc s) (s_obl s) theta tz (ylm_todense (s_y s)).
Proof. reflexivity. Qed.
Lemma RL_core as_euler s sd theta x tz xz y : TL y s (sd_y sd) -> angle_opt theta s x -> angle tz s xz ->
  rel_res (fun f d => tracks_list f s d) (fun w => rot_core as_euler (sd_ydeg sd) (sd_inc sd) (sd_obl sd) (theta w) (tz w) (y w)) (rotated_y_d as_euler sd x xz).
Proof.
  intros Hy Ht Hz. unfold rot_core, rotated_y_d. destruct (sd_ydeg sd =? 0)%nat; [now apply (rel_ok (fun f d => tracks_list f s d) y)|]. now apply RL_left.
Qed.

(** ** any path *)
Lemma tracks_angle_opt f s x : tracks_opt f s x -> angle_opt f s x.
Proof. destruct x as [x|]; [|exact (fun H => H)]. intros (g & E & H). exists g. split; [exact E|now apply angle_tracks]. Qed.
Lemma rr_tracks s f d : RR s f d -> tracks_result f s d.
Proof. intros H. exact H. Qed.
Section Path.
Variables (as_euler : R * R * R -> R * R * R) (eps : R) (low high : list (R * R)) (A2 : nat -> matrix).
Hypothesis He : 0 < eps.
Variables (s : R) (sf : R -> surface) (sd : surface_d) (theta : R -> option R) (td : option D).
Hypotheses (Hs : tracks_surface sf s sd) (Ht : tracks_opt theta s td) (Hf : ld_flux (s_u (sf s)) <> 0).
Lemma udeg_const w : surf_udeg (sf w) = length (sd_u sd).
Proof using Hs. destruct Hs as (_ & _ & Hu & _). exact (TL_length s (fun z => s_u (sf z)) _ w Hu). Qed.
Lemma bare_tracks : tracks_result (fun w => surface_light_curve as_euler eps low high A2 (sf w) None None None None (theta w)) s (bare_light_curve_d as_euler sd td).
Proof using Hs Ht Hf.
  pose proof Hs as (Ed & Hy & Hu & Ha). apply rr_tracks. unfold bare_light_curve_d.
  apply (rel_ext _ (fun w => rbind (rot_core as_euler (sd_ydeg sd) (sd_inc sd) (sd_obl sd) (theta w) 0 (ylm_todense (s_y (sf w)))) (fun ry => flux_core (sd_ydeg sd) (s_u (sf w)) (s_amplitude (sf w)) (rT (sd_ydeg sd + length (sd_u sd))) ry))).
  { intros w. unfold surface_light_curve, design_matrix. cbn [rbind]. rewrite rotated_core. unfold surf_deg. rewrite udeg_const. destruct (Ed w) as (-> & -> & ->). destruct (rot_core _ _ _ _ _ _ _) as [ry|e]; cbn [rbind]; [|reflexivity].
    rewrite flux_of_core. now rewrite (proj1 (Ed w)). }
  apply (rel_bind (fun f d => tracks_list f s d) (fun f d => tracks f s d) (fun w => rot_core as_euler (sd_ydeg sd) (sd_inc sd) (sd_obl sd) (theta w) 0 (ylm_todense (s_y (sf w)))) _ (fun w ry => flux_core (sd_ydeg sd) (s_u (sf w)) (s_amplitude (sf w)) (rT (sd_ydeg sd + length (sd_u sd))) ry)).
  - apply (RL_core as_euler s sd theta td (fun _ => 0) (cst 0) (fun w => ylm_todense (s_y (sf w)))); [exact Hy|now apply tracks_angle_opt|apply (angle_tracks (fun _ => 0)), tracks_cst].
  - intros ry rd _ Hr. apply (RR_flux s sd (fun w => s_u (sf w)) (fun w => s_amplitude (sf w)) (fun _ => rT (sd_ydeg sd + length (sd_u sd))) ry); [exact Hu|exact Ha|apply TL_cst|exact Hr|now apply ld_ok_surface].
Qed.
Lemma occulted_tracks r x y z R' X Y Z : sd_ydeg sd <> 0%nat -> tracks r s R' -> tracks x s X -> tracks y s Y -> tracks z s Z -> ~ (x s = 0 /\ y s = 0) ->
  sqrt (x s ^ 2 + y s ^ 2) <> 1 + r s -> z s <> 0 -> (sqrt (x s ^ 2 + y s ^ 2) < 1 + r s -> 0 < z s -> starry_regular_point eps high (sqrt (x s ^ 2 + y s ^ 2)) (r s)) ->
  tracks_result (fun w => surface_light_curve as_euler eps low high A2 (sf w) (Some (r w)) (Some (x w)) (Some (y w)) (Some (z w)) (theta w)) s
    (occulted_light_curve_d as_euler eps low high A2 sd R' X Y Z td).
Proof using He Hs Ht Hf.
  intros H0 HR HX HY HZ N Nb Nz Hreg. pose proof Hs as (Ed & Hy & Hu & Ha). apply rr_tracks. unfold occulted_light_curve_d. cbv zeta. destruct (sd_ydeg sd =? 0)%nat eqn:E0; [apply Nat.eqb_eq in E0; contradiction|].
  set (g := fun w => geometry (r w) (Some (x w)) (Some (y w)) (Some (z w))).
  destruct (design_tracks eps low high He A2 (sd_ydeg sd + length (sd_u sd)) r x y z s R' X Y Z HR HX HY HZ N Nb Nz Hreg ltac:(lia)) as (dd & f & E1 & E2 & HD). rewrite E1. cbn [rbind].
  apply (rel_ext _ (fun w => rbind (rot_core as_euler (sd_ydeg sd) (sd_inc sd) (sd_obl sd) (theta w) (og_theta_z (g w)) (ylm_todense (s_y (sf w)))) (fun ry => flux_core (sd_ydeg sd) (s_u (sf w)) (s_amplitude (sf w)) (f w) ry))).
  { intros w. unfold surface_light_curve. destruct (Ed w) as (Ey & Ei & Eo). rewrite Ey, E0. unfold surf_deg. rewrite Ey, udeg_const. rewrite E2. cbn [rbind theta_z_of]. rewrite rotated_core, Ey, Ei, Eo.
    fold (g w). destruct (rot_core _ _ _ _ _ _ _) as [ry|e]; cbn [rbind]; [|reflexivity]. rewrite flux_of_core. now rewrite Ey. }
  destruct (geometry_tracks r x y z s R' X Y Z HR HX HY HZ N Nb Nz) as (_ & _ & _ & Tz).
  apply (rel_bind (fun f d => tracks_list f s d) (fun f d => tracks f s d) (fun w => rot_core as_euler (sd_ydeg sd) (sd_inc sd) (sd_obl sd) (theta w) (og_theta_z (g w)) (ylm_todense (s_y (sf w)))) _ (fun w ry => flux_core (sd_ydeg sd) (s_u (sf w)) (s_amplitude (sf w)) (f w) ry)).
  - apply (RL_core as_euler s sd theta td (fun w => og_theta_z (g w)) _ (fun w => ylm_todense (s_y (sf w)))); [exact Hy|now apply tracks_angle_opt|exact Tz].
  - intros ry rd _ Hr. apply (RR_flux s sd (fun w => s_u (sf w)) (fun w => s_amplitude (sf w)) f ry); [exact Hu|exact Ha|exact HD|exact Hr|now apply ld_ok_surface].
Qed.
End Path.

(** ** one point *)
Lemma line_through x v : fin x v -> exists f, tracks f 0 x /\ f 0 = v.
Proof. intros (t & ->). exists (fun z => v + t * z). split; [|ring]. exists t. split; [do 2 f_equal; ring|]. auto_derive; [exact I|ring]. Qed.
Lemma lines_through d v : FL d v -> exists f, TL f 0 d /\ f 0 = v.
Proof. intros H. destruct (lines d v H) as (fs & HF & E). exists (fun z => map (fun g => g z) fs). split; [exists fs; now split|exact E]. Qed.
Lemma opt_through x v : fin_opt x v -> exists f, tracks_opt f 0 x /\ f 0 = v.
Proof.
  destruct x as [x|], v as [v|]; try contradiction; intros H.
  - destruct (line_through x v H) as (f & Hf & <-). exists (fun z => Some (f z)). split; [now exists f|reflexivity].
  - exists (fun _ => None). split; [|reflexivity]. intros z. reflexivity.
Qed.
Lemma rr_fin f s d : RR s f d -> fin_result d (f s).
Proof. destruct d as [x|e]; intros H; [destruct H as (g & E & t & -> & _); rewrite E; now exists t|now rewrite H]. Qed.
Section Point.
Variables (as_euler : R * R * R -> R * R * R) (eps : R) (low high : list (R * R)) (A2 : nat -> matrix).
Hypothesis He : 0 < eps.
Variables (sf : surface) (sd : surface_d) (theta : option R) (td : option D).
Hypotheses (Hs : fin_surface sd sf) (Ht : fin_opt td theta) (Hf : ld_flux (s_u sf) <> 0).
Lemma udeg_d : surf_udeg sf = length (sd_u sd).
Proof using Hs. destruct Hs as (_ & _ & _ & _ & Hu & _). unfold surf_udeg. clear - Hu. induction Hu; cbn; congruence. Qed.
(** the flux is finite for a design vector and a position angle that are *)
Lemma flux_point tz xz dd design : angle_opt (fun w => Some (tz w)) 0 (Some xz) -> FL dd design ->
  fin_result (rbind (rotated_y_d as_euler sd td xz) (fun ry => flux_of_d sd dd ry)) (rbind (rotated_y as_euler sf theta (tz 0)) (fun ry => flux_of sf design ry)).
Proof using Hs Ht Hf.
  intros (tz' & Etz & Hz) Hd. pose proof Hs as (Ey & Ei & Eo & Fy & Fu & Fa). destruct (opt_through td theta Ht) as (th & Hth & Eth). destruct (lines_through _ _ Fy) as (y & Ty & Yy). destruct (lines_through _ _ Fu) as (u & Tu & Uu).
  destruct (line_through _ _ Fa) as (amp & Ta & Aa). destruct (lines_through _ _ Hd) as (de & Tde & Dd).
  assert (G : RR 0 (fun w => rbind (rot_core as_euler (sd_ydeg sd) (sd_inc sd) (sd_obl sd) (th w) (tz' w) (y w)) (fun ry => flux_core (sd_ydeg sd) (u w) (amp w) (de w) ry)) (rbind (rotated_y_d as_euler sd td xz) (fun ry => flux_of_d sd dd ry))).
  { apply (rel_bind (fun f d => tracks_list f 0 d) (fun f d => tracks f 0 d) (fun w => rot_core as_euler (sd_ydeg sd) (sd_inc sd) (sd_obl sd) (th w) (tz' w) (y w)) _ (fun w ry => flux_core (sd_ydeg sd) (u w) (amp w) (de w) ry)).
    - apply RL_core; [exact Ty|now apply tracks_angle_opt|exact Hz].
    - intros ry rd _ Hr. apply (RR_flux 0 sd u amp de ry); try assumption. rewrite Uu. now apply ld_ok_surface. }
  apply rr_fin in G. cbv beta in G. rewrite Eth, Yy, Uu, Aa, Dd in G. assert (E0 : tz' 0 = tz 0) by (specialize (Etz 0); now injection Etz). rewrite E0 in G.
  rewrite rotated_core, Ey, Ei, Eo. destruct (rot_core _ _ _ _ _ _ _) as [ry|e]; cbn [rbind] in *; [|exact G]. rewrite flux_of_core, Ey. exact G.
Qed.
Lemma bare_fin : fin_result (bare_light_curve_d as_euler sd td) (surface_light_curve as_euler eps low high A2 sf None None None None theta).
Proof using Hs Ht Hf.
  unfold bare_light_curve_d, surface_light_curve, design_matrix. cbn [rbind]. unfold surf_deg. rewrite udeg_d. rewrite (proj1 Hs).
  apply (flux_point (fun _ => 0) (cst 0)); [|apply FL_cst]. exists (fun _ => 0). split; [reflexivity|]. apply (angle_tracks (fun _ => 0)), tracks_cst.
Qed.
Lemma occulted_fin R' X Y Z r x y z : sd_ydeg sd <> 0%nat -> fin R' r -> fin X x -> fin Y y -> fin Z z -> ~ (x = 0 /\ y = 0) ->
  fin_result (occulted_light_curve_d as_euler eps low high A2 sd R' X Y Z td) (surface_light_curve as_euler eps low high A2 sf (Some r) (Some x) (Some y) (Some z) theta).
Proof using He Hs Ht Hf.
  intros H0 HR HX HY HZ N. unfold occulted_light_curve_d, surface_light_curve. cbv zeta. rewrite (proj1 Hs). destruct (sd_ydeg sd =? 0)%nat eqn:E0; [apply Nat.eqb_eq in E0; contradiction|].
  destruct (design_fin eps low high He A2 (sd_ydeg sd + length (sd_u sd)) R' X Y Z r x y z HR HX HY HZ N ltac:(lia)) as (dd & v & E1 & E2 & HD). unfold surf_deg. rewrite udeg_d, (proj1 Hs). rewrite E1, E2. cbn [rbind theta_z_of].
  destruct (line_through _ _ HX) as (fx & Tx & <-). destruct (line_through _ _ HY) as (fy & Ty & <-).
  apply (flux_point (fun w => atan2 (fx w) (fy w)) (gd_theta_z (geometry_d R' X Y Z)) dd v); [|exact HD]. exists (fun w => atan2 (fx w) (fy w)). split; [reflexivity|]. now apply angle_atan2.
Qed.
End Point.
