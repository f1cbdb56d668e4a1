(** Gradients of radial velocities of surfaces. *)
From Coq Require Import Reals List Bool Arith ZArith Lia Lra Psatz.
From Coquelicot Require Import Hierarchy Derive Continuity Rbar Rcomplements ElemFct AutoDerive.
From Verif Require Import Base.RealAux Base.Dict Model.LimbDark Model.Poly Model.Basis Model.S2fft Model.Rotation Model.Solution Model.SolutionVector Model.Ylm Model.RvMap Model.Surface Model.StarryLightCurve Model.AutoDiff Model.LightCurveGrad Model.TransitGrad Model.StarryGrad Model.StarryRvGrad.
From Verif Require Import Spec.LimbDarkSpec Spec.OccultSpec Spec.PolySpec Spec.BasisSpec Spec.HarmonicSpec Spec.RotationSpec Spec.DiskSpec Spec.SurfaceSpec Spec.YlmSpec Spec.AutoDiffSpec Spec.StarryGradSpec Spec.StarryRvGradSpec.
From Verif Require Import Proof.RotationMap Proof.RotationMore Proof.SurfaceProof Proof.DiskRot Proof.DopplerProof.
From Verif Require Import Proof.AutoDiff Proof.LightCurveGrad Proof.LightCurveDeriv Proof.LightCurveTangent Proof.LightCurveGradFacts Proof.TransitGrad Proof.StarryGrad Proof.StarryGradFlux Proof.StarryGradDesign Proof.StarryGradPoly Proof.StarryGradCurve Proof.StarryGradFree Proof.StarryGradShape.
From Verif Require Proof.StarryProof Proof.YlmProof Proof.GreenProof Proof.YlmMore.
Import ListNotations.
Local Open Scope R_scope.

Definition rv_core (ydeg : nat) (inc obl : option R) (u : list R) (amp : R) (rveq : result R) (tz : R) (design ry : list R) : result R :=
  rbind (ldp u) (fun p_u =>
  rbind (from_dense (A1_mul ydeg ry) (Some (Z.of_nat ydeg))) (fun p_y =>
  rbind (rbind (pijk_dot p_u (rT (length u))) (fun f => Ok (PI / f))) (fun norm =>
  rbind rveq (fun veq =>
  rbind (dot_rz 1 (- tz) (rv_map_expansion (Some veq) inc obl None)) (fun rotated_rv_y =>
  rbind (from_dense (A1_mul 1 rotated_rv_y) None) (fun p_rv =>
  rbind (rbind (pijk_mul p_y p_rv) (fun p => pijk_mul p p_u)) (fun p_all =>
  rbind (pijk_dot p_all design) (fun rv =>
  rbind (pijk_mul p_y p_u) (fun p_yu =>
  rbind (pijk_dot p_yu (firstn ((ydeg + length u + 1) * (ydeg + length u + 1)) design)) (fun f =>
  Ok (amp * rv * norm / (f * norm)))))))))))).
Definition div_core (ydeg : nat) (u : list R) (design ry : list R) : result R :=
  rbind (ldp u) (fun p_u =>
  rbind (from_dense (A1_mul ydeg ry) (Some (Z.of_nat ydeg))) (fun p_y =>
  rbind (pijk_mul p_y p_u) (fun p_yu =>
  pijk_dot p_yu (firstn ((ydeg + length u + 1) * (ydeg + length u + 1)) design)))).

Section Core.
Variable s : R.
Lemma TL_firstn n f d : TL f s d -> TL (fun z => firstn n (f z)) s (firstn n d).
Proof.
  intros (fs & HF & E). apply (TL_ext s (fun z => firstn n (map (fun g => g z) fs))); [intros z; now rewrite E|]. clear E f. revert n.
  induction HF as [|g x fs ds Hg HF IH]; intros n; [rewrite firstn_nil; apply (TL_ext s (fun _ => [])); [intros z; cbn [map]; now rewrite firstn_nil|apply TL_nil]|].
  destruct n as [|n]; [apply TL_nil|]. apply (TL_cons s g (fun z => firstn n (map (fun g => g z) fs))); [exact Hg|apply IH].
Qed.
Lemma TL_rv_map v d inc obl : tracks v s d -> TL (fun z => rv_map_expansion (Some (v z)) inc obl None) s (rv_map_expansion_d d inc obl).
Proof.
  intros H. unfold rv_map_expansion, rv_map_expansion_d. cbv zeta. cbn [map].
  set (A := match inc with Some i => sin i | None => 1 end * match obl with Some o => cos o | None => 1 end). set (B := match inc with Some i => sin i | None => 1 end * match obl with Some o => sin o | None => 0 end).
  assert (T : forall c, tracks (fun z => v z * sqrt 3 * c / 3 * PI) s (dmul (ddiv (dmul (dmul d (cst (sqrt 3))) (cst c)) (cst 3)) (cst PI))).
  { intros c. apply (tracks_mul (fun z => v z * sqrt 3 * c / 3) (fun _ => PI)); [|apply tracks_cst]. apply (tracks_div (fun z => v z * sqrt 3 * c) (fun _ => 3)); [|apply tracks_cst|lra].
    apply (tracks_mul (fun z => v z * sqrt 3) (fun _ => c)); [|apply tracks_cst]. apply (tracks_mul v (fun _ => sqrt 3)); [exact H|apply tracks_cst]. }
  assert (T0 : tracks (fun _ => 0 * PI) s (dmul (cst 0) (cst PI))) by (apply (tracks_mul (fun _ => 0) (fun _ => PI)); apply tracks_cst).
  apply (TL_cons s (fun _ => 0 * PI) (fun z => [v z * sqrt 3 * B / 3 * PI; 0 * PI; v z * sqrt 3 * A / 3 * PI])); [exact T0|].
  apply (TL_cons s (fun z => v z * sqrt 3 * B / 3 * PI) (fun z => [0 * PI; v z * sqrt 3 * A / 3 * PI])); [exact (T B)|].
  apply (TL_cons s (fun z => 0 * PI) (fun z => [v z * sqrt 3 * A / 3 * PI])); [exact T0|].
  apply (TL_cons s (fun z => v z * sqrt 3 * A / 3 * PI) (fun z => [])); [exact (T A)|apply TL_nil].
Qed.
Lemma RR_rv sd u amp rveq rvd tz xz design ry dd rd : TL u s (sd_u sd) -> tracks amp s (sd_amplitude sd) -> RR s rveq rvd -> angle tz s xz -> TL design s dd -> TL ry s rd -> ld_ok (u s) ->
  divides_by_nonzero (div_core (sd_ydeg sd) (u s) (design s) (ry s)) ->
  RR s (fun z => rv_core (sd_ydeg sd) (sd_inc sd) (sd_obl sd) (u z) (amp z) (rveq z) (tz z) (design z) (ry z)) (rv_of_d sd rvd xz dd rd).
Proof.
  intros Hu Ha Hv Hz Hd Hr (f0 & Nf & Ef) (g0 & Eg0 & Ng). unfold div_core in Eg0. unfold rv_core, rv_of_d.
  apply (rel_ext _ (fun z => rbind (ldp (u z)) (fun p_u => rbind (from_dense (A1_mul (sd_ydeg sd) (ry z)) (Some (Z.of_nat (sd_ydeg sd)))) (fun p_y =>
    rbind (rbind (pijk_dot p_u (rT (length (sd_u sd)))) (fun f => Ok (PI / f))) (fun norm => rbind (rveq z) (fun veq => rbind (dot_rz 1 (- tz z) (rv_map_expansion (Some veq) (sd_inc sd) (sd_obl sd) None)) (fun rotated_rv_y =>
    rbind (from_dense (A1_mul 1 rotated_rv_y) None) (fun p_rv => rbind (rbind (pijk_mul p_y p_rv) (fun p => pijk_mul p p_u)) (fun p_all => rbind (pijk_dot p_all (design z)) (fun rv =>
    rbind (pijk_mul p_y p_u) (fun p_yu => rbind (pijk_dot p_yu (firstn ((sd_ydeg sd + length (sd_u sd) + 1) * (sd_ydeg sd + length (sd_u sd) + 1)) (design z))) (fun f => Ok (amp z * rv * norm / (f * norm)))))))))))))).
  { intros z. now rewrite (TL_length s u _ z Hu). }
  rewrite (TL_length s u _ s Hu) in *.
  refine (rel_bind (tracks_pijk s) (fun f d => tracks f s d) (fun z => ldp (u z)) _ (fun z p_u => _) _ _ _); [now apply RP_ldp|]. intros pu pud Epu Hpu. rewrite (Epu s) in Ef, Eg0. cbn [rbind] in Ef, Eg0.
  refine (rel_bind (tracks_pijk s) (fun f d => tracks f s d) (fun z => from_dense (A1_mul (sd_ydeg sd) (ry z)) (Some (Z.of_nat (sd_ydeg sd)))) _ (fun z p_y => _) _ _ _); [apply (RP_dense s (fun z => A1_mul (sd_ydeg sd) (ry z))); now apply TL_A1|].
  intros py pyd Epy Hpy. rewrite (Epy s) in Eg0. cbn [rbind] in Eg0.
  refine (rel_bind (fun f d => tracks f s d) (fun f d => tracks f s d) (fun z => rbind (pijk_dot (pu z) (rT (length (sd_u sd)))) (fun f => Ok (PI / f))) _ (fun z norm => _) _ _ _).
  { unfold ld_norm_d. apply (rel_bind (fun f d => tracks f s d) (fun f d => tracks f s d) (fun z => pijk_dot (pu z) (rT (length (sd_u sd)))) _ (fun z f => Ok (PI / f))).
    - apply (RR_pdot s pu pud (fun _ => rT (length (sd_u sd)))); [exact Hpu|apply TL_cst].
    - intros g x Eg Hg. apply (rel_ok (fun f d => tracks f s d) (fun z => PI / g z)). apply (tracks_div (fun _ => PI)); [apply tracks_cst|exact Hg|].
      assert (E : g s = f0) by (specialize (Eg s); rewrite Eg in Ef; now injection Ef). rewrite E. exact Nf. }
  intros nm nmd Enm Hn. assert (Nn : nm s <> 0).
  { specialize (Enm s). rewrite Ef in Enm. cbn [rbind] in Enm. injection Enm as <-. pose proof PI_RGT_0. unfold Rdiv. apply Rmult_integral_contrapositive. split; [lra|now apply Rinv_neq_0_compat]. }
  refine (rel_bind (fun f d => tracks f s d) (fun f d => tracks f s d) (fun z => rveq z) _ (fun z veq => _) _ _ _); [exact Hv|]. intros ve ved _ Hve.
  refine (rel_bind (fun f d => tracks_list f s d) (fun f d => tracks f s d) (fun z => dot_rz 1 (- tz z) (rv_map_expansion (Some (ve z)) (sd_inc sd) (sd_obl sd) None)) _ (fun z rr => _) _ _ _).
  { apply (RL_rz s 1 (fun z => - tz z) (dneg xz) (fun z => rv_map_expansion (Some (ve z)) (sd_inc sd) (sd_obl sd) None)); [now apply angle_neg|now apply TL_rv_map]. }
  intros rr rrd _ Hrr.
  refine (rel_bind (tracks_pijk s) (fun f d => tracks f s d) (fun z => from_dense (A1_mul 1 (rr z)) None) _ (fun z p_rv => _) _ _ _); [apply (RP_dense s (fun z => A1_mul 1 (rr z))); now apply TL_A1|].
  intros pr prd _ Hpr.
  refine (rel_bind (tracks_pijk s) (fun f d => tracks f s d) (fun z => rbind (pijk_mul (py z) (pr z)) (fun p => pijk_mul p (pu z))) _ (fun z p_all => _) _ _ _).
  { refine (rel_bind (tracks_pijk s) (tracks_pijk s) (fun z => pijk_mul (py z) (pr z)) _ (fun z p => pijk_mul p (pu z)) _ _ _); [now apply RP_mul|]. intros q qd _ Hq. now apply RP_mul. }
  intros pa pad _ Hpa.
  refine (rel_bind (fun f d => tracks f s d) (fun f d => tracks f s d) (fun z => pijk_dot (pa z) (design z)) _ (fun z rv => _) _ _ _); [now apply RR_pdot|]. intros rv rvd' _ Hrv.
  refine (rel_bind (tracks_pijk s) (fun f d => tracks f s d) (fun z => pijk_mul (py z) (pu z)) _ (fun z p_yu => _) _ _ _); [now apply RP_mul|]. intros pyu pyud Epyu Hpyu. rewrite (Epyu s) in Eg0. cbn [rbind] in Eg0.
  refine (rel_bind (fun f d => tracks f s d) (fun f d => tracks f s d) (fun z => pijk_dot (pyu z) (firstn _ (design z))) _ (fun z f => Ok (amp z * rv z * nm z / (f * nm z))) _ _ _); [apply (RR_pdot s pyu pyud (fun z => firstn _ (design z))); [exact Hpyu|now apply TL_firstn]|].
  intros g x Eg Hg. cbv beta in Eg. specialize (Eg s). rewrite Eg in Eg0. injection Eg0 as Eg0.
  apply (rel_ok (fun f d => tracks f s d) (fun z => amp z * rv z * nm z / (g z * nm z))).
  apply (tracks_div (fun z => amp z * rv z * nm z) (fun z => g z * nm z)); [|now apply tracks_mul|rewrite Eg0; now apply Rmult_integral_contrapositive].
  apply (tracks_mul (fun z => amp z * rv z)); [now apply tracks_mul|exact Hn].
Qed.
End Core.

(** ** any path *)
Lemma RR_veq sf s pd rd : (forall z, s_period (sf z) <> Some 0) -> tracks_opt (fun z => s_period (sf z)) s pd -> tracks (fun z => s_radius (sf z)) s rd -> RR s (fun z => surf_veq (sf z)) (surf_veq_d pd rd).
Proof.
  intros N Hp Hr. unfold surf_veq, surf_veq_d. destruct pd as [p|].
  - destruct Hp as (g & E & Hg). assert (Ng : forall z, g z <> 0) by (intros z H; apply (N z); rewrite E, H; reflexivity).
    assert (Ev : val p = g s) by (destruct Hg as (t & -> & _); reflexivity). rewrite Ev. unfold Reqb. destruct (Req_EM_T (g s) 0) as [H|_]; [destruct (Ng s H)|].
    apply (rel_ext _ (fun z => Ok (2 * PI * s_radius (sf z) / g z))); [intros z; rewrite E; destruct (Req_EM_T (g z) 0) as [H|_]; [destruct (Ng z H)|reflexivity]|].
    apply (rel_ok (fun f d => tracks f s d) (fun z => 2 * PI * s_radius (sf z) / g z)). apply (tracks_div (fun z => 2 * PI * s_radius (sf z)) g); [|exact Hg|apply Ng].
    apply (tracks_mul (fun _ => 2 * PI)); [apply tracks_cst|exact Hr].
  - apply (rel_ext _ (fun z => Err TypeError)); [intros z; now rewrite (Hp z)|apply rel_err].
Qed.
Definition maybe_occultor (r x y z : option R) : option occ_geometry := match r with None => None | Some r => Some (geometry r x y z) end.
Lemma rv_unfold as_euler eps low high A2 s r x y z theta : s_shear s = None -> surface_radial_velocity as_euler eps low high A2 s r x y z theta =
  rbind (design_matrix eps low high A2 (surf_deg s + 1) (maybe_occultor r x y z)) (fun design =>
  rbind (rotated_y as_euler s theta (theta_z_of (maybe_occultor r x y z))) (fun ry =>
  rv_core (surf_ydeg s) (s_inc s) (s_obl s) (s_u s) (s_amplitude s) (surf_veq s) (theta_z_of (maybe_occultor r x y z)) design ry)).
Proof. intros H. unfold surface_radial_velocity, surf_vdeg. rewrite H. reflexivity. Qed.
Section Path.
Variables (as_euler : R * R * R -> R * R * R) (eps : R) (low high : list (R * R)) (A2 : nat -> matrix).
Hypothesis He : 0 < eps.
Variables (s : R) (sf : R -> surface) (sd : surface_d) (pd : option D) (rd : D) (theta : R -> option R) (td : option D).
Hypotheses (Hs : tracks_surface sf s sd) (Hv : tracks_rotation sf s pd rd) (Ht : tracks_opt theta s td) (Hf : ld_flux (s_u (sf s)) <> 0).
Lemma bare_rv_tracks : divides_by_nonzero (dividing_flux as_euler eps low high A2 (sf s) None (theta s)) ->
  tracks_result (fun w => surface_radial_velocity as_euler eps low high A2 (sf w) None None None None (theta w)) s (bare_rv_d as_euler sd pd rd td).
Proof using Hs Hv Ht Hf.
  intros (v0 & Ed & Nd). pose proof Hs as (Eg & Hy & Hu & Ha). destruct Hv as (Hsh & Hp & Hr). apply rr_tracks. unfold bare_rv_d.
  apply (rel_ext _ (fun w => rbind (rot_core as_euler (sd_ydeg sd) (sd_inc sd) (sd_obl sd) (theta w) 0 (ylm_todense (s_y (sf w)))) (fun ry =>
    rv_core (sd_ydeg sd) (sd_inc sd) (sd_obl sd) (s_u (sf w)) (s_amplitude (sf w)) (surf_veq (sf w)) 0 (rT (sd_ydeg sd + length (sd_u sd) + 1)) ry))).
  { intros w. rewrite rv_unfold by apply Hsh. unfold design_matrix. cbn [maybe_occultor rbind theta_z_of]. rewrite rotated_core. unfold surf_deg. rewrite (udeg_const s sf sd Hs). destruct (Eg w) as (-> & -> & ->). reflexivity. }
  assert (Ed' : rbind (rot_core as_euler (sd_ydeg sd) (sd_inc sd) (sd_obl sd) (theta s) 0 (ylm_todense (s_y (sf s)))) (fun ry => div_core (sd_ydeg sd) (s_u (sf s)) (rT (sd_ydeg sd + length (sd_u sd) + 1)) ry) = Ok v0).
  { rewrite <- Ed. unfold dividing_flux, design_matrix. cbn [rbind theta_z_of]. rewrite rotated_core. unfold surf_deg. rewrite (udeg_const s sf sd Hs). destruct (Eg s) as (-> & -> & ->). unfold div_core. rewrite (TL_length s (fun z => s_u (sf z)) _ s Hu). reflexivity. }
  refine (rel_bind (fun f d => tracks_list f s d) (fun f d => tracks f s d) (fun w => rot_core as_euler (sd_ydeg sd) (sd_inc sd) (sd_obl sd) (theta w) 0 (ylm_todense (s_y (sf w)))) _ (fun w ry => _) _ _ _).
  - apply (RL_core as_euler s sd theta td (fun _ => 0) (cst 0) (fun w => ylm_todense (s_y (sf w)))); [exact Hy|now apply tracks_angle_opt|apply (angle_tracks (fun _ => 0)), tracks_cst].
  - intros ry ryd Ery Hry. rewrite (Ery s) in Ed'. cbn [rbind] in Ed'.
    apply (RR_rv s sd (fun w => s_u (sf w)) (fun w => s_amplitude (sf w)) (fun w => surf_veq (sf w)) _ (fun _ => 0) (cst 0) (fun _ => rT (sd_ydeg sd + length (sd_u sd) + 1)) ry); try assumption.
    + apply RR_veq; [intros z; apply Hsh|exact Hp|exact Hr].
    + apply (angle_tracks (fun _ => 0)), tracks_cst.
    + apply TL_cst.
    + now apply ld_ok_surface.
    + now exists v0.
Qed.
Lemma occulted_rv_tracks r x y z R' X Y Z : tracks r s R' -> tracks x s X -> tracks y s Y -> tracks z s Z -> ~ (x s = 0 /\ y s = 0) ->
  sqrt (x s ^ 2 + y s ^ 2) <> 1 + r s -> z s <> 0 -> (sqrt (x s ^ 2 + y s ^ 2) < 1 + r s -> 0 < z s -> starry_regular_point eps high (sqrt (x s ^ 2 + y s ^ 2)) (r s)) ->
  divides_by_nonzero (dividing_flux as_euler eps low high A2 (sf s) (Some (geometry (r s) (Some (x s)) (Some (y s)) (Some (z s)))) (theta s)) ->
  tracks_result (fun w => surface_radial_velocity as_euler eps low high A2 (sf w) (Some (r w)) (Some (x w)) (Some (y w)) (Some (z w)) (theta w)) s
    (occulted_rv_d as_euler eps low high A2 sd pd rd R' X Y Z td).
Proof using He Hs Hv Ht Hf.
  intros HR HX HY HZ N Nb Nz Hreg (v0 & Ed & Nd). pose proof Hs as (Eg & Hy & Hu & Ha). destruct Hv as (Hsh & Hp & Hr). apply rr_tracks. unfold occulted_rv_d. cbv zeta.
  set (g := fun w => geometry (r w) (Some (x w)) (Some (y w)) (Some (z w))).
  destruct (design_tracks eps low high He A2 (sd_ydeg sd + length (sd_u sd) + 1) r x y z s R' X Y Z HR HX HY HZ N Nb Nz Hreg ltac:(lia)) as (dd & f & E1 & E2 & HD). rewrite E1. cbn [rbind].
  apply (rel_ext _ (fun w => rbind (rot_core as_euler (sd_ydeg sd) (sd_inc sd) (sd_obl sd) (theta w) (og_theta_z (g w)) (ylm_todense (s_y (sf w)))) (fun ry =>
    rv_core (sd_ydeg sd) (sd_inc sd) (sd_obl sd) (s_u (sf w)) (s_amplitude (sf w)) (surf_veq (sf w)) (og_theta_z (g w)) (f w) ry))).
  { intros w. rewrite rv_unfold by apply Hsh. cbn [maybe_occultor theta_z_of]. unfold surf_deg. rewrite rotated_core, (udeg_const s sf sd Hs). destruct (Eg w) as (-> & -> & ->). rewrite E2. reflexivity. }
  destruct (geometry_tracks r x y z s R' X Y Z HR HX HY HZ N Nb Nz) as (_ & _ & _ & Tz).
  assert (Ed' : rbind (rot_core as_euler (sd_ydeg sd) (sd_inc sd) (sd_obl sd) (theta s) (og_theta_z (g s)) (ylm_todense (s_y (sf s)))) (fun ry => div_core (sd_ydeg sd) (s_u (sf s)) (f s) ry) = Ok v0).
  { rewrite <- Ed. unfold dividing_flux, surf_deg. rewrite rotated_core, (udeg_const s sf sd Hs). destruct (Eg s) as (-> & -> & ->). rewrite E2. cbn [rbind theta_z_of]. unfold div_core. rewrite (TL_length s (fun z => s_u (sf z)) _ s Hu). reflexivity. }
  refine (rel_bind (fun f d => tracks_list f s d) (fun f d => tracks f s d) (fun w => rot_core as_euler (sd_ydeg sd) (sd_inc sd) (sd_obl sd) (theta w) (og_theta_z (g w)) (ylm_todense (s_y (sf w)))) _ (fun w ry => _) _ _ _).
  - apply (RL_core as_euler s sd theta td (fun w => og_theta_z (g w)) _ (fun w => ylm_todense (s_y (sf w)))); [exact Hy|now apply tracks_angle_opt|exact Tz].
  - intros ry ryd Ery Hry. rewrite (Ery s) in Ed'. cbn [rbind] in Ed'.
    apply (RR_rv s sd (fun w => s_u (sf w)) (fun w => s_amplitude (sf w)) (fun w => surf_veq (sf w)) _ (fun w => og_theta_z (g w)) _ f ry); try assumption.
    + apply RR_veq; [intros w; apply Hsh|exact Hp|exact Hr].
    + now apply ld_ok_surface.
    + now exists v0.
Qed.
End Path.

(** ** one point *)
Section Point.
Variables (as_euler : R * R * R -> R * R * R) (eps : R) (low high : list (R * R)) (A2 : nat -> matrix).
Hypothesis He : 0 < eps.
Variables (sf : surface) (sd : surface_d) (pd : option D) (rd : D) (theta : option R) (td : option D).
Hypotheses (Hs : fin_surface sd sf) (Hv : fin_rotation sf pd rd) (Ht : fin_opt td theta) (Hf : ld_flux (s_u sf) <> 0).
Lemma veq_point : exists vq, RR 0 vq (surf_veq_d pd rd) /\ vq 0 = surf_veq sf.
Proof using Hv.
  destruct Hv as (_ & Np & Fp & Fr). unfold surf_veq_d, surf_veq. destruct pd as [p|], (s_period sf) as [p0|]; try contradiction.
  - assert (N0 : p0 <> 0) by congruence. destruct Fp as (tp & ->). cbn [val]. unfold Reqb. destruct (Req_EM_T p0 0) as [H|_]; [contradiction|].
    assert (F : fin (ddiv (dmul (cst (2 * PI)) rd) (Some (p0, tp))) (2 * PI * s_radius sf / p0)) by (apply fin_div; [apply fin_mul; [apply fin_cst|exact Fr]|now exists tp|exact N0]).
    destruct (line_through _ _ F) as (v & Tv & Ev). exists (fun z => Ok (v z)). split; [now apply (rel_ok (fun f d => tracks f 0 d) v)|now rewrite Ev].
  - exists (fun _ => Err TypeError). split; [apply rel_err|reflexivity].
Qed.
Lemma rv_point tz xz dd design v0 : angle tz 0 xz -> FL dd design ->
  rbind (rot_core as_euler (surf_ydeg sf) (s_inc sf) (s_obl sf) theta (tz 0) (ylm_todense (s_y sf))) (fun ry => div_core (surf_ydeg sf) (s_u sf) design ry) = Ok v0 -> v0 <> 0 ->
  fin_result (rbind (rotated_y_d as_euler sd td xz) (fun ry => rv_of_d sd (surf_veq_d pd rd) xz dd ry))
    (rbind (rotated_y as_euler sf theta (tz 0)) (fun ry => rv_core (surf_ydeg sf) (s_inc sf) (s_obl sf) (s_u sf) (s_amplitude sf) (surf_veq sf) (tz 0) design ry)).
Proof using Hs Hv Ht Hf.
  intros Hz Hd Ed Nd. pose proof Hs as (Ey & Ei & Eo & Fy & Fu & Fa). destruct (opt_through td theta Ht) as (th & Hth & Eth). destruct (lines_through _ _ Fy) as (y & Ty & Yy). destruct (lines_through _ _ Fu) as (u & Tu & Uu).
  destruct (line_through _ _ Fa) as (amp & Ta & Aa). destruct (lines_through _ _ Hd) as (de & Tde & Dd). destruct veq_point as (vq & Tv & Vv).
  assert (Hld : ld_ok (u 0)) by (rewrite Uu; now apply ld_ok_surface).
  rewrite rotated_core. rewrite Ey, Ei, Eo in *. rewrite <- Eth, <- Yy, <- Uu, <- Aa, <- Dd, <- Vv in *.
  refine (rr_fin (fun w => rbind (rot_core as_euler (sd_ydeg sd) (sd_inc sd) (sd_obl sd) (th w) (tz w) (y w)) (fun ry => rv_core (sd_ydeg sd) (sd_inc sd) (sd_obl sd) (u w) (amp w) (vq w) (tz w) (de w) ry)) 0 _ _).
  refine (rel_bind (fun f d => tracks_list f 0 d) (fun f d => tracks f 0 d) (fun w => rot_core as_euler (sd_ydeg sd) (sd_inc sd) (sd_obl sd) (th w) (tz w) (y w)) _ (fun w ry => _) _ _ _).
  - apply RL_core; [exact Ty|now apply tracks_angle_opt|exact Hz].
  - intros ry ryd Ery Hr. rewrite (Ery 0) in Ed. cbn [rbind] in Ed. apply (RR_rv 0 sd u amp vq _ tz xz de ry); try assumption. now exists v0.
Qed.
Lemma bare_rv_fin : divides_by_nonzero (dividing_flux as_euler eps low high A2 sf None theta) ->
  fin_result (bare_rv_d as_euler sd pd rd td) (surface_radial_velocity as_euler eps low high A2 sf None None None None theta).
Proof using Hs Hv Ht Hf.
  intros (v0 & Ed & Nd). rewrite rv_unfold by apply Hv. unfold bare_rv_d, design_matrix. cbn [maybe_occultor rbind theta_z_of]. unfold surf_deg. rewrite (udeg_d sf sd Hs).
  apply (rv_point (fun _ => 0) (cst 0) _ _ v0); [apply (angle_tracks (fun _ => 0)), tracks_cst|rewrite (proj1 Hs); apply FL_cst| |exact Nd].
  rewrite <- Ed. unfold dividing_flux, design_matrix. cbn [rbind theta_z_of]. rewrite rotated_core. unfold surf_deg, div_core. rewrite (udeg_d sf sd Hs). rewrite <- (udeg_d sf sd Hs). reflexivity.
Qed.
Lemma occulted_rv_fin R' X Y Z r x y z : fin R' r -> fin X x -> fin Y y -> fin Z z -> ~ (x = 0 /\ y = 0) ->
  divides_by_nonzero (dividing_flux as_euler eps low high A2 sf (Some (geometry r (Some x) (Some y) (Some z))) theta) ->
  fin_result (occulted_rv_d as_euler eps low high A2 sd pd rd R' X Y Z td) (surface_radial_velocity as_euler eps low high A2 sf (Some r) (Some x) (Some y) (Some z) theta).
Proof using He Hs Hv Ht Hf.
  intros HR HX HY HZ N (v0 & Ed & Nd). rewrite rv_unfold by apply Hv. unfold occulted_rv_d. cbv zeta. cbn [maybe_occultor].
  destruct (design_fin eps low high He A2 (sd_ydeg sd + length (sd_u sd) + 1) R' X Y Z r x y z HR HX HY HZ N ltac:(lia)) as (dd & v & E1 & E2 & HD). unfold dividing_flux, surf_deg in Ed. unfold surf_deg. rewrite (udeg_d sf sd Hs), (proj1 Hs) in *. rewrite E1, E2 in *. cbn [rbind theta_z_of] in *.
  destruct (line_through _ _ HX) as (fx & Tx & Ex). destruct (line_through _ _ HY) as (fy & Ty & Ey).
  assert (Ea : og_theta_z (geometry r (Some x) (Some y) (Some z)) = atan2 (fx 0) (fy 0)) by (rewrite Ex, Ey; reflexivity). rewrite Ea in *.
  rewrite <- (proj1 Hs). apply (rv_point (fun w => atan2 (fx w) (fy w)) (gd_theta_z (geometry_d R' X Y Z)) dd v v0); [|exact HD| |exact Nd].
  - apply angle_atan2; [exact Tx|exact Ty|now rewrite Ex, Ey].
  - rewrite rotated_core in Ed. rewrite (proj1 Hs) in *. unfold div_core. rewrite <- (udeg_d sf sd Hs) in Ed. exact Ed.
Qed.
End Point.
