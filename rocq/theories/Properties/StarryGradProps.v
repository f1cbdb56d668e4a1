(** C95: gradients of solution vectors, of design vectors of occultations and of uniform maps (starry) obtained by automatic differentiation. *)
From Coq Require Import Reals List Lra Lia.
From Coquelicot Require Import Hierarchy Derive.
From Verif Require Import Base.RealAux Model.LimbDark Model.Poly Model.Solution Model.SolutionVector Model.Ylm Model.RvMap Model.Surface Model.StarryLightCurve Model.AutoDiff Model.LightCurveGrad Model.TransitGrad Model.StarryGrad.
From Verif Require Import Spec.LimbDarkSpec Spec.OccultSpec Spec.AutoDiffSpec Spec.StarryGradSpec.
From Verif Require Import Proof.AutoDiff Proof.LightCurveTangent Proof.LightCurveGradFacts Proof.StarryGrad Proof.StarryGradFlux Proof.StarryGradDesign.
Import ListNotations.
Local Open Scope R_scope.

(** Differentiating does not change the solution vector, and every tangent is finite, at every degree, for every rule, distance and
    radius (of any sign) except at two points: contacts and total eclipses included. *)
Theorem C95_solution_finite : forall eps low high, 0 < eps -> forall l_max x y b r, fin x b -> fin y r -> ~ (Rabs b = 0 /\ Rabs r = 1) -> ~ (Rabs b = 1 /\ Rabs r = 0) -> l_max <> 0%nat ->
  exists d v, starry_solution_d eps low high l_max x y = Ok d /\ starry_solution eps low high l_max b r = Ok v /\ List.Forall2 fin d v.
Proof. exact solution_fin. Qed.
Print Assumptions C95_solution_finite.
(** At those points (an occultor as large as the star and exactly in front of it; a point on the limb) the first entry has no gradient. *)
Theorem C95_solution_finite_refuted : forall eps low high, 0 < eps -> forall l_max x y b r, fin x b -> fin y r -> (Rabs b = 0 /\ Rabs r = 1) \/ (Rabs b = 1 /\ Rabs r = 0) -> l_max <> 0%nat ->
  exists d, starry_solution_d eps low high l_max x y = Ok d /\ nth 0 d (cst 0) = None.
Proof. exact solution_undefined. Qed.
Print Assumptions C95_solution_finite_refuted.
Example C95_refuted_sat : fin (Some (0, 1)) 0 /\ fin (cst 1) 1 /\ (Rabs 0 = 0 /\ Rabs 1 = 1).
Proof. split; [now exists 1|]. split; [now exists 0|]. rewrite Rabs_R0, Rabs_R1. split; reflexivity. Qed.
(** Away from contacts and from the thresholds of the guards the tangent is the derivative of every entry. *)
Theorem C95_solution_derivative : forall eps low high, 0 < eps -> forall l_max b r s x y, tracks b s x -> tracks r s y -> starry_regular_point eps high (b s) (r s) -> l_max <> 0%nat ->
  exists d f, starry_solution_d eps low high l_max x y = Ok d /\ (forall z, starry_solution eps low high l_max (b z) (r z) = Ok (f z)) /\ tracks_list f s d.
Proof. exact solution_tracks. Qed.
Print Assumptions C95_solution_derivative.
Example C95_regular_sat : starry_regular_point (/ 1000000) [(0, 2)] 0.3 0.1 /\ starry_regular_point (/ 1000000) [(0, 2)] 1 0.1.
Proof.
  unfold starry_regular_point. rewrite !Rabs_pos_eq by lra. split; (split; [lra|]; split; [lra|]; split; [unfold off_contacts; lra|]; intros _ _; unfold starry_off_thresholds; split; [lra|]; split; [lra|]).
  - split; [rewrite Rabs_pos_eq; lra|]. intros x w [E|[]]. injection E as <- <-. unfold edge_angle. destruct (Rle_dec (0.3 + 0.1) 1); [|lra].
    replace (node_at 0 PI 0) with (PI / 2) by (unfold node_at; field). unfold edge_rho2. rewrite cos_PI2. cbv zeta. lra.
  - split; [intros _; lra|]. intros x w [E|[]]. injection E as <- <-. unfold edge_angle. destruct (Rle_dec (1 + 0.1) 1); [lra|].
    replace ((1 ^ 2 + 0.1 ^ 2 - 1) / (2 * 1 * 0.1)) with 0.05 by (replace 0.1 with (/ 10) by lra; replace 0.05 with (/ 20) by lra; field).
    set (a := node_at 0 (acos 0.05) 0). assert (E : 2 * a = acos 0.05) by (unfold a, node_at; field). pose proof (acos_bound 0.05) as [B1 B2].
    assert (C : cos (2 * a) = 0.05) by (rewrite E; apply cos_acos; lra). rewrite cos_2a_cos in C. pose proof PI_RGT_0.
    assert (P : 0 <= cos a) by (apply cos_ge_0; lra). assert (0.7 < cos a) by (destruct (Rlt_dec 0.7 (cos a)); [assumption|exfalso; assert (cos a * cos a <= 0.7 * 0.7) by (apply Rmult_le_compat; lra); lra]).
    assert (cos a <= 1) by apply COS_bound. unfold edge_rho2. cbv zeta. lra.
Qed.
(** Nothing hidden or everything hidden (contacts included): every tangent is exactly zero; everything hidden: every entry too. *)
Theorem C95_solution_zero_outside : forall eps low high, 0 < eps -> forall l_max x y b r, fin x b -> fin y r -> ~ (Rabs b = 0 /\ Rabs r = 1) -> ~ (Rabs b = 1 /\ Rabs r = 0) ->
  1 + Rabs r <= Rabs b \/ 1 + Rabs b <= Rabs r -> l_max <> 0%nat ->
  exists v, starry_solution eps low high l_max b r = Ok v /\ starry_solution_d eps low high l_max x y = Ok (map cst v) /\
  (1 + Rabs b <= Rabs r -> forall c, In c v -> c = 0).
Proof. exact solution_outside. Qed.
Print Assumptions C95_solution_zero_outside.
Example C95_outside_sat : 1 + Rabs 0.1 <= Rabs 1.1 /\ 1 + Rabs 0.5 <= Rabs 1.5.
Proof. rewrite !Rabs_pos_eq by lra. lra. Qed.

(** The design vector of an occultation (the weights of the coefficients of the map's polynomial in its flux): finite unless the
    centres are exactly aligned (x = y = 0), whether or not anything is hidden; *)
Theorem C95_design_finite : forall eps low high, 0 < eps -> forall A2 deg R' X Y Z r x y z, fin R' r -> fin X x -> fin Y y -> fin Z z -> ~ (x = 0 /\ y = 0) -> deg <> 0%nat ->
  exists d v, design_matrix_d eps low high A2 deg (geometry_d R' X Y Z) = Ok d /\
  design_matrix eps low high A2 deg (Some (geometry r (Some x) (Some y) (Some z))) = Ok v /\ List.Forall2 fin d v.
Proof. exact design_fin. Qed.
Print Assumptions C95_design_finite.
(** in that case every entry is undefined, even when the body passes behind (z <= 0) and hides nothing. *)
Theorem C95_design_finite_refuted : forall eps low high A2 deg R' X Y Z, fin X 0 -> fin Y 0 -> deg <> 0%nat ->
  exists d, design_matrix_d eps low high A2 deg (geometry_d R' X Y Z) = Ok d /\ length d = ((deg + 1) * (deg + 1))%nat /\
  forall n, (n < (deg + 1) * (deg + 1))%nat -> nth n d (cst 0) = None.
Proof. exact design_none. Qed.
Print Assumptions C95_design_finite_refuted.
(** When nothing is hidden (first and last contact included) it is constant. *)
Theorem C95_design_zero_outside : forall eps low high, 0 < eps -> forall A2 deg R' X Y Z r x y z, fin R' r -> fin X x -> fin Y y -> fin Z z -> ~ (x = 0 /\ y = 0) -> deg <> 0%nat ->
  1 + r <= sqrt (x ^ 2 + y ^ 2) \/ z <= 0 -> design_matrix_d eps low high A2 deg (geometry_d R' X Y Z) = Ok (map cst (rT deg)).
Proof.
  intros eps low high He A2 deg R' X Y Z r x y z HR HX HY HZ N H0 Ho. apply (design_free eps low high He A2 deg R' X Y Z r x y z); try assumption.
  destruct (og_occ _) eqn:E; [|reflexivity]. apply StarryProof.geometry_occ in E. cbn [Rotation.none0] in E. lra.
Qed.
Print Assumptions C95_design_zero_outside.
(** Away from the limb, from contacts and from the thresholds the tangent is the derivative along every differentiable path. *)
Theorem C95_design_derivative : forall eps low high, 0 < eps -> forall A2 deg r x y z s R' X Y Z, tracks r s R' -> tracks x s X -> tracks y s Y -> tracks z s Z -> ~ (x s = 0 /\ y s = 0) ->
  sqrt (x s ^ 2 + y s ^ 2) <> 1 + r s -> z s <> 0 -> (sqrt (x s ^ 2 + y s ^ 2) < 1 + r s -> 0 < z s -> starry_regular_point eps high (sqrt (x s ^ 2 + y s ^ 2)) (r s)) -> deg <> 0%nat ->
  exists d f, design_matrix_d eps low high A2 deg (geometry_d R' X Y Z) = Ok d /\
  (forall w, design_matrix eps low high A2 deg (Some (geometry (r w) (Some (x w)) (Some (y w)) (Some (z w)))) = Ok (f w)) /\ tracks_list f s d.
Proof. exact design_tracks. Qed.
Print Assumptions C95_design_derivative.

(** Light curves of uniform (degree 0) maps occulted by a body: the same three facts. *)
Theorem C95_uniform_finite : forall eta eps low high A2 sf, 0 < eps -> surf_ydeg sf = 0%nat -> forall us R' X Y Z r x y z theta, List.Forall2 fin us (s_u sf) -> disk_flux (s_u sf) <> 0 ->
  fin R' r -> fin X x -> fin Y y -> fin Z z -> ~ (x = 0 /\ y = 0) ->
  exists v, surface_light_curve eta eps low high A2 sf (Some r) (Some x) (Some y) (Some z) theta = Ok v /\ fin (uniform_light_curve_d eps high us (geometry_d R' X Y Z)) v.
Proof.
  intros eta eps low high A2 sf He H0 us R' X Y Z r x y z theta Hu Hf HR HX HY HZ N. unfold surface_light_curve. rewrite H0. cbn [Nat.eqb].
  eexists. split; [reflexivity|]. exact (uniform_fin eps high He us (s_u sf) R' X Y Z r x y z Hu Hf HR HX HY HZ N).
Qed.
Print Assumptions C95_uniform_finite.
Theorem C95_uniform_finite_refuted : forall eps high u R' X Y Z, fin X 0 -> fin Y 0 -> uniform_light_curve_d eps high u (geometry_d R' X Y Z) = None.
Proof. exact uniform_none. Qed.
Print Assumptions C95_uniform_finite_refuted.
Theorem C95_uniform_derivative : forall eta eps low high A2 (sf : R -> surface), 0 < eps -> (forall w, surf_ydeg (sf w) = 0%nat) ->
  forall us xs r x y z theta s R' X Y Z, (forall w, s_u (sf w) = map (fun f => f w) us) -> List.Forall2 (fun f a => tracks f s a) us xs -> disk_flux (s_u (sf s)) <> 0 ->
  tracks r s R' -> tracks x s X -> tracks y s Y -> tracks z s Z -> ~ (x s = 0 /\ y s = 0) -> sqrt (x s ^ 2 + y s ^ 2) <> 1 + r s -> z s <> 0 ->
  (sqrt (x s ^ 2 + y s ^ 2) < 1 + r s -> 0 < z s -> regular_point eps high (sqrt (x s ^ 2 + y s ^ 2)) (r s)) ->
  exists f, (forall w, surface_light_curve eta eps low high A2 (sf w) (Some (r w)) (Some (x w)) (Some (y w)) (Some (z w)) theta = Ok (f w)) /\
  tracks f s (uniform_light_curve_d eps high xs (geometry_d R' X Y Z)).
Proof.
  intros eta eps low high A2 sf He H0 us xs r x y z theta s R' X Y Z Eu Hu Hf HR HX HY HZ N Nb Nz Hreg. rewrite Eu in Hf.
  eexists. split; [|exact (uniform_tracks eps high He us xs r x y z s R' X Y Z Hu Hf HR HX HY HZ N Nb Nz Hreg)].
  intros w. unfold surface_light_curve. rewrite H0, Eu. reflexivity.
Qed.
Print Assumptions C95_uniform_derivative.
Example C95_position_sat : ~ (0.3 = 0 /\ 0 = 0) /\ sqrt (0.3 ^ 2 + 0 ^ 2) <> 1 + 0.1 /\ sqrt (0.3 ^ 2 + 0 ^ 2) < 1 + 0.1 /\ starry_regular_point (/ 1000000) [(0, 2)] (sqrt (0.3 ^ 2 + 0 ^ 2)) 0.1 /\ regular_point (/ 1000000) [(0, 2)] (sqrt (0.3 ^ 2 + 0 ^ 2)) 0.1.
Proof.
  replace (sqrt (0.3 ^ 2 + 0 ^ 2)) with 0.3 by (symmetry; replace (0.3 ^ 2 + 0 ^ 2) with (0.3 ^ 2) by ring; apply sqrt_pow2; lra).
  split; [lra|]. split; [lra|]. split; [lra|]. split; [exact (proj1 C95_regular_sat)|exact regular_point_sat].
Qed.
