(** C92: gradients of the limb-darkened light curve obtained by automatic differentiation (jax.jvp, jax.grad). *)
From Coq Require Import Reals List Lra.
From Coquelicot Require Import Hierarchy Derive.
From Verif Require Import Base.RealAux Model.LimbDark Model.AutoDiff Model.LightCurveGrad Spec.LimbDarkSpec Spec.OccultSpec Spec.AutoDiffSpec.
From Verif Require Import Proof.LightCurveGrad Proof.LightCurveTangent Proof.LightCurveGradFacts.
Import ListNotations.
Local Open Scope R_scope.

(** Differentiating does not change the value, and every tangent is finite: at contacts, at first and last tangency, at the
    centre, for every rule, limb darkening and radius, except at two points. *)
Theorem C92_value_and_finite_tangent : forall eps quad us u x y b r, 0 < eps -> List.Forall2 fin us u -> fin x b -> fin y r ->
  disk_flux u <> 0 -> ~ (Rabs b = 0 /\ Rabs r = 1) -> ~ (Rabs b = 1 /\ Rabs r = 0) ->
  fin (light_curve_d eps quad us x y) (light_curve eps quad u b r).
Proof. exact fin_light_curve. Qed.
Print Assumptions C92_value_and_finite_tangent.
Theorem C92_gradients_finite : forall eps quad u b r, 0 < eps -> disk_flux u <> 0 -> ~ (Rabs b = 0 /\ Rabs r = 1) -> ~ (Rabs b = 1 /\ Rabs r = 0) ->
  grad_b eps quad u b r <> None /\ grad_r eps quad u b r <> None /\ forall k, grad_u eps quad k u b r <> None.
Proof. exact grad_finite. Qed.
Print Assumptions C92_gradients_finite.
Example C92_finite_sat : 0 < / 1000000 /\ ~ (Rabs 1.1 = 0 /\ Rabs 0.1 = 1) /\ ~ (Rabs 1.1 = 1 /\ Rabs 0.1 = 0) /\ disk_flux [] <> 0.
Proof. split; [lra|]. rewrite !Rabs_pos_eq by lra. split; [lra|]. split; [lra|]. exact flux_nil. Qed.
(** At those two points (an occultor exactly as large as the star and exactly in front of it; a point on the limb) nothing is
    finite, whatever the limb darkening. *)
Theorem C92_gradients_finite_refuted : forall eps quad us x y b r, fin x b -> fin y r ->
  (Rabs b = 0 /\ Rabs r = 1) \/ (Rabs b = 1 /\ Rabs r = 0) -> light_curve_d eps quad us x y = None.
Proof. exact undefined. Qed.
Print Assumptions C92_gradients_finite_refuted.
Example C92_refuted_sat : grad_b (/ 1000000) [(0, 2)] [0.3; 0.2] 0 1 = None.
Proof. unfold grad_b. rewrite (undefined _ _ _ _ _ 0 1); [reflexivity|now exists 1|now exists 0|]. left. rewrite Rabs_R0, Rabs_R1. split; reflexivity. Qed.

(** Away from contacts and from the thresholds of the guards, along any differentiable path of coefficients, distance and
    radius, the tangent is the derivative of the light curve. *)
Theorem C92_tangent_is_derivative : forall eps quad us b r s xs x y, 0 < eps ->
  List.Forall2 (fun f d => tracks f s d) us xs -> tracks b s x -> tracks r s y ->
  disk_flux (map (fun f => f s) us) <> 0 -> b s <> 0 -> r s <> 0 -> off_contacts (Rabs (b s)) (Rabs (r s)) ->
  (Rabs (b s) < 1 + Rabs (r s) -> Rabs (r s) < 1 + Rabs (b s) -> off_thresholds eps quad (Rabs (b s)) (Rabs (r s))) ->
  tracks (fun z => light_curve eps quad (map (fun f => f z) us) (b z) (r z)) s (light_curve_d eps quad xs x y).
Proof. exact tracks_light_curve. Qed.
Print Assumptions C92_tangent_is_derivative.
(** jax.grad with respect to the distance, the radius and each coefficient gives the partial derivative *)
Theorem C92_gradients : forall eps quad u b r, 0 < eps -> disk_flux u <> 0 -> regular_point eps quad b r ->
  (exists g, grad_b eps quad u b r = Some g /\ is_derive (fun x => light_curve eps quad u x r) b g) /\
  (exists g, grad_r eps quad u b r = Some g /\ is_derive (fun x => light_curve eps quad u b x) r g) /\
  (forall k, (k < length u)%nat -> exists g, grad_u eps quad k u b r = Some g /\ is_derive (fun x => light_curve eps quad (set_nth k x u) b r) (nth k u 0) g).
Proof. exact grad_correct. Qed.
Print Assumptions C92_gradients.
Example C92_gradients_sat : regular_point (/ 1000000) [(0, 2)] 0.3 0.1 /\ regular_point (/ 1000000) [(1, 2)] 1 0.1 /\ disk_flux [0.3] <> 0.
Proof. exact (conj regular_point_sat (conj regular_point_sat2 flux_linear)). Qed.
(** Outside of a transit, contacts included, and in total eclipse the derivative is exactly zero in every direction. *)
Theorem C92_zero_outside_transit : forall eps quad us u x y b r, 0 < eps -> List.Forall2 fin us u -> fin x b -> fin y r -> disk_flux u <> 0 ->
  ~ (Rabs b = 0 /\ Rabs r = 1) -> ~ (Rabs b = 1 /\ Rabs r = 0) ->
  (1 + Rabs r <= Rabs b -> light_curve_d eps quad us x y = Some (0, 0)) /\
  (1 + Rabs b <= Rabs r -> light_curve_d eps quad us x y = Some (- 1, 0)).
Proof. exact outside_zero. Qed.
Print Assumptions C92_zero_outside_transit.
