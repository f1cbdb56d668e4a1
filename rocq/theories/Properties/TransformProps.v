(** Properties C17-C26: light curves, transforms, TransitOrbit *)
From Coq Require Import Reals Lra Lia List ZArith.
From Coquelicot Require Import Coquelicot.
From Verif.Base Require Import RealAux.
From Verif.Model Require Import LimbDark LightCurves Transforms TransitOrbit.
From Verif.Spec Require Import LimbDarkSpec ArraySpec TransitSpec.
From Verif.Proof Require Import LimbDarkArea TransformsProof TransformsMore TransitProof.
Import ListNotations.
Open Scope R_scope.

(** C17 *)
Theorem C17_transit_light_curve_flat_off_transit : forall eps quad orbit u t,
  0 < lo_central_radius orbit -> 0 <= lo_radius orbit -> disk_flux u <> 0 ->
  (depth_z (lo_relative_position orbit t) <= 0 \/
   lo_central_radius orbit + lo_radius orbit <= separation (lo_relative_position orbit t)) ->
  transit_light_curve eps quad orbit u t = 0.
Proof. exact transit_lc_flat. Qed.
Print Assumptions C17_transit_light_curve_flat_off_transit.
Theorem C17_transit_light_curve_in_front : forall eps quad orbit u t x y z,
  lo_relative_position orbit t = (x, y, z) -> 0 < z ->
  transit_light_curve eps quad orbit u t =
  light_curve eps quad u (sqrt (x^2 + y^2) / lo_central_radius orbit) (lo_radius orbit / lo_central_radius orbit).
Proof. exact transit_lc_in_front. Qed.
Print Assumptions C17_transit_light_curve_in_front.
Example C17_satisfiable : 0 < lo_central_radius sample_orbit /\ 0 <= lo_radius sample_orbit /\
  disk_flux [0.4; 0.3] <> 0 /\
  lo_central_radius sample_orbit + lo_radius sample_orbit <= separation (lo_relative_position sample_orbit 10).
Proof. exact transit_lc_sat. Qed.

(** C18: [transit_light_curve] of each body on the star is the dip; entry 0 is the star *)
Theorem C18_emission_central : forall eps quad r_star u_star bodies t,
  nth 0 (emission_light_curve eps quad r_star u_star bodies t) 0 =
  1 + Rsum (map (fun bd => transit_light_curve eps quad
      {| lo_central_radius := r_star; lo_radius := eb_radius bd;
         lo_relative_position := eb_relative_position bd |} u_star t) bodies).
Proof. exact emission_central_sum. Qed.
Print Assumptions C18_emission_central.
Theorem C18_emission_body_visible : forall eps quad r_star u_star bodies t i bd,
  nth_error bodies i = Some bd -> 0 < eb_radius bd -> 0 <= r_star -> disk_flux (eb_u bd) <> 0 ->
  (0 <= depth_z (eb_relative_position bd t) \/
   r_star + eb_radius bd <= separation (eb_relative_position bd t)) ->
  nth (S i) (emission_light_curve eps quad r_star u_star bodies t) 0 = eb_amplitude bd.
Proof.
  intros eps quad rs us bodies t i bd Hi Hr Hs HF H. rewrite (emission_body_nth _ _ _ _ _ _ _ _ Hi).
  destruct H; [now apply emission_body_front|now apply emission_body_clear].
Qed.
Print Assumptions C18_emission_body_visible.
Theorem C18_emission_body_hidden : forall eps quad r_star u_star bodies t i bd,
  nth_error bodies i = Some bd -> 0 < eb_radius bd -> depth_z (eb_relative_position bd t) < 0 ->
  separation (eb_relative_position bd t) + eb_radius bd <= r_star -> eb_radius bd < r_star ->
  nth (S i) (emission_light_curve eps quad r_star u_star bodies t) 0 = 0.
Proof.
  intros eps quad rs us bodies t i bd Hi Hr Hz Hs Hl. rewrite (emission_body_nth _ _ _ _ _ _ _ _ Hi).
  now apply emission_body_hidden.
Qed.
Print Assumptions C18_emission_body_hidden.
Theorem C18_emission_one_entry_per_body : forall eps quad r_star u_star bodies t,
  length (emission_light_curve eps quad r_star u_star bodies t) = S (length bodies).
Proof. exact emission_length. Qed.
Print Assumptions C18_emission_one_entry_per_body.
Example C18_satisfiable : 0 < eb_radius sample_body /\ depth_z (eb_relative_position sample_body 0.5) < 0 /\
  separation (eb_relative_position sample_body 0.5) + eb_radius sample_body <= 1 /\ eb_radius sample_body < 1.
Proof. exact emission_sat. Qed.

(** C19 *)
Theorem C19_integrate_constant : forall T order n c g,
  order = 0%Z \/ order = 1%Z \/ order = 2%Z ->
  integrate (fun _ => c) (EScalar T) order n = Ok g -> forall t, g t = c.
Proof. exact integrate_const_all. Qed.
Print Assumptions C19_integrate_constant.
Theorem C19_integrate_linear : forall f g T order n t c0 c1,
  order = 0%Z \/ order = 1%Z \/ order = 2%Z -> (2 <= n)%nat \/ order = 0%Z ->
  T <> 0 -> (forall x, f x = c0 + c1 * x) -> integrate f (EScalar T) order n = Ok g ->
  g t = / T * RInt f (t - T/2) (t + T/2) /\ g t = f t.
Proof. exact integrate_average_linear. Qed.
Print Assumptions C19_integrate_linear.
Theorem C19_integrate_simpson_cubic : forall f g T n t c0 c1 c2 c3, (2 <= n)%nat -> T <> 0 ->
  (forall x, f x = c0 + c1 * x + c2 * x^2 + c3 * x^3) -> integrate f (EScalar T) 2 n = Ok g ->
  g t = / T * RInt f (t - T/2) (t + T/2).
Proof. exact integrate_average_cubic. Qed.
Print Assumptions C19_integrate_simpson_cubic.
Theorem C19_integrate_zero_exposure : forall f order n g,
  order = 0%Z \/ order = 1%Z \/ order = 2%Z ->
  integrate f (EScalar 0) order n = Ok g -> forall t, g t = f t.
Proof. exact integrate_zero. Qed.
Print Assumptions C19_integrate_zero_exposure.
(** the excluded case: with a single sample, orders 1 and 2 sample the start of the exposure *)
Theorem C19_single_sample_refuted : forall f T order n g, order = 1%Z \/ order = 2%Z -> (n <= 1)%nat ->
  integrate f (EScalar T) order n = Ok g -> forall t, g t = f (t - T / 2).
Proof. exact integrate_single_refuted. Qed.
Print Assumptions C19_single_sample_refuted.
Example C19_satisfiable : is_ok (integrate (fun x => 1 + 2 * x) (EScalar 0.1) 1 7).
Proof. eexists; reflexivity. Qed.

(** C20 *)
Theorem C20_integrate_is_weighted_average : forall f T order n g,
  order = 0%Z \/ order = 1%Z \/ order = 2%Z ->
  integrate f (EScalar T) order n = Ok g ->
  exists st : list (R * R),
    (forall t, g t = Rsum (map (fun p => snd p * f (t + fst p)) st)) /\
    Nat.Odd (length st) /\ (n <= length st <= n + 1)%nat /\
    (forall d w, In (d, w) st -> Rabs d <= Rabs T / 2 /\ 0 < w) /\
    Rsum (map snd st) = 1 /\
    ((2 <= n)%nat \/ order = 0%Z -> rev st = map (fun p => (- fst p, snd p)) st).
Proof. exact integrate_is_weighted_average. Qed.
Print Assumptions C20_integrate_is_weighted_average.
Theorem C20_integrate_bounds : forall f T order n g t lo hi,
  order = 0%Z \/ order = 1%Z \/ order = 2%Z ->
  (forall s, Rabs (s - t) <= Rabs T / 2 -> lo <= f s <= hi) ->
  integrate f (EScalar T) order n = Ok g -> lo <= g t <= hi.
Proof. exact integrate_bounds. Qed.
Print Assumptions C20_integrate_bounds.

(** C21 *)
Theorem C21_integrate_validation : forall f e order n,
  (e = ENone -> integrate f e order n = Ok f) /\
  (forall k, e = EArray k -> integrate f e order n = Err ValueError) /\
  (forall T, e = EScalar T ->
     (is_ok (integrate f e order n) <-> (order = 0%Z \/ order = 1%Z \/ order = 2%Z)) /\
     (~ (order = 0%Z \/ order = 1%Z \/ order = 2%Z) -> integrate f e order n = Err ValueError)).
Proof. exact integrate_validation. Qed.
Print Assumptions C21_integrate_validation.

(** C22 *)
Theorem C22_interpolate_periodic : forall f P t0 dur n g t k, 0 < P ->
  interpolate f P t0 dur n = Ok g -> g (t + IZR k * P) = g t.
Proof. exact interpolate_periodic. Qed.
Print Assumptions C22_interpolate_periodic.
Theorem C22_interpolate_range : forall f P t0 dur n g t lo hi, 0 < P -> interpolate f P t0 dur n = Ok g ->
  (forall s, Rabs (s - t0) <= Rabs (match dur with None => P | Some d => d end) / 2 -> lo <= f s <= hi) ->
  lo <= g t <= hi.
Proof. exact interpolate_range. Qed.
Print Assumptions C22_interpolate_range.
(** grid times t_i = t0 + d (-1/2 + i/(n-1)) *)
Theorem C22_interpolate_reproduces_grid : forall f P t0 d n dur g i, 0 < P -> 0 < d <= P -> (2 <= n)%nat ->
  (d = P -> f (t0 + P / 2) = f (t0 - P / 2)) ->
  match dur with None => P | Some d => d end = d -> interpolate f P t0 dur n = Ok g -> (i < n)%nat ->
  let ti := t0 + d * (-0.5 + INR i / INR (n - 1)) in g ti = f ti.
Proof. intros f P t0 d n dur g i HP Hd Hn Hper Hod Hg Hi. exact (interpolate_grid_exact f P t0 d n HP Hd Hn Hper dur Hod g Hg i Hi). Qed.
Print Assumptions C22_interpolate_reproduces_grid.
Theorem C22_interpolate_linear_between : forall f P t0 d n dur g i t, 0 < P -> 0 < d <= P -> (2 <= n)%nat ->
  (d = P -> f (t0 + P / 2) = f (t0 - P / 2)) ->
  match dur with None => P | Some d => d end = d -> interpolate f P t0 dur n = Ok g -> (S i < n)%nat ->
  let tau j := t0 + d * (-0.5 + INR j / INR (n - 1)) in
  tau i <= t < tau (S i) ->
  g t = f (tau i) + (t - tau i) / (tau (S i) - tau i) * (f (tau (S i)) - f (tau i)).
Proof. intros f P t0 d n dur g i t HP Hd Hn Hper Hod Hg Hi tau Ht. exact (interpolate_linear f P t0 d n HP Hd Hn Hper dur Hod g Hg i t Hi Ht). Qed.
Print Assumptions C22_interpolate_linear_between.
(** outside the pre-computed window: linear between the last and the first grid values *)
Theorem C22_interpolate_outside_window : forall f P t0 d n dur g t, 0 < P -> 0 < d < P -> (2 <= n)%nat ->
  match dur with None => P | Some d => d end = d -> interpolate f P t0 dur n = Ok g ->
  f (t0 - d / 2) = f (t0 + d / 2) -> t0 + d / 2 <= t < t0 - d / 2 + P ->
  g t = f (t0 - d / 2).
Proof.
  intros f P t0 d n dur g t HP Hd Hn Hod Hg He Ht.
  assert (E0 : grid_time P t0 d n 0 = t0 - d/2) by (unfold grid_time; cbn [INR]; unfold Rdiv; lra).
  assert (E1 : grid_time P t0 d n (n-1) = t0 + d/2) by (rewrite grid_time_span by (lra||lia); lra).
  rewrite (interpolate_gap f P t0 d n HP ltac:(lra) Hn ltac:(lra) dur Hod g Hg t) by (rewrite ?E0, ?E1; lra).
  rewrite E0, E1. unfold seg_val. rewrite He. ring.
Qed.
Print Assumptions C22_interpolate_outside_window.
Example C22_satisfiable : is_ok (interpolate (fun t => t * t) 5 0 None 11) /\
  (5 = 5 -> (fun t => t * t) (0 + 5 / 2) = (fun t => t * t) (0 - 5 / 2)).
Proof. split; [eexists; reflexivity|intros; lra]. Qed.

(** C23 *)
Theorem C23_vectorize_elementwise : forall (B : Type) (f : R -> B) s x, has_shape s x ->
  exists y, vectorize f (TArray s x) = Ok y /\ has_shape s y /\
  forall idx, get idx y = option_map f (get idx x).
Proof. exact @vectorize_array. Qed.
Print Assumptions C23_vectorize_elementwise.
Theorem C23_vectorize_quantity_elementwise : forall (B : Type) (f : R -> B) s x u, has_shape s x ->
  exists y, vectorize f (TQuantity s x u) = Ok y /\ has_shape s y /\
  forall idx, get idx y = option_map (fun m => f (m * u)) (get idx x).
Proof. exact @vectorize_quantity. Qed.
Print Assumptions C23_vectorize_quantity_elementwise.
Example C23_satisfiable : has_shape [2; 1]%nat (Axis [Axis [Leaf 1]; Axis [Leaf 2]]).
Proof. cbn. tauto. Qed.

(** C24 *)
Theorem C24_transit_orbit_speed_duration : forall P d v tt b ror o,
  make_transit_orbit P d v tt b ror = Ok o ->
  (forall x, d = Some x -> x <> 0) -> (d = None -> forall x, v = Some x -> x <> 0) ->
  to_speed o * to_duration o = 2 * sqrt (Rmax 0 ((1 + to_ror o)^2 - to_impact o ^ 2)).
Proof. exact to_speed_duration. Qed.
Print Assumptions C24_transit_orbit_speed_duration.
Theorem C24_transit_orbit_construction : forall P d v tt b ror,
  (d = None /\ v = None -> make_transit_orbit P d v tt b ror = Err ValueError) /\
  (d <> None \/ v <> None -> exists o, make_transit_orbit P d v tt b ror = Ok o /\
     to_period o = P /\ (forall x, d = Some x -> to_duration o = x) /\
     (d = None -> forall x, v = Some x -> to_speed o = x) /\
     to_time_transit o = match tt with Some x => x | None => 0 end /\
     to_impact o = match b with Some x => x | None => 0 end /\
     to_ror o = match ror with Some x => x | None => 0 end).
Proof. exact to_construct. Qed.
Print Assumptions C24_transit_orbit_construction.
Example C24_satisfiable : make_transit_orbit 10 (Some 0.3) None (Some 1) (Some 0.5) (Some 0.1) = Ok sample_to.
Proof. exact sample_to_ok. Qed.

(** C25 *)
Theorem C25_transit_orbit_periodic : forall o t k, 0 < to_period o ->
  to_relative_position o (t + IZR k * to_period o) = to_relative_position o t.
Proof. exact to_periodic. Qed.
Print Assumptions C25_transit_orbit_periodic.
Theorem C25_transit_orbit_mid_transit : forall o k, 0 < to_period o -> 0 < to_duration o ->
  to_relative_position o (to_time_transit o + IZR k * to_period o) = (0, to_impact o, 1).
Proof. exact to_at_transit. Qed.
Print Assumptions C25_transit_orbit_mid_transit.
Theorem C25_transit_orbit_folded_time : forall o t, 0 < to_period o ->
  exists (k : Z) (dt : R), t = to_time_transit o + IZR k * to_period o + dt /\
    - (to_period o / 2) <= dt < to_period o / 2 /\
    fst (fst (to_relative_position o t)) = to_speed o * dt /\ snd (fst (to_relative_position o t)) = to_impact o.
Proof.
  intros o t HP. destruct (to_dt_decomp o t) as [k E]. exists k, (to_dt o t).
  repeat split; auto; apply to_dt_range; auto.
Qed.
Print Assumptions C25_transit_orbit_folded_time.

(** C26 *)
Theorem C26_transit_orbit_front_iff_in_transit : forall o t, 0 < to_period o ->
  let '(_, _, z) := to_relative_position o t in
  (z = 1 /\ (exists k : Z, Rabs (t - (to_time_transit o + IZR k * to_period o)) < to_duration o / 2)) \/
  (z = -1 /\ ~ (exists k : Z, Rabs (t - (to_time_transit o + IZR k * to_period o)) < to_duration o / 2)).
Proof. exact to_front_iff. Qed.
Print Assumptions C26_transit_orbit_front_iff_in_transit.
Theorem C26_transit_orbit_light_curve_flat : forall eps quad o u t, 0 < to_period o ->
  ~ (exists k : Z, Rabs (t - (to_time_transit o + IZR k * to_period o)) < to_duration o / 2) ->
  transit_light_curve eps quad (to_lc_orbit o) u t = 0.
Proof. exact to_light_curve_flat. Qed.
Print Assumptions C26_transit_orbit_light_curve_flat.
Theorem C26_transit_orbit_contact : forall o k s, 0 < to_period o -> 0 < to_duration o ->
  to_speed o * to_duration o = 2 * sqrt (Rmax 0 ((1 + to_ror o)^2 - to_impact o ^ 2)) ->
  Rabs (to_impact o) < 1 + to_ror o -> - (to_period o / 2) <= s < to_period o / 2 ->
  let d := separation (to_relative_position o (to_time_transit o + IZR k * to_period o + s)) in
  (Rabs s = to_duration o / 2 -> d = 1 + to_ror o) /\
  (Rabs s < to_duration o / 2 -> d < 1 + to_ror o) /\
  (to_duration o / 2 < Rabs s -> 1 + to_ror o < d).
Proof. exact to_contact. Qed.
Print Assumptions C26_transit_orbit_contact.
