(** core/kepler.py and orbits/keplerian.py evaluated on traced numbers (Model/AutoDiff.v): scalar bodies. *)
From Coq Require Import Reals List Bool.
From Verif Require Import Base.RealAux Model.Kepler Model.Keplerian Model.LimbDark Model.AutoDiff Model.LightCurveGrad Model.TransitGrad.
Import ListNotations.
Local Open Scope R_scope.

(** jnp.cbrt: the derivative at 0 is not finite *)
Definition dcbrt (x : D) : D := if Req_EM_T (AutoDiff.val x) 0 then None else lift1 cbrt (fun v t => t * (/ 3 * / cbrt v ^ 2)) x.
(** core/kepler.py:59-79 the custom rule (not a number unless e < 1) *)
Definition kepler_d (kep : R -> R -> R * R) (M ecc : D) : D * D :=
  if Rleb (1 - AutoDiff.val ecc ^ 2) 0 then (None, None) else
  match M, ecc with
  | Some (m, m_dot), Some (e, e_dot) => let '((s, c), (s', c')) := kepler_jvp kep m e m_dot e_dot in (Some (s, s'), Some (c, c'))
  | _, _ => (None, None)
  end.

(** orbits/keplerian.py:259-277 fields of [OrbitalBody] (and those of its [Central] in use) *)
Record orbital_d := {
  od_central_mass : D; od_central_radius : D; od_time_ref : D; od_time_transit : D; od_period : D; od_semimajor : D;
  od_sin_incl : D; od_cos_incl : D; od_mass : option D; od_radius : option D;
  od_ecc : option (D * D * D); od_node : option (D * D); od_semiamplitude : option D; od_parallax : option D }.
(** orbits/keplerian.py:385-387 [total_mass] *)
Definition total_mass_of_d (mc : D) (mass : option D) : D := match mass with None => mc | Some m => dadd m mc end.
Definition total_mass_d (o : orbital_d) : D := total_mass_of_d (od_central_mass o) (od_mass o).
Definition angle_pair_d (angle s c : option D) : option D * option D :=
  match angle with Some a => (Some (dsin a), Some (dcos a)) | None => (s, c) end.
(** orbits/keplerian.py:325-329 *)
Definition transit_E0_d (e sw cw : D) : D :=
  dmul (cst 2) (datan2 (dmul (dsqrt (dsub (cst 1) e)) cw) (dmul (dsqrt (dadd (cst 1) e)) (dadd (cst 1) sw))).
Definition transit_M0_d (e sw cw : D) : D := let E0 := transit_E0_d e sw cw in dsub E0 (dmul e (dsin E0)).

(** orbits/keplerian.py:279-359 [OrbitalBody.__init__] *)
Definition make_orbital_d (G : R) (mc rc : D) (b : body_of D) : result orbital_d :=
  let mass_factor := dmul (cst G) (total_mass_of_d mc (b_mass b)) in
  match (match b_semimajor b, b_period b with
         | None, Some p => Ok (dcbrt (ddiv (dmul mass_factor (dpow2 p)) (cst (4 * PI ^ 2))), p)
         | Some a, None => Ok (a, dmul (dmul (cst (2 * PI)) a) (dsqrt (ddiv a mass_factor)))
         | None, None => Err AssertionError
         | Some a, Some _ => Err ValueError
         end) with
  | Err e => Err e
  | Ok (a, p) =>
  let '(sw, cw) := angle_pair_d (b_omega_peri b) (b_sin_omega_peri b) (b_cos_omega_peri b) in
  let '(sn, cn) := angle_pair_d (b_asc_node b) (b_sin_asc_node b) (b_cos_asc_node b) in
  match (match b_eccentricity b with
         | None => Ok (cst (0.5 * PI), cst 1, None)
         | Some e =>
             match sw, cw with
             | Some sw, Some cw =>
                 Ok (transit_M0_d e sw cw, ddiv (dadd (cst 1) (dmul e sw)) (dsub (cst 1) (dpow2 e)), Some (e, sw, cw))
             | _, _ => Err AssertionError
             end
         end) with
  | Err e => Err e
  | Ok (M0, incl_factor, ecc) =>
  let dcosidb := ddiv (dmul incl_factor rc) a in
  let '(cosi, sini) :=
    match b_impact_param b with
    | Some ip => let ci := dmul dcosidb ip in (ci, dsqrt (dsub (cst 1) (dpow2 ci)))
    | None => match b_inclination b with Some i => (dcos i, dsin i) | None => (cst 0, cst 1) end
    end in
  let time_ref := ddiv (dmul (dneg M0) p) (cst (2 * PI)) in
  let tt := match b_time_transit b with
            | Some t => t
            | None => match b_time_peri b with Some tp => dsub tp time_ref | None => cst 0 end
            end in
  Ok {| od_central_mass := mc; od_central_radius := rc; od_time_ref := time_ref; od_time_transit := tt; od_period := p; od_semimajor := a;
        od_sin_incl := sini; od_cos_incl := cosi; od_mass := b_mass b; od_radius := b_radius b; od_ecc := ecc;
        od_node := match sn, cn with Some s, Some k => Some (s, k) | _, _ => None end;
        od_semiamplitude := b_semiamplitude b; od_parallax := b_parallax b |}
  end
  end.

Definition vec_d : Type := D * D * D.
(** orbits/keplerian.py:546-554 [_warp_times], [_get_true_anomaly] *)
Definition mean_anomaly_d (o : orbital_d) (t : D) : D :=
  ddiv (dmul (cst (2 * PI)) (dsub (dsub t (od_time_transit o)) (od_time_ref o))) (od_period o).
Definition true_anomaly_d (kep : R -> R -> R * R) (o : orbital_d) (t : D) : D * D :=
  let M := mean_anomaly_d o t in
  match od_ecc o with None => (dsin M, dcos M) | Some (e, _, _) => kepler_d kep M e end.
(** orbits/keplerian.py:556-601 [_rotate_vector] *)
Definition rotate_vector_d (o : orbital_d) (x y : D) (include_inclination : bool) : vec_d :=
  let '(x1, y1) := match od_ecc o with
                   | None => (x, y)
                   | Some (_, sw, cw) => (dsub (dmul cw x) (dmul sw y), dadd (dmul sw x) (dmul cw y))
                   end in
  let '(x2, y2, Z) := if include_inclination then (x1, dmul (od_cos_incl o) y1, dmul (dneg (od_sin_incl o)) y1) else (x1, y1, dneg y1) in
  match od_node o with
  | None => (x2, y2, Z)
  | Some (sn, cn) => (dsub (dmul cn x2) (dmul sn y2), dadd (dmul sn x2) (dmul cn y2), Z)
  end.
(** orbits/keplerian.py:609-673 [_get_position_and_velocity] *)
Definition position_and_velocity_d (au : R) (kep : R -> R -> R * R) (o : orbital_d) (t : D) (semimajor mass semiamplitude parallax : option D) : vec_d * vec_d :=
  let semiamplitude := match semiamplitude with None => od_semiamplitude o | s => s end in
  let parallax := match parallax with None => od_parallax o | s => s end in
  let k0 :=
    match semiamplitude with
    | None =>
        let m := match mass with None => cst 1 | Some m => m end in
        let k0 := ddiv (dmul (dmul (cst (2 * PI)) (od_semimajor o)) m) (dmul (total_mass_d o) (od_period o)) in
        let k0 := match od_ecc o with None => k0 | Some (e, _, _) => ddiv k0 (dsqrt (dsub (cst 1) (dpow2 e))) end in
        match parallax with None => k0 | Some p => dmul (dmul k0 (cst au)) p end
    | Some k => k
    end in
  let r0 := match semimajor with
            | None => cst 1
            | Some a => match parallax with None => a | Some p => dmul (dmul a (cst au)) p end
            end in
  let '(sinf, cosf) := true_anomaly_d kep o t in
  let '(v1, v2, r0) :=
    match od_ecc o with
    | None => (dmul (dneg k0) sinf, dmul k0 cosf, r0)
    | Some (e, _, _) => (dmul (dneg k0) sinf, dmul k0 (dadd cosf e), dmul r0 (ddiv (dsub (cst 1) (dpow2 e)) (dadd (cst 1) (dmul e cosf))))
    end in
  (rotate_vector_d o (dmul r0 cosf) (dmul r0 sinf) true,
   rotate_vector_d o v1 v2 (match semiamplitude with None => true | Some _ => false end)).
(** orbits/keplerian.py:389-404 *)
Definition position_d au kep (o : orbital_d) (t : D) (parallax : option D) : vec_d :=
  fst (position_and_velocity_d au kep o t (Some (ddiv (dmul (dneg (od_semimajor o)) (od_central_mass o)) (total_mass_d o))) None None parallax).
(** orbits/keplerian.py:423-439 *)
Definition relative_position_d au kep (o : orbital_d) (t : D) (parallax : option D) : vec_d :=
  fst (position_and_velocity_d au kep o t (Some (dneg (od_semimajor o))) None None parallax).
(** orbits/keplerian.py:481-500 *)
Definition central_velocity_d au kep (o : orbital_d) (t : D) (semiamplitude : option D) : vec_d :=
  match semiamplitude with
  | None => snd (position_and_velocity_d au kep o t None (od_mass o) None None)
  | Some K => snd (position_and_velocity_d au kep o t None None (Some K) None)
  end.
(** orbits/keplerian.py:525-544 *)
Definition radial_velocity_d au kep (o : orbital_d) (t : D) (semiamplitude : option D) : D :=
  let '(_, _, z) := central_velocity_d au kep o t semiamplitude in dneg z.
(** a body as seen by light_curves/limb_dark.py *)
Definition kep_lc_orbit_d au kep (o : orbital_d) (radius : D) : lc_orbit_d :=
  {| ld_central_radius := od_central_radius o; ld_radius := radius; ld_relative_position := fun t => relative_position_d au kep o t None |}.
(** an orbit whose parameters are not differentiated *)
Definition const_orbital_d (o : orbital) : orbital_d :=
  {| od_central_mass := cst (c_mass (ob_central o)); od_central_radius := cst (c_radius (ob_central o)); od_time_ref := cst (ob_time_ref o);
     od_time_transit := cst (ob_time_transit o); od_period := cst (ob_period o); od_semimajor := cst (ob_semimajor o);
     od_sin_incl := cst (ob_sin_incl o); od_cos_incl := cst (ob_cos_incl o); od_mass := option_map cst (ob_mass o); od_radius := option_map cst (ob_radius o);
     od_ecc := option_map (fun p => (cst (fst (fst p)), cst (snd (fst p)), cst (snd p))) (ob_ecc o);
     od_node := option_map (fun p => (cst (fst p), cst (snd p))) (ob_node o);
     od_semiamplitude := option_map cst (ob_semiamplitude o); od_parallax := option_map cst (ob_parallax o) |}.
(** jax.jvp of [relative_position] in the time with tangent 1 *)
Definition position_jvp au kep (o : orbital) (t : R) : option R * option R * option R :=
  let '(x, y, z) := relative_position_d au kep (const_orbital_d o) (Some (t, 1)) None in (tangent x, tangent y, tangent z).
