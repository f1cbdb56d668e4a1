(** light_curves/limb_dark.py and orbits/transit.py evaluated on traced numbers (Model/AutoDiff.v). *)
From Coq Require Import Reals List Bool Arith.
From Verif Require Import Base.RealAux Model.LimbDark Model.TransitOrbit Model.AutoDiff Model.LightCurveGrad.
Import ListNotations.
Local Open Scope R_scope.

(** jnp.sqrt: the derivative at 0 is not finite *)
Definition dsqrt (x : D) : D := if Rleb (val x) 0 then None else lift1 sqrt (fun v t => t * (0.5 / sqrt v)) x.
(** x ** 2 *)
Definition dpow2 : D -> D := lift1 (fun v => v ^ 2) (fun v t => t * (2 * v)).
(** jnp.mod(x, y): the rule of lax.rem, corrected by the jnp.where of jnp.mod *)
Definition dmod (x y : D) : D := if Req_EM_T (val y) 0 then None else lift2 Rmod (fun v w t s => t + s * - IZR (Rfloor (v / w))) x y.

(** what the light curve uses of an orbit (proto.py: LightCurveOrbit) *)
Record lc_orbit_d := { ld_central_radius : D; ld_radius : D; ld_relative_position : D -> D * D * D }.
(** light_curves/limb_dark.py:17-67 [light_curve] for one body and one time *)
Definition transit_light_curve_d (eps : R) (quad : list (R * R)) (orbit : lc_orbit_d) (u : list D) (time : D) : D :=
  let r_star := ld_central_radius orbit in
  let '(x, y, z) := ld_relative_position orbit time in
  let b := ddiv (dsqrt (dadd (dpow2 x) (dpow2 y))) r_star in
  let r := ddiv (ld_radius orbit) r_star in
  let lc := light_curve_d eps quad u b r in
  dwhere (Rgtb (val z) 0) lc (cst 0).

Record transit_orbit_d := { td_period : D; td_speed : D; td_duration : D; td_time_transit : D; td_impact : D; td_ror : D }.
(** orbits/transit.py:52-90 [TransitOrbit.__init__], all arguments given and traced *)
Definition transit_x2_d (impact ror : D) : D := dsub (dsq (dadd (cst 1) ror)) (dsq impact).
Definition orbit_from_duration_d (period duration time_transit impact ror : D) : transit_orbit_d :=
  {| td_period := period; td_speed := ddiv (dmul (cst 2) (dsqrt (dmax (cst 0) (transit_x2_d impact ror)))) duration; td_duration := duration;
     td_time_transit := time_transit; td_impact := impact; td_ror := ror |}.
Definition orbit_from_speed_d (period speed time_transit impact ror : D) : transit_orbit_d :=
  {| td_period := period; td_speed := speed; td_duration := ddiv (dmul (cst 2) (dsqrt (dmax (cst 0) (transit_x2_d impact ror)))) speed;
     td_time_transit := time_transit; td_impact := impact; td_ror := ror |}.
(** orbits/transit.py:104-119 [relative_position] *)
Definition to_dt_d (o : transit_orbit_d) (t : D) : D :=
  let half_period := dmul (cst 0.5) (td_period o) in
  let ref_time := dsub (td_time_transit o) half_period in
  dsub (dmod (dsub t ref_time) (td_period o)) half_period.
Definition to_relative_position_d (o : transit_orbit_d) (t : D) : D * D * D :=
  let dt := to_dt_d o t in
  let m := Rltb (Rabs (val dt)) (0.5 * val (td_duration o)) in
  (dmul (td_speed o) dt, td_impact o, cst ((if m then 1 else 0) * 1 - (if m then 0 else 1) * 1)).
(** orbits/transit.py:96-102 *)
Definition to_lc_orbit_d (o : transit_orbit_d) : lc_orbit_d :=
  {| ld_central_radius := cst 1; ld_radius := td_ror o; ld_relative_position := to_relative_position_d o |}.
(** an orbit whose parameters are not differentiated *)
Definition const_orbit_d (o : transit_orbit) : transit_orbit_d :=
  {| td_period := cst (to_period o); td_speed := cst (to_speed o); td_duration := cst (to_duration o);
     td_time_transit := cst (to_time_transit o); td_impact := cst (to_impact o); td_ror := cst (to_ror o) |}.
(** jax.grad of light_curves/limb_dark.py:17-67 [light_curve] with respect to the time *)
Definition grad_time (eps : R) (quad : list (R * R)) (o : transit_orbit) (u : list R) (t : R) : option R :=
  tangent (transit_light_curve_d eps quad (to_lc_orbit_d (const_orbit_d o)) (map cst u) (Some (t, 1))).
