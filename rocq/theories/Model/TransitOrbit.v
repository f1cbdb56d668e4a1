(** Model of src/jaxoplanet/orbits/transit.py (values in the declared units). *)
From Coq Require Import Reals Bool.
From Verif.Base Require Import RealAux.
Open Scope R_scope.

Record transit_orbit := {
  to_period : R; to_speed : R; to_duration : R;
  to_time_transit : R; to_impact : R; to_ror : R }.

Definition odflt (o : option R) : R := match o with None => 0 | Some x => x end.

(** orbits/transit.py:52-90 [TransitOrbit.__init__] *)
Definition make_transit_orbit (period : R) (duration speed time_transit impact_param radius_ratio : option R)
  : result transit_orbit :=
  let tt := odflt time_transit in
  let b := odflt impact_param in
  let ror := odflt radius_ratio in
  let x2 := (1 + ror)² - b² in
  match duration with
  | None =>
      match speed with
      | None => Err ValueError
      | Some v => Ok {| to_period := period; to_speed := v;
                        to_duration := 2 * sqrt (Rmax 0 x2) / v;
                        to_time_transit := tt; to_impact := b; to_ror := ror |}
      end
  | Some d => Ok {| to_period := period; to_speed := 2 * sqrt (Rmax 0 x2) / d; to_duration := d;
                    to_time_transit := tt; to_impact := b; to_ror := ror |}
  end.

(** orbits/transit.py:96-102 *)
Definition to_radius (o : transit_orbit) : R := to_ror o.
Definition to_central_radius (o : transit_orbit) : R := 1.

(** orbits/transit.py:104-119 [relative_position] *)
Definition to_dt (o : transit_orbit) (t : R) : R :=
  let half_period := 0.5 * to_period o in
  let ref_time := to_time_transit o - half_period in
  Rmod (t - ref_time) (to_period o) - half_period.
Definition to_relative_position (o : transit_orbit) (t : R) : R * R * R :=
  let dt := to_dt o t in
  let m := Rltb (Rabs dt) (0.5 * to_duration o) in
  (to_speed o * dt, to_impact o,
   (if m then 1 else 0) * 1 - (if m then 0 else 1) * 1).
