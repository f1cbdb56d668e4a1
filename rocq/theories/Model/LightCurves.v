(** Model of src/jaxoplanet/light_curves/limb_dark.py and light_curves/emission.py.
    One (scalar) time; vectorisation is modelled in Model/Transforms.v. Positions and radii
    are in a common length unit, so the dimensionless assertions hold. *)
From Coq Require Import Reals List Bool.
From Verif.Base Require Import RealAux.
From Verif.Model Require Import LimbDark.
Import ListNotations.
Open Scope R_scope.

(** what the light curves use of an orbit (proto.py: LightCurveOrbit) *)
Record lc_orbit := {
  lo_central_radius : R;
  lo_radius : R;
  lo_relative_position : R -> R * R * R }.

(** light_curves/limb_dark.py:17-67 [light_curve] for one body and one time *)
Definition transit_light_curve (eps : R) (quad : list (R * R)) (orbit : lc_orbit) (u : list R) (time : R) : R :=
  let r_star := lo_central_radius orbit in
  let '(x, y, z) := lo_relative_position orbit time in
  let b := sqrt (x^2 + y^2) / r_star in
  let r := lo_radius orbit / r_star in
  let lc := light_curve eps quad u b r in
  if Rgtb z 0 then lc else 0.

(** light_curves/emission.py:16-62: bodies with their surfaces; the fields of Surface
    used are [u] and [amplitude]. *)
Record em_body := {
  eb_radius : R;
  eb_relative_position : R -> R * R * R;
  eb_u : list R;
  eb_amplitude : R }.
Definition emission_central (eps : R) (quad : list (R * R)) (r_star : R) (u_star : list R)
  (bodies : list em_body) (time : R) : R :=
  Rsum (map (fun bd => let '(x, y, z) := eb_relative_position bd time in
                       let lc := light_curve eps quad u_star (sqrt (x^2 + y^2) / r_star) (eb_radius bd / r_star) in
                       if Rgtb z 0 then lc else 0) bodies) + 1.
Definition emission_body (eps : R) (quad : list (R * R)) (r_star : R) (bd : em_body) (time : R) : R :=
  let '(x, y, z) := eb_relative_position bd time in
  let b := sqrt (x^2 + y^2) / eb_radius bd in
  let r := r_star / eb_radius bd in
  let lc_body := light_curve eps quad (eb_u bd) b r in
  eb_amplitude bd * (1 + (if Rltb z 0 then lc_body else 0)).
Definition emission_light_curve eps quad r_star u_star (bodies : list em_body) (time : R) : list R :=
  emission_central eps quad r_star u_star bodies time
  :: map (fun bd => emission_body eps quad r_star bd time) bodies.
