(** What light curves see of an orbit. *)
From Coq Require Import Reals List.
From Verif Require Import Base.RealAux Model.LightCurves Model.TransitOrbit Model.Keplerian Spec.RotationSpec Spec.YlmSpec Spec.ShadowSpec Spec.QuadSpec.
Import ListNotations.
Open Scope R_scope.

(** distance on the sky and position along the line of sight *)
Definition separation (p : R * R * R) : R := let '(x, y, _) := p in sqrt (x^2 + y^2).
Definition depth_z (p : R * R * R) : R := snd p.
(** a TransitOrbit (orbits/transit.py: lengths in units of the star's radius) and a body of a Keplerian system as light curves see them *)
Definition to_lc_orbit (o : transit_orbit) : lc_orbit :=
  {| lo_central_radius := to_central_radius o; lo_radius := to_radius o;
     lo_relative_position := to_relative_position o |}.
Definition kep_lc_orbit au kep (c : central) (o : orbital) (radius : R) : lc_orbit :=
  {| lo_central_radius := c_radius c; lo_radius := radius; lo_relative_position := fun t => relative_position au kep o t None |}.
(** a sphere of radius [radius] at the position p, as seen against a disk of radius [size] centred at the origin: it hides a part of the disk when
    it is in front of it *)
Definition in_front (size radius : R) (p : R * R * R) : list occultor :=
  let '(x, y, z) := p in if Rlt_dec 0 z then [(x / size, y / size, radius / size)] else [].
Definition behind (size radius : R) (p : R * R * R) : list occultor :=
  let '(x, y, z) := p in if Rlt_dec z 0 then [(- x / size, - y / size, radius / size)] else [].
(** the central occultor of the same size, whose light curve is undefined *)
Definition same_disk (l : list occultor) : Prop := In (0, 0, 1) l.
(** the limb-darkened disk *)
Definition ld_disk (u : list R) (p : vec3) : R := ld_profile u (snd p).
(** the occultors of the star of an emission light curve *)
Definition emission_occultors (r_star : R) (bodies : list em_body) (t : R) : list occultor := flat_map (fun bd => in_front r_star (eb_radius bd) (eb_relative_position bd t)) bodies.
(** f comes as close to v as one likes for Gauss-Legendre rules of high order (and a machine epsilon, which only serves as a guard, that is small
    enough for the nodes of the rule) *)
Definition order_limit (f : R -> list (R * R) -> R) (v : R) : Prop := forall delta, 0 < delta -> exists N, forall n rule, (N <= n)%nat -> gauss_legendre n rule ->
  exists eps0, 0 < eps0 /\ forall eps, 0 < eps <= eps0 -> Rabs (f eps rule - v) <= delta.
