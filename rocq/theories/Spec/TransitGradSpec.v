(** Traced transit orbits. *)
From Coq Require Import Reals List.
From Verif Require Import Base.RealAux Model.AutoDiff Model.TransitOrbit Model.TransitGrad Spec.AutoDiffSpec.
Local Open Scope R_scope.

(** every parameter of the traced orbit has the value of the orbit's, with some finite tangent *)
Definition fin_orbit (d : transit_orbit_d) (o : transit_orbit) : Prop :=
  fin (td_period d) (to_period o) /\ fin (td_speed d) (to_speed o) /\ fin (td_duration d) (to_duration o) /\
  fin (td_time_transit d) (to_time_transit o) /\ fin (td_impact d) (to_impact o) /\ fin (td_ror d) (to_ror o).
(** every parameter of the traced orbit has the derivative of the parameter of the family o at s *)
Definition tracks_orbit (o : R -> transit_orbit) (s : R) (d : transit_orbit_d) : Prop :=
  tracks (fun z => to_period (o z)) s (td_period d) /\ tracks (fun z => to_speed (o z)) s (td_speed d) /\
  tracks (fun z => to_duration (o z)) s (td_duration d) /\ tracks (fun z => to_time_transit (o z)) s (td_time_transit d) /\
  tracks (fun z => to_impact (o z)) s (td_impact d) /\ tracks (fun z => to_ror (o z)) s (td_ror d).
