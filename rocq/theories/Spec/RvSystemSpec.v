(** Radial velocities of surfaces behind opaque disks. *)
From Coq Require Import Reals List Bool Arith.
From Coquelicot Require Import Coquelicot.
From Verif Require Import Base.RealAux Model.Surface Model.Ylm Spec.RotationSpec Spec.BasisSpec Spec.DiskSpec Spec.OccultSpec Spec.YlmSpec Spec.SurfaceSpec Spec.SystemSpec Spec.SkySpec Spec.ShadowSpec.
Import ListNotations.
Open Scope R_scope.

(** intensity times velocity away from the observer, for a surface seen at rotation angle theta and rotating with the
    equatorial speed veq *)
Definition moving_of (s : surface) (veq : R) (theta : option R) (p : vec3) : R :=
  seen_of s theta p * recession veq (match s_inc s with Some i => i | None => PI / 2 end) (angle0 (s_obl s)) p.
(** the flux-weighted mean velocity of what the occultors leave visible *)
Definition mean_velocity (s : surface) (veq : R) (theta : option R) (l : list occultor) : R :=
  flux_past l (moving_of s veq theta) / flux_past l (seen_of s theta).
(** the effects of the occultors one by one, added *)
Definition velocity_counted (s : surface) (veq : R) (theta : option R) (l : list occultor) : R :=
  mean_velocity s veq theta [] + Rsum (map (fun o => mean_velocity s veq theta [o] - mean_velocity s veq theta []) l).
(** the occultor leaves a part of the disk visible, and no guard of the code replaces a value *)
Definition regular_rv (eps : R) (high : list (R * R)) (o : occultor) : Prop :=
  let '(xo, yo, r) := o in let b := sqrt (xo ^ 2 + yo ^ 2) in 0 <= r /\ r < 1 + b /\ (b < 1 + r -> clear_of_guards eps high b r).
(** v is the surface's amplitude times the mean velocity of what one occultor leaves visible, but for the quadrature errors of the two fluxes *)
Definition rv_past (low high : list (R * R)) (s : surface) (veq : R) (theta : option R) (o : occultor) (v : R) : Prop :=
  let '(xo, yo, r) := o in let b := sqrt (xo ^ 2 + yo ^ 2) in let D := (surf_deg s + 1)%nat in
  (b < 1 + r /\ exists g h, green_coefficients D g (turned xo yo (moving_of s veq theta)) /\ green_coefficients D h (turned xo yo (seen_of s theta)) /\
    let num := flux_past [o] (moving_of s veq theta) + edge_errors D g low high b r in let den := flux_past [o] (seen_of s theta) + edge_errors D h low high b r in
    (den <> 0 -> v = s_amplitude s * (num / den))) \/
  (1 + r <= b /\ v = s_amplitude s * mean_velocity s veq theta []).
