(** Model of starry/orbit.py, starry/system_observable.py, and the system-level functions of starry/light_curves.py
    and starry/doppler.py.  Quantities are numbers in the library's units (R_sun, day).  The stacked and looping
    evaluations of ObjectStack.vmap agree (C44) and are modelled by one map over the bodies. *)
From Coq Require Import Reals Lra Lia ZArith List Bool Arith.
From Verif Require Import Base.RealAux Base.Dict Model.Keplerian Model.Basis Model.Ylm Model.RvMap Model.Surface Model.StarryLightCurve.
From Verif Require Model.Stack.
Import ListNotations.
Open Scope R_scope.

(** a Body or SurfaceBody with its [surface] attribute (None for a Body), or an OrbitalBody: orbit.py:9-10 *)
Inductive sbody := SBody (b : body_of arr) (own : option surface) | SOrbital (o : orbital).
(** orbit.py:13-15; the two stacks *)
Record ssystem := { ss_central : central; ss_surface : surface; ss_bodies : list orbital; ss_surfaces : list (option surface) }.
(** surface.py:89-102: Surface() *)
Definition default_surface : result surface := make_surface None (Some (0.5 * PI)) None [] None 1 true 0 1 None.

Section System.
Variable G : R.
(** orbit.py:32-43; the Body was checked when it was constructed *)
Fixpoint build_sbodies (c : central) (l : list (sbody * option surface)) : result (list orbital * list (option surface)) :=
  match l with
  | [] => Ok ([], [])
  | (SOrbital o, s) :: l' => rbind (build_sbodies c l') (fun r => Ok (o :: fst r, s :: snd r))
  | (SBody b own, s) :: l' =>
      rbind (rbind (make_body b) (make_orbital G c)) (fun o =>
      rbind (build_sbodies c l') (fun r => Ok (o :: fst r, (match s with None => own | Some _ => s end) :: snd r)))
  end.
(** orbit.py:17-47 [SurfaceSystem.__init__] *)
Definition make_ssystem (c : option central) (cs : option surface) (bodies : list (sbody * option surface)) : result ssystem :=
  rbind (match c with Some c => Ok c | None => make_central None None None end) (fun c =>
  rbind (match cs with Some s => Ok s | None => default_surface end) (fun cs =>
  rbind (build_sbodies c bodies) (fun r => Ok {| ss_central := c; ss_surface := cs; ss_bodies := fst r; ss_surfaces := snd r |}))).
(** orbit.py:53-71 [add_body]; [b] is body or Body of the kwargs *)
Definition ss_add_body (sys : ssystem) (b : sbody) (s : option surface) : result ssystem :=
  let s := match s with None => (match b with SBody _ own => own | SOrbital _ => None end) | Some _ => s end in
  make_ssystem (Some (ss_central sys)) (Some (ss_surface sys))
    (map (fun os => (SOrbital (fst os), snd os)) (combine (ss_bodies sys) (ss_surfaces sys)) ++ [(b, s)]).
End System.

Section Observable.
Variable au : R.
Variable kep : R -> R -> R * R.
(** surface, r, x, y, z, theta *)
Variable obs : surface -> option R -> option R -> option R -> option R -> option R -> result R.

(** orbits/keplerian.py:709-711: the radii; a missing radius makes the division in system_observable fail *)
Definition body_radius (o : orbital) : result R := match ob_radius o with Some r => Ok r | None => Err TypeError end.
(** system_observable.py:18-20, 57-64: the central seen with one body *)
Definition central_obs (sys : ssystem) (theta : option R) (t : R) (o : orbital) : result R :=
  let rc := c_radius (ss_central sys) in
  let '(x, y, z) := relative_position au kep o t None in
  rbind (body_radius o) (fun r => obs (ss_surface sys) (Some (r / rc)) (Some (x / rc)) (Some (y / rc)) (Some (z / rc)) theta).
(** system_observable.py:24-37, 72-74: a body seen with the central in its frame *)
Definition body_obs (sys : ssystem) (t : R) (os : orbital * option surface) : result R :=
  let rc := c_radius (ss_central sys) in
  let '(o, s) := os in
  let '(x, y, z) := relative_position au kep o t None in
  rbind (body_radius o) (fun r =>
  match s with
  | None => Ok 0
  | Some s => obs s (Some (rc / r)) (Some (- x / r)) (Some (- y / r)) (Some (- z / r)) (rotational_phase s t)
  end).
(** system_observable.py:13-84 at a scalar time; central_surface is never None *)
Definition system_observable (sys : ssystem) (t : R) : result (list R) :=
  let theta := rotational_phase (ss_surface sys) t in
  rbind (obs (ss_surface sys) None None None None theta) (fun f0 =>
  match ss_bodies sys with
  | [] => Ok [f0]
  | _ =>
    let n := length (ss_bodies sys) in
    rbind (Stack.mapM (central_obs sys theta t) (ss_bodies sys)) (fun fs =>
    let central := if (1 <? n)%nat then [Rsum fs - f0 * INR (n - 1)] else fs in
    rbind (Stack.mapM (body_obs sys t) (combine (ss_bodies sys) (ss_surfaces sys))) (fun bs => Ok (central ++ bs)))
  end).
(** light_curves/utils.py:11-46 [vectorize] on an array of times *)
Definition system_observable_times (sys : ssystem) (ts : list R) : result (list (list R)) := Stack.mapM (system_observable sys) ts.
(** doppler.py:171-179 [radial_velocity] for an array of times (a scalar time fails: two indices on one axis).
    system.radial_velocity(time)[0] is the reflex velocity due to the first body; without bodies the vmap over an
    empty stack fails *)
Definition system_radial_velocity (sys : ssystem) (ts : list R) : result (list (list R)) :=
  rbind (system_observable_times sys ts) (fun rvs =>
  match ss_bodies sys with
  | [] => Err ValueError
  | o :: _ =>
    Ok (map (fun tr => match snd tr with [] => [] | c :: r => (c + radial_velocity au kep o (fst tr) None) :: r end) (combine ts rvs))
  end).
Definition system_radial_velocity_scalar (sys : ssystem) (t : R) : result (list R) :=
  rbind (system_observable sys t) (fun _ => Err IndexError).
End Observable.
(** light_curves.py:143-144 [light_curve], doppler.py:171-179, with the surface observables of Model/StarryLightCurve.v *)
Definition starry_light_curve as_euler eps low high A2 au kep :=
  system_observable au kep (surface_light_curve as_euler eps low high A2).
Definition starry_radial_velocity as_euler eps low high A2 au kep :=
  system_radial_velocity au kep (surface_radial_velocity as_euler eps low high A2).
