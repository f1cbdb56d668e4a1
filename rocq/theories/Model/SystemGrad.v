(** starry/system_observable.py and the light curves of systems (starry/light_curves.py) evaluated on traced numbers
    (Model/AutoDiff.v): as Model/SurfaceSystem.v with every operation replaced by its traced version. *)
From Coq Require Import Reals List Bool Arith.
From Verif Require Import Base.RealAux Base.Dict Model.LimbDark Model.Keplerian Model.Basis Model.RvMap Model.AutoDiff Model.LightCurveGrad Model.TransitGrad Model.KeplerGrad Model.StarryGrad Model.StarryRvGrad.
From Verif Require Model.Stack.
Import ListNotations.
Local Open Scope R_scope.
Local Notation "x +. y" := (dadd x y) (at level 50, left associativity).
Local Notation "x -. y" := (dsub x y) (at level 50, left associativity).
Local Notation "x *. y" := (dmul x y) (at level 40, left associativity).
Local Notation "x /. y" := (ddiv x y) (at level 40, left associativity).
Local Notation zero := (cst 0).

(** surface.py:104-156, the fields of a rotating surface; inclination and obliquity are not differentiated *)
Record rsurface_d := { rs_map : surface_d; rs_period : option D; rs_phase : D; rs_radius : D }.
(** orbit.py:13-15; each body with its surface *)
Record ssystem_d := { sy_radius : D; sy_surface : rsurface_d; sy_bodies : list (orbital_d * option rsurface_d) }.
(** surface.py:229-241 [rotational_phase] *)
Definition rotational_phase_d (s : rsurface_d) (t : D) : option D :=
  option_map (fun p => cst (2 * PI) *. t /. p +. rs_phase s) (rs_period s).
Section Observable.
Variable au : R.
Variable kep : R -> R -> R * R.
(** the observable of a surface without occultor, and with one of radius r at (x, y, z) *)
Variable bare : rsurface_d -> option D -> result D.
Variable occulted : rsurface_d -> D -> D -> D -> D -> option D -> result D.
(** orbits/keplerian.py:709-711 *)
Definition body_radius_d (o : orbital_d) : result D := match od_radius o with Some r => Ok r | None => Err TypeError end.
(** system_observable.py:18-20, 57-64 *)
Definition central_obs_d (sys : ssystem_d) (theta : option D) (t : D) (q : orbital_d * option rsurface_d) : result D :=
  let rc := sy_radius sys in
  let '(x, y, z) := relative_position_d au kep (fst q) t None in
  rbind (body_radius_d (fst q)) (fun r => occulted (sy_surface sys) (r /. rc) (x /. rc) (y /. rc) (z /. rc) theta).
(** system_observable.py:24-37, 72-74 *)
Definition body_obs_d (sys : ssystem_d) (t : D) (q : orbital_d * option rsurface_d) : result D :=
  let rc := sy_radius sys in
  let '(x, y, z) := relative_position_d au kep (fst q) t None in
  rbind (body_radius_d (fst q)) (fun r =>
  match snd q with
  | None => Ok zero
  | Some s => occulted s (rc /. r) (dneg x /. r) (dneg y /. r) (dneg z /. r) (rotational_phase_d s t)
  end).
(** system_observable.py:13-84 at a scalar time *)
Definition system_observable_d (sys : ssystem_d) (t : D) : result (list D) :=
  let theta := rotational_phase_d (sy_surface sys) t in
  rbind (bare (sy_surface sys) theta) (fun f0 =>
  match sy_bodies sys with
  | [] => Ok [f0]
  | _ =>
    let n := length (sy_bodies sys) in
    rbind (Stack.mapM (central_obs_d sys theta t) (sy_bodies sys)) (fun fs =>
    let central := if (1 <? n)%nat then [dsum fs -. f0 *. cst (INR (n - 1))] else fs in
    rbind (Stack.mapM (body_obs_d sys t) (sy_bodies sys)) (fun bs => Ok (central ++ bs)))
  end).
End Observable.
(** light_curves.py:143-144 [light_curve] *)
Definition starry_light_curve_d as_euler eps low high A2 au kep :=
  system_observable_d au kep (fun s => bare_light_curve_d as_euler (rs_map s)) (fun s => occulted_light_curve_d as_euler eps low high A2 (rs_map s)).
(** doppler.py:171-179 [radial_velocity] for an array of times *)
Definition starry_radial_velocity_d as_euler eps low high A2 au kep (sys : ssystem_d) (ts : list D) : result (list (list D)) :=
  rbind (Stack.mapM (system_observable_d au kep (fun s => bare_rv_d as_euler (rs_map s) (rs_period s) (rs_radius s))
    (fun s => occulted_rv_d as_euler eps low high A2 (rs_map s) (rs_period s) (rs_radius s)) sys) ts) (fun rvs =>
  match sy_bodies sys with
  | [] => Err ValueError
  | q :: _ => Ok (map (fun tr => match snd tr with [] => [] | c :: r => (c +. radial_velocity_d au kep (fst q) (fst tr) None) :: r end) (combine ts rvs))
  end).
(** light_curves.py:143-144, light_curves/utils.py:11-46 [vectorize]: [light_curve] for an array of times *)
Definition starry_light_curve_times_d as_euler eps low high A2 au kep (sys : ssystem_d) (ts : list D) : result (list (list D)) :=
  Stack.mapM (starry_light_curve_d as_euler eps low high A2 au kep sys) ts.
