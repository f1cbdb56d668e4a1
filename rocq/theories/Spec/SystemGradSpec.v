(** Traced systems of surfaces. *)
From Coq Require Import Reals List Arith.
From Coquelicot Require Import Hierarchy Derive.
From Verif Require Import Base.RealAux Model.Keplerian Model.RvMap Model.Surface Model.StarryLightCurve Model.SurfaceSystem Model.AutoDiff Model.KeplerGrad Model.Poly Model.SolutionVector Model.StarryGrad Model.StarryRvGrad Model.SystemGrad.
From Verif Require Import Spec.OrbitSpec Spec.YlmSpec Spec.AutoDiffSpec Spec.KeplerGradSpec Spec.StarryGradSpec Spec.StarryRvGradSpec.
Import ListNotations.
Local Open Scope R_scope.

(** ** finite tangents, for one system *)
Definition fin_rsurface (d : rsurface_d) (sf : surface) : Prop :=
  fin_surface (rs_map d) sf /\ fin_opt (rs_period d) (s_period sf) /\ fin (rs_phase d) (s_phase sf) /\ fin (rs_radius d) (s_radius sf).
Definition fin_bodies (q : orbital_d * option rsurface_d) (p : orbital * option surface) : Prop :=
  fin_orbital (fst q) (fst p) /\ match snd q, snd p with Some d, Some s => fin_rsurface d s | None, None => True | _, _ => False end.
Definition fin_system (d : ssystem_d) (sys : ssystem) : Prop :=
  fin (sy_radius d) (c_radius (ss_central sys)) /\ fin_rsurface (sy_surface d) (ss_surface sys) /\ length (ss_bodies sys) = length (ss_surfaces sys) /\
  List.Forall2 fin_bodies (sy_bodies d) (combine (ss_bodies sys) (ss_surfaces sys)).
Definition fin_results (d : result (list D)) (v : result (list R)) : Prop :=
  match v with Ok v => exists ds, d = Ok ds /\ List.Forall2 fin ds v | Err e => d = Err e end.
(** ** differentiable families *)
Definition tracks_rsurface (sf : R -> surface) (s : R) (d : rsurface_d) : Prop :=
  tracks_surface sf s (rs_map d) /\ tracks_opt (fun z => s_period (sf z)) s (rs_period d) /\ tracks (fun z => s_phase (sf z)) s (rs_phase d) /\
  tracks (fun z => s_radius (sf z)) s (rs_radius d).
(** a family of bodies, all with or all without surface *)
Definition body_path : Type := (R -> orbital) * option (R -> surface).
Definition tracks_bodies (s : R) (p : body_path) (q : orbital_d * option rsurface_d) : Prop :=
  tracks_orbital (fst p) s (fst q) /\ locally s (fun z => 0 <= ecc_val (fst p z) < 1) /\
  match snd p, snd q with Some f, Some d => tracks_rsurface f s d | None, None => True | _, _ => False end.
Definition tracks_system (sys : R -> ssystem) (s : R) (d : ssystem_d) : Prop :=
  tracks (fun z => c_radius (ss_central (sys z))) s (sy_radius d) /\ tracks_rsurface (fun z => ss_surface (sys z)) s (sy_surface d) /\
  exists ps : list body_path, (forall z, ss_bodies (sys z) = map (fun p => fst p z) ps /\ ss_surfaces (sys z) = map (fun p => option_map (fun f => f z) (snd p)) ps) /\
    List.Forall2 (tracks_bodies s) ps (sy_bodies d).
Definition tracks_results (f : R -> result (list R)) (s : R) (d : result (list D)) : Prop :=
  match d with Ok ds => exists g, (forall z, f z = Ok (g z)) /\ tracks_list g s ds | Err e => forall z, f z = Err e end.
(** ** conditions *)
(** surfaces with a flux, periods that are not 0 *)
Definition proper_surface (s : surface) : Prop := ld_flux (s_u s) <> 0 /\ s_period s <> Some 0.
Definition proper_orbit (o : orbital) : Prop := ob_period o <> 0 /\ total_mass o <> 0 /\ 0 <= ecc_val o < 1 /\ ob_radius o <> Some 0.
Definition proper_system (sys : ssystem) : Prop :=
  c_radius (ss_central sys) <> 0 /\ proper_surface (ss_surface sys) /\ (forall o, In o (ss_bodies sys) -> proper_orbit o) /\ (forall s, In (Some s) (ss_surfaces sys) -> proper_surface s).
(** a condition [Pb] on surfaces without occultor and a condition [Po] on surfaces with an occultor of radius r at (x, y, z) in units of
    the surface hold for every flux or velocity of a system computed at the time t *)
Definition system_meets (Pb : surface -> option R -> Prop) (Po : surface -> R -> R -> R -> R -> option R -> Prop) (au : R) (kep : R -> R -> R * R) (sys : ssystem) (t : R) : Prop :=
  Pb (ss_surface sys) (rotational_phase (ss_surface sys) t) /\
  forall o own, In (o, own) (combine (ss_bodies sys) (ss_surfaces sys)) -> forall r, ob_radius o = Some r ->
  let rc := c_radius (ss_central sys) in
  let '(x, y, z) := relative_position au kep o t None in
  Po (ss_surface sys) (r / rc) (x / rc) (y / rc) (z / rc) (rotational_phase (ss_surface sys) t) /\
  (forall s, own = Some s -> Po s (rc / r) (- x / r) (- y / r) (- z / r) (rotational_phase s t)).
Definition any_surface (s : surface) (theta : option R) : Prop := True.
(** not exactly in front of or behind the centre *)
Definition not_aligned (s : surface) (r x y z : R) (theta : option R) : Prop := ~ (x = 0 /\ y = 0).
Definition no_alignment := system_meets any_surface not_aligned.
(** a body of radius r at (x, y, z) in units of the occulted disk: not at a contact, not in the plane of the centre and, when
    something is hidden, away from the limb and from the thresholds of the guards of the method for maps of this degree *)
Definition regular_sight (eps : R) (high : list (R * R)) (ydeg : nat) (r x y z : R) : Prop :=
  let b := sqrt (x ^ 2 + y ^ 2) in
  b <> 1 + r /\ z <> 0 /\ (b < 1 + r -> 0 < z -> match ydeg with 0%nat => regular_point eps high b r | _ => starry_regular_point eps high b r end).
Definition regular_system (au eps : R) (high : list (R * R)) (kep : R -> R -> R * R) : ssystem -> R -> Prop :=
  system_meets any_surface (fun s r x y z _ => ~ (x = 0 /\ y = 0) /\ regular_sight eps high (surf_ydeg s) r x y z) au kep.
(** ** radial velocities *)
(** rigid rotation and a flux that is not 0 in the denominator *)
Definition rv_bare_ok (as_euler : R * R * R -> R * R * R) (eps : R) (low high : list (R * R)) (A2 : nat -> matrix) (s : surface) (theta : option R) : Prop :=
  divides_by_nonzero (dividing_flux as_euler eps low high A2 s None theta).
Definition rv_occulted_ok (as_euler : R * R * R -> R * R * R) (eps : R) (low high : list (R * R)) (A2 : nat -> matrix) (s : surface) (r x y z : R) (theta : option R) : Prop :=
  ~ (x = 0 /\ y = 0) /\ divides_by_nonzero (dividing_flux as_euler eps low high A2 s (Some (geometry r (Some x) (Some y) (Some z))) theta).
(** also regular (at every degree the method for maps is used) *)
Definition rv_occulted_regular (as_euler : R * R * R -> R * R * R) (eps : R) (low high : list (R * R)) (A2 : nat -> matrix) (s : surface) (r x y z : R) (theta : option R) : Prop :=
  rv_occulted_ok as_euler eps low high A2 s r x y z theta /\ regular_sight eps high 1 r x y z.
(** every surface of a system *)
Definition surfaces_all (Q : surface -> Prop) (sys : ssystem) : Prop := Q (ss_surface sys) /\ forall s, In (Some s) (ss_surfaces sys) -> Q s.
Definition rigid (s : surface) : Prop := s_shear s = None /\ s_period s <> Some 0.
(** tables of values: one row per time *)
Definition fin_table (d : result (list (list D))) (v : result (list (list R))) : Prop :=
  match v with Ok v => exists ds, d = Ok ds /\ List.Forall2 (fun ds v => List.Forall2 fin ds v) ds v | Err e => d = Err e end.
Definition tracks_table (f : R -> result (list (list R))) (s : R) (d : result (list (list D))) : Prop :=
  match d with
  | Ok ds => exists g, (forall z, f z = Ok (map (fun h => h z) g)) /\ List.Forall2 (fun h ds => tracks_list h s ds) g ds
  | Err e => forall z, f z = Err e
  end.
(** a body exactly in front of or behind the centre of the central *)
Definition in_line (au : R) (kep : R -> R -> R * R) (t : R) (o : orbital) : Prop := sky_sep (relative_position au kep o t None) = 0.
(** a row of values, of the star and of the bodies at a time t: which ones have gradients *)
Definition row_gradients (au : R) (kep : R -> R -> R * R) (sys : ssystem) (t : R) (row : list D) : Prop :=
  exists c bs, row = c :: bs /\ (c = None <-> exists o, In o (ss_bodies sys) /\ in_line au kep t o) /\
  List.Forall2 (fun b p => b = None <-> snd p <> None /\ in_line au kep t (fst p)) bs (combine (ss_bodies sys) (ss_surfaces sys)).
(** the flux in the denominator is not 0 unless the occultor is aligned *)
Definition rv_divides (as_euler : R * R * R -> R * R * R) (eps : R) (low high : list (R * R)) (A2 : nat -> matrix) (s : surface) (r x y z : R) (theta : option R) : Prop :=
  (x = 0 /\ y = 0) \/ divides_by_nonzero (dividing_flux as_euler eps low high A2 s (Some (geometry r (Some x) (Some y) (Some z))) theta).
(** no body hides any of the central or is in line with its centre (lengths in units of the central) *)
Definition nothing_hidden (au : R) (kep : R -> R -> R * R) (sys : ssystem) (t : R) : Prop :=
  forall o r, In o (ss_bodies sys) -> ob_radius o = Some r -> let rc := c_radius (ss_central sys) in
  let '(x, y, z) := relative_position au kep o t None in ~ (x = 0 /\ y = 0) /\ (1 + r / rc <= sqrt ((x / rc) ^ 2 + (y / rc) ^ 2) \/ z / rc <= 0).
