(** Several opaque disks in front of a surface. *)
From Coq Require Import Reals List Bool Arith.
From Coquelicot Require Import Coquelicot.
From Verif Require Import Base.RealAux Model.Keplerian Model.Surface Model.SurfaceSystem Model.Ylm Spec.RotationSpec Spec.BasisSpec Spec.DiskSpec Spec.LimbDarkSpec Spec.OccultSpec Spec.YlmSpec Spec.SurfaceSpec Spec.SystemSpec Spec.SkySpec.
From Verif Require Model.LimbDark.
Import ListNotations.
Open Scope R_scope.

(** an occultor: position on the sky and radius, in units of the radius of the surface *)
Definition occultor : Type := R * R * R.
(** it hides the point (x, y) of the sky *)
Definition over (o : occultor) (x y : R) : bool := let '(xo, yo, r) := o in if Rlt_dec ((x - xo) ^ 2 + (y - yo) ^ 2) (r ^ 2) then true else false.
(** how many of them hide it *)
Definition times_hidden (l : list occultor) (x y : R) : nat := length (filter (fun o => over o x y) l).
(** the flux that is left: of the points that none of them hides *)
Definition flux_past (l : list occultor) (I : vec3 -> R) : R :=
  disk_integral (fun x y => if (times_hidden l x y =? 0)%nat then I (x, y, zdisk x y) else 0).
(** what is left if every occultor takes away all the light behind it *)
Definition flux_counted (l : list occultor) (I : vec3 -> R) : R :=
  disk_integral (fun x y => (1 - INR (times_hidden l x y)) * I (x, y, zdisk x y)).
(** no point of the disk is hidden twice *)
Definition disjoint_shadows (l : list occultor) : Prop := forall x y, in_disk x y -> (times_hidden l x y <= 1)%nat.
(** the occultors of the central at time t: the bodies nearer to the observer *)
Definition occultors_of au kep (sys : ssystem) (t : R) : list occultor :=
  flat_map (fun o => match ob_radius o with
    | None => []
    | Some r => let '(x, y, z) := relative_position au kep o t None in
                let rc := c_radius (ss_central sys) in if Rlt_dec 0 z then [(x / rc, y / rc, r / rc)] else []
    end) (ss_bodies sys).
(** the central as the occultor of a body *)
Definition occultors_of_body au kep (sys : ssystem) (t : R) (o : orbital) : list occultor :=
  match ob_radius o with
  | None => []
  | Some r => let '(x, y, z) := relative_position au kep o t None in
              let rc := c_radius (ss_central sys) in if Rlt_dec z 0 then [(- x / r, - y / r, rc / r)] else []
  end.
(** no guard of the code replaces a value, and the occultor is not exactly in front and of exactly the same size *)
Definition regular (eps : R) (high : list (R * R)) (o : occultor) : Prop :=
  let '(xo, yo, r) := o in let b := sqrt (xo ^ 2 + yo ^ 2) in
  0 <= r /\ ~ (xo = 0 /\ yo = 0 /\ r = 1) /\ (b < 1 + r -> r < 1 + b -> clear_of_guards eps high b r).
(** the intensity of a surface seen at rotation angle theta *)
Definition seen_of (s : surface) (theta : option R) : vec3 -> R := seen_intensity (y_data (s_y s)) (s_u s) (s_inc s) (s_obl s) theta.
(** amplitude times flux over the mean of the limb-darkening profile *)
Definition in_units (s : surface) (f : R) : R := s_amplitude s * f * (PI / ld_flux (s_u s)).
(** the quadrature error due to one occultor: 0 unless it hides a part of the disk *)
Definition error_of (low high : list (R * R)) (s : surface) (theta : option R) (o : occultor) (e : R) : Prop :=
  let '(xo, yo, r) := o in let b := sqrt (xo ^ 2 + yo ^ 2) in
  (b < 1 + r /\ r < 1 + b /\ exists g, green_coefficients (surf_deg s) g (turned xo yo (seen_of s theta)) /\ e = in_units s (edge_errors (surf_deg s) g low high b r)) \/
  ((1 + r <= b \/ 1 + b <= r) /\ e = 0).
(** the same for a limb-darkened star without a map (degree 0) *)
Definition regular_ld (eps : R) (high : list (R * R)) (o : occultor) : Prop :=
  let '(xo, yo, r) := o in let b := sqrt (xo ^ 2 + yo ^ 2) in
  0 <= r /\ ~ (xo = 0 /\ yo = 0 /\ r = 1) /\ (b < 1 + r -> r < 1 + b -> clear_of_branches eps high b r).
Definition error_ld (high : list (R * R)) (u : list R) (o : occultor) (e : R) : Prop :=
  let '(xo, yo, r) := o in let b := sqrt (xo ^ 2 + yo ^ 2) in
  (b < 1 + r /\ r < 1 + b /\ e = bigsum (S (length u)) (fun n => match n with 0%nat | 2%nat => 0 | _ => nth n (LimbDark.greens_basis_transform u) 0 / disk_flux u * edge_error high b r n end)) \/
  ((1 + r <= b \/ 1 + b <= r) /\ e = 0).
