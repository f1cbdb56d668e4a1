(** Systems of surfaces: which surface belongs to a body, and histories of add_body. *)
From Coq Require Import Reals ZArith List Bool.
From Verif Require Import Base.RealAux Model.Keplerian Model.Ylm Model.Surface Model.SurfaceSystem Spec.DiskSpec Spec.BasisSpec Spec.YlmSpec Spec.SurfaceSpec.
Import ListNotations.
Open Scope R_scope.

(** an explicit surface wins over the body's own [surface] attribute; an OrbitalBody has no such attribute *)
Definition chosen (b : sbody) (s : option surface) : option surface :=
  match s, b with Some _, _ => s | None, SBody _ own => own | None, SOrbital _ => None end.
(** the orbit of a body about the central c: a new OrbitalBody, or the given one *)
Definition sbuild1 (G : R) (c : central) (b : sbody) : result orbital :=
  match b with SOrbital o => Ok o | SBody b _ => rbind (make_body b) (make_orbital G c) end.
(** a history of add_body calls *)
Fixpoint ss_add_all (G : R) (sys : ssystem) (l : list (sbody * option surface)) : result ssystem :=
  match l with [] => Ok sys | (b, s) :: l' => rbind (ss_add_body G sys b s) (fun sys' => ss_add_all G sys' l') end.
(** * Light *)
(** the same surface with another amplitude *)
Definition with_amplitude (s : surface) (a : R) : surface :=
  {| s_y := s_y s; s_inc := s_inc s; s_obl := s_obl s; s_u := s_u s; s_period := s_period s; s_amplitude := a;
     s_normalize := s_normalize s; s_phase := s_phase s; s_radius := s_radius s; s_shear := s_shear s |}.
(** the flux of a surface that nothing hides, turned by theta: the intensity that render shows, integrated over the
    disk, over the mean of the limb-darkening profile *)
Definition flux_alone (s : surface) (theta : option R) : R :=
  s_amplitude s * visible_flux (sky_intensity (y_data (s_y s)) (s_u s) (s_inc s) (s_obl s) theta) / (ld_flux (s_u s) / PI).
(** the body is not in front of the central's disk at time t: the disks do not overlap, or the body is behind *)
Definition not_in_front au kep (sys : ssystem) (t : R) (o : orbital) : Prop :=
  exists r, ob_radius o = Some r /\ let '(x, y, z) := relative_position au kep o t None in c_radius (ss_central sys) + r <= sqrt (x ^ 2 + y ^ 2) \/ z <= 0.
