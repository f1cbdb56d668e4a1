(** Traced solution vectors and occultors. *)
From Coq Require Import Reals List Arith.
From Verif Require Import Base.RealAux Model.Ylm Model.Surface Model.AutoDiff Model.StarryGrad Spec.OccultSpec Spec.AutoDiffSpec.
Local Open Scope R_scope.

(** when the edge of the occultor lies partly or entirely inside the star: none of the guards (10 eps) of the solution vector is at
    its threshold; the contact points are not so close to each other, and no node of the rule on the occultor's edge so close to
    the limb, that the guard of a square root's derivative replaces a value *)
Definition starry_off_thresholds (eps : R) (high : list (R * R)) (b r : R) : Prop :=
  4 * b * r <> 10 * eps /\ r <> 10 * eps /\
  (Rabs (1 - r) < b -> 10 * eps <= 4 * b ^ 2 * r ^ 2 - (b ^ 2 + r ^ 2 - 1) ^ 2) /\
  forall x w, In (x, w) high -> let d := edge_rho2 b r (node_at 0 (edge_angle b r) x) in d <> 10 * eps /\ 10 * eps <= 1 - d.
(** a point where the solution vector of the code is differentiable by its own rules *)
Definition starry_regular_point (eps : R) (high : list (R * R)) (b r : R) : Prop :=
  b <> 0 /\ r <> 0 /\ off_contacts (Rabs b) (Rabs r) /\
  (Rabs b < 1 + Rabs r -> Rabs r < 1 + Rabs b -> starry_off_thresholds eps high (Rabs b) (Rabs r)).
(** a list of fixed length of traced numbers *)
Definition tracks_list (f : R -> list R) (s : R) (ds : list D) : Prop :=
  exists fs, List.Forall2 (fun g d => tracks g s d) fs ds /\ forall z, f z = map (fun g => g z) fs.
(** a computation that fails in the same way for every value of the parameter, or succeeds and tracks *)
Definition tracks_result (f : R -> result R) (s : R) (d : result D) : Prop :=
  match d with Ok x => exists g, (forall z, f z = Ok (g z)) /\ tracks g s x | Err e => forall z, f z = Err e end.
(** a family of surfaces that differ by the coefficients of the map, the limb darkening and the amplitude *)
Definition tracks_surface (sf : R -> surface) (s : R) (d : surface_d) : Prop :=
  (forall z, surf_ydeg (sf z) = sd_ydeg d /\ s_inc (sf z) = sd_inc d /\ s_obl (sf z) = sd_obl d) /\
  tracks_list (fun z => ylm_todense (s_y (sf z))) s (sd_y d) /\ tracks_list (fun z => s_u (sf z)) s (sd_u d) /\
  tracks (fun z => s_amplitude (sf z)) s (sd_amplitude d).
(** finite tangents, for one surface *)
Definition fin_surface (d : surface_d) (sf : surface) : Prop :=
  surf_ydeg sf = sd_ydeg d /\ s_inc sf = sd_inc d /\ s_obl sf = sd_obl d /\
  List.Forall2 fin (sd_y d) (ylm_todense (s_y sf)) /\ List.Forall2 fin (sd_u d) (s_u sf) /\ fin (sd_amplitude d) (s_amplitude sf).
Definition fin_result (d : result D) (v : result R) : Prop :=
  match v with Ok v => exists t, d = Ok (Some (v, t)) | Err e => d = Err e end.
(** an argument that may be absent (the rotation phase) *)
Definition tracks_opt (f : R -> option R) (s : R) (x : option D) : Prop :=
  match x with None => forall z, f z = None | Some x => exists g, (forall z, f z = Some (g z)) /\ tracks g s x end.
Definition fin_opt (x : option D) (v : option R) : Prop := match x, v with None, None => True | Some x, Some v => fin x v | _, _ => False end.
