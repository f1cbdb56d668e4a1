(** Traced bodies and Keplerian orbits. *)
From Coq Require Import Reals List.
From Coquelicot Require Import Hierarchy Derive.
From Verif Require Import Base.RealAux Model.Keplerian Model.AutoDiff Model.TransitGrad Model.KeplerGrad Spec.AutoDiffSpec.
Local Open Scope R_scope.

Definition fin_vec (x : D * D * D) (v : R * R * R) : Prop :=
  fin (fst (fst x)) (fst (fst v)) /\ fin (snd (fst x)) (snd (fst v)) /\ fin (snd x) (snd v).
Definition tracks_vec (p : R -> R * R * R) (s : R) (x : D * D * D) : Prop :=
  tracks (fun z => fst (fst (p z))) s (fst (fst x)) /\ tracks (fun z => snd (fst (p z))) s (snd (fst x)) /\ tracks (fun z => snd (p z)) s (snd x).
(** an optional argument: given or not, whatever the traced values *)
Definition fin_opt (x : option D) (v : option R) : Prop :=
  match x, v with Some x, Some v => fin x v | None, None => True | _, _ => False end.
Definition tracks_opt (f : R -> option R) (s : R) (x : option D) : Prop :=
  match x with None => forall z, f z = None | Some d => exists g, (forall z, f z = Some (g z)) /\ tracks g s d end.

Definition fin_orbital (d : orbital_d) (o : orbital) : Prop :=
  fin (od_central_mass d) (c_mass (ob_central o)) /\ fin (od_central_radius d) (c_radius (ob_central o)) /\
  fin (od_time_ref d) (ob_time_ref o) /\ fin (od_time_transit d) (ob_time_transit o) /\ fin (od_period d) (ob_period o) /\ fin (od_semimajor d) (ob_semimajor o) /\
  fin (od_sin_incl d) (ob_sin_incl o) /\ fin (od_cos_incl d) (ob_cos_incl o) /\ fin_opt (od_mass d) (ob_mass o) /\ fin_opt (od_radius d) (ob_radius o) /\
  match od_ecc d, ob_ecc o with
  | Some (e, sw, cw), Some (ve, vs, vc) => fin e ve /\ fin sw vs /\ fin cw vc
  | None, None => True
  | _, _ => False
  end /\
  match od_node d, ob_node o with
  | Some (sn, cn), Some (vs, vc) => fin sn vs /\ fin cn vc
  | None, None => True
  | _, _ => False
  end /\
  fin_opt (od_semiamplitude d) (ob_semiamplitude o) /\ fin_opt (od_parallax d) (ob_parallax o).
Definition tracks_orbital (o : R -> orbital) (s : R) (d : orbital_d) : Prop :=
  tracks (fun z => c_mass (ob_central (o z))) s (od_central_mass d) /\ tracks (fun z => c_radius (ob_central (o z))) s (od_central_radius d) /\
  tracks (fun z => ob_time_ref (o z)) s (od_time_ref d) /\ tracks (fun z => ob_time_transit (o z)) s (od_time_transit d) /\
  tracks (fun z => ob_period (o z)) s (od_period d) /\ tracks (fun z => ob_semimajor (o z)) s (od_semimajor d) /\
  tracks (fun z => ob_sin_incl (o z)) s (od_sin_incl d) /\ tracks (fun z => ob_cos_incl (o z)) s (od_cos_incl d) /\
  tracks_opt (fun z => ob_mass (o z)) s (od_mass d) /\ tracks_opt (fun z => ob_radius (o z)) s (od_radius d) /\
  match od_ecc d with
  | Some (e, sw, cw) => exists fe fs fc, (forall z, ob_ecc (o z) = Some (fe z, fs z, fc z)) /\ tracks fe s e /\ tracks fs s sw /\ tracks fc s cw
  | None => forall z, ob_ecc (o z) = None
  end /\
  match od_node d with
  | Some (sn, cn) => exists fs fc, (forall z, ob_node (o z) = Some (fs z, fc z)) /\ tracks fs s sn /\ tracks fc s cn
  | None => forall z, ob_node (o z) = None
  end /\
  tracks_opt (fun z => ob_semiamplitude (o z)) s (od_semiamplitude d) /\ tracks_opt (fun z => ob_parallax (o z)) s (od_parallax d).

Definition fin_body (d : body_of D) (b : body) : Prop :=
  fin_opt (b_time_transit d) (b_time_transit b) /\ fin_opt (b_time_peri d) (b_time_peri b) /\ fin_opt (b_period d) (b_period b) /\ fin_opt (b_semimajor d) (b_semimajor b) /\
  fin_opt (b_inclination d) (b_inclination b) /\ fin_opt (b_impact_param d) (b_impact_param b) /\ fin_opt (b_eccentricity d) (b_eccentricity b) /\
  fin_opt (b_omega_peri d) (b_omega_peri b) /\ fin_opt (b_sin_omega_peri d) (b_sin_omega_peri b) /\ fin_opt (b_cos_omega_peri d) (b_cos_omega_peri b) /\
  fin_opt (b_asc_node d) (b_asc_node b) /\ fin_opt (b_sin_asc_node d) (b_sin_asc_node b) /\ fin_opt (b_cos_asc_node d) (b_cos_asc_node b) /\
  fin_opt (b_mass d) (b_mass b) /\ fin_opt (b_radius d) (b_radius b) /\ fin_opt (b_semiamplitude d) (b_semiamplitude b) /\ fin_opt (b_parallax d) (b_parallax b).
Definition tracks_body (b : R -> body) (s : R) (d : body_of D) : Prop :=
  tracks_opt (fun z => b_time_transit (b z)) s (b_time_transit d) /\ tracks_opt (fun z => b_time_peri (b z)) s (b_time_peri d) /\
  tracks_opt (fun z => b_period (b z)) s (b_period d) /\ tracks_opt (fun z => b_semimajor (b z)) s (b_semimajor d) /\
  tracks_opt (fun z => b_inclination (b z)) s (b_inclination d) /\ tracks_opt (fun z => b_impact_param (b z)) s (b_impact_param d) /\
  tracks_opt (fun z => b_eccentricity (b z)) s (b_eccentricity d) /\ tracks_opt (fun z => b_omega_peri (b z)) s (b_omega_peri d) /\
  tracks_opt (fun z => b_sin_omega_peri (b z)) s (b_sin_omega_peri d) /\ tracks_opt (fun z => b_cos_omega_peri (b z)) s (b_cos_omega_peri d) /\
  tracks_opt (fun z => b_asc_node (b z)) s (b_asc_node d) /\ tracks_opt (fun z => b_sin_asc_node (b z)) s (b_sin_asc_node d) /\ tracks_opt (fun z => b_cos_asc_node (b z)) s (b_cos_asc_node d) /\
  tracks_opt (fun z => b_mass (b z)) s (b_mass d) /\ tracks_opt (fun z => b_radius (b z)) s (b_radius d) /\
  tracks_opt (fun z => b_semiamplitude (b z)) s (b_semiamplitude d) /\ tracks_opt (fun z => b_parallax (b z)) s (b_parallax d).
