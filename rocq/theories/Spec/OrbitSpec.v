(** Specification vocabulary for orbits: vectors, physical validity of an orbit. *)
From Coq Require Import Reals List.
From Coquelicot Require Import Coquelicot.
From Verif.Model Require Import Keplerian.
Open Scope R_scope.

Definition norm2 (v : R * R * R) : R := let '(x, y, z) := v in x ^ 2 + y ^ 2 + z ^ 2.
Definition dist (v : R * R * R) : R := sqrt (norm2 v).
Definition sky_sep (v : R * R * R) : R := let '(x, y, _) := v in sqrt (x ^ 2 + y ^ 2).
Definition along (v : R * R * R) : R := let '(_, _, z) := v in z.
Definition vx (v : R * R * R) : R := let '(x, _, _) := v in x.
Definition vy (v : R * R * R) : R := let '(_, y, _) := v in y.
Definition vscale (c : R) (v : R * R * R) : R * R * R := let '(x, y, z) := v in (c * x, c * y, c * z).
Definition vadd (u v : R * R * R) : R * R * R :=
  let '(x, y, z) := u in let '(x', y', z') := v in (x + x', y + y', z + z').
Definition vsub (u v : R * R * R) : R * R * R :=
  let '(x, y, z) := u in let '(x', y', z') := v in (x - x', y - y', z - z').
Definition unit_pair (s c : R) : Prop := s ^ 2 + c ^ 2 = 1.

(** a supplied argument is a scalar *)
Definition scalar (a : option arr) : Prop := forall x, a = Some x -> exists r, x = Sc r.

(** every argument of [Body] *)
Definition all_args (b : body_of arr) : list (option arr) :=
  b_time_transit b :: b_time_peri b :: b_period b :: b_semimajor b :: b_inclination b :: b_impact_param b ::
  b_eccentricity b :: b_omega_peri b :: b_sin_omega_peri b :: b_cos_omega_peri b :: b_asc_node b ::
  b_sin_asc_node b :: b_cos_asc_node b :: b_mass b :: b_radius b :: b_semiamplitude b :: b_parallax b :: nil.
(** The documented validation rules of [Body] *)
Definition body_valid (b : body_of arr) : Prop :=
  ((b_period b = None) <-> (b_semimajor b <> None)) /\
  (forall a, In a (all_args b) -> scalar a) /\
  ~ (b_omega_peri b <> None /\ (b_sin_omega_peri b <> None \/ b_cos_omega_peri b <> None)) /\
  (b_sin_omega_peri b <> None <-> b_cos_omega_peri b <> None) /\
  ~ (b_asc_node b <> None /\ (b_sin_asc_node b <> None \/ b_cos_asc_node b <> None)) /\
  (b_sin_asc_node b <> None <-> b_cos_asc_node b <> None) /\
  (b_eccentricity b <> None <-> (b_omega_peri b <> None \/ b_sin_omega_peri b <> None)) /\
  ~ (b_impact_param b <> None /\ b_inclination b <> None) /\
  ~ (b_time_transit b <> None /\ b_time_peri b <> None).

(** a well-formed orbit *)
Definition orbit_ok (o : orbital) : Prop :=
  0 < ob_semimajor o /\ 0 < ob_period o /\ 0 < total_mass o /\
  unit_pair (ob_sin_incl o) (ob_cos_incl o) /\
  (forall e sw cw, ob_ecc o = Some (e, sw, cw) -> 0 <= e < 1 /\ unit_pair sw cw) /\
  (forall sn cn, ob_node o = Some (sn, cn) -> unit_pair sn cn).

(** physically meaningful arguments *)
Definition body_physical (c : central) (b : body) : Prop :=
  0 < c_mass c /\ (forall m, b_mass b = Some m -> 0 <= m) /\
  (forall p, b_period b = Some p -> 0 < p) /\ (forall a, b_semimajor b = Some a -> 0 < a) /\
  (forall e, b_eccentricity b = Some e -> 0 <= e < 1) /\
  (b_omega_peri b = None -> forall s k, b_sin_omega_peri b = Some s -> b_cos_omega_peri b = Some k -> unit_pair s k) /\
  (b_asc_node b = None -> forall s k, b_sin_asc_node b = Some s -> b_cos_asc_node b = Some k -> unit_pair s k).

(** eccentricity (0 for circular orbits) *)
Definition ecc_val (o : orbital) : R := match ob_ecc o with None => 0 | Some (e, _, _) => e end.

(** [v] is the time derivative of the curve [p] at [t] *)
Definition vderive (p : R -> vec) (t : R) (v : vec) : Prop :=
  is_derive (fun s => vx (p s)) t (vx v) /\ is_derive (fun s => vy (p s)) t (vy v) /\
  is_derive (fun s => along (p s)) t (along v).

(** the same orbit with another ascending node *)
Definition set_node (o : orbital) (n : option (R * R)) : orbital :=
  {| ob_central := ob_central o; ob_time_ref := ob_time_ref o; ob_time_transit := ob_time_transit o;
     ob_period := ob_period o; ob_semimajor := ob_semimajor o; ob_sin_incl := ob_sin_incl o;
     ob_cos_incl := ob_cos_incl o; ob_impact := ob_impact o; ob_mass := ob_mass o; ob_radius := ob_radius o;
     ob_ecc := ob_ecc o; ob_node := n; ob_semiamplitude := ob_semiamplitude o; ob_parallax := ob_parallax o |}.

(** the same body with another asc_node argument *)
Definition b_set_node (b : body) (Omega : option R) : body :=
  {| b_time_transit := b_time_transit b; b_time_peri := b_time_peri b; b_period := b_period b;
     b_semimajor := b_semimajor b; b_inclination := b_inclination b; b_impact_param := b_impact_param b;
     b_eccentricity := b_eccentricity b; b_omega_peri := b_omega_peri b; b_sin_omega_peri := b_sin_omega_peri b;
     b_cos_omega_peri := b_cos_omega_peri b; b_asc_node := Omega; b_sin_asc_node := None;
     b_cos_asc_node := None; b_mass := b_mass b; b_radius := b_radius b;
     b_semiamplitude := b_semiamplitude b; b_parallax := b_parallax b |}.
