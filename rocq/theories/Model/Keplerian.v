(** Model of src/jaxoplanet/orbits/keplerian.py.
    Quantities are reals in the declared units (M_sun, R_sun, day, radian); [G] is the
    gravitational constant in R_sun^3/(M_sun day^2), [au] converts R_sun to au.  The
    anomaly solver is a parameter [kep]; the code's is Model/Kepler.v's [kepler]. *)
From Coq Require Import Reals ZArith List Bool Arith.
From Verif.Base Require Import RealAux.
Import ListNotations.
Open Scope R_scope.

(** An argument that was supplied: a 0-d value or an array (ndim >= 1). *)
Inductive arr := Sc (x : R) | Ar (ndim_minus_1 : nat).
Definition is_sc (a : arr) : bool := match a with Sc _ => true | Ar _ => false end.
Definition opt_sc (a : option arr) : bool := match a with None => true | Some a => is_sc a end.
Definition val (a : arr) : R := match a with Sc x => x | Ar _ => 0 end.
Definition oval (a : option arr) : option R := option_map val a.

(** orbits/keplerian.py:18-31 *)
Record central := { c_mass : R; c_radius : R; c_density : R }.

(** orbits/keplerian.py:36-76 [Central.__init__].  If all three are given no branch assigns
    the fields and equinox raises ValueError (uninitialised fields). *)
Definition make_central (mass radius density : option arr) : result central :=
  let '(mass, radius) :=
    match radius, mass with
    | None, None => (match density with None => Some (Sc 1) | Some _ => None end, Some (Sc 1))
    | _, _ => (mass, radius)
    end in
  if negb (opt_sc mass && opt_sc radius && opt_sc density) then Err ValueError else
  match oval density with
  | None =>
      match oval mass, oval radius with
      | Some m, Some r => Ok {| c_mass := m; c_radius := r; c_density := 3 * m / (4 * PI * r ^ 3) |}
      | _, _ => Err ValueError
      end
  | Some d =>
      match oval radius with
      | None =>
          match oval mass with
          | None => Err ValueError
          | Some m => Ok {| c_mass := m; c_radius := fpow (3 * m / (4 * PI * d)) (1 / 3); c_density := d |}
          end
      | Some r =>
          match oval mass with
          | None => Ok {| c_mass := 4 * PI * r ^ 3 * d / 3; c_radius := r; c_density := d |}
          | Some _ => Err ValueError
          end
      end
  end.

(** orbits/keplerian.py:126-183 fields of [Body]; [A] = arr for raw arguments, R once checked *)
Record body_of (A : Type) := {
  b_time_transit : option A; b_time_peri : option A; b_period : option A; b_semimajor : option A;
  b_inclination : option A; b_impact_param : option A; b_eccentricity : option A;
  b_omega_peri : option A; b_sin_omega_peri : option A; b_cos_omega_peri : option A;
  b_asc_node : option A; b_sin_asc_node : option A; b_cos_asc_node : option A;
  b_mass : option A; b_radius : option A; b_semiamplitude : option A; b_parallax : option A }.
Arguments b_time_transit {A}. Arguments b_time_peri {A}. Arguments b_period {A}. Arguments b_semimajor {A}.
Arguments b_inclination {A}. Arguments b_impact_param {A}. Arguments b_eccentricity {A}.
Arguments b_omega_peri {A}. Arguments b_sin_omega_peri {A}. Arguments b_cos_omega_peri {A}.
Arguments b_asc_node {A}. Arguments b_sin_asc_node {A}. Arguments b_cos_asc_node {A}.
Arguments b_mass {A}. Arguments b_radius {A}. Arguments b_semiamplitude {A}. Arguments b_parallax {A}.
Definition body := body_of R.

Definition some {A} (o : option A) : bool := match o with Some _ => true | None => false end.

(** orbits/keplerian.py:190-212 the list of arguments *)
Definition b_all (b : body_of arr) : list (option arr) :=
  [b_time_transit b; b_time_peri b; b_period b; b_semimajor b; b_inclination b; b_impact_param b;
   b_eccentricity b; b_omega_peri b; b_sin_omega_peri b; b_cos_omega_peri b; b_asc_node b;
   b_sin_asc_node b; b_cos_asc_node b; b_mass b; b_radius b; b_semiamplitude b; b_parallax b].
Definition b_values (b : body_of arr) : body :=
  {| b_time_transit := oval (b_time_transit b); b_time_peri := oval (b_time_peri b);
     b_period := oval (b_period b); b_semimajor := oval (b_semimajor b);
     b_inclination := oval (b_inclination b); b_impact_param := oval (b_impact_param b);
     b_eccentricity := oval (b_eccentricity b); b_omega_peri := oval (b_omega_peri b);
     b_sin_omega_peri := oval (b_sin_omega_peri b); b_cos_omega_peri := oval (b_cos_omega_peri b);
     b_asc_node := oval (b_asc_node b); b_sin_asc_node := oval (b_sin_asc_node b);
     b_cos_asc_node := oval (b_cos_asc_node b); b_mass := oval (b_mass b); b_radius := oval (b_radius b);
     b_semiamplitude := oval (b_semiamplitude b); b_parallax := oval (b_parallax b) |}.

(** orbits/keplerian.py:185-253 [Body.__check_init__]; every failure is a ValueError *)
Definition make_body (b : body_of arr) : result body :=
  if negb (xorb (negb (some (b_period b))) (negb (some (b_semimajor b)))) then Err ValueError
  else if negb (forallb opt_sc (b_all b)) then Err ValueError
  else if some (b_omega_peri b) && (some (b_sin_omega_peri b) || some (b_cos_omega_peri b)) then Err ValueError
  else if xorb (some (b_sin_omega_peri b)) (some (b_cos_omega_peri b)) then Err ValueError
  else if some (b_asc_node b) && (some (b_sin_asc_node b) || some (b_cos_asc_node b)) then Err ValueError
  else if xorb (some (b_sin_asc_node b)) (some (b_cos_asc_node b)) then Err ValueError
  else if xorb (some (b_eccentricity b))
               (some (b_omega_peri b) || some (b_sin_omega_peri b) || some (b_cos_omega_peri b)) then Err ValueError
  else if some (b_impact_param b) && some (b_inclination b) then Err ValueError
  else if some (b_time_transit b) && some (b_time_peri b) then Err ValueError
  else Ok (b_values b).

(** orbits/keplerian.py:259-277 fields of [OrbitalBody].  The pairs that [Body] guarantees to
    be given together are stored together: (eccentricity, sin omega, cos omega) and
    (sin Omega, cos Omega). *)
Record orbital := {
  ob_central : central; ob_time_ref : R; ob_time_transit : R; ob_period : R; ob_semimajor : R;
  ob_sin_incl : R; ob_cos_incl : R; ob_impact : R; ob_mass : option R; ob_radius : option R;
  ob_ecc : option (R * R * R); ob_node : option (R * R);
  ob_semiamplitude : option R; ob_parallax : option R }.

(** orbits/keplerian.py:385-387 [total_mass] *)
Definition total_mass_of (c : central) (mass : option R) : R :=
  match mass with None => c_mass c | Some m => m + c_mass c end.
Definition total_mass (o : orbital) : R := total_mass_of (ob_central o) (ob_mass o).

(** orbits/keplerian.py:301-314 angles as (sin, cos) pairs; None when not given *)
Definition angle_pair (angle s c : option R) : option R * option R :=
  match angle with Some a => (Some (sin a), Some (cos a)) | None => (s, c) end.

(** orbits/keplerian.py:325-329 eccentric and mean anomaly of the transit *)
Definition transit_E0 (e sw cw : R) : R := 2 * atan2 (sqrt (1 - e) * cw) (sqrt (1 + e) * (1 + sw)).
Definition transit_M0 (e sw cw : R) : R := let E0 := transit_E0 e sw cw in E0 - e * sin E0.

Section WithConstants.
Variables (G au : R).

(** orbits/keplerian.py:79-119 [Central.from_orbital_properties] *)
Definition central_from_orbital (period semimajor : arr) (radius body_mass : option arr) : result central :=
  if negb (is_sc semimajor && is_sc period && opt_sc body_mass) then Err ValueError else
  let radius := match radius with None => Sc 1 | Some r => r end in
  let mass := 4 * PI ^ 2 * val semimajor ^ 3 / (G * val period ^ 2) in
  let mass := match body_mass with None => mass | Some m => mass - val m end in
  make_central (Some (Sc mass)) (Some radius) None.

(** orbits/keplerian.py:279-359 [OrbitalBody.__init__] *)
Definition make_orbital (c : central) (b : body) : result orbital :=
  let mass_factor := G * total_mass_of c (b_mass b) in
  match (match b_semimajor b, b_period b with
         | None, Some p => Ok (cbrt (mass_factor * p ^ 2 / (4 * PI ^ 2)), p)
         | Some a, None => Ok (a, 2 * PI * a * sqrt (a / mass_factor))
         | None, None => Err AssertionError
         | Some a, Some _ => Err ValueError
         end) with
  | Err e => Err e
  | Ok (a, p) =>
  let '(sw, cw) := angle_pair (b_omega_peri b) (b_sin_omega_peri b) (b_cos_omega_peri b) in
  let '(sn, cn) := angle_pair (b_asc_node b) (b_sin_asc_node b) (b_cos_asc_node b) in
  match (match b_eccentricity b with
         | None => Ok (0.5 * PI, 1, None)
         | Some e =>
             match sw, cw with
             | Some sw, Some cw =>
                 Ok (transit_M0 e sw cw, (1 + e * sw) / (1 - e ^ 2), Some (e, sw, cw))
             | _, _ => Err AssertionError
             end
         end) with
  | Err e => Err e
  | Ok (M0, incl_factor, ecc) =>
  let dcosidb := incl_factor * c_radius c / a in
  let '(b', cosi, sini) :=
    match b_impact_param b with
    | Some ip => let ci := dcosidb * ip in (ip, ci, sqrt (1 - ci ^ 2))
    | None =>
        match b_inclination b with
        | Some i => (cos i / dcosidb, cos i, sin i)
        | None => (0, 0, 1)
        end
    end in
  let time_ref := - M0 * p / (2 * PI) in
  let tt := match b_time_transit b with
            | Some t => t
            | None => match b_time_peri b with Some tp => tp - time_ref | None => 0 end
            end in
  Ok {| ob_central := c; ob_time_ref := time_ref; ob_time_transit := tt; ob_period := p; ob_semimajor := a;
        ob_sin_incl := sini; ob_cos_incl := cosi; ob_impact := b'; ob_mass := b_mass b; ob_radius := b_radius b;
        ob_ecc := ecc;
        ob_node := match sn, cn with Some s, Some k => Some (s, k) | _, _ => None end;
        ob_semiamplitude := b_semiamplitude b; ob_parallax := b_parallax b |}
  end
  end.

(** orbits/keplerian.py:361-383 properties *)
Definition ob_central_radius (o : orbital) : R := c_radius (ob_central o).
Definition time_peri (o : orbital) : R := ob_time_transit o + ob_time_ref o.
Definition inclination (o : orbital) : R := atan2 (ob_sin_incl o) (ob_cos_incl o).
Definition omega_peri (o : orbital) : option R :=
  match ob_ecc o with None => None | Some (_, sw, cw) => Some (atan2 sw cw) end.

Definition vec : Type := R * R * R.

Section WithSolver.
Variable (kep : R -> R -> R * R).

(** orbits/keplerian.py:546-554 [_warp_times], [_get_true_anomaly] *)
Definition mean_anomaly (o : orbital) (t : R) : R :=
  2 * PI * ((t - ob_time_transit o) - ob_time_ref o) / ob_period o.
Definition true_anomaly_sc (o : orbital) (t : R) : R * R :=
  let M := mean_anomaly o t in
  match ob_ecc o with None => (sin M, cos M) | Some (e, _, _) => kep M e end.

(** orbits/keplerian.py:556-601 [_rotate_vector] *)
Definition rotate_vector (o : orbital) (x y : R) (include_inclination : bool) : vec :=
  let '(x1, y1) := match ob_ecc o with
                   | None => (x, y)
                   | Some (_, sw, cw) => (cw * x - sw * y, sw * x + cw * y)
                   end in
  let '(x2, y2, Z) := if include_inclination then (x1, ob_cos_incl o * y1, - ob_sin_incl o * y1)
                      else (x1, y1, - y1) in
  match ob_node o with
  | None => (x2, y2, Z)
  | Some (sn, cn) => (cn * x2 - sn * y2, sn * x2 + cn * y2, Z)
  end.

(** orbits/keplerian.py:609-673 [_get_position_and_velocity] (scalar bodies; the branch at
    638 is unreachable, since a stored semiamplitude has been copied at 626) *)
Definition position_and_velocity (o : orbital) (t : R) (semimajor mass semiamplitude parallax : option R) : vec * vec :=
  let semiamplitude := match semiamplitude with None => ob_semiamplitude o | s => s end in
  let parallax := match parallax with None => ob_parallax o | s => s end in
  let k0 :=
    match semiamplitude with
    | None =>
        let m := match mass with None => 1 | Some m => m end in
        let k0 := 2 * PI * ob_semimajor o * m / (total_mass o * ob_period o) in
        let k0 := match ob_ecc o with None => k0 | Some (e, _, _) => k0 / sqrt (1 - e ^ 2) end in
        match parallax with None => k0 | Some p => k0 * au * p end
    | Some k => k
    end in
  let r0 := match semimajor with
            | None => 1
            | Some a => match parallax with None => a | Some p => a * au * p end
            end in
  let '(sinf, cosf) := true_anomaly_sc o t in
  let '(v1, v2, r0) :=
    match ob_ecc o with
    | None => (- k0 * sinf, k0 * cosf, r0)
    | Some (e, _, _) => (- k0 * sinf, k0 * (cosf + e), r0 * ((1 - e ^ 2) / (1 + e * cosf)))
    end in
  (rotate_vector o (r0 * cosf) (r0 * sinf) true,
   rotate_vector o v1 v2 (match semiamplitude with None => true | Some _ => false end)).

(** orbits/keplerian.py:389-404 *)
Definition position (o : orbital) (t : R) (parallax : option R) : vec :=
  fst (position_and_velocity o t (Some (- ob_semimajor o * c_mass (ob_central o) / total_mass o)) None None parallax).
(** orbits/keplerian.py:406-421: mass None * ... raises TypeError *)
Definition central_position (o : orbital) (t : R) (parallax : option R) : result vec :=
  match ob_mass o with
  | None => Err TypeError
  | Some m => Ok (fst (position_and_velocity o t (Some (ob_semimajor o * m / total_mass o)) None None parallax))
  end.
(** orbits/keplerian.py:423-439 *)
Definition relative_position (o : orbital) (t : R) (parallax : option R) : vec :=
  fst (position_and_velocity o t (Some (- ob_semimajor o)) None None parallax).
(** orbits/keplerian.py:441-457 *)
Definition relative_angles (o : orbital) (t : R) (parallax : option R) : R * R :=
  let '(X, Y, _) := relative_position o t parallax in (sqrt (X ^ 2 + Y ^ 2), atan2 Y X).
(** orbits/keplerian.py:459-479 *)
Definition velocity (o : orbital) (t : R) (semiamplitude : option R) : result vec :=
  match semiamplitude with
  | None => Ok (snd (position_and_velocity o t None (Some (- c_mass (ob_central o))) None None))
  | Some K =>
      match ob_mass o with
      | None => Err TypeError
      | Some m => Ok (snd (position_and_velocity o t None None (Some (- K * c_mass (ob_central o) / m)) None))
      end
  end.
(** orbits/keplerian.py:481-500 *)
Definition central_velocity (o : orbital) (t : R) (semiamplitude : option R) : vec :=
  match semiamplitude with
  | None => snd (position_and_velocity o t None (ob_mass o) None None)
  | Some K => snd (position_and_velocity o t None None (Some K) None)
  end.
(** orbits/keplerian.py:502-523 *)
Definition relative_velocity (o : orbital) (t : R) (semiamplitude : option R) : result vec :=
  match semiamplitude with
  | None => Ok (snd (position_and_velocity o t None (Some (- total_mass o)) None None))
  | Some K =>
      match ob_mass o with
      | None => Err TypeError
      | Some m => Ok (snd (position_and_velocity o t None None (Some (- K * total_mass o / m)) None))
      end
  end.
(** orbits/keplerian.py:525-544 *)
Definition radial_velocity (o : orbital) (t : R) (semiamplitude : option R) : R :=
  let '(_, _, z) := central_velocity o t semiamplitude in - z.
End WithSolver.

(** orbits/keplerian.py:676-737 [System]: the central and the stacked bodies *)
Inductive any_body := ABody (b : body_of arr) | AOrbital (o : orbital).
Record system := { sys_central : central; sys_bodies : list orbital }.
Fixpoint build_bodies (c : central) (l : list any_body) : result (list orbital) :=
  match l with
  | [] => Ok []
  | x :: l' =>
      rbind (match x with
             | AOrbital o => Ok o
             | ABody b => rbind (make_body b) (make_orbital c)
             end) (fun o => rbind (build_bodies c l') (fun os => Ok (o :: os)))
  end.
(** orbits/keplerian.py:682-694 *)
Definition make_system (c : option central) (bodies : list any_body) : result system :=
  rbind (match c with Some c => Ok c | None => make_central None None None end) (fun c =>
  rbind (build_bodies c bodies) (fun os => Ok {| sys_central := c; sys_bodies := os |})).
(** orbits/keplerian.py:701-707 *)
Definition sys_shape (s : system) : nat := length (sys_bodies s).
(** orbits/keplerian.py:717-737 [add_body]: [b] stands for body or Body of the kwargs; the
    existing bodies are passed as OrbitalBody objects *)
Definition add_body (s : system) (b : body_of arr) (c : option central) : result system :=
  rbind (match c with
         | None => Ok (ABody b)
         | Some c => rbind (make_body b) (fun b' => rbind (make_orbital c b') (fun o => Ok (AOrbital o)))
         end) (fun x =>
  make_system (Some (sys_central s)) (map AOrbital (sys_bodies s) ++ [x])).
End WithConstants.
