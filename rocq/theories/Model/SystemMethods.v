(** Model of the methods of orbits/keplerian.py [System], which map those of OrbitalBody over the stacked bodies with
    ObjectStack.vmap (Model/Stack.v), and of light_curves/limb_dark.py on a System.

    Objects are pytrees.  A Quantity is a node whose tag is its unit and whose only leaf is its magnitude (units are
    static data of the pytree, so quantities of different units have different structures); None is a node without
    leaves; an equinox module is a node with its fields in order. *)
From Coq Require Import Reals ZArith List Bool Arith.
From Verif Require Import Base.RealAux Model.Keplerian Model.LimbDark Model.LightCurves Model.Stack.
Import ListNotations.
Local Open Scope R_scope.

Definition u_none : nat := 1.
Definition u_day : nat := 2.
Definition u_R_sun : nat := 3.
Definition u_M_sun : nat := 4.
Definition u_dimensionless : nat := 5.
Definition u_arcsec : nat := 6.
Definition u_R_sun_per_day : nat := 7.
Definition u_arcsec_per_day : nat := 8.
Definition u_density : nat := 9.
Definition central_tag : nat := 20.
Definition body_tag : nat := 21.

Definition scalar (v : R) : arr := Arr [] (fun _ => v).
Definition quantity (u : nat) (a : arr) : tree arr := Node u [Leaf a].
Definition q_scalar (u : nat) (v : R) : tree arr := quantity u (scalar v).
Definition q_option (u : nat) (v : option R) : tree arr := match v with None => Node u_none [] | Some v => q_scalar u v end.

(** orbits/keplerian.py:18-31 the fields of [Central] *)
Definition central_tree (c : central) : tree arr :=
  Node central_tag [q_scalar u_M_sun (c_mass c); q_scalar u_R_sun (c_radius c); q_scalar u_density (c_density c)].
(** orbits/keplerian.py:259-277 the fields of [OrbitalBody] *)
Definition orbital_tree (o : orbital) : tree arr :=
  Node body_tag
    [central_tree (ob_central o); q_scalar u_day (ob_time_ref o); q_scalar u_day (ob_time_transit o); q_scalar u_day (ob_period o);
     q_scalar u_R_sun (ob_semimajor o); q_scalar u_dimensionless (ob_sin_incl o); q_scalar u_dimensionless (ob_cos_incl o);
     q_scalar u_dimensionless (ob_impact o); q_option u_M_sun (ob_mass o); q_option u_R_sun (ob_radius o);
     q_option u_dimensionless (option_map (fun e => fst (fst e)) (ob_ecc o));
     q_option u_dimensionless (option_map (fun e => snd (fst e)) (ob_ecc o));
     q_option u_dimensionless (option_map snd (ob_ecc o));
     q_option u_dimensionless (option_map fst (ob_node o)); q_option u_dimensionless (option_map snd (ob_node o));
     q_option u_R_sun_per_day (ob_semiamplitude o); q_option u_arcsec (ob_parallax o)].

(** reading the fields of such an object: what self.field means inside a method *)
Definition get_q (t : tree arr) : option R :=
  match t with Node _ [Leaf a] => match ashape a with [] => Some (aget a []) | _ :: _ => None end | _ => None end.
Definition get_central (t : tree arr) : option central :=
  match t with
  | Node _ [m; r; d] => match get_q m, get_q r, get_q d with Some m, Some r, Some d => Some {| c_mass := m; c_radius := r; c_density := d |} | _, _, _ => None end
  | _ => None
  end.
Definition get_orbital (t : tree arr) : option orbital :=
  match t with
  | Node _ [c; tr; tm; p; a; si; ci; b; m; r; e; sw; cw; sn; cn; k; plx] =>
      match get_central c, get_q tr, get_q tm, get_q p, get_q a, get_q si, get_q ci, get_q b with
      | Some c, Some tr, Some tm, Some p, Some a, Some si, Some ci, Some b =>
          Some {| ob_central := c; ob_time_ref := tr; ob_time_transit := tm; ob_period := p; ob_semimajor := a;
                  ob_sin_incl := si; ob_cos_incl := ci; ob_impact := b; ob_mass := get_q m; ob_radius := get_q r;
                  ob_ecc := match get_q e, get_q sw, get_q cw with Some e, Some sw, Some cw => Some (e, sw, cw) | _, _, _ => None end;
                  ob_node := match get_q sn, get_q cn with Some sn, Some cn => Some (sn, cn) | _, _ => None end;
                  ob_semiamplitude := get_q k; ob_parallax := get_q plx |}
      | _, _, _, _, _, _, _, _ => None
      end
  | _ => None
  end.
(** the argument t of the methods: a plain number or array (taken to be in days) or a Quantity in days, which
    units.quantity_input(t=ureg.d) maps to the same array; other units are the subject of C45 *)
Definition get_time (t : tree arr) : option arr :=
  match t with
  | Leaf a => Some a
  | Node u [Leaf a] => if Nat.eqb u u_day then Some a else None
  | _ => None
  end.

(** A method of OrbitalBody returning the components of a vector, evaluated on an array of times of any shape (the
    operations are element-wise; whether it raises does not depend on the time). *)
Definition x_of (v : result vec) : R := match v with Ok (x, _, _) => x | Err _ => 0 end.
Definition y_of (v : result vec) : R := match v with Ok (_, y, _) => y | Err _ => 0 end.
Definition z_of (v : result vec) : R := match v with Ok (_, _, z) => z | Err _ => 0 end.
Definition vector_method (unit_of : orbital -> nat) (value : orbital -> R -> result vec) : func_t := fun body args =>
  match get_orbital body, args with
  | Some o, [t] =>
      match get_time t with
      | Some ts =>
          rbind (value o 0) (fun _ =>
          Ok (Node tuple_tag [quantity (unit_of o) (Arr (ashape ts) (fun idx => x_of (value o (aget ts idx))));
                              quantity (unit_of o) (Arr (ashape ts) (fun idx => y_of (value o (aget ts idx))));
                              quantity (unit_of o) (Arr (ashape ts) (fun idx => z_of (value o (aget ts idx))))]))
      | None => Err DimensionalityError
      end
  | _, _ => Err TypeError
  end.
(** [radial_velocity] returns one quantity *)
Definition scalar_method (unit_of : orbital -> nat) (value : orbital -> R -> R) : func_t := fun body args =>
  match get_orbital body, args with
  | Some o, [t] =>
      match get_time t with
      | Some ts => Ok (quantity (unit_of o) (Arr (ashape ts) (fun idx => value o (aget ts idx))))
      | None => Err DimensionalityError
      end
  | _, _ => Err TypeError
  end.

(** orbits/keplerian.py:647-652, 662-664: positions are in R_sun, or in arcsec if the body has a parallax *)
Definition position_unit (o : orbital) : nat := match ob_parallax o with None => u_R_sun | Some _ => u_arcsec end.
(** orbits/keplerian.py:625-646: velocities are in R_sun/day; in arcsec/day if the body has a parallax, unless the
    amplitude is the stored semiamplitude *)
Definition velocity_unit (o : orbital) : nat :=
  match ob_semiamplitude o, ob_parallax o with None, Some _ => u_arcsec_per_day | _, _ => u_R_sun_per_day end.

Section WithSolver.
Variables (au : R) (kep : R -> R -> R * R).

(** orbits/keplerian.py:682-694 [System.__init__] stacks the bodies *)
Definition sys_stack (s : system) : result stack_t := mk_stack (map orbital_tree (sys_bodies s)).
(** orbits/keplerian.py:739-777 [System.body_vmap] *)
Definition body_vmap (s : system) (f : func_t) (ia : in_axes_t) (oa : tree axis) (args : list (tree arr)) : result (tree arr) :=
  rbind (sys_stack s) (fun st => stack_vmap st f ia oa args).
(** the calls body_vmap(OrbitalBody.method, in_axes=None)(t) *)
Definition map_method (s : system) (f : func_t) (t : tree arr) : result (tree arr) := body_vmap s f (AxisAll None) (Leaf (Some 0%Z)) [t].

(** orbits/keplerian.py:779-780 *)
Definition sys_position (s : system) (t : tree arr) : result (tree arr) :=
  map_method s (vector_method position_unit (fun o t => Ok (position au kep o t None))) t.
(** orbits/keplerian.py:782-783 *)
Definition sys_central_position (s : system) (t : tree arr) : result (tree arr) :=
  map_method s (vector_method position_unit (fun o t => central_position au kep o t None)) t.
(** orbits/keplerian.py:785-786 *)
Definition sys_relative_position (s : system) (t : tree arr) : result (tree arr) :=
  map_method s (vector_method position_unit (fun o t => Ok (relative_position au kep o t None))) t.
(** orbits/keplerian.py:788-789 *)
Definition sys_velocity (s : system) (t : tree arr) : result (tree arr) :=
  map_method s (vector_method velocity_unit (fun o t => velocity au kep o t None)) t.
(** orbits/keplerian.py:791-792 *)
Definition sys_central_velocity (s : system) (t : tree arr) : result (tree arr) :=
  map_method s (vector_method velocity_unit (fun o t => Ok (central_velocity au kep o t None))) t.
(** orbits/keplerian.py:794-795 *)
Definition sys_relative_velocity (s : system) (t : tree arr) : result (tree arr) :=
  map_method s (vector_method velocity_unit (fun o t => relative_velocity au kep o t None)) t.
(** orbits/keplerian.py:797-798 *)
Definition sys_radial_velocity (s : system) (t : tree arr) : result (tree arr) :=
  map_method s (scalar_method velocity_unit (fun o t => radial_velocity au kep o t None)) t.

(** orbits/keplerian.py:709-715 [radius], [central_radius]: body_vmap(lambda body: ...)() *)
Definition field_method (field : orbital -> tree arr) : func_t := fun body _ =>
  match get_orbital body with Some o => Ok (field o) | None => Err TypeError end.
Definition sys_radius (s : system) : result (tree arr) :=
  body_vmap s (field_method (fun o => q_option u_R_sun (ob_radius o))) (AxisAll (Some 0%Z)) (Leaf (Some 0%Z)) [].
Definition sys_central_radius (s : system) : result (tree arr) :=
  body_vmap s (field_method (fun o => q_scalar u_R_sun (ob_central_radius o))) (AxisAll (Some 0%Z)) (Leaf (Some 0%Z)) [].

(** light_curves/limb_dark.py:48-66 on a System, at one time: x, y, z, radii are arrays with one entry per body.  The
    division of lengths in different units leaves a unit, on which the assertions fail; None / r_star is a TypeError. *)
Definition get_quantity (t : tree arr) : result (nat * arr) := match t with Node u [Leaf a] => Ok (u, a) | _ => Err TypeError end.
Definition entry (a : arr) (i : nat) : R := aget a [i].
Definition system_light_curve (eps : R) (quad : list (R * R)) (s : system) (u : list R) (time : R) : result (list R) :=
  rbind (rbind (sys_central_radius s) get_quantity) (fun '(u_star, r_star) =>
  rbind (sys_relative_position s (q_scalar u_day time)) (fun pos =>
  match pos with
  | Node _ [x; y; z] =>
      rbind (get_quantity x) (fun '(ux, x) => rbind (get_quantity y) (fun '(uy, y) => rbind (get_quantity z) (fun '(uz, z) =>
      if negb (Nat.eqb ux u_star) then Err AssertionError else
      rbind (rbind (sys_radius s) get_quantity) (fun '(ur, rad) =>
      if negb (Nat.eqb ur u_star) then Err AssertionError else
      Ok (map (fun i => let b := sqrt (entry x i ^ 2 + entry y i ^ 2) / entry r_star i in
                        let r := entry rad i / entry r_star i in
                        if Rgtb (entry z i) 0 then light_curve eps quad u b r else 0) (seq 0 (sys_shape s)))))))
  | _ => Err ValueError
  end)).
End WithSolver.
