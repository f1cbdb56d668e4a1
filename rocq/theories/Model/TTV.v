(** Model of src/jaxoplanet/orbits/ttv.py.
    Transit numbers are integers; per-planet arrays are lists.  The base orbit's parameters
    are per-planet lists with numpy broadcasting of length-1 arrays ([pick]). *)
From Coq Require Import Reals ZArith List Bool Arith.
From Verif.Base Require Import RealAux.
From Verif.Model Require Import TransitOrbit.
Import ListNotations.
Open Scope R_scope.

(** A user-supplied array of times: a plain array (meaning days), or a Quantity in a unit
    of [days_per_unit] days. *)
Inductive time_array :=
| Plain (v : list R)
| Quant (v : list R) (days_per_unit : R).

(** ttv.py:10-15 [ensure_quantity(x, ureg.d).magnitude]: a Quantity is returned as it is,
    so its magnitude is the number in its own unit *)
Definition ensure_magnitude (x : time_array) : list R :=
  match x with Plain v => v | Quant v _ => v end.

(** jnp.linalg.solve for a 2x2 system [[a11 a12][a21 a22]] x = [b1 b2] (exact arithmetic:
    Cramer's rule; a singular matrix gives nan/inf in the code, and is excluded by the
    theorems) *)
Definition solve2 (a11 a12 a21 a22 b1 b2 : R) : R * R :=
  let det := a11 * a22 - a12 * a21 in
  ((b1 * a22 - a12 * b2) / det, (a11 * b2 - a21 * b1) / det).

(** ttv.py:18-27 [_compute_linear_ephemeris_single] : (intercept, slope, ttvs) *)
Definition linear_ephemeris (tt : list R) (inds : list Z) : R * R * list R :=
  let row0 := map (fun _ => 1) tt in
  let row1 := map IZR inds in
  let beta := solve2 (dotp row0 row0) (dotp row0 row1) (dotp row1 row0) (dotp row1 row1)
                     (dotp row0 tt) (dotp row1 tt) in
  let intercept := fst beta in let slope := snd beta in
  (intercept, slope, map (fun p => fst p - (intercept + slope * IZR (snd p))) (combine tt inds)).

(** ttv.py:33 midpoints 0.5*(tt[1:]+tt[:-1]) *)
Definition midpoints (tt : list R) : list R :=
  map (fun p => 0.5 * (fst p + snd p)) (combine (tl tt) (removelast tt)).
(** ttv.py:31-42 [_compute_bin_edges_values_single] *)
Definition bin_edges (tt : list R) (period : R) : list R :=
  [hd 0 tt - 0.5 * period] ++ midpoints tt ++ [last tt 0 + 0.5 * period].
Definition bin_values (tt : list R) : list R := [hd 0 tt] ++ tt ++ [last tt 0].

(** jnp.searchsorted(edges, t) (side='left') on a sorted array: number of entries < t *)
Definition searchsorted (edges : list R) (t : R) : nat :=
  length (filter (fun e => Rltb e t) edges).
(** ttv.py:46-51 [_process_planet_dt_single]; jax clamps out-of-range indices *)
Definition clamp_nth (l : list R) (i : nat) : R := nth (Nat.min i (length l - 1)) l 0.
Definition process_dt (edges values : list R) (t : R) : R :=
  clamp_nth values (searchsorted edges t).

(** numpy broadcasting of a per-planet parameter: a length-1 array is shared *)
Definition pick (l : list R) (i : nat) : R :=
  match l with [x] => x | _ => clamp_nth l i end.

(** jnp.arange(n) *)
Definition arange0 (n : nat) : list Z := map Z.of_nat (seq 0 n).

Definition mean (l : list R) : R := Rsum l / INR (length l).

Record ttv_orbit := {
  tv_transit_times : list (list R);
  tv_transit_inds : list (list Z);
  tv_ttvs : list (list R);
  tv_t0 : list R;
  tv_ttv_period : list R;
  tv_period : list R;          (* the base TransitOrbit's period *)
  tv_time_transit : list R;    (* the base TransitOrbit's time_transit *)
  tv_edges : list (list R);
  tv_values : list (list R);
  tv_base : nat -> result transit_orbit }.

Section Init.
Variables (period duration speed time_transit impact_param radius_ratio : option (list R)).
Variables (transit_times : option (list time_array)) (transit_inds : option (list (list Z)))
          (ttvs : option (list time_array)) (delta_log_period : option R).

(** ttv.py:216-236: super().__init__ (orbits/transit.py:52-90, per planet) and the bins *)
Definition finish (tt : list (list R)) (inds : list (list Z)) (tv : list (list R))
  (t0 P period' time_transit' : list R) : result ttv_orbit :=
  match duration, speed with
  | None, None => Err ValueError
  | _, _ =>
  Ok {| tv_transit_times := tt; tv_transit_inds := inds; tv_ttvs := tv; tv_t0 := t0; tv_ttv_period := P;
        tv_period := period'; tv_time_transit := time_transit';
        tv_edges := map (fun q => bin_edges (fst q) (snd q)) (combine tt P);
        tv_values := map (fun q => bin_values (fst q)) (combine tt P);
        tv_base := fun i => make_transit_orbit (pick period' i)
           (option_map (fun l => pick l i) duration) (option_map (fun l => pick l i) speed)
           (Some (pick time_transit' i)) (option_map (fun l => pick l i) impact_param)
           (option_map (fun l => pick l i) radius_ratio) |}
  end.

(** ttv.py:134-170: transit times supplied *)
Definition init_times (tts : list time_array) : result ttv_orbit :=
  let times := map ensure_magnitude tts in
  let inds := match transit_inds with None => map (fun tt => arange0 (length tt)) times | Some l => l end in
  let fits := map (fun q => linear_ephemeris (fst q) (snd q)) (combine times inds) in
  let t0 := map (fun f => fst (fst f)) fits in
  let P := map (fun f => snd (fst f)) fits in
  let tv := map snd fits in
  let time_transit' := match time_transit with None => t0 | Some l => l end in
  let period' := match period with
    | None => match delta_log_period with
              | Some d => map (fun p => exp (ln p + d)) P
              | None => P end
    | Some l => l end in
  finish times inds tv t0 P period' time_transit'.

(** ttv.py:200-214: t0 + period*inds + ttvs.  [idx] is the number of planets already done *)
Definition planet_times (t0 P : list R) (idx : nat) (ttv : list R) (inds : list Z) : result (list R) :=
  if (1 <? length t0)%nat
  then Ok (map (fun q => clamp_nth t0 idx + clamp_nth P idx * IZR (snd q) + fst q) (combine ttv inds))
  else match t0, P with
       | [a], [p] => Ok (map (fun q => a + p * IZR (snd q) + fst q) (combine ttv inds))
       | _, _ => Err ValueError (* .item() on an array that has not exactly one element *)
       end.
Fixpoint all_planet_times (t0 P : list R) (idx : nat) (l : list (list R * list Z)) : result (list (list R)) :=
  match l with
  | [] => Ok []
  | (ttv, inds) :: l' =>
      rbind (planet_times t0 P idx ttv inds) (fun x =>
      rbind (all_planet_times t0 P (S idx) l') (fun xs => Ok (x :: xs)))
  end.

(** ttv.py:171-214: ttvs supplied.  Index and ttv arrays of one planet have equal lengths
    (simplification: [combine] truncates, where the code would broadcast or raise) *)
Definition init_ttvs (tvs : list time_array) : result ttv_orbit :=
  match period with
  | None => Err ValueError
  | Some P =>
      let t0 := match time_transit with None => [0] | Some l => l end in
      let tv := map (fun a => let v := ensure_magnitude a in map (fun x => x - mean v) v) tvs in
      let inds := match transit_inds with None => map (fun l => arange0 (length l)) tv | Some l => l end in
      rbind (all_planet_times t0 P 0 (combine tv inds)) (fun tt => finish tt inds tv t0 P P t0)
  end.

(** ttv.py:102-236 [TTVOrbit.__init__] *)
Definition make_ttv_orbit : result ttv_orbit :=
  match ttvs, transit_times with
  | Some _, Some _ => Err ValueError
  | None, None => Err ValueError
  | None, Some tts => init_times tts
  | Some tvs, None => init_ttvs tvs
  end.
End Init.

(** ttv.py:238-259 [_get_model_dt], [_warp_times], planet [i] at a scalar time *)
Definition warp_time (o : ttv_orbit) (i : nat) (t : R) : R :=
  t - (process_dt (nth i (tv_edges o) []) (nth i (tv_values o) []) t - pick (tv_t0 o) i).
(** ttv.py:261-272 [relative_position], planet [i] at a scalar time *)
Definition tv_relative_position (o : ttv_orbit) (i : nat) (t : R) : result (R * R * R) :=
  rbind (tv_base o i) (fun b => Ok (to_relative_position b (warp_time o i t))).

(** ttv.py:255-259 for a 1-d array of times and m planets: [dt] has shape (m, n) and is
    combined with [t0] of shape (m,) by numpy broadcasting along the LAST axis; unequal
    lengths (neither 1) raise *)
Definition warp_times_array (o : ttv_orbit) (ts : list R) : result (list (list R)) :=
  let m := length (tv_edges o) in let n := length ts in
  let k := length (tv_t0 o) in
  if ((k =? n) || (k =? 1) || (n =? 1))%nat then
    if (n =? 1)%nat then
      Ok (map (fun i => map (fun j => nth 0 ts 0 -
            (process_dt (nth i (tv_edges o) []) (nth i (tv_values o) []) (nth 0 ts 0) - pick (tv_t0 o) j))
          (seq 0 k)) (seq 0 m))
    else
      Ok (map (fun i => map (fun j => nth j ts 0 -
            (process_dt (nth i (tv_edges o) []) (nth i (tv_values o) []) (nth j ts 0) - pick (tv_t0 o) j))
          (seq 0 n)) (seq 0 m))
  else Err TypeError.

(** ttv.py:274-288 [linear_t0], [linear_period] *)
Definition linear_t0 (o : ttv_orbit) : list R := tv_t0 o.
Definition linear_period (o : ttv_orbit) : list R := tv_ttv_period o.

(** jnp.arange(i_min, i_max + 1) *)
Definition arange (a b : Z) : list Z := map (fun k => (a + Z.of_nat k)%Z) (seq 0 (Z.to_nat (b - a))).
(** ttv.py:311-317: one planet of [compute_expected_transit_times] *)
Definition expected_times1 (min_time max_time p t0 : R) : list R :=
  let i_min := Rceil ((min_time - t0) / p) in
  let i_max := Rfloor ((max_time - t0) / p) in
  filter (fun x => Rgeb x min_time && Rleb x max_time)%bool
         (map (fun k => t0 + p * IZR k) (arange i_min (i_max + 1))).
(** ttv.py:291-319 *)
Definition compute_expected_transit_times (min_time max_time : R) (period t0 : list R) : list (list R) :=
  map (fun q => expected_times1 min_time max_time (fst q) (snd q)) (combine period t0).
