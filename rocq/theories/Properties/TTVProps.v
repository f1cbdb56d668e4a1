(** Properties C27-C30 (and C66, C67): transit timing variations, orbits/ttv.py *)
From Coq Require Import Reals Lra Lia List ZArith.
From Verif.Base Require Import RealAux.
From Verif.Model Require Import TransitOrbit TTV.
From Verif.Spec Require Import TTVSpec.
From Verif.Proof Require Import TTVProof.
Import ListNotations.
Open Scope R_scope.

(** C27: the fit minimises the squared residuals, uniquely; the ttvs are the residuals *)
Theorem C27_least_squares : forall (l : list (R * Z)) t0 P tv p q,
  In p l -> In q l -> snd p <> snd q ->
  linear_ephemeris (map fst l) (map snd l) = (t0, P, tv) ->
  tv = map (residual t0 P) l /\
  (forall a b, sum_sq t0 P l <= sum_sq a b l) /\
  (forall a b, sum_sq a b l <= sum_sq t0 P l -> a = t0 /\ b = P) /\
  lsum tv = 0 /\ lsum (map (fun r => IZR (snd r) * residual t0 P r) l) = 0.
Proof. exact ephemeris_fit. Qed.
Print Assumptions C27_least_squares.
Theorem C27_exact_ephemeris_recovered : forall (l : list (R * Z)) t0 P t0' P' tv p q,
  In p l -> In q l -> snd p <> snd q ->
  linear_ephemeris (map fst l) (map snd l) = (t0, P, tv) ->
  (forall r, In r l -> fst r = t0' + P' * IZR (snd r)) ->
  t0 = t0' /\ P = P' /\ forall x, In x tv -> x = 0.
Proof. exact ephemeris_exact. Qed.
Print Assumptions C27_exact_ephemeris_recovered.
Theorem C27_fitted_period_positive : forall (l : list (R * Z)) t0 P tv p q,
  In p l -> In q l -> snd p <> snd q ->
  (forall p q, In p l -> In q l -> (snd p < snd q)%Z -> fst p < fst q) ->
  (forall p q, In p l -> In q l -> snd p = snd q -> p = q) ->
  linear_ephemeris (map fst l) (map snd l) = (t0, P, tv) -> 0 < P.
Proof. exact ephemeris_period_pos. Qed.
Print Assumptions C27_fitted_period_positive.
Example C27_satisfiable : let l := [(1, 0%Z); (11.5, 1%Z); (41, 4%Z)] in
  In (1, 0%Z) l /\ In (41, 4%Z) l /\ 0%Z <> 4%Z.
Proof. simpl. repeat split; auto. lia. Qed.

(** C28 *)
Theorem C28_nearest_transit : forall tt P t, tt <> [] -> 0 <= P -> nondecreasing tt ->
  nearest tt t (process_dt (bin_edges tt P) (bin_values tt) t).
Proof. exact process_nearest. Qed.
Print Assumptions C28_nearest_transit.
(** the array handed to searchsorted is sorted (what searchsorted requires) *)
Theorem C28_edges_sorted : forall tt P, tt <> [] -> 0 <= P -> nondecreasing tt -> nondecreasing (bin_edges tt P).
Proof. exact edges_sorted. Qed.
Print Assumptions C28_edges_sorted.
Example C28_satisfiable : [3; 13; 24] <> [] /\ 0 <= 10.4 /\ nondecreasing [3; 13; 24].
Proof. simpl. repeat split; try lra. discriminate. Qed.

(** C29 *)
Theorem C29_mid_transit_at_observed_times :
  forall period duration speed b ror tts inds dlp o i tt P t base,
  make_ttv_orbit period duration speed None b ror (Some tts) inds None dlp = Ok o ->
  nth_error (tv_transit_times o) i = Some tt -> nth_error (tv_ttv_period o) i = Some P -> 0 <= P ->
  nondecreasing tt -> In t tt -> tv_base o i = Ok base -> 0 < to_period base -> 0 < to_duration base ->
  tv_relative_position o i t = Ok (0, to_impact base, 1).
Proof. exact init_times_at_transit. Qed.
Print Assumptions C29_mid_transit_at_observed_times.
Theorem C29_mid_transit_at_reconstructed_times :
  forall period duration speed tr b ror tvs inds dlp o i tt P t base,
  make_ttv_orbit period duration speed tr b ror None inds (Some tvs) dlp = Ok o ->
  nth_error (tv_transit_times o) i = Some tt -> nth_error (tv_ttv_period o) i = Some P -> 0 <= P ->
  nondecreasing tt -> In t tt -> tv_base o i = Ok base -> 0 < to_period base -> 0 < to_duration base ->
  tv_relative_position o i t = Ok (0, to_impact base, 1).
Proof. exact init_ttvs_at_transit. Qed.
Print Assumptions C29_mid_transit_at_reconstructed_times.
Theorem C29_stored_times_are_the_given_ones : forall period duration speed tr b ror tts inds dlp o i v,
  make_ttv_orbit period duration speed tr b ror (Some tts) inds None dlp = Ok o ->
  nth_error tts i = Some (Plain v) -> nth_error (tv_transit_times o) i = Some v.
Proof. exact times_mode_times. Qed.
Print Assumptions C29_stored_times_are_the_given_ones.
(** the reference time, the period and the ttvs of a planet are the fit of its own transit times (numbered from 0 when
    no numbers are given) *)
Theorem C29_fitted_ephemeris : forall period duration speed tr b ror tts inds dlp o i v,
  make_ttv_orbit period duration speed tr b ror (Some tts) inds None dlp = Ok o -> nth_error tts i = Some (Plain v) ->
  (forall l k, inds = Some l -> nth_error l i = Some k -> 
     exists a P tv, linear_ephemeris v k = (a, P, tv) /\ nth_error (tv_t0 o) i = Some a /\ nth_error (tv_ttv_period o) i = Some P /\ nth_error (tv_ttvs o) i = Some tv) /\
  (inds = None -> exists a P tv, linear_ephemeris v (map Z.of_nat (seq 0 (length v))) = (a, P, tv) /\ nth_error (tv_t0 o) i = Some a /\ nth_error (tv_ttv_period o) i = Some P /\ nth_error (tv_ttvs o) i = Some tv).
Proof. exact fitted_ephemeris. Qed.
Print Assumptions C29_fitted_ephemeris.
(** the period that governs the shape is the given one, else the fitted one times exp(delta_log_period); the reference
    time is the given one, else the fitted one *)
Theorem C29_shape_period : forall period duration speed tr b ror tts inds dlp o i P a base,
  make_ttv_orbit period duration speed tr b ror (Some tts) inds None dlp = Ok o ->
  nth_error (tv_ttv_period o) i = Some P -> nth_error (tv_t0 o) i = Some a -> 0 < P -> tv_base o i = Ok base ->
  (period = None -> to_period base = P * exp (match dlp with Some d => d | None => 0 end)) /\
  (forall l p, period = Some l -> nth_error l i = Some p -> to_period base = p) /\
  (tr = None -> to_time_transit base = a) /\ (forall l t, tr = Some l -> nth_error l i = Some t -> to_time_transit base = t).
Proof. exact fitted_base. Qed.
Print Assumptions C29_shape_period.
Theorem C29_times_from_ttvs : forall Pl duration speed tr b ror tvs dlp o i v a p,
  make_ttv_orbit (Some Pl) duration speed (Some tr) b ror None None (Some tvs) dlp = Ok o ->
  length tr = length Pl -> nth_error tvs i = Some (Plain v) -> nth_error tr i = Some a -> nth_error Pl i = Some p ->
  nth_error (tv_transit_times o) i =
    Some (map (fun q => a + p * INR (fst q) + (snd q - lsum v / INR (length v))) (combine (seq 0 (length v)) v)).
Proof. exact ttvs_mode_times. Qed.
Print Assumptions C29_times_from_ttvs.
(** however the orbit was built, its stored times are linear_t0 + linear_period * number + variation *)
Theorem C29_times_are_the_linear_ephemeris_plus_ttvs : forall period duration speed tr b ror tts inds tvs dlp o i tt ks tv a P,
  make_ttv_orbit period duration speed tr b ror tts inds tvs dlp = Ok o ->
  nth_error (tv_transit_times o) i = Some tt -> nth_error (tv_transit_inds o) i = Some ks -> nth_error (tv_ttvs o) i = Some tv ->
  nth_error (linear_t0 o) i = Some a -> nth_error (linear_period o) i = Some P -> (tts <> None -> length ks = length tt) ->
  tt = map (fun q => a + P * IZR (snd q) + fst q) (combine tv ks).
Proof. exact times_are_ephemeris. Qed.
Print Assumptions C29_times_are_the_linear_ephemeris_plus_ttvs.
Example C29_ephemeris_satisfiable : exists o a P tv,
  make_ttv_orbit None (Some [0.2]) None None None None (Some [Plain [0; 10; 21]]) None None None = Ok o /\
  nth_error (tv_transit_times o) 0 = Some [0; 10; 21] /\ nth_error (tv_transit_inds o) 0 = Some [0%Z; 1%Z; 2%Z] /\ nth_error (tv_ttvs o) 0 = Some tv /\
  nth_error (linear_t0 o) 0 = Some a /\ nth_error (linear_period o) 0 = Some P.
Proof. eexists. eexists. eexists. eexists. split; [reflexivity|]. repeat (split; [reflexivity|]). reflexivity. Qed.
Theorem C29_stored_ttvs_have_zero_mean : forall period duration speed tr b ror tvs inds dlp o tv,
  make_ttv_orbit period duration speed tr b ror None inds (Some tvs) dlp = Ok o ->
  In tv (tv_ttvs o) -> lsum tv = 0.
Proof. exact ttvs_zero_mean. Qed.
Print Assumptions C29_stored_ttvs_have_zero_mean.
Theorem C29_invalid_combinations_raise : forall period duration speed tr b ror tts inds tvs dlp,
  (tts <> None /\ tvs <> None) \/ (tts = None /\ tvs = None) \/ (tvs <> None /\ period = None) \/
  (duration = None /\ speed = None) ->
  exists e, make_ttv_orbit period duration speed tr b ror tts inds tvs dlp = Err e.
Proof. exact ttv_errors. Qed.
Print Assumptions C29_invalid_combinations_raise.
Lemma sample_ephemeris : linear_ephemeris [0; 10; 21] (arange0 3) =
  (-1/6, 21/2, [1/6; -1/3; 1/6]).
Proof.
  unfold linear_ephemeris, arange0, solve2, dotp, Rsum. cbn [seq map combine fold_right fst snd Z.of_nat Pos.of_succ_nat Pos.succ].
  repeat (f_equal; try lra).
Qed.
Example C29_satisfiable : exists o base,
  make_ttv_orbit None (Some [0.2]) None None (Some [0.3]) (Some [0.1]) (Some [Plain [0; 10; 21]]) None None None = Ok o /\
  nth_error (tv_transit_times o) 0 = Some [0; 10; 21] /\ nth_error (tv_ttv_period o) 0 = Some (21/2) /\
  nondecreasing [0; 10; 21] /\ tv_base o 0 = Ok base /\ 0 < to_period base /\ 0 < to_duration base.
Proof.
  eexists. eexists. split; [reflexivity|]. split; [reflexivity|].
  cbn -[linear_ephemeris arange0 nondecreasing]. rewrite sample_ephemeris. cbn -[nondecreasing].
  split; [reflexivity|]. split; [simpl; repeat split; lra|]. split; [reflexivity|]. cbn. lra.
Qed.
(** Overriding time_transit moves every transit off the observed times. *)
Example C29_shape_sat : exists o base, make_ttv_orbit None (Some [0.2]) None None None None (Some [Plain [0; 10; 21]]) None None (Some 0.1) = Ok o /\
  nth_error (tv_ttv_period o) 0 = Some (21/2) /\ nth_error (tv_t0 o) 0 = Some (-1/6) /\ tv_base o 0 = Ok base.
Proof.
  unfold make_ttv_orbit, init_times. cbn [map ensure_magnitude combine length fst snd]. rewrite sample_ephemeris. cbn [fst snd finish]. eexists. eexists. split; [reflexivity|]. repeat split.
Qed.
Theorem C29_overridden_time_transit_refuted : exists o,
  make_ttv_orbit None (Some [0.2]) None (Some [5]) None None (Some [Plain [0; 10; 20]]) None None None = Ok o /\
  tv_relative_position o 0 10 <> Ok (0, 0, 1).
Proof.
  eexists. split; [reflexivity|].
  assert (E : linear_ephemeris [0; 10; 20] (arange0 3) = (0, 10, [0; 0; 0])).
  { unfold linear_ephemeris, arange0, solve2, dotp, Rsum.
    cbn [seq map combine fold_right fst snd Z.of_nat Pos.of_succ_nat Pos.succ]. repeat (f_equal; try lra). }
  unfold tv_relative_position, warp_time. cbn -[linear_ephemeris arange0 process_dt to_relative_position bin_edges bin_values].
  rewrite E. cbn -[process_dt to_relative_position bin_edges bin_values].
  rewrite process_at_transit; [|lra|simpl; repeat split; lra|simpl; auto].
  unfold to_relative_position. intros H. injection H as H1 _.
  assert (Hd : to_dt {| to_period := 10; to_speed := 2 * sqrt (Rmax 0 ((1 + 0)² - 0²)) / 0.2; to_duration := 0.2;
        to_time_transit := 5; to_impact := 0; to_ror := 0 |} (10 - (10 - 0)) = -5).
  { unfold to_dt. cbn. rewrite (Rmod_small _ 10) by lra. lra. }
  cbn [to_speed] in H1. rewrite Hd in H1.
  replace ((1 + 0)² - 0²) with 1 in H1 by (unfold Rsqr; ring). rewrite Rmax_right, sqrt_1 in H1 by lra. lra.
Qed.
Print Assumptions C29_overridden_time_transit_refuted.

(** C30 *)
Theorem C30_expected_transit_times : forall min_time max_time p t0, 0 < p ->
  increasing (expected_times1 min_time max_time p t0) /\
  forall x, In x (expected_times1 min_time max_time p t0) <->
    (exists k : Z, x = t0 + IZR k * p) /\ min_time <= x <= max_time.
Proof. exact expected_spec. Qed.
Print Assumptions C30_expected_transit_times.
Theorem C30_per_planet : forall min_time max_time periods t0s i p t0,
  nth_error periods i = Some p -> nth_error t0s i = Some t0 -> 0 < p ->
  exists times, nth_error (compute_expected_transit_times min_time max_time periods t0s) i = Some times /\
    NoDup times /\ increasing times /\
    forall x, In x times <-> (exists k : Z, x = t0 + IZR k * p) /\ min_time <= x <= max_time.
Proof.
  intros mn mx ps ts i p t0 Hp Ht H. exists (expected_times1 mn mx p t0).
  split. { unfold compute_expected_transit_times. now rewrite nth_error_map, (nth_error_combine _ _ _ _ _ Hp Ht). }
  destruct (expected_spec mn mx p t0 H). split; [now apply inc_NoDup|]. now split.
Qed.
Print Assumptions C30_per_planet.
Example C30_satisfiable : nth_error [10; 3.5] 1 = Some 3.5 /\ nth_error [0; 1] 1 = Some 1 /\ 0 < 3.5.
Proof. repeat split; lra. Qed.

(** C66: times given as Quantities in another unit are not converted: only the numbers matter *)
Definition numbers (a : time_array) : list R := match a with Plain v => v | Quant v _ => v end.
Theorem C66_only_the_numbers_matter : forall period duration speed tr b ror tts tts' inds dlp,
  map numbers tts = map numbers tts' ->
  make_ttv_orbit period duration speed tr b ror (Some tts) inds None dlp =
  make_ttv_orbit period duration speed tr b ror (Some tts') inds None dlp /\
  make_ttv_orbit period duration speed tr b ror None inds (Some tts) dlp =
  make_ttv_orbit period duration speed tr b ror None inds (Some tts') dlp.
Proof.
  intros period duration speed tr b ror tts tts' inds dlp H. split.
  - unfold make_ttv_orbit, init_times. change (map ensure_magnitude tts) with (map numbers tts). now rewrite H.
  - unfold make_ttv_orbit, init_ttvs. destruct period as [P|]; [|reflexivity].
    assert (E : forall l, map (fun a => let v := ensure_magnitude a in map (fun x => x - mean v) v) l =
      map (fun v => map (fun x => x - mean v) v) (map numbers l)) by (intros; now rewrite map_map).
    rewrite !E, H. reflexivity.
Qed.
Print Assumptions C66_only_the_numbers_matter.
Example C66_satisfiable : map numbers [Quant [0; 24; 48] (1/24)] = map numbers [Plain [0; 24; 48]].
Proof. reflexivity. Qed.
Theorem C66_time_units_refuted : exists o1 o2,
  make_ttv_orbit None (Some [0.2]) None None None None (Some [Quant [0; 24; 48] (1/24)]) None None None = Ok o1 /\
  make_ttv_orbit None (Some [0.2]) None None None None (Some [Plain [0; 1; 2]]) None None None = Ok o2 /\
  map (fun x => x * (1/24)) [0; 24; 48] = [0; 1; 2] /\
  tv_ttv_period o1 = [24] /\ tv_ttv_period o2 = [1].
Proof.
  assert (E : forall c, linear_ephemeris [0; c; c + c] (arange0 3) = (0, c, [0; 0; 0])).
  { intros c. unfold linear_ephemeris, arange0, solve2, dotp, Rsum.
    cbn [seq map combine fold_right fst snd Z.of_nat Pos.of_succ_nat Pos.succ]. repeat (f_equal; try field). }
  eexists. eexists. split; [reflexivity|]. split; [reflexivity|].
  split; [simpl; repeat (f_equal; try lra)|].
  cbn -[linear_ephemeris arange0]. 
  replace 48 with (24 + 24) by lra. replace 2 with (1 + 1) by lra. rewrite !E. split; reflexivity.
Qed.
Print Assumptions C66_time_units_refuted.

(** C67: an array of times is the pointwise evaluation, for one planet; not for several *)
Theorem C67_array_of_times_single_planet : forall o ts, length (tv_t0 o) = 1%nat -> length (tv_edges o) = 1%nat ->
  warp_times_array o ts = Ok [map (warp_time o 0) ts].
Proof.
  intros o ts H1 H2. unfold warp_times_array. rewrite H1, H2. cbn [Nat.eqb orb].
  assert (P : forall j, pick (tv_t0 o) j = pick (tv_t0 o) 0).
  { intros j. destruct (tv_t0 o) as [|a [|? ?]]; try discriminate. reflexivity. }
  rewrite Bool.orb_true_r. cbn [orb]. destruct (Nat.eqb_spec (length ts) 1) as [E|E].
  - destruct ts as [|t [|? ?]]; try discriminate. reflexivity.
  - cbn [seq map]. f_equal. f_equal. transitivity (map (fun j => warp_time o 0 (nth j ts 0)) (seq 0 (length ts))).
    { apply map_ext. intros j. unfold warp_time. now rewrite P. }
    clear. rewrite <- (map_map (fun j => nth j ts 0) (warp_time o 0)). f_equal.
    induction ts as [|t ts IH]; [reflexivity|]. cbn [length seq map nth]. f_equal.
    rewrite <- seq_shift, map_map. exact IH.
Qed.
Print Assumptions C67_array_of_times_single_planet.
Definition two_planets := make_ttv_orbit (Some [10; 10]) (Some [0.2]) None (Some [0; 5]) None None None None
  (Some [Plain [0; 0]; Plain [0; 0]]) None.
Theorem C67_array_of_times_refuted : exists o,
  two_planets = Ok o /\ (forall a b c, warp_times_array o [a; b; c] = Err TypeError) /\
  forall rows, warp_times_array o [0; 0] = Ok rows -> nth 1 (nth 0 rows []) 0 = warp_time o 0 0 + 5.
Proof.
  eexists. split; [reflexivity|]. split; [reflexivity|].
  intros rows H. injection H as <-. cbn -[process_dt pick bin_edges bin_values]. unfold warp_time.
  cbn -[process_dt bin_edges bin_values]. ring.
Qed.
Print Assumptions C67_array_of_times_refuted.
