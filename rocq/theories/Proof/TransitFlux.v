(** light_curves/limb_dark.py and light_curves/emission.py: visible fluxes. *)
From Coq Require Import Reals Lra Lia ZArith List Bool Arith.
From Coquelicot Require Import Coquelicot.
From Verif Require Import Base.RealAux Model.LimbDark Model.LightCurves Model.TransitOrbit Model.Keplerian
  Spec.LimbDarkSpec Spec.RotationSpec Spec.BasisSpec Spec.DiskSpec Spec.OccultSpec Spec.YlmSpec Spec.SkySpec Spec.ShadowSpec Spec.QuadSpec Spec.OrbitSpec Spec.TransitSpec
  Proof.DiskRot Proof.Shadows Proof.YlmMore Proof.OrderLimit.
From Verif Require Spec.KeplerSpec Proof.LimbDarkProof Proof.TransitProof Proof.KeplerianProof Proof.KeplerianMore.
Import ListNotations.
Open Scope R_scope.

Definition F (u : list R) (x y : R) : R := ld_profile u (zdisk x y).
Lemma F_cont u : disk_cont (F u).
Proof.
  apply (disk_cont_open (hides (F u) (3, 0, 1))); [|exact (proj1 (ld_hides u 3 0 1))]. intros x y H. unfold hides, unhidden_by. destruct (Rlt_dec _ _) as [L|L]; [exfalso; nra|reflexivity].
Qed.
Lemma past_nil u : flux_past [] (ld_disk u) = ld_flux u.
Proof. unfold flux_past, ld_flux. apply disk_ext_in. intros x y _. reflexivity. Qed.
Lemma past_one u o : flux_past [o] (ld_disk u) = disk_integral (hides (F u) o).
Proof.
  unfold flux_past. apply disk_ext_in. intros x y _. destruct o as [[xo yo] r]. unfold times_hidden, over, hides, unhidden_by, F, ld_disk. cbn [filter snd]. destruct (Rlt_dec _ _); reflexivity.
Qed.
Lemma counted_form u l : flux_counted l (ld_disk u) = ld_flux u + Rsum (map (fun o => disk_integral (hides (F u) o) - ld_flux u) l).
Proof.
  destruct (counted_sum l (F u) (F_cont u)) as [_ E]; [|exact E]. apply List.Forall_forall. intros [[x y] r] _. exact (proj1 (ld_hides u x y r)).
Qed.
Lemma limit_const v : order_limit (fun _ _ => v) v.
Proof. intros d Hd. exists 0%nat. intros. exists 1. split; [lra|]. intros. rewrite Rminus_eq_0, Rabs_R0. lra. Qed.
Lemma limit_plus f g v w : order_limit f v -> order_limit g w -> order_limit (fun e r => f e r + g e r) (v + w).
Proof.
  intros A B d Hd. destruct (A (d / 2) ltac:(lra)) as (N & HN). destruct (B (d / 2) ltac:(lra)) as (M & HM). exists (Nat.max N M). intros n rule Hn G.
  destruct (HN n rule ltac:(lia) G) as (e1 & P1 & H1). destruct (HM n rule ltac:(lia) G) as (e2 & P2 & H2). exists (Rmin e1 e2). split; [now apply Rmin_glb_lt|]. intros eps He.
  pose proof (Rmin_l e1 e2). pose proof (Rmin_r e1 e2). specialize (H1 eps ltac:(lra)). specialize (H2 eps ltac:(lra)).
  replace (f eps rule + g eps rule - (v + w)) with ((f eps rule - v) + (g eps rule - w)) by ring. apply Rle_trans with (1 := Rabs_triang _ _). lra.
Qed.
Lemma limit_scal c f v : order_limit f v -> order_limit (fun e r => c * f e r) (c * v).
Proof.
  intros A d Hd. pose proof (Rabs_pos c) as P. destruct (A (d / (Rabs c + 1)) ltac:(apply Rdiv_lt_0_compat; lra)) as (N & HN). exists N. intros n rule Hn G. destruct (HN n rule Hn G) as (e & Pe & H). exists e. split; [exact Pe|]. intros eps He. specialize (H eps He).
  rewrite <- Rmult_minus_distr_l, Rabs_mult. apply Rle_trans with ((Rabs c + 1) * (d / (Rabs c + 1))); [|right; field; lra]. apply Rmult_le_compat; try apply Rabs_pos; lra.
Qed.
Lemma limit_ext f g v w : (forall e r, f e r = g e r) -> v = w -> order_limit f v -> order_limit g w.
Proof. intros E <- H d Hd. destruct (H d Hd) as (N & HN). exists N. intros n rule Hn G. destruct (HN n rule Hn G) as (e & Pe & Q). exists e. split; [exact Pe|]. intros eps He. rewrite <- E. now apply Q. Qed.
Lemma limit_sum {A} (l : list A) (f : A -> R -> list (R * R) -> R) v : (forall a, In a l -> order_limit (f a) (v a)) -> order_limit (fun e r => Rsum (map (fun a => f a e r) l)) (Rsum (map v l)).
Proof.
  induction l as [|a l IH]; intros H; [apply (limit_const 0)|]. cbn [map Rsum fold_right]. apply (limit_plus (f a) (fun e r => Rsum (map (fun a => f a e r) l))); [apply H; now left|]. apply IH. intros b Hb. apply H. now right.
Qed.
Lemma limit_le f v d : order_limit f v -> 0 < d -> exists N, forall n rule, (N <= n)%nat -> gauss_legendre n rule -> exists eps0, 0 < eps0 /\ forall eps, 0 < eps <= eps0 -> v - d <= f eps rule <= v + d.
Proof.
  intros H Hd. destruct (H d Hd) as (N & HN). exists N. intros n rule Hn G. destruct (HN n rule Hn G) as (e & Pe & Q). exists e. split; [exact Pe|]. intros eps He. assert (B := Q eps He). apply Rabs_le_between in B. lra.
Qed.
Lemma scaled_sep s x y : 0 < s -> sqrt ((x / s) ^ 2 + (y / s) ^ 2) = sqrt (x ^ 2 + y ^ 2) / s.
Proof.
  intros Hs. replace ((x / s) ^ 2 + (y / s) ^ 2) with ((x ^ 2 + y ^ 2) / (s * s)) by (field; lra). rewrite sqrt_div_alt by nra. now rewrite sqrt_square by lra.
Qed.
Lemma one_limit u s x y r : 0 < s -> 0 <= r -> disk_flux u <> 0 -> ~ same_disk [(x / s, y / s, r / s)] ->
  order_limit (fun eps rule => light_curve eps rule u (sqrt (x ^ 2 + y ^ 2) / s) (r / s)) (disk_integral (hides (F u) (x / s, y / s, r / s)) / ld_flux u - 1).
Proof.
  intros Hs Hr HF Hn. rewrite <- scaled_sep by exact Hs. set (b := sqrt ((x / s) ^ 2 + (y / s) ^ 2)). assert (Hb : 0 <= b) by apply sqrt_pos. assert (Hq : 0 <= r / s) by now apply Rdiv_le_0_compat.
  rewrite ld_flux_disk. unfold F. rewrite (proj2 (ld_hides u (x / s) (y / s) (r / s))). fold b. assert (N : ~ (Rabs b = 0 /\ Rabs (r / s) = 1)).
  { rewrite (Rabs_right b), (Rabs_right (r / s)) by lra. intros [B1 B2]. apply Hn. left. unfold b in B1. apply sqrt_eq_0 in B1; [|nra]. assert (x / s = 0) by nra. assert (y / s = 0) by nra. now rewrite H, H0, B2. }
  intros d Hd. destruct (light_curve_limit u b (r / s) HF N d Hd) as (M & HM). exists M. rewrite (Rabs_right b), (Rabs_right (r / s)) in HM by lra. exact HM.
Qed.
(** transits *)
Lemma transit_limit orbit u t : 0 < lo_central_radius orbit -> 0 <= lo_radius orbit -> disk_flux u <> 0 ->
  let l := in_front (lo_central_radius orbit) (lo_radius orbit) (lo_relative_position orbit t) in ~ same_disk l ->
  order_limit (fun eps rule => transit_light_curve eps rule orbit u t) (flux_past l (ld_disk u) / ld_flux u - 1).
Proof.
  intros Hs Hr HF l Hn. assert (HL : ld_flux u <> 0) by now rewrite ld_flux_disk. unfold transit_light_curve, l, in_front in *. destruct (lo_relative_position orbit t) as [[x y] z]. unfold Rgtb, Rltb. destruct (Rlt_dec 0 z) as [Hz|Hz].
  - rewrite past_one. now apply one_limit.
  - apply (limit_ext (fun _ _ => 0) _ 0); [reflexivity| |apply limit_const]. rewrite past_nil. field. exact HL.
Qed.
(** emission: the star *)
Lemma emission_star_limit r_star u bodies t : 0 < r_star -> (forall bd, In bd bodies -> 0 <= eb_radius bd) -> disk_flux u <> 0 -> ~ same_disk (emission_occultors r_star bodies t) ->
  order_limit (fun eps rule => nth 0 (emission_light_curve eps rule r_star u bodies t) 0) (flux_counted (emission_occultors r_star bodies t) (ld_disk u) / ld_flux u).
Proof.
  intros Hs Hr HF Hn. assert (HL : ld_flux u <> 0) by now rewrite ld_flux_disk. rewrite counted_form.
  apply (limit_ext (fun eps rule => Rsum (map (fun bd => transit_light_curve eps rule {| lo_central_radius := r_star; lo_radius := eb_radius bd; lo_relative_position := eb_relative_position bd |} u t) bodies) + 1) _
     (Rsum (map (fun bd => flux_past (in_front r_star (eb_radius bd) (eb_relative_position bd t)) (ld_disk u) / ld_flux u - 1) bodies) + 1)).
  - intros e r. reflexivity.
  - replace ((ld_flux u + Rsum (map (fun o => disk_integral (hides (F u) o) - ld_flux u) (emission_occultors r_star bodies t))) / ld_flux u) with (Rsum (map (fun o => disk_integral (hides (F u) o) - ld_flux u) (emission_occultors r_star bodies t)) / ld_flux u + 1) by (field; exact HL).
    f_equal. clear Hn Hr. induction bodies as [|bd l IH]; [change (0 = 0 / ld_flux u); field; exact HL|]. unfold emission_occultors in *. cbn [flat_map map Rsum fold_right]. rewrite map_app. fold (Rsum (map (fun bd => flux_past (in_front r_star (eb_radius bd) (eb_relative_position bd t)) (ld_disk u) / ld_flux u - 1) l)). rewrite IH.
    rewrite Rsum_app.
    unfold in_front at 1 3. destruct (eb_relative_position bd t) as [[x y] z]. destruct (Rlt_dec 0 z); [rewrite past_one|rewrite past_nil]; cbn [map Rsum fold_right]; field; exact HL.
  - apply limit_plus; [|apply limit_const]. apply (limit_sum bodies (fun bd eps rule => transit_light_curve eps rule {| lo_central_radius := r_star; lo_radius := eb_radius bd; lo_relative_position := eb_relative_position bd |} u t)).
    intros bd Hb. apply (transit_limit {| lo_central_radius := r_star; lo_radius := eb_radius bd; lo_relative_position := eb_relative_position bd |} u t); cbn [lo_central_radius lo_radius lo_relative_position]; [exact Hs|now apply Hr|exact HF|].
    intros I. apply Hn. unfold same_disk, emission_occultors in *. apply in_flat_map. exists bd. now split.
Qed.
(** the bodies *)
Lemma emission_body_limit r_star u bodies t i bd : nth_error bodies i = Some bd -> 0 < eb_radius bd -> 0 <= r_star -> disk_flux (eb_u bd) <> 0 -> ~ same_disk (behind (eb_radius bd) r_star (eb_relative_position bd t)) ->
  order_limit (fun eps rule => nth (S i) (emission_light_curve eps rule r_star u bodies t) 0) (eb_amplitude bd * (flux_past (behind (eb_radius bd) r_star (eb_relative_position bd t)) (ld_disk (eb_u bd)) / ld_flux (eb_u bd))).
Proof.
  intros Hi Hb Hs HF Hn. assert (HL : ld_flux (eb_u bd) <> 0) by now rewrite ld_flux_disk.
  apply (limit_ext (fun eps rule => eb_amplitude bd * (1 + let '(x, y, z) := eb_relative_position bd t in if Rltb z 0 then light_curve eps rule (eb_u bd) (sqrt (x^2 + y^2) / eb_radius bd) (r_star / eb_radius bd) else 0)) _
    (eb_amplitude bd * (1 + (flux_past (behind (eb_radius bd) r_star (eb_relative_position bd t)) (ld_disk (eb_u bd)) / ld_flux (eb_u bd) - 1)))).
  - intros e r. rewrite (TransitProof.emission_body_nth _ _ _ _ _ _ _ _ Hi). unfold emission_body. destruct (eb_relative_position bd t) as [[x y] z]. reflexivity.
  - ring.
  - apply (limit_scal (eb_amplitude bd)). apply limit_plus; [apply limit_const|]. unfold behind in *. destruct (eb_relative_position bd t) as [[x y] z]. unfold Rltb. destruct (Rlt_dec z 0).
    + rewrite past_one. assert (E : x ^ 2 + y ^ 2 = (- x) ^ 2 + (- y) ^ 2) by ring. rewrite E. now apply (one_limit (eb_u bd) (eb_radius bd) (- x) (- y) r_star).
    + rewrite past_nil. apply (limit_ext (fun _ _ => 0) _ 0); [reflexivity|field; exact HL|apply limit_const].
Qed.
(** ** profiles that are not negative *)
Lemma disk_int_le f g : disk_cont f -> disk_cont g -> (forall x y, in_disk x y -> f x y <= g x y) -> disk_integral f <= disk_integral g.
Proof.
  intros (a & A1 & A2) (b & B1 & B2) H. rewrite (disk_val f a A1), (disk_val g b B1). pose proof PI_RGT_0 as P. apply RInt_le; [lra| | |].
  - apply (ex_RInt_continuous (V := R_CompleteNormedModule)). intros t _. apply A2.
  - apply (ex_RInt_continuous (V := R_CompleteNormedModule)). intros t _. apply B2.
  - intros t _. apply (is_RInt_le (fun rho => f (rho * cos t) (rho * sin t) * rho) (fun rho => g (rho * cos t) (rho * sin t) * rho) 0 1); [lra|apply A1|apply B1|]. intros rho Hr. apply Rmult_le_compat_r; [lra|]. apply H.
    unfold in_disk. pose proof (sin2_cos2 t) as Q. unfold Rsqr in Q. replace ((rho * cos t) ^ 2 + (rho * sin t) ^ 2) with (rho ^ 2 * (sin t * sin t + cos t * cos t)) by ring. rewrite Q. nra.
Qed.
Lemma past_bounds u o : (forall z, 0 <= z <= 1 -> 0 <= ld_profile u z) -> 0 <= disk_integral (hides (F u) o) <= ld_flux u.
Proof.
  intros H. assert (Hz : forall x y, in_disk x y -> 0 <= F u x y). { intros x y D. apply H. unfold zdisk. split; [apply sqrt_pos|]. rewrite <- sqrt_1 at 2. apply sqrt_le_1_alt. unfold in_disk in D. nra. }
  destruct o as [[xo yo] r]. assert (C := proj1 (ld_hides u xo yo r)). fold (F u) in C. split.
  - rewrite <- disk_int_zero. apply disk_int_le; [apply disk_cont_zero|exact C|]. intros x y D. unfold hides, unhidden_by. destruct (Rlt_dec _ _); [lra|now apply Hz].
  - apply (disk_int_le (hides (F u) (xo, yo, r)) (F u)); [exact C|apply F_cont|]. intros x y D. unfold hides, unhidden_by. destruct (Rlt_dec _ _); [now apply Hz|lra].
Qed.
Lemma transit_bounds orbit u t : 0 < lo_central_radius orbit -> 0 <= lo_radius orbit -> disk_flux u <> 0 -> (forall z, 0 <= z <= 1 -> 0 <= ld_profile u z) ->
  ~ same_disk (in_front (lo_central_radius orbit) (lo_radius orbit) (lo_relative_position orbit t)) -> forall delta, 0 < delta ->
  exists N, forall n rule, (N <= n)%nat -> gauss_legendre n rule -> exists eps0, 0 < eps0 /\ forall eps, 0 < eps <= eps0 -> -1 - delta <= transit_light_curve eps rule orbit u t <= delta.
Proof.
  intros Hs Hr HF Hp Hn d Hd. set (l := in_front (lo_central_radius orbit) (lo_radius orbit) (lo_relative_position orbit t)) in *.
  assert (B : -1 <= flux_past l (ld_disk u) / ld_flux u - 1 <= 0).
  { assert (L0 : 0 <= ld_flux u). { assert (Q := past_bounds u (0, 0, 0) Hp). lra. } assert (L1 : ld_flux u <> 0) by now rewrite ld_flux_disk. assert (L2 : 0 < ld_flux u) by lra.
    assert (Q : 0 <= flux_past l (ld_disk u) <= ld_flux u). { unfold l, in_front. destruct (lo_relative_position orbit t) as [[x y] z]. destruct (Rlt_dec 0 z); [rewrite past_one; now apply past_bounds|rewrite past_nil; lra]. }
    assert (0 <= flux_past l (ld_disk u) / ld_flux u) by (apply Rdiv_le_0_compat; lra). assert (flux_past l (ld_disk u) / ld_flux u <= 1) by (apply Rmult_le_reg_r with (ld_flux u); [lra|]; unfold Rdiv; rewrite Rmult_assoc, Rinv_l; lra). lra. }
  destruct (limit_le _ _ d (transit_limit orbit u t Hs Hr HF Hn) Hd) as (N & HN). exists N. intros n rule Hk G. destruct (HN n rule Hk G) as (e & Pe & Q). exists e. split; [exact Pe|]. intros eps He. specialize (Q eps He). fold l in Q. lra.
Qed.
(** ** in terms of the impact parameter *)
Lemma front_limit orbit u t : 0 < lo_central_radius orbit -> 0 <= lo_radius orbit -> disk_flux u <> 0 -> 0 < depth_z (lo_relative_position orbit t) ->
  let b := separation (lo_relative_position orbit t) / lo_central_radius orbit in let r := lo_radius orbit / lo_central_radius orbit in ~ (b = 0 /\ r = 1) ->
  order_limit (fun eps rule => transit_light_curve eps rule orbit u t) (occulted_flux u b r / disk_flux u - 1).
Proof.
  intros Hs Hr HF Hz b r Hn. unfold b, r in *. clear b r. destruct (lo_relative_position orbit t) as [[x y] z] eqn:E. unfold separation, depth_z in *. cbn [snd] in Hz. set (s := lo_central_radius orbit) in *. set (rp := lo_radius orbit) in *.
  assert (Q : order_limit (fun eps rule => light_curve eps rule u (sqrt (x ^ 2 + y ^ 2) / s) (rp / s)) (disk_integral (hides (F u) (x / s, y / s, rp / s)) / ld_flux u - 1)).
  { apply one_limit; [exact Hs|exact Hr|exact HF|]. intros [I|[]]. injection I as I1 I2 I3. apply Hn. split; [|exact I3]. rewrite <- scaled_sep by exact Hs. rewrite I1, I2. replace (0 ^ 2 + 0 ^ 2) with 0 by ring. apply sqrt_0. }
  refine (limit_ext _ _ _ _ _ _ Q).
  - intros e q. symmetry. now apply (TransitProof.transit_lc_in_front e q orbit u t x y z).
  - rewrite ld_flux_disk. unfold F. rewrite (proj2 (ld_hides u (x / s) (y / s) (rp / s))), scaled_sep by exact Hs. reflexivity.
Qed.
Lemma keplerian_mid G au kep c bd o u rp : KeplerSpec.exact_solver kep -> orbit_ok o -> make_orbital G c bd = Ok o -> ob_parallax o = None -> 0 < c_radius c ->
  (forall e sw cw, ob_ecc o = Some (e, sw, cw) -> sw <> -1) -> 0 < ob_sin_incl o -> 0 <= rp -> disk_flux u <> 0 -> ~ (ob_impact o = 0 /\ rp = c_radius c) ->
  order_limit (fun eps rule => transit_light_curve eps rule (kep_lc_orbit au kep c o rp) u (ob_time_transit o)) (occulted_flux u (Rabs (ob_impact o)) (rp / c_radius c) / disk_flux u - 1).
Proof.
  intros Hk Ho Em Hp Hc Hw Hi Hr HF Hn. destruct (KeplerianMore.at_transit G au kep c bd o Hk Ho Em Hp Hc Hw Hi) as [A1 A2].
  set (orbit := kep_lc_orbit au kep c o rp). assert (E : lo_relative_position orbit (ob_time_transit o) = relative_position au kep o (ob_time_transit o) None) by reflexivity.
  assert (B : separation (lo_relative_position orbit (ob_time_transit o)) / lo_central_radius orbit = Rabs (ob_impact o)).
  { rewrite E. change (lo_central_radius orbit) with (c_radius c). transitivity (sky_sep (relative_position au kep o (ob_time_transit o) None) / c_radius c); [destruct (relative_position au kep o (ob_time_transit o) None) as [[x y] z]; reflexivity|]. rewrite A1. field. lra. }
  assert (L := front_limit orbit u (ob_time_transit o)). rewrite B in L. apply L; [exact Hc|exact Hr|exact HF| |].
  - rewrite E. destruct (relative_position au kep o (ob_time_transit o) None) as [[x y] z]. exact A2.
  - intros [I1 I2]. apply Hn. split; [now apply Rabs_eq_0|]. change (rp / c_radius c = 1) in I2. replace rp with (rp / c_radius c * c_radius c) by (field; lra). rewrite I2. ring.
Qed.
Lemma transit_mid o u k : 0 < to_period o -> 0 < to_duration o -> 0 <= to_ror o -> disk_flux u <> 0 -> ~ (to_impact o = 0 /\ to_ror o = 1) ->
  order_limit (fun eps rule => transit_light_curve eps rule (to_lc_orbit o) u (to_time_transit o + IZR k * to_period o)) (occulted_flux u (Rabs (to_impact o)) (to_ror o) / disk_flux u - 1).
Proof.
  intros HP HD Hr HF Hn. set (t := to_time_transit o + IZR k * to_period o). assert (E : lo_relative_position (to_lc_orbit o) t = (0, to_impact o, 1)) by now apply TransitProof.to_at_transit.
  assert (B : separation (lo_relative_position (to_lc_orbit o) t) / lo_central_radius (to_lc_orbit o) = Rabs (to_impact o)).
  { rewrite E. cbn [separation to_lc_orbit lo_central_radius to_central_radius]. unfold to_central_radius. rewrite Rdiv_1. rewrite <- sqrt_Rsqr_abs. f_equal. unfold Rsqr. ring. }
  assert (L := front_limit (to_lc_orbit o) u t). rewrite B in L. cbn [to_lc_orbit lo_radius lo_central_radius] in L. unfold to_central_radius, to_radius in L. rewrite Rdiv_1 in L. apply L; [lra|exact Hr|exact HF| |].
  - change (0 < depth_z (lo_relative_position (to_lc_orbit o) t)). rewrite E. unfold depth_z. cbn [snd]. lra.
  - intros [I1 I2]. apply Hn. split; [now apply Rabs_eq_0|exact I2].
Qed.
(** the light curve of a TransitOrbit is symmetric about every transit *)
Lemma transit_symmetric eps rule o u k s : 0 < to_period o ->
  transit_light_curve eps rule (to_lc_orbit o) u (to_time_transit o + IZR k * to_period o + s) = transit_light_curve eps rule (to_lc_orbit o) u (to_time_transit o + IZR k * to_period o - s).
Proof.
  intros HP. set (t1 := to_time_transit o + IZR k * to_period o + s). set (t2 := to_time_transit o + IZR k * to_period o - s).
  assert (A : to_dt o t2 = - to_dt o t1 \/ to_dt o t2 = to_dt o t1).
  { destruct (TransitProof.to_dt_decomp o t1) as [i Ei]. destruct (TransitProof.to_dt_decomp o t2) as [j Ej]. pose proof (TransitProof.to_dt_range o t1 HP) as R1. pose proof (TransitProof.to_dt_range o t2 HP) as R2. set (d1 := to_dt o t1) in *. set (d2 := to_dt o t2) in *. set (P := to_period o) in *.
    assert (E : d1 + d2 = IZR (2 * k - i - j) * P). { rewrite !minus_IZR, mult_IZR. unfold t1 in Ei. unfold t2 in Ej. lra. }
    set (m := (2 * k - i - j)%Z) in *. assert (M1 : (-1 <= m)%Z). { apply le_IZR. apply Rmult_le_reg_r with P; [exact HP|]. lra. } assert (M2 : (m < 1)%Z). { apply lt_IZR. apply Rmult_lt_reg_r with P; [exact HP|]. lra. }
    assert (m = 0 \/ m = -1)%Z as [-> | ->] by lia; [left; lra|right]. assert (d1 = - (P / 2)) by lra. assert (d2 = - (P / 2)) by lra. lra. }
  unfold transit_light_curve. cbn [to_lc_orbit lo_central_radius lo_radius lo_relative_position]. unfold to_relative_position. cbv zeta.
  assert (B : Rabs (to_dt o t2) = Rabs (to_dt o t1)) by (destruct A as [-> | ->]; [apply Rabs_Ropp|reflexivity]). rewrite B.
  replace ((to_speed o * to_dt o t2) ^ 2) with ((to_speed o * to_dt o t1) ^ 2) by (destruct A as [-> | ->]; ring). reflexivity.
Qed.
(** ** bodies in front of each other *)
Definition giant : em_body := {| eb_radius := 2; eb_relative_position := fun _ => (0, 0, 1); eb_u := []; eb_amplitude := 0 |}.
Lemma emission_overlap eps rule : nth 0 (emission_light_curve eps rule 1 [] [giant; giant] 0) 0 = -1 /\ flux_past (emission_occultors 1 [giant; giant] 0) (ld_disk []) = 0.
Proof.
  split.
  - unfold emission_light_curve, emission_central. cbn [nth map giant eb_relative_position eb_radius]. replace (0 ^ 2 + 0 ^ 2) with 0 by ring. rewrite sqrt_0. rewrite LimbDarkProof.light_curve_full_occ.
    + unfold Rgtb, Rltb. destruct (Rlt_dec 0 1); [|lra]. cbn [Rsum fold_right]. ring.
    + replace (0 / 1) with 0 by field. rewrite Rabs_R0, Rabs_right by lra. lra.
    + rewrite (Rabs_right (2 / 1)) by lra. lra.
  - rewrite <- disk_int_zero. unfold flux_past. apply disk_ext_in. intros x y D. unfold emission_occultors. cbn [flat_map giant eb_relative_position eb_radius]. unfold in_front. destruct (Rlt_dec 0 1); [|lra]. cbn [app].
    unfold times_hidden, over. cbn [filter]. unfold in_disk in D. destruct (Rlt_dec ((x - 0 / 1) ^ 2 + (y - 0 / 1) ^ 2) ((2 / 1) ^ 2)) as [L|L]; [reflexivity|]. exfalso. apply L. nra.
Qed.
