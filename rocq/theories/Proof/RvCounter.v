(** Two planets in front of a star: the added effects are not the mean velocity of the visible part. *)
From Coq Require Import Reals Lra Lia ZArith List Arith Bool.
From Coquelicot Require Import Coquelicot.
From Verif Require Import Base.RealAux Base.Dict Model.Keplerian Model.SurfaceSystem Model.Poly Model.Basis Model.S2fft Model.Rotation Model.SolutionVector Model.Ylm Model.Surface Model.StarryLightCurve
  Spec.LimbDarkSpec Spec.HarmonicSpec Spec.RotationSpec Spec.BasisSpec Spec.DiskSpec Spec.OccultSpec Spec.YlmSpec Spec.SurfaceSpec Spec.SystemSpec Spec.SkySpec Spec.ShadowSpec Spec.QuadSpec Spec.RvSystemSpec
  Proof.Euler Proof.OccultedFlux Proof.DiskProof Proof.DiskRot Proof.DopplerProof Proof.Shadows Proof.AxisAngle Proof.SystemExamples Proof.ShadowExamples Proof.TransitFlux Proof.LimbDarkArea Proof.SurfaceFacts Proof.PrecisionProof Proof.SystemRv Properties.LimbDarkProps Properties.OccultProps.
From Verif Require Model.LimbDark.
Import ListNotations.
Open Scope R_scope.

Definition pebble1 : occultor := (1 / 2, 3 / 8, 1 / 5).
Definition pebble2 : occultor := (1 / 2, - (3 / 8), 1 / 5).
(** a uniform star turning once in 27 days *)
Definition turning_star : surface := {| s_y := {| y_data := [((0, 0)%Z, 1)]; y_deg := 0; y_diagonal := true |}; s_inc := Some (PI / 2); s_obl := Some 0; s_u := []; s_period := Some 27; s_amplitude := 1; s_normalize := true; s_phase := 0; s_radius := 1; s_shear := None |}.

Lemma area_inside b r : 0 <= b -> 0 < r -> b + r <= 1 -> r < 1 -> occulted_flux [] b r = PI * (1 - r ^ 2).
Proof.
  intros Hb Hr H H1. pose proof PI_RGT_0 as P. assert (F : disk_flux [] = PI) by (rewrite C11_disk_flux_closed_form; cbn; ring).
  assert (Rb : Rabs b = b) by (apply Rabs_right; lra). assert (Rr : Rabs r = r) by (apply Rabs_right; lra).
  assert (E := C75_visible_flux_general 1 [] [] b r). rewrite C12_uniform_disk_overlap, F, Rb, Rr in E. specialize (E ltac:(apply Rgt_not_eq; lra) ltac:(lra) ltac:(lra)). cbn [length bigsum] in E.
  rewrite overlap_inside in E by lra. cbn [LimbDark.greens_basis_transform] in E.
  assert (E' : occulted_flux [] b r = PI * (- (PI * r ^ 2) / PI + 1)). { rewrite E. field. lra. } rewrite E'. field. lra.
Qed.
Lemma pebble_b y : y ^ 2 = 9 / 64 -> sqrt ((1 / 2) ^ 2 + y ^ 2) + 1 / 5 <= 1 /\ 1 / 2 <= sqrt ((1 / 2) ^ 2 + y ^ 2).
Proof.
  intros Hy. rewrite Hy. split.
  - assert (sqrt ((1 / 2) ^ 2 + 9 / 64) <= 4 / 5); [|lra]. rewrite <- (sqrt_square (4 / 5)) by lra. apply sqrt_le_1_alt. lra.
  - rewrite <- (sqrt_square (1 / 2)) at 1 by lra. apply sqrt_le_1_alt. lra.
Qed.
(** the first moment past an occultor inside the disk *)
Lemma x_cont yo : yo ^ 2 = 9 / 64 -> disk_cont (hides (fun x _ => x) (1 / 2, yo, 1 / 5)).
Proof.
  intros Hy. destruct (pebble_b yo Hy) as [B1 B2]. pose proof PI_RGT_0 as P. assert (S3 : 0 < sqrt 3) by (apply sqrt_lt_R0; lra).
  destruct A2_exists as (A2 & HA). destruct (one_occultor rotvec_zyz rotvec_zyz_ok spotty spotty_wf A2 (/ 10000) [] [] (rotational_phase spotty 0)) with (x := 1 / 2) (y := yo) (r := 1 / 5) (z := 1) as (e & _ & C & _).
  - cbn. discriminate.
  - lra.
  - apply HA. cbn. lia.
  - lra.
  - unfold regular. split; [lra|]. split; [lra|]. intros _ _. right. split; [lra|]. split; [right; lra|]. intros x w [].
  - assert (C0 := proj1 (ld_hides [] (1 / 2) yo (1 / 5))). cbv zeta in C0. apply (disk_cont_scal (- / PI)) in C0. assert (C1 := disk_cont_scal (2 * PI / sqrt 3) _ (disk_cont_plus _ _ C C0)). refine (disk_cont_ext _ _ _ C1).
    intros x y. unfold hides, unhidden_by. destruct (Rlt_dec _ _); [ring|]. rewrite spotty_seen. unfold ld_profile. cbn [length bigsum]. field. lra.
Qed.
Lemma x_moment yo : yo ^ 2 = 9 / 64 -> disk_integral (hides (fun x _ => x) (1 / 2, yo, 1 / 5)) < 0.
Proof.
  intros Hy. destruct (pebble_b yo Hy) as [B1 B2]. pose proof PI_RGT_0 as P. destruct (ld_hides [] (1 / 2) yo (1 / 5)) as [C0 V]. cbv zeta in C0, V. rewrite area_inside in V by (try apply sqrt_pos; lra).
  set (h := hides (fun a b => ld_profile [] (zdisk a b)) (1 / 2, yo, 1 / 5)) in *.
  assert (C1 : disk_cont (fun x y => x ^ 1 * y ^ 0 * zdisk x y ^ 0)) by apply disk_cont_monomial. assert (C2 : disk_cont (fun x y => - (3 / 10) * (x ^ 0 * y ^ 0 * zdisk x y ^ 0))) by apply disk_cont_scal, disk_cont_monomial.
  assert (C3 := disk_cont_plus _ _ C1 C2). assert (C4 := disk_cont_scal (3 / 10) _ C0). assert (C5 := disk_cont_plus _ _ C3 C4).
  assert (L := disk_int_le _ _ (x_cont yo Hy) C5). rewrite disk_int_plus, disk_int_scal, V in L by assumption.
  rewrite (disk_ext (fun x y => x ^ 1 * y ^ 0 * zdisk x y ^ 0 + - (3 / 10) * (x ^ 0 * y ^ 0 * zdisk x y ^ 0)) (fun x _ => - (3 / 10) + 1 * x + 0 * (x * x))) in L by (intros; rewrite !pow_O, pow_1; ring). rewrite disk_lin in L.
  assert (T : 3 / 10 * (PI * (1 - (1 / 5) ^ 2)) + PI * (- (3 / 10) + 0 / 4) < 0) by nra. refine (Rle_lt_trans _ _ _ (L _) _); [|lra].
  intros x y B. unfold h, hides, unhidden_by. rewrite !pow_O, pow_1. replace (ld_profile [] (zdisk x y)) with 1 by (unfold ld_profile; cbn; ring). destruct (Rlt_dec _ _) as [D|D]; [|lra]. assert (Q := pow2_ge_0 (y - yo)). assert (3 / 10 <= x) by (apply Rnot_lt_le; intros N; nra). lra.
Qed.
Lemma star_seen t x y z : seen_of turning_star t (x, y, z) = / PI.
Proof.
  pose proof PI_RGT_0 as P. assert (S1 : 0 < sqrt PI) by (apply sqrt_lt_R0; lra). assert (S2 : sqrt PI * sqrt PI = PI) by (apply sqrt_sqrt; lra).
  unfold seen_of, seen_intensity. cbn [turning_star s_y s_u s_inc s_obl y_data snd]. destruct (seen_point _ _ _ _) as [[a b] d]. unfold coeffs_value. cbn [map Rsum fold_right fst snd]. change (Z.to_nat 0) with 0%nat. rewrite YlmFacts.Y00, sq4pi.
  unfold ld_profile. cbn [length bigsum]. transitivity (1 / (sqrt PI * sqrt PI)); [field; lra|rewrite S2; field; lra].
Qed.
Lemma star_moving veq t x y z : moving_of turning_star veq t (x, y, z) = / PI * veq * x.
Proof. unfold moving_of. rewrite star_seen. cbn [turning_star s_inc s_obl angle0]. unfold recession, pole, cross3. rewrite sin_PI2, sin_0, cos_PI2, cos_0. cbn [snd]. ring. Qed.
Lemma pebbles_disjoint : disjoint_shadows [pebble1; pebble2].
Proof.
  intros x y _. unfold times_hidden, pebble1, pebble2. cbn [filter over]. destruct (Rlt_dec _ _) as [A|A]; destruct (Rlt_dec _ _) as [B|B]; cbn [length]; try lia. exfalso.
  assert (Q := pow2_ge_0 (x - 1 / 2)). assert (H1 : 3 / 8 - y < 1 / 5) by (apply Rnot_le_lt; intros N; nra). assert (H2 : y - - (3 / 8) < 1 / 5) by (apply Rnot_le_lt; intros N; nra). lra.
Qed.
Lemma two_pebbles veq t : veq <> 0 -> velocity_counted turning_star veq t [pebble1; pebble2] <> mean_velocity turning_star veq t [pebble1; pebble2].
Proof.
  intros Hv. pose proof PI_RGT_0 as P. assert (Y1 : (3 / 8) ^ 2 = 9 / 64) by lra. assert (Y2 : (- (3 / 8)) ^ 2 = 9 / 64) by lra.
  assert (X1 := x_moment _ Y1). assert (X2 := x_moment _ Y2). fold pebble1 pebble2 in X1, X2. set (w1 := disk_integral _) in X1. set (w2 := disk_integral _) in X2.
  set (one := fun a b => ld_profile [] (zdisk a b)).
  assert (A : forall yo, yo ^ 2 = 9 / 64 -> disk_cont (hides one (1 / 2, yo, 1 / 5)) /\ disk_integral (hides one (1 / 2, yo, 1 / 5)) = PI * (24 / 25)).
  { intros yo Hy. destruct (pebble_b yo Hy) as [B1 B2]. destruct (ld_hides [] (1 / 2) yo (1 / 5)) as [C0 V]. cbv zeta in C0, V. split; [exact C0|]. unfold one. rewrite V, area_inside by (try apply sqrt_pos; lra). field. }
  destruct (A _ Y1) as [C1 V1]. destruct (A _ Y2) as [C2 V2]. fold pebble1 in C1, V1. fold pebble2 in C2, V2.
  assert (K1 := x_cont _ Y1). assert (K2 := x_cont _ Y2). fold pebble1 in K1. fold pebble2 in K2.
  assert (CO : disk_cont one) by (refine (disk_cont_ext (fun x y => x ^ 0 * y ^ 0 * zdisk x y ^ 0) _ _ (disk_cont_monomial 0 0 0)); intros; unfold one, ld_profile; cbn; ring).
  assert (CX : disk_cont (fun x _ : R => x)) by (refine (disk_cont_ext (fun x y => x ^ 1 * y ^ 0 * zdisk x y ^ 0) _ _ (disk_cont_monomial 1 0 0)); intros; cbn; ring).
  assert (VO : disk_integral one = PI). { rewrite (disk_ext one (fun x _ => 1 + 0 * x + 0 * (x * x))) by (intros; unfold one, ld_profile; cbn; ring). rewrite disk_lin. field. }
  assert (VX : disk_integral (fun x _ : R => x) = 0). { rewrite (disk_ext (fun x _ => x) (fun x _ => 0 + 1 * x + 0 * (x * x))) by (intros; ring). rewrite disk_lin. field. }
  (* fluxes *)
  assert (FI : forall l c, disk_cont (fun x y => (1 - INR (times_hidden l x y)) * one x y) -> disk_integral (fun x y => (1 - INR (times_hidden l x y)) * one x y) = c -> flux_counted l (seen_of turning_star t) = / PI * c).
  { intros l c HC Hc. unfold flux_counted. rewrite <- Hc, <- disk_int_scal by exact HC. apply disk_ext. intros. rewrite star_seen. unfold one, ld_profile. cbn [length bigsum]. ring. }
  assert (FV : forall l c, disk_cont (fun x y => (1 - INR (times_hidden l x y)) * x) -> disk_integral (fun x y => (1 - INR (times_hidden l x y)) * x) = c -> flux_counted l (moving_of turning_star veq t) = / PI * veq * c).
  { intros l c HC Hc. unfold flux_counted. rewrite <- Hc, <- disk_int_scal by exact HC. apply disk_ext. intros. rewrite star_moving. ring. }
  assert (D0 : disjoint_shadows []) by (intros x y _; cbn; lia).
  assert (D1 : forall o, disjoint_shadows [o]) by (intros o x y _; unfold times_hidden; cbn [filter]; destruct (over _ _ _); cbn; lia).
  assert (Sone : forall l, List.Forall (fun o => disk_cont (hides one o)) l -> flux_counted l (seen_of turning_star t) = / PI * (PI + Rsum (map (fun o => disk_integral (hides one o) - PI) l))).
  { intros l Hl. destruct (counted_sum l one CO Hl) as [Q1 Q2]. rewrite VO in Q2. apply FI; assumption. }
  assert (Sx : forall l, List.Forall (fun o => disk_cont (hides (fun x _ => x) o)) l -> flux_counted l (moving_of turning_star veq t) = / PI * veq * (0 + Rsum (map (fun o => disk_integral (hides (fun x _ => x) o) - 0) l))).
  { intros l Hl. destruct (counted_sum l (fun x _ => x) CX Hl) as [Q1 Q2]. rewrite VX in Q2. apply FV; assumption. }
  unfold velocity_counted, mean_velocity. rewrite <- !disjoint_counted by (try exact D0; try apply D1; exact pebbles_disjoint). cbn [map Rsum fold_right].
  rewrite <- !disjoint_counted by (try exact D0; try apply D1; exact pebbles_disjoint).
  rewrite !Sone, !Sx by (repeat constructor; assumption). cbn [map Rsum fold_right]. rewrite V1, V2. fold w1 w2.
  intros E. assert (w1 + w2 = 0); [|lra]. apply (Rmult_eq_reg_l (veq / PI * (25 / 23 - 25 / 24))).
  2:{ apply Rmult_integral_contrapositive_currified; [|lra]. apply Rmult_integral_contrapositive_currified; [exact Hv|apply Rinv_neq_0_compat; lra]. }
  rewrite Rmult_0_r.
  replace (/ PI * veq * (0 + (w1 - 0 + (w2 - 0 + 0))) / (/ PI * (PI + (PI * (24 / 25) - PI + (PI * (24 / 25) - PI + 0))))) with (veq / PI * (25 / 23) * (w1 + w2)) in E by (field; lra).
  match type of E with ?a = _ => assert (E2 : a = veq / PI * (25 / 24) * (w1 + w2)) by (field; lra) end. rewrite E2 in E. lra.
Qed.

(** two planets in transit: the sky position is 5/8 (4/5, +-3/5) *)
Definition pebble_body (sn cn : R) : body_of arr :=
  {| b_time_transit := None; b_time_peri := None; b_period := None; b_semimajor := Some (Sc 10); b_inclination := None;
     b_impact_param := Some (Sc (5 / 8)); b_eccentricity := None; b_omega_peri := None; b_sin_omega_peri := None;
     b_cos_omega_peri := None; b_asc_node := None; b_sin_asc_node := Some (Sc sn); b_cos_asc_node := Some (Sc cn);
     b_mass := None; b_radius := Some (Sc (1 / 5)); b_semiamplitude := Some (Sc 1); b_parallax := None |}.
Lemma pebble_orbit sn cn : exists o, make_orbital 1 sun (b_values (pebble_body sn cn)) = Ok o /\ make_body (pebble_body sn cn) = Ok (b_values (pebble_body sn cn)) /\ ob_radius o = Some (1 / 5) /\
  forall au kep, exists z, relative_position au kep o 0 None = (sn * (5 / 8), - cn * (5 / 8), z) /\ 0 < z.
Proof.
  eexists. split; [reflexivity|split; [reflexivity|split; [reflexivity|]]]. intros au kep. pose proof PI_RGT_0 as P. assert (S0 : 0 < sqrt (10 / (1 * 1))) by (apply sqrt_lt_R0; lra).
  unfold relative_position, position_and_velocity, true_anomaly_sc, mean_anomaly. cbn -[pow sqrt Rmult Rdiv Rplus Rminus Ropp].
  set (q := sqrt (10 / (1 * 1))) in *. assert (M : 2 * PI * (0 - 0 - - (0.5 * PI) * (2 * PI * 10 * q) / (2 * PI)) / (2 * PI * 10 * q) = PI / 2) by (replace 0.5 with (/ 2) by lra; field; lra). rewrite M, sin_PI2, cos_PI2.
  eexists. split; [apply triple_eq; [field|field|reflexivity]|].
  assert (0 < sqrt (1 - (1 * 1 / 10 * (5 / 8)) ^ 2)) by (apply sqrt_lt_R0; lra). nra.
Qed.

Definition pebbles : list (sbody * option surface) := [(SBody (pebble_body (4 / 5) (- (3 / 5))) None, None); (SBody (pebble_body (4 / 5) (3 / 5)) None, None)].
Lemma pebble_system : exists sys o os, make_ssystem 1 (Some sun) (Some turning_star) pebbles = Ok sys /\ ss_surface sys = turning_star /\ ss_bodies sys = o :: os /\ length (ss_bodies sys) = length (ss_surfaces sys) /\ 0 < c_radius (ss_central sys) /\
  forall au kep, occultors_of au kep sys 0 = [pebble1; pebble2] /\ List.Forall (regular_rv (/ 10000) [(0, 2)]) (occultors_of au kep sys 0).
Proof.
  destruct (pebble_orbit (4 / 5) (- (3 / 5))) as (o1 & E1 & B1 & R1 & H1). destruct (pebble_orbit (4 / 5) (3 / 5)) as (o2 & E2 & B2 & R2 & H2).
  exists {| ss_central := sun; ss_surface := turning_star; ss_bodies := [o1; o2]; ss_surfaces := [None; None] |}, o1, [o2].
  split; [unfold make_ssystem, pebbles; cbn [rbind build_sbodies]; rewrite B1; cbn [rbind]; rewrite E1; cbn [rbind]; rewrite B2; cbn [rbind]; rewrite E2; reflexivity|]. split; [reflexivity|split; [reflexivity|split; [reflexivity|split; [cbn; lra|]]]].
  intros au kep. destruct (H1 au kep) as (z1 & P1 & Z1). destruct (H2 au kep) as (z2 & P2 & Z2).
  assert (EO : occultors_of au kep {| ss_central := sun; ss_surface := turning_star; ss_bodies := [o1; o2]; ss_surfaces := [None; None] |} 0 = [pebble1; pebble2]).
  { unfold occultors_of. cbn [ss_bodies flat_map]. rewrite R1, R2, P1, P2. destruct (Rlt_dec 0 z1); [|contradiction]. destruct (Rlt_dec 0 z2); [|contradiction]. cbn [app ss_central sun c_radius]. unfold pebble1, pebble2.
    assert (T1 : (4 / 5 * (5 / 8) / 1, - - (3 / 5) * (5 / 8) / 1, 1 / 5 / 1) = (1 / 2, 3 / 8, 1 / 5)) by (apply triple_eq; field). assert (T2 : (4 / 5 * (5 / 8) / 1, - (3 / 5) * (5 / 8) / 1, 1 / 5 / 1) = (1 / 2, - (3 / 8), 1 / 5)) by (apply triple_eq; field). rewrite T1, T2. reflexivity. }
  split; [exact EO|]. rewrite EO. pose proof PI_RGT_0 as P.
  assert (G : forall yo, yo ^ 2 = 9 / 64 -> regular_rv (/ 10000) [(0, 2)] (1 / 2, yo, 1 / 5)).
  { intros yo Hy. destruct (pebble_b yo Hy) as [X1 X2]. unfold regular_rv. set (b := sqrt ((1 / 2) ^ 2 + yo ^ 2)) in *. split; [lra|]. split; [lra|]. intros _. right. split; [lra|]. split; [right; lra|]. intros x w [E|[]]. injection E as <- <-. split; [lra|].
    unfold edge_angle. destruct (Rle_dec _ _); [|lra]. unfold node_at. replace ((PI - 0) / 2 * 0 + (0 + PI) / 2) with (PI / 2) by field. rewrite cos_PI2. nra. }
  constructor; [apply G; lra|]. constructor; [apply G; lra|constructor].
Qed.
Lemma star_wf : wf_ylm (s_y turning_star).
Proof. split; [split; [constructor; [intros []|constructor]|intros k [<-|[]]; unfold valid_lm; cbn; lia]|]. cbn [y_data y_deg turning_star s_y]. split; [discriminate|split; [lia|split; [intros k [<-|[]]; cbn; lia|exists (0, 0)%Z; split; [left; reflexivity|reflexivity]]]]. Qed.
Lemma star_ready : surf_veq turning_star = Ok (2 * PI * 1 / 27) /\ 2 * PI * 1 / 27 <> 0 /\ s_shear turning_star = None /\ ld_flux (s_u turning_star) <> 0 /\ forall t, visible_flux (seen_of turning_star t) <> 0.
Proof.
  pose proof PI_RGT_0 as P. split; [|split; [|split; [reflexivity|split]]].
  - unfold surf_veq. cbn [turning_star s_period s_radius]. unfold Reqb. destruct (Req_EM_T 27 0); [lra|reflexivity].
  - apply Rgt_not_eq. apply Rdiv_lt_0_compat; lra.
  - cbn [turning_star s_u]. change (ld_flux []) with (ld_flux (repeat 1 0)). apply ones_ne.
  - intros t. unfold visible_flux. rewrite (disk_ext _ (fun x _ => / PI + 0 * x + 0 * (x * x))) by (intros; rewrite star_seen; ring). rewrite disk_lin. replace (PI * (/ PI + 0 / 4)) with 1 by (field; lra). lra.
Qed.
