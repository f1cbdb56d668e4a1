(** Convergence with the order of the radial velocity of an occulted surface. *)
From Coq Require Import Reals Lra Lia ZArith List Arith Bool.
From Coquelicot Require Import Coquelicot.
From Verif Require Import Base.RealAux Base.Analysis Model.Poly Model.Basis Model.S2fft Model.Rotation Model.SolutionVector Model.Ylm Model.Surface Model.StarryLightCurve
  Spec.BasisSpec Spec.HarmonicSpec Spec.RotationSpec Spec.DiskSpec Spec.OccultSpec Spec.YlmSpec Spec.SurfaceSpec Spec.SystemSpec Spec.SkySpec Spec.QuadSpec
  Proof.KeplerStarter Proof.PolyProof Proof.Occult Proof.Euler Proof.SurfaceProof Proof.OccultedSky Proof.OccultedFlux Proof.OrderLimit Proof.EvenError Proof.OddLimit Proof.MapLimit Proof.DiskRot Proof.Shadows Proof.TransitFlux Spec.LimbDarkSpec Spec.ShadowSpec Properties.SkyProps.
Import ListNotations.
Open Scope R_scope.

Lemma rv_limit as_euler A2 s veq theta x y : zyz_euler as_euler -> wf_ylm (s_y s) -> surf_veq s = Ok veq -> s_shear s = None -> ld_flux (s_u s) <> 0 ->
  right_inverse (ncoef (surf_deg s + 1)) (A2_inv (Z.of_nat (surf_deg s + 1))) (A2 (surf_deg s + 1)%nat) ->
  let D := (surf_deg s + 1)%nat in let b := sqrt (x ^ 2 + y ^ 2) in
  let I := seen_intensity (y_data (s_y s)) (s_u s) (s_inc s) (s_obl s) theta in
  let V p := I p * recession veq (match s_inc s with Some i => i | None => PI / 2 end) (angle0 (s_obl s)) p in
  exists g h, green_coefficients D g (turned x y V) /\ green_coefficients D h (turned x y I) /\
  forall r, 0 <= r -> b < 1 + r -> r < 1 + b -> even_bounds 20 D h b r < Rabs (unhidden_flux x y r I) -> forall delta, 0 < delta ->
  exists N, forall n low high, (N <= n)%nat -> gauss_legendre (Nat.min n 20) low -> gauss_legendre n high -> exists eps0, 0 < eps0 /\ forall eps, 0 < eps <= eps0 ->
  exists num den, (forall z, 0 < z -> surface_radial_velocity as_euler eps low high A2 s (Some r) (Some x) (Some y) (Some z) theta = Ok (s_amplitude s * (num / den))) /\ den <> 0 /\
    Rabs (num - unhidden_flux x y r V) <= delta + even_bounds 20 D g b r /\ Rabs (den - unhidden_flux x y r I) <= delta + even_bounds 20 D h b r.
Proof.
  intros Hz Hy Hv Hs Hl HA D b I V. destruct (C79_partly_hidden as_euler A2 s veq theta x y Hz Hy Hv Hs Hl HA) as (g & h & Hg & Hh & H). exists g, h. split; [exact Hg|]. split; [exact Hh|].
  intros r Hr H1 H2 Hden delta Hd. assert (Hb : 0 <= b) by apply sqrt_pos. fold D b in H. change (unhidden_flux x y r I) with (unhidden_flux x y r I) in H.
  set (Sg := bigsum ((D + 1) * (D + 1)) (fun n => Rabs (g n))). set (Sh := bigsum ((D + 1) * (D + 1)) (fun n => Rabs (h n))).
  assert (S1 : 0 <= Sg) by (apply bigsum_nonneg; intros; apply Rabs_pos). assert (S2 : 0 <= Sh) by (apply bigsum_nonneg; intros; apply Rabs_pos).
  set (gap := Rabs (unhidden_flux x y r I) - even_bounds 20 D h b r). assert (Hgap : 0 < gap) by (unfold gap; lra). set (dd := Rmin delta (gap / 2)). assert (Hdd : 0 < dd) by (apply Rmin_glb_lt; lra).
  set (d := dd / (Sg + Sh + 1)). assert (Hd' : 0 < d) by (apply Rdiv_lt_0_compat; lra).
  destruct (nat_bound2 (fun l nu n => forall rule, gauss_legendre n rule -> Rabs (green_error rule b r l nu) <= d) D) as (N & HN). { intros l nu _ _. now apply green_limit. }
  exists (Nat.max N 20). intros n low high Hn Gl Gh. replace (Nat.min n 20) with 20%nat in Gl by lia. destruct (guards_eventually n high b r Hb Hr H1 H2 Gh) as (e & He & C). exists e. split; [exact He|]. intros eps He0.
  assert (Bg := edge_errors_split D g low high 20 b r d ltac:(lia) Gl Hb Hr H1 H2 (Rlt_le _ _ Hd') (fun l nu Hl Hnu _ => HN l nu n Hl ltac:(lia) ltac:(lia) high Gh)). fold Sg in Bg.
  assert (Bh := edge_errors_split D h low high 20 b r d ltac:(lia) Gl Hb Hr H1 H2 (Rlt_le _ _ Hd') (fun l nu Hl Hnu _ => HN l nu n Hl ltac:(lia) ltac:(lia) high Gh)). fold Sh in Bh.
  assert (E : (Sg + Sh + 1) * d = dd) by (unfold d; field; lra). assert (P1 : 0 <= Sg * d) by (apply Rmult_le_pos; lra). assert (P2 : 0 <= Sh * d) by (apply Rmult_le_pos; lra).
  pose proof (Rmin_l delta (gap / 2)) as M1. pose proof (Rmin_r delta (gap / 2)) as M2. fold dd in M1, M2.
  assert (Nz : unhidden_flux x y r I + edge_errors D h low high b r <> 0).
  { intros Z. assert (Q : Rabs (unhidden_flux x y r I) = Rabs (edge_errors D h low high b r)) by (replace (unhidden_flux x y r I) with (- edge_errors D h low high b r) by lra; apply Rabs_Ropp). unfold gap in *. nra. }
  exists (unhidden_flux x y r V + edge_errors D g low high b r), (unhidden_flux x y r I + edge_errors D h low high b r).
  split; [intros z Hz'; apply H; [lra|exact Hr|exact H1|exact H2|exact Hz'|now apply C|exact Nz]|]. split; [exact Nz|]. split.
  - replace (unhidden_flux x y r V + edge_errors D g low high b r - unhidden_flux x y r V) with (edge_errors D g low high b r) by ring. nra.
  - replace (unhidden_flux x y r I + edge_errors D h low high b r - unhidden_flux x y r I) with (edge_errors D h low high b r) by ring. nra.
Qed.
Lemma pow_le_1' a n : 0 <= a <= 1 -> 0 <= a ^ n <= 1.
Proof. intros H. induction n; cbn [pow]; [lra|nra]. Qed.
Lemma bigsum_scal_r n c f : bigsum n (fun i => f i * c) = bigsum n f * c.
Proof. rewrite Rmult_comm, <- bigsum_scal. apply bigsum_ext. intros. apply Rmult_comm. Qed.
(** the condition on the flux holds for every positive uniform disk and every small enough occultor *)
Lemma small_occultor (c : R) (h : nat -> R) D : 0 < c -> exists r0, 0 < r0 < 1 / 4 /\ forall r, 0 < r <= r0 -> even_bounds 20 D h (1 / 2) r < Rabs (c * occulted_flux [] (1 / 2) r).
Proof.
  intros Hc. pose proof PI_RGT_0 as P.
  assert (F : forall r, 0 < r <= 1 / 4 -> PI / 5 <= occulted_flux [] (1 / 2) r).
  { intros r Hr. destruct (ld_hides [] 0 (1 / 2) r) as [C1 C2]. cbv zeta in C1, C2. replace (sqrt (0 ^ 2 + (1 / 2) ^ 2)) with (1 / 2) in C2 by (replace (0 ^ 2 + (1 / 2) ^ 2) with (1 / 2 * (1 / 2)) by field; symmetry; apply sqrt_square; lra). rewrite <- C2.
    assert (E1 : disk_cont (fun x y => 1 / 5 * (x ^ 0 * y ^ 0 * zdisk x y ^ 0))) by apply disk_cont_scal, disk_cont_monomial. assert (E2 : disk_cont (fun x y => - (4 / 5) * (x ^ 0 * y ^ 1 * zdisk x y ^ 0))) by apply disk_cont_scal, disk_cont_monomial.
    assert (V : disk_integral (fun x y => 1 / 5 * (x ^ 0 * y ^ 0 * zdisk x y ^ 0) + - (4 / 5) * (x ^ 0 * y ^ 1 * zdisk x y ^ 0)) = PI / 5).
    { rewrite (disk_val _ (fun t => 1 / 10 - 4 / 15 * sin t)).
      - apply is_RInt_unique. replace (PI / 5) with ((1 / 10 * (2 * PI) + 4 / 15 * cos (2 * PI)) - (1 / 10 * 0 + 4 / 15 * cos 0)) by (rewrite cos_2PI, cos_0; field).
        apply (is_RInt_derive (fun t => 1 / 10 * t + 4 / 15 * cos t)); intros; [auto_derive; [exact I|ring]|apply (ex_derive_continuous (V := R_NormedModule) (fun t : R => 1 / 10 - 4 / 15 * sin t)); auto_derive; exact I].
      - intros t. replace (1 / 10 - 4 / 15 * sin t) with ((1 / 10 * 1 ^ 2 - 4 / 15 * sin t * 1 ^ 3) - (1 / 10 * 0 ^ 2 - 4 / 15 * sin t * 0 ^ 3)) by field.
        apply (is_RInt_derive (fun rho => 1 / 10 * rho ^ 2 - 4 / 15 * sin t * rho ^ 3)); intros; [auto_derive; [exact I|field]|apply (ex_derive_continuous (V := R_NormedModule) (fun rho : R => (1 / 5 * ((rho * cos t) ^ 0 * (rho * sin t) ^ 0 * 1) + - (4 / 5) * ((rho * cos t) ^ 0 * (rho * sin t) ^ 1 * 1)) * rho)); auto_derive; exact I]. }
    rewrite <- V. apply disk_int_le; [now apply disk_cont_plus|exact C1|]. intros x y B. unfold in_disk in B. unfold hides, unhidden_by. rewrite !pow_O, pow_1. destruct (Rlt_dec _ _) as [L|L].
    - assert (1 / 4 <= y) by nra. lra.
    - replace (ld_profile [] (zdisk x y)) with 1 by (unfold ld_profile; cbn; ring). nra. }
  set (K := bigsum (S D) (fun l => bigsum (2 * l + 1) (fun nu => Rabs (h (l * l + nu)%nat) * (8 * PI * ((INR (l + 2) * PI / 4) ^ (2 * 20) / INR (fact (2 * 20))))))).
  assert (A : forall l, 0 <= (INR (l + 2) * PI / 4) ^ (2 * 20) / INR (fact (2 * 20))). { intros l. apply Rdiv_le_0_compat; [|apply INR_fact_lt_0]. apply pow_le. pose proof (pos_INR (l + 2)). apply Rmult_le_pos; [nra|lra]. }
  assert (K0 : 0 <= K). { unfold K. apply bigsum_nonneg. intros l _. apply bigsum_nonneg. intros nu _. specialize (A l). apply Rmult_le_pos; [apply Rabs_pos|nra]. }
  assert (B : forall r, 0 < r <= 1 / 4 -> even_bounds 20 D h (1 / 2) r <= K * r).
  { intros r Hr. unfold even_bounds, K. rewrite <- bigsum_scal_r. apply bigsum_le. intros l Hl. rewrite <- bigsum_scal_r. apply bigsum_le. intros nu Hnu. specialize (A l). pose proof (Rabs_pos (h (l * l + nu)%nat)) as Hh. destruct (Nat.even nu).
    - rewrite Rmult_assoc. apply Rmult_le_compat_l; [exact Hh|]. unfold even_bound. replace (edge_angle (1 / 2) r) with PI by (unfold edge_angle; destruct (Rle_dec _ _); lra).
      assert (X : r ^ (l - nu / 2 + 2) <= r). { rewrite Nat.add_comm. change (2 + (l - nu / 2))%nat with (S (S (l - nu / 2))). cbn [pow]. assert (0 <= r ^ (l - nu / 2) <= 1) by (apply pow_le_1'; lra). nra. }
      assert (Y : 0 <= (1 / 2 + r) ^ (nu / 2) <= 1) by (apply pow_le_1'; lra). assert (X0 : 0 <= r ^ (l - nu / 2 + 2)) by (apply pow_le; lra).
      set (a := r ^ (l - nu / 2 + 2)) in *. set (q := (1 / 2 + r) ^ (nu / 2)) in *. set (w := _ / INR (fact _)) in *. assert (a * q <= r) by nra. assert (0 <= 8 * PI * w) by nra. nra.
    - apply Rmult_le_pos; [|lra]. apply Rmult_le_pos; [exact Hh|nra]. }
  exists (Rmin (1 / 8) (c * (PI / 5) / (K + 1) / 2)). assert (Q : 0 < c * (PI / 5) / (K + 1) / 2) by (apply Rdiv_lt_0_compat; [apply Rdiv_lt_0_compat; nra|lra]). split.
  - split; [apply Rmin_glb_lt; lra|]. pose proof (Rmin_l (1 / 8) (c * (PI / 5) / (K + 1) / 2)). lra.
  - intros r [R1 R2]. pose proof (Rmin_l (1 / 8) (c * (PI / 5) / (K + 1) / 2)) as M1. pose proof (Rmin_r (1 / 8) (c * (PI / 5) / (K + 1) / 2)) as M2. specialize (B r ltac:(lra)). specialize (F r ltac:(lra)).
    assert (0 < c * (PI / 5)) by nra. assert (c * (PI / 5) <= c * occulted_flux [] (1 / 2) r) by nra. rewrite Rabs_right by lra. assert (Z : (c * (PI / 5) / (K + 1) / 2) * (K + 1) = c * (PI / 5) / 2) by (field; lra). nra.
Qed.
