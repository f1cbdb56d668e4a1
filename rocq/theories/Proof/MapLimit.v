(** Convergence with the order of the light curve of a map. *)
From Coq Require Import Reals Lra Lia ZArith List Arith Bool.
From Coquelicot Require Import Coquelicot.
From Verif Require Import Base.RealAux Base.Analysis Model.Poly Model.Basis Model.S2fft Model.Rotation Model.SolutionVector Model.Ylm Model.Surface Model.StarryLightCurve
  Spec.BasisSpec Spec.HarmonicSpec Spec.RotationSpec Spec.DiskSpec Spec.OccultSpec Spec.YlmSpec Spec.SurfaceSpec Spec.SystemSpec Spec.SkySpec Spec.QuadSpec
  Proof.KeplerStarter Proof.PolyProof Proof.Occult Proof.Euler Proof.SurfaceProof Proof.OccultedSky Proof.OccultedFlux Proof.OrderLimit Proof.EvenError Proof.OddLimit.
Import ListNotations.
Open Scope R_scope.

Lemma edge_errors_split D g low high m b r delta : (0 < m)%nat -> gauss_legendre m low -> 0 <= b -> 0 <= r -> b < 1 + r -> r < 1 + b -> 0 <= delta ->
  (forall l nu, (l <= D)%nat -> (nu <= 2 * l)%nat -> Nat.even nu = false -> Rabs (green_error high b r l nu) <= delta) ->
  Rabs (edge_errors D g low high b r) <= even_bounds m D g b r + bigsum ((D + 1) * (D + 1)) (fun n => Rabs (g n)) * delta.
Proof.
  intros Hm G Hb Hr H1 H2 Hd H. rewrite (bigsum_square D (fun n => Rabs (g n))). unfold edge_errors, even_bounds. apply Rle_trans with (1 := bigsum_abs _ _). rewrite (Rmult_comm _ delta), <- bigsum_scal, <- bigsum_plus. apply bigsum_le. intros l Hl.
  apply Rle_trans with (1 := bigsum_abs _ _). rewrite <- bigsum_scal, <- bigsum_plus. apply bigsum_le. intros nu Hnu. rewrite Rabs_mult. pose proof (Rabs_pos (g (l * l + nu)%nat)) as P. unfold green_rule. destruct (Nat.even nu) eqn:E.
  - assert (Q : 0 <= delta * Rabs (g (l * l + nu)%nat)) by (apply Rmult_le_pos; lra). assert (B := even_error m low b r l nu G Hm Hb Hr H1 H2 ltac:(lia) E). apply (Rmult_le_compat_l (Rabs (g (l * l + nu)%nat))) in B; [|exact P]. unfold even_bound. lra.
  - rewrite Rplus_0_l, (Rmult_comm delta). apply Rmult_le_compat_l; [exact P|]. apply H; [lia|lia|exact E].
Qed.
Lemma nat_bound2 (P : nat -> nat -> nat -> Prop) D : (forall l nu, (l <= D)%nat -> (nu <= 2 * D)%nat -> exists N, forall n, (N <= n)%nat -> P l nu n) -> exists N, forall l nu n, (l <= D)%nat -> (nu <= 2 * D)%nat -> (N <= n)%nat -> P l nu n.
Proof.
  intros H. destruct (nat_bound (fun l n => forall nu, (nu <= 2 * D)%nat -> P l nu n) (S D)) as (N & HN).
  - intros l Hl. destruct (nat_bound (fun nu n => P l nu n) (S (2 * D))) as (N & HN); [intros nu Hnu; apply H; lia|]. exists N. intros n Hn nu Hnu. apply HN; lia.
  - exists N. intros l nu n Hl Hnu Hn. apply (HN l n); lia.
Qed.
Lemma map_limit as_euler A2 s theta x y : zyz_euler as_euler -> wf_ylm (s_y s) -> surf_ydeg s <> 0%nat -> right_inverse (ncoef (surf_deg s)) (A2_inv (Z.of_nat (surf_deg s))) (A2 (surf_deg s)) ->
  let I := seen_intensity (y_data (s_y s)) (s_u s) (s_inc s) (s_obl s) theta in let b := sqrt (x ^ 2 + y ^ 2) in
  exists g, green_coefficients (surf_deg s) g (turned x y I) /\
  forall r z, 0 <= r -> b < 1 + r -> r < 1 + b -> 0 < z -> forall delta, 0 < delta ->
  exists N, forall n low high, (N <= n)%nat -> gauss_legendre (Nat.min n 20) low -> gauss_legendre n high -> exists eps0, 0 < eps0 /\ forall eps, 0 < eps <= eps0 ->
  exists f, surface_light_curve as_euler eps low high A2 s (Some r) (Some x) (Some y) (Some z) theta = Ok f /\
  Rabs (f - s_amplitude s * unhidden_flux x y r I * (PI / ld_flux (s_u s))) <= delta + Rabs (s_amplitude s * (PI / ld_flux (s_u s))) * even_bounds 20 (surf_deg s) g b r.
Proof.
  intros Hz Hy H0 HA I b. destruct (transit_flux as_euler Hz s Hy A2 theta x y H0 HA) as (g & Hg & H). exists g. split; [exact Hg|]. intros r z Hr H1 H2 Hz' delta Hd.
  assert (Hb : 0 <= b) by apply sqrt_pos. set (D := surf_deg s) in *. set (K := Rabs (s_amplitude s * (PI / ld_flux (s_u s)))). set (S := bigsum ((D + 1) * (D + 1)) (fun n => Rabs (g n))).
  assert (K0 : 0 <= K) by apply Rabs_pos. assert (S0 : 0 <= S) by (apply bigsum_nonneg; intros; apply Rabs_pos). assert (KS : 0 <= K * S) by now apply Rmult_le_pos.
  set (d := delta / (K * S + 1)). assert (Hd' : 0 < d) by (apply Rdiv_lt_0_compat; lra).
  destruct (nat_bound2 (fun l nu n => forall rule, gauss_legendre n rule -> Rabs (green_error rule b r l nu) <= d) D) as (N & HN). { intros l nu _ _. now apply green_limit. }
  exists (Nat.max N 20). intros n low high Hn Gl Gh. replace (Nat.min n 20) with 20%nat in Gl by lia. destruct (guards_eventually n high b r Hb Hr H1 H2 Gh) as (e & He & C). exists e. split; [exact He|]. intros eps He0.
  eexists. split; [apply (H eps low high r z); [lra|exact Hr|exact H1|exact H2|exact Hz'|now apply C]|].
  match goal with |- Rabs ?a <= _ => replace a with (s_amplitude s * (PI / ld_flux (s_u s)) * edge_errors D g low high b r) by (change (StarryProof.seen s theta) with I; fold D b; ring) end.
  rewrite Rabs_mult. fold K. assert (B := edge_errors_split D g low high 20 b r d ltac:(lia) Gl Hb Hr H1 H2 (Rlt_le _ _ Hd') (fun l nu Hl Hnu _ => HN l nu n Hl ltac:(lia) ltac:(lia) high Gh)). fold S in B.
  apply (Rmult_le_compat_l K) in B; [|exact K0]. assert (K * S * d <= delta). { replace delta with ((K * S + 1) * d) by (unfold d; field; lra). apply Rmult_le_compat_r; lra. } rewrite Rmult_plus_distr_l in B. lra.
Qed.
(** with 20 nodes, degree at most 5 and an occultor no larger than the star the polynomial entries are right to 1e-14 *)
Lemma even_bound_small b r l nu : 0 <= b -> 0 <= r -> r <= 1 -> b < 1 + r -> r < 1 + b -> (l <= 5)%nat -> (nu <= 2 * l)%nat -> even_bound 20 b r l nu <= / 10 ^ 14.
Proof.
  intros Hb Hr H1 H2 H3 Hl Hnu. unfold even_bound. pose proof (edge_angle_range b r Hb Hr H2 H3) as [K1 K2]. pose proof pi_hi as P. set (k := edge_angle b r) in *.
  assert (A1 : r ^ (l - nu / 2 + 2) <= 1) by (rewrite <- (pow1 (l - nu / 2 + 2)); apply pow_incr; lra).
  assert (A2 : (b + r) ^ (nu / 2) <= 3 ^ 5). { apply Rle_trans with (3 ^ (nu / 2)); [apply pow_incr; lra|apply Rle_pow; [lra|]]. apply Nat.div_le_upper_bound; lia. }
  assert (A3 : (INR (l + 2) * k / 4) ^ (2 * 20) <= (55 / 10) ^ (2 * 20)). { apply pow_incr. assert (Q := pos_INR (l + 2)). assert (L : INR (l + 2) <= 7) by (replace 7 with (INR 7) by (cbn; lra); apply le_INR; lia). split; [apply Rmult_le_pos; [apply Rmult_le_pos; lra|lra]|].
    assert (INR (l + 2) * k <= 7 * 3.1415927) by (apply Rmult_le_compat; lra). lra. }
  assert (A4 : (INR (l + 2) * k / 4) ^ (2 * 20) / INR (fact (2 * 20)) <= / 10 ^ 18).
  { apply Rmult_le_reg_r with (INR (fact (2 * 20))); [apply INR_fact_lt_0|]. rewrite divmul by (apply INR_fact_neq_0). apply Rle_trans with (1 := A3).
    replace (INR (fact (2 * 20))) with (IZR (fold_right Z.mul 1%Z (map Z.of_nat (seq 1 40)))).
    - apply Rmult_le_reg_r with (10 ^ 18 * 10 ^ 40); [apply Rmult_lt_0_compat; apply pow_lt; lra|]. replace ((55 / 10) ^ (2 * 20) * (10 ^ 18 * 10 ^ 40)) with (IZR (55 ^ 40 * 10 ^ 18)).
      + match goal with |- _ <= ?x => replace x with (IZR (fold_right Z.mul 1%Z (map Z.of_nat (seq 1 40)) * 10 ^ 40)) end; [apply IZR_le; vm_compute; discriminate|].
        rewrite mult_IZR. change 40%Z with (Z.of_nat 40). rewrite <- pow_IZR. set (F := IZR (fold_right _ _ _)). set (t := 10 ^ 18). set (q := 10 ^ 40). assert (t <> 0) by (apply pow_nonzero; lra). field. assumption.
      + rewrite mult_IZR. change 18%Z with (Z.of_nat 18). change 40%Z with (Z.of_nat 40). rewrite <- !pow_IZR. unfold Rdiv. rewrite Rpow_mult_distr, pow_inv. change (2 * 20)%nat with 40%nat. set (a := IZR 55 ^ 40). set (t := 10 ^ 18). set (q := 10 ^ 40). assert (q <> 0) by (apply pow_nonzero; lra). field. assumption.
    - assert (G : forall n, IZR (fold_right Z.mul 1%Z (map Z.of_nat (seq 1 n))) = INR (fact n)); [|apply (G 40%nat)]. 
      induction n; [reflexivity|]. rewrite seq_S, map_app, fold_right_app. cbn [map fold_right]. rewrite Z.mul_1_r. 
      assert (Q : forall l z, fold_right Z.mul z l = (fold_right Z.mul 1 l * z)%Z) by (induction l0; intros; cbn [fold_right]; [lia|rewrite IHl0; lia]). rewrite Q, mult_IZR, IHn, <- INR_IZR_INZ, <- mult_INR. f_equal. cbn [fact]. lia. }
  assert (B1 : 0 <= r ^ (l - nu / 2 + 2)) by (apply pow_le; lra). assert (B2 : 0 <= (b + r) ^ (nu / 2)) by (apply pow_le; lra).
  set (E := (INR (l + 2) * k / 4) ^ (2 * 20) / INR (fact (2 * 20))) in *. assert (B4 : 0 <= E). { apply Rmult_le_pos; [apply pow_le; apply Rmult_le_pos; [apply Rmult_le_pos; [apply pos_INR|lra]|lra]|left; apply Rinv_0_lt_compat, INR_fact_lt_0]. }
  apply Rle_trans with (8 * 3.1415927 * 1 * 3 ^ 5 * / 10 ^ 18); [|lra]. apply Rmult_le_compat; [|exact B4| |exact A4].
  - apply Rmult_le_pos; [apply Rmult_le_pos; [lra|exact B1]|exact B2].
  - apply Rmult_le_compat; [apply Rmult_le_pos; [lra|exact B1]|exact B2| |exact A2]. apply Rmult_le_compat; [lra|exact B1|lra|exact A1].
Qed.
(** an entry of the solution vector *)
Lemma entry_limit lmax b r l nu f : (l <= lmax)%nat -> (nu <= 2 * l)%nat -> lmax <> 0%nat -> green_function l nu f -> Rabs b < 1 + Rabs r -> Rabs r < 1 + Rabs b -> forall delta, 0 < delta ->
  exists N, forall n low high, (N <= n)%nat -> gauss_legendre (Nat.min n 20) low -> gauss_legendre n high -> exists eps0, 0 < eps0 /\ forall eps, 0 < eps <= eps0 ->
  exists s, starry_solution eps low high lmax b r = Ok s /\
  Rabs (nth (l * l + nu) s 0 - flux_around 0 (Rabs b) (Rabs r) f) <= if Nat.even nu then even_bound 20 (Rabs b) (Rabs r) l nu else delta.
Proof.
  intros Hl Hnu H0 Hf H1 H2 delta Hd. destruct (green_limit (Rabs b) (Rabs r) l nu (Rabs_pos b) (Rabs_pos r) H1 H2 delta Hd) as (N & HN).
  exists (Nat.max N 20). intros n low high Hn Gl Gh. replace (Nat.min n 20) with 20%nat in Gl by lia. destruct (guards_eventually n high _ _ (Rabs_pos b) (Rabs_pos r) H1 H2 Gh) as (e & He & C). exists e. split; [exact He|]. intros eps He0.
  assert (X : exists s, starry_solution eps low high lmax b r = Ok s). { unfold starry_solution. destruct (Nat.eqb_spec lmax 0) as [Z|_]; [contradiction|]. eexists; reflexivity. }
  destruct X as (s & Es). exists s. split; [exact Es|]. rewrite (entry_partial eps low high lmax b r s l nu f Es Hl Hnu Hf (proj1 He0) H1 H2 (C eps He0)).
  match goal with |- Rabs (?a + ?e - ?a) <= _ => replace (a + e - a) with e by ring end. unfold green_rule. destruct (Nat.even nu) eqn:E.
  - apply (even_error 20 low _ _ l nu Gl ltac:(lia) (Rabs_pos b) (Rabs_pos r) H1 H2 Hnu E).
  - apply (HN n ltac:(lia) high Gh).
Qed.
