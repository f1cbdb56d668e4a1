(** The numerical line integral of the solution vector is the quadrature of the edge integral. *)
From Coq Require Import Reals Lra Lia ZArith List Bool Arith Psatz.
From Coquelicot Require Import Coquelicot.
From Verif Require Import Base.RealAux Base.Analysis Base.Dict Model.Poly Model.Basis Model.SolutionVector Spec.PolySpec Spec.BasisSpec Spec.DiskSpec Spec.OccultSpec Spec.SkySpec
  Proof.BasisProof Proof.GreenProof Proof.LimbDarkGreen Proof.LimbDarkArea Proof.Ray Proof.Edge Proof.Occult Proof.Monomial Proof.GreenLine Proof.GreenFamilies Proof.SolutionGreen.
Import ListNotations.
Open Scope R_scope.

Lemma rsum_ext_in (A : Type) (f g : A -> R) l : (forall x, In x l -> f x = g x) -> Rsum (map f l) = Rsum (map g l).
Proof. intros H. f_equal. apply map_ext_in. exact H. Qed.
Lemma p_sum_quad k0 quad f F : (forall x w, In (x, w) quad -> f x = 2 * F (node_at 0 k0 x)) -> p_sum k0 quad f = quadrature quad 0 k0 F.
Proof.
  intros H. unfold p_sum, quadrature. rewrite (rsum_ext_in _ (fun rw => f (fst rw) * snd rw) (fun xw => 2 * (F (node_at 0 k0 (fst xw)) * snd xw))).
  - replace (Rsum (map (fun xw : R * R => 2 * (F (node_at 0 k0 (fst xw)) * snd xw)) quad)) with (2 * Rsum (map (fun xw : R * R => F (node_at 0 k0 (fst xw)) * snd xw) quad)); [field|].
    clear H. induction quad as [|q quad IH]; cbn [map Rsum fold_right]; [ring|]. unfold Rsum in *. cbn [fold_right]. lra.
  - intros [x w] I. cbn [fst snd]. rewrite (H x w I). ring.
Qed.
Lemma quad_0 k0 quad F : (forall t, F t = 0) -> quadrature quad 0 k0 F = 0.
Proof.
  intros H. unfold quadrature. replace (Rsum _) with 0; [ring|]. symmetry. induction quad as [|q quad IH]; cbn [map]; [reflexivity|]. unfold Rsum in *. cbn [fold_right]. rewrite IH, H. ring.
Qed.
Lemma s2_psi k0 x : pi_s2 k0 x = (1 - cos (node_at 0 k0 x)) / 2.
Proof.
  unfold pi_s2, pi_phi, node_at. replace ((k0 - 0) / 2 * x + (0 + k0) / 2) with (2 * (/ 4 * k0 * (x + 1))) by field. rewrite cos_2a_sin. unfold Rsqr. field.
Qed.
Lemma a1_psi k0 x : pi_a1 (pi_s2 k0 x) = sin (node_at 0 k0 x) ^ 2 / 4.
Proof. rewrite s2_psi. unfold pi_a1, Rsqr. assert (Q := limb_sq (node_at 0 k0 x)). cbn [pow] in *. set (c := cos _) in *. set (s := sin _) in *. replace (s * (s * 1)) with (1 - c * c) by lra. field. Qed.
Lemma a2_psi eps b r k0 x : 0 < eps -> 10 * eps <= r -> pi_a2 eps b r (pi_s2 k0 x) = (b - r * cos (node_at 0 k0 x)) / (2 * r).
Proof.
  intros He Hr. rewrite s2_psi. unfold pi_a2, pi_delta, pi_rcond, Rltb. destruct (Rlt_dec r (10 * eps)) as [L|L]; [lra|]. field. lra.
Qed.
Lemma a4_psi k0 x : pi_a4 (pi_s2 k0 x) = cos (node_at 0 k0 x).
Proof. rewrite s2_psi. unfold pi_a4. field. Qed.
Lemma pow32_max u : pow32 (Rmax 0 u) = p32 u.
Proof. unfold pow32, p32, Rmax. destruct (Rle_dec 0 u) as [L|L]; [reflexivity|]. rewrite (sqrt_neg_0 u) by lra. ring. Qed.
Lemma f0_psi eps b r k0 x : 0 < eps -> 0 <= b -> 0 <= r -> b < 1 + r -> r < 1 + b -> (b = 0 \/ 10 * eps <= 4 * b * r) ->
  pi_f0 eps b r (pi_s2 k0 x) = p32 (1 - erho2 b r (node_at 0 k0 x)).
Proof.
  intros He Hb Hr H1 H2 G. rewrite s2_psi. unfold pi_f0. rewrite pow32_max. f_equal. unfold pi_k2, pi_factor, pi_k2cond, pi_factor0, Rltb, erho2. set (c := cos _).
  destruct (Rlt_dec (4 * b * r) (10 * eps)) as [L|L].
  - destruct G as [->|G]; [unfold Rsqr; ring|lra].
  - assert (0 < 4 * b * r) by lra. rewrite Rmax_right.
    + unfold Rsqr. field. split; nra.
    + apply Rmult_le_pos; [unfold Rsqr; nra|]. left. apply Rinv_0_lt_compat. assumption.
Qed.
Lemma pow_edge r s d h j : r <> 0 -> (2 * r) ^ (2 * h + j) * (s ^ 2 / 4) ^ h * (d / (2 * r)) ^ j = (r * s) ^ (2 * h) * d ^ j.
Proof.
  intros Hr. rewrite pow_add, !pow_mult. unfold Rdiv. rewrite !(Rpow_mult_distr d), (Rpow_mult_distr (s ^ 2)).
  replace ((2 * r) ^ 2) with (4 * r ^ 2) by ring. replace ((r * s) ^ 2) with (r ^ 2 * s ^ 2) by ring. rewrite !Rpow_mult_distr.
  transitivity ((r ^ 2) ^ h * (s ^ 2) ^ h * d ^ j * (4 ^ h * (/ 4) ^ h) * ((2 ^ j * r ^ j) * (/ (2 * r)) ^ j)); [ring|].
  rewrite <- !Rpow_mult_distr. rewrite !Rinv_r by lra. rewrite !pow1. ring.
Qed.
Lemma edge_pair_r0 l nu b t : edge_pair l nu b 0 t = 0.
Proof. unfold edge_pair, edge_component. cbv zeta. ring. Qed.
Lemma p_sum_r0 k0 quad f : (forall t, f t = 0) -> p_sum k0 quad f = 0.
Proof. intros H. unfold p_sum. replace (Rsum _) with 0; [ring|]. symmetry. induction quad as [|q quad IH]; cbn [map]; [reflexivity|]. unfold Rsum in *. cbn [fold_right]. rewrite IH, H. ring. Qed.

Lemma mod2_even i : ((2 * i) mod 2 = 0)%nat. Proof. now rewrite Nat.mul_comm, Nat.mod_mul by lia. Qed.
Lemma mod2_odd i : ((2 * i + 1) mod 2 = 1)%nat. Proof. rewrite Nat.add_comm, Nat.mul_comm, Nat.mod_add by lia. reflexivity. Qed.
Lemma mod2_S i : (S (2 * i) mod 2 = 1)%nat. Proof. rewrite <- Nat.add_1_r. apply mod2_odd. Qed.
Section entries.
Variables (eps : R) (low high : list (R * R)) (b r k0 : R).
(** ** the entry in each case *)
Lemma pe_even q j : pint_entry eps low high b r k0 (2 * q + j) (2 * j) =
  p_sum k0 low (fun t => 2 * (2 * (2 * r) ^ (2 * q + j + 2) * pi_a1 (pi_s2 k0 t) ^ S q * pi_a2 eps b r (pi_s2 k0 t) ^ j)).
Proof.
  unfold pint_entry. cbv zeta. replace (2 * (2 * q + j) - 2 * j)%nat with (2 * (2 * q))%nat by lia.
  replace ((2 * (2 * q) =? 1)%nat) with false by (symmetry; apply Nat.eqb_neq; lia). cbn [andb]. rewrite mod2_even, !div2_even, mod2_even. cbn [Nat.eqb andb].
  replace ((2 * (2 * q) + 4) / 4)%nat with (S q); [reflexivity|]. symmetry. replace (2 * (2 * q) + 4)%nat with (S q * 4)%nat by lia. apply Nat.div_mul. lia.
Qed.
Lemma pe_even_odd q j : pint_entry eps low high b r k0 (2 * q + 1 + j) (2 * j) = 0.
Proof.
  unfold pint_entry. cbv zeta. replace (2 * (2 * q + 1 + j) - 2 * j)%nat with (2 * (2 * q + 1))%nat by lia.
  replace ((2 * (2 * q + 1) =? 1)%nat) with false by (symmetry; apply Nat.eqb_neq; lia). cbn [andb]. rewrite mod2_even, !div2_even, mod2_odd. cbn [Nat.eqb andb].
  replace (2 * (2 * q + 1) - 1)%nat with (S (2 * (2 * q)))%nat by lia. rewrite mod2_S. reflexivity.
Qed.
Lemma pe_10 : pint_entry eps low high b r k0 1 1 = p_sum k0 high (pi_lin eps b r k0).
Proof. reflexivity. Qed.
Lemma pe_mu1e h : (1 <= h)%nat -> pint_entry eps low high b r k0 (2 * h) (4 * h - 1) =
  p_sum k0 high (fun t => 2 * ((2 * r) ^ (2 * h - 1) * pi_f0 eps b r (pi_s2 k0 t) * pi_a1 (pi_s2 k0 t) ^ (h - 1) * pi_a4 (pi_s2 k0 t))).
Proof.
  intros Hh. unfold pint_entry. cbv zeta. replace (2 * (2 * h) - (4 * h - 1))%nat with 1%nat by lia. replace ((2 * h =? 1)%nat) with false by (symmetry; apply Nat.eqb_neq; lia).
  rewrite div2_even, mod2_even. change (1 mod 2)%nat with 1%nat. cbn [Nat.eqb andb]. reflexivity.
Qed.
Lemma pe_mu1o h : (1 <= h)%nat -> pint_entry eps low high b r k0 (2 * h + 1) (4 * h + 1) =
  p_sum k0 high (fun t => 2 * ((2 * r) ^ (2 * h) * pi_f0 eps b r (pi_s2 k0 t) * pi_a1 (pi_s2 k0 t) ^ (h - 1) * pi_a2 eps b r (pi_s2 k0 t) * pi_a4 (pi_s2 k0 t))).
Proof.
  intros Hh. unfold pint_entry. cbv zeta. replace (2 * (2 * h + 1) - (4 * h + 1))%nat with 1%nat by lia. replace ((2 * h + 1 =? 1)%nat) with false by (symmetry; apply Nat.eqb_neq; lia).
  rewrite mod2_odd. change (1 mod 2)%nat with 1%nat. cbn [Nat.eqb andb].
  replace (2 * h + 1 - 3)%nat with (2 * (h - 1))%nat by lia. rewrite div2_even. replace (2 * h + 1 - 1)%nat with (2 * h)%nat by lia. reflexivity.
Qed.
Lemma pe_gen_even q c : pint_entry eps low high b r k0 (2 * q + c + 2) (2 * c + 1) = 0.
Proof.
  unfold pint_entry. cbv zeta. replace (2 * (2 * q + c + 2) - (2 * c + 1))%nat with (2 * (2 * q + 1) + 1)%nat by lia.
  replace ((2 * (2 * q + 1) + 1 =? 1)%nat) with false by (symmetry; apply Nat.eqb_neq; lia). rewrite mod2_odd. replace (2 * (2 * q + 1) + 1 - 1)%nat with (2 * (2 * q + 1))%nat by lia. rewrite mod2_even, div2_even, mod2_odd. cbn [Nat.eqb andb]. reflexivity.
Qed.
Lemma pe_gen q c : pint_entry eps low high b r k0 (2 * q + 1 + c + 2) (2 * c + 1) =
  p_sum k0 high (fun t => 2 * (2 * ((2 * r) ^ (2 * S q + c) * pi_f0 eps b r (pi_s2 k0 t)) * pi_a1 (pi_s2 k0 t) ^ S q * pi_a2 eps b r (pi_s2 k0 t) ^ c)).
Proof.
  unfold pint_entry. cbv zeta. replace (2 * (2 * q + 1 + c + 2) - (2 * c + 1))%nat with (2 * (2 * (q + 1)) + 1)%nat by lia.
  replace ((2 * (2 * (q + 1)) + 1 =? 1)%nat) with false by (symmetry; apply Nat.eqb_neq; lia). replace ((2 * (2 * (q + 1)) + 1 =? 0)%nat) with false by (symmetry; apply Nat.eqb_neq; lia). rewrite mod2_odd. replace (2 * (2 * (q + 1)) + 1 - 1)%nat with (2 * (2 * (q + 1)))%nat by lia. rewrite mod2_even, div2_even, mod2_even. cbn [Nat.eqb andb negb].
  replace (2 * c + 1 - 1)%nat with (2 * c)%nat by lia. rewrite div2_even. replace (2 * (2 * (q + 1)))%nat with (S q * 4)%nat by lia. rewrite Nat.div_mul by lia. replace (2 * q + 1 + c + 2 - 1)%nat with (2 * S q + c)%nat by lia. reflexivity.
Qed.
End entries.
Theorem pint_quad eps low high b r l nu k0 k1 : (nu <= 2 * l)%nat -> 0 < eps -> 0 <= b -> 0 <= r -> b < 1 + r -> r < 1 + b -> contact b r k0 k1 ->
  r = 0 \/ (10 * eps <= r /\ (b = 0 \/ 10 * eps <= 4 * b * r) /\ forall x w, In (x, w) high -> -1 <= x <= 1 /\ 10 * eps <= b ^ 2 + r ^ 2 - 2 * b * r * cos (node_at 0 k0 x)) ->
  pint_entry eps low high b r k0 l nu = quadrature (green_rule low high nu) 0 k0 (edge_pair l nu b r).
Proof.
  intros Hnu He Hb Hr H1 H2 CT G. assert (K0 := proj1 CT). assert (I1 := proj1 (proj2 (proj2 CT))). unfold green_rule.
  assert (Ev : forall j, Nat.even (2 * j) = true) by (intros; rewrite Nat.even_mul; reflexivity).
  assert (Od : forall j, Nat.even (2 * j + 1) = false) by (intros j; rewrite Nat.add_1_r, Nat.even_succ, Nat.odd_mul; reflexivity).
  destruct G as [Z|(Gr & Gb & Gn)].
  { subst r. rewrite quad_0 by (intros; apply edge_pair_r0). destruct (gcase_all l nu Hnu) as [i j| |h Hh|h Hh|a c].
    - destruct (Nat.even i) eqn:Ei; [destruct (even_2h i Ei) as [q ->]; rewrite pe_even|destruct (odd_2h i Ei) as [q ->]; apply pe_even_odd].
      apply p_sum_r0. intros t. rewrite Rmult_0_r, pow_i by lia. ring.
    - rewrite pe_10. apply p_sum_r0. intros t. unfold pi_lin. cbv zeta. destruct (Rltb _ _); [reflexivity|]. unfold Rdiv. ring.
    - rewrite pe_mu1e by exact Hh. apply p_sum_r0. intros t. rewrite Rmult_0_r, pow_i by lia. ring.
    - rewrite pe_mu1o by exact Hh. apply p_sum_r0. intros t. rewrite Rmult_0_r, pow_i by lia. ring.
    - destruct (Nat.even a) eqn:Ea; [destruct (even_2h a Ea) as [q ->]; apply pe_gen_even|destruct (odd_2h a Ea) as [q ->]; rewrite pe_gen].
      apply p_sum_r0. intros t. rewrite Rmult_0_r, pow_i by lia. ring. }
  assert (R0 : r <> 0) by lra.
  destruct (gcase_all l nu Hnu) as [i j| |h Hh|h Hh|a c].
  - rewrite Ev. destruct (Nat.even i) eqn:Ei; [destruct (even_2h i Ei) as [q ->]; rewrite pe_even|destruct (odd_2h i Ei) as [q ->]; rewrite pe_even_odd].
    + apply p_sum_quad. intros x w I. rewrite a1_psi, a2_psi by assumption. set (psi := node_at 0 k0 x). rewrite ep_even, neg_even.
      replace (2 * q + j + 2)%nat with (2 * S q + j)%nat by lia. replace (2 * q + 2)%nat with (2 * S q)%nat by lia. rewrite <- (pow_edge r (sin psi) (b - r * cos psi) (S q) j R0). ring.
    + symmetry. apply quad_0. intros t. rewrite ep_even, neg_odd. ring.
  - rewrite pe_10. apply p_sum_quad. intros x w I. destruct (Gn x w I) as [Hx Hg]. set (psi := node_at 0 k0 x) in *.
    assert (Hpsi : 0 <= psi <= k0) by (unfold psi, node_at; nra). assert (E1 := I1 psi Hpsi). assert (EE : erho2 b r psi = b ^ 2 + r ^ 2 - 2 * b * r * cos psi) by (unfold erho2; ring).
    rewrite ep_10 by lra. unfold pi_lin. cbv zeta. replace (2 * (/ 4 * k0) * x + / 2 * k0) with psi by (unfold psi, node_at; field).
    replace (r² + b² - 2 * b * r * cos psi) with (erho2 b r psi) by (unfold erho2, Rsqr; ring). unfold Rltb. destruct (Rlt_dec (erho2 b r psi) (10 * eps)) as [L|L]; [lra|].
    rewrite Rmax_right by lra. replace ((1 - erho2 b r psi) * LimbDark.zero_safe_sqrt (1 - erho2 b r psi)) with (p32 (1 - erho2 b r psi)).
    2:{ reflexivity. }
    assert (N := N1_closed (erho2 b r psi)). rewrite <- N. field. lra.
  - assert (O : Nat.even (4 * h - 1) = false) by (replace (4 * h - 1)%nat with (2 * (2 * h - 1) + 1)%nat by lia; apply Od). rewrite O, pe_mu1e by exact Hh. apply p_sum_quad. intros x w I. rewrite a1_psi, a4_psi, f0_psi by assumption. set (psi := node_at 0 k0 x). rewrite ep_mu1e by exact Hh.
    replace (2 * h - 1)%nat with (S (2 * (h - 1)))%nat by lia. replace (2 * h - 2)%nat with (2 * (h - 1))%nat by lia. assert (P := pow_edge r (sin psi) 1 (h - 1) 0 R0). rewrite Nat.add_0_r, !pow_O, !Rmult_1_r in P. rewrite <- P, <- tech_pow_Rmult. ring.
  - assert (O : Nat.even (4 * h + 1) = false) by (replace (4 * h + 1)%nat with (2 * (2 * h) + 1)%nat by lia; apply Od). rewrite O, pe_mu1o by exact Hh. apply p_sum_quad. intros x w I. rewrite a1_psi, a2_psi, a4_psi, f0_psi by assumption. set (psi := node_at 0 k0 x). rewrite ep_mu1o by exact Hh.
    replace (2 * h - 2)%nat with (2 * (h - 1))%nat by lia. replace (2 * h)%nat with (S (2 * (h - 1) + 1))%nat by lia. assert (P := pow_edge r (sin psi) (b - r * cos psi) (h - 1) 1 R0). rewrite !pow_1 in P. cbn [pow].
    transitivity (4 * r * p32 (1 - erho2 b r psi) * cos psi * ((r * sin psi) ^ (2 * (h - 1)) * (b - r * cos psi))); [|ring]. rewrite <- P. cbn [pow]. ring.
  - rewrite Od. destruct (Nat.even a) eqn:Ea; [destruct (even_2h a Ea) as [q ->]; rewrite pe_gen_even|destruct (odd_2h a Ea) as [q ->]; rewrite pe_gen].
    + symmetry. apply quad_0. intros t. rewrite ep_gen, neg_even. ring.
    + apply p_sum_quad. intros x w I. rewrite a1_psi, a2_psi, f0_psi by assumption. set (psi := node_at 0 k0 x). rewrite ep_gen, neg_odd.
      replace (2 * q + 1 + 1)%nat with (2 * S q)%nat by lia. rewrite <- (pow_edge r (sin psi) (b - r * cos psi) (S q) c R0). ring.
Qed.
(** ** sol_kappas *)
Lemma sol_kappas_ld b r A k0 k1 : LimbDark.kappas b r = (A, k0, k1) -> sol_kappas b r = (k0, k1).
Proof. unfold LimbDark.kappas, sol_kappas. cbv zeta. intros E. injection E as _ E1 E2. now rewrite <- E1, <- E2. Qed.
